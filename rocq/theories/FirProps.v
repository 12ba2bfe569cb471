(** Properties C01-C09: FirFilter. *)
From Coq Require Import List Arith ZArith Lia Bool String Reals Lra QArith Qcanon Floats.
From Coquelicot Require Import Complex.
From Verif Require Import Base BaseLemmas PyString Instances FirModel FirSpec FirProofs FirDesignProofs.
Import ListNotations.
Set Asymmetric Patterns.
Close Scope Q_scope. Close Scope R_scope. Close Scope C_scope. Close Scope string_scope. Open Scope nat_scope.

(** A filter built by the constructor and then used in any way. *)
Definition fir_used {A : Arith} (b s : arr A) (ops : list (fir_op A)) (f : fir A) : Prop :=
  exists f0, fir_make b s = Ok f0 /\ f = fold_left fir_exec ops f0.

Lemma fir_used_inv {A} b s ops (f : fir A) : fir_used b s ops f -> fir_inv f.
Proof.
  intros (f0 & H & ->). apply fir_make_inv in H. revert f0 H.
  induction ops as [|o ops IH]; intros f0 H; [exact H|]. apply IH. apply fir_exec_inv. exact H.
Qed.

Lemma fir_used_typed {A} (L : Laws A) b s ops (f : fir A) :
  arr_ok b -> fir_used b s ops f -> fir_typed f.
Proof.
  intros Hb (f0 & H & ->).
  pose proof (fir_make_inv _ _ _ H) as Hi. apply (fir_make_typed L) in H; [|exact Hb].
  revert f0 H Hi. induction ops as [|o ops IH]; intros f0 H Hi; [exact H|].
  apply IH; [apply fir_exec_typed; auto|apply fir_exec_inv; exact Hi].
Qed.

Lemma fir_used_b {A} b s ops (f : fir A) : fir_used b s ops f ->
  exists f0, fir_make b s = Ok f0 /\ fb f = fb f0 /\ fdt f = fdt f0.
Proof.
  intros (f0 & H & ->). exists f0. split; [exact H|]. clear H. revert f0.
  induction ops as [|o ops IH]; intros f0; [auto|]. cbn [fold_left].
  destruct (IH (fir_exec f0 o)) as [-> ->]. apply fir_exec_b.
Qed.

(** C01.  The output is the convolution of the coefficients with the signal,
    the state providing the history; and the new state is the recent signal. *)
Theorem C01_fir_convolution (A : Arith) (L : Laws A) (b s : arr A) ops (f : fir A) (x : list A) :
  arr_ok b -> fir_used b s ops f -> x <> [] -> Forall (fits (fdt f)) x ->
  exists f' y, fir_filter f x = (f', Ok y) /\ length y = length x /\
    (forall n, n < length x -> nth n y zero = convolution (fb f) (fs f) x n) /\
    (forall i, i < length (fb f) ->
       nth i (fs f') zero = sig (fs f) x (Z.of_nat (length x) - 1 - Z.of_nat i)).
Proof.
  intros Hb Hf Hx Hfit. pose proof (fir_used_inv _ _ _ _ Hf) as Hi.
  pose proof (fir_used_typed L _ _ _ _ Hb Hf) as Ht.
  destruct (fir_filter_conv A L f x Hi Ht Hx) as (f' & y & E & Hl & Hy).
  exists f', y. split; [exact E|]. split; [exact Hl|]. split.
  - intros n Hn. rewrite Hy by exact Hn. rewrite map_cast_fits by exact Hfit. reflexivity.
  - intros i Hin. destruct Hi as [Hne Hlen]. rewrite fir_filter_eq in E by assumption.
    injection E as <- _. cbn [with_s fs]. rewrite nth_firstn by exact Hin.
    rewrite map_cast_fits by exact Hfit.
    pose proof (nth_sig (fs f) x (length x - 1) i) as Hs.
    assert (Hp : length x <> 0) by (destruct x; cbn; congruence).
    replace (S (length x - 1)) with (length x) in Hs by lia. rewrite firstn_all in Hs.
    rewrite Hs by lia. f_equal. lia.
Qed.
Print Assumptions C01_fir_convolution.

(** C01, any arithmetic: each output is the dot product of the coefficients with
    the window x[n], x[n-1], ..., x[n-N] of stored values, then stored itself. *)
Theorem C01_fir_window_any_arithmetic (A : Arith) (b s : arr A) ops (f : fir A) (x : list A) :
  fir_used b s ops f -> x <> [] ->
  exists f' y, fir_filter f x = (f', Ok y) /\ length y = length x /\
    forall n, n < length x ->
      nth n y zero =
      cast (fdt f) (dot (fb f)
        (map (fun i => sig (fs f) (map (cast (fdt f)) x) (Z.of_nat n - Z.of_nat i))
             (seq 0 (length (fb f))))).
Proof.
  intros Hf Hx. destruct (fir_used_inv _ _ _ _ Hf) as [Hne Hlen].
  rewrite fir_filter_eq by assumption. eexists _, _. split; [reflexivity|].
  split; [apply length_fir_ys|]. intros n Hn. rewrite nth_fir_ys by exact Hn.
  rewrite fir_window by assumption. reflexivity.
Qed.
Print Assumptions C01_fir_window_any_arithmetic.

(** A concrete filter meeting the hypotheses, with its output (rationals). *)
Example C01_example :
  exists f, @fir_used QA (mkArr DFloat [q 1 2; q 1 4]) (mkArr DFloat [q 3 1])
                      [OFilter [q 1 1]; OReset (Some (q 2 1))] f /\
            rqs (snd (fir_filter f [q 4 1; q 0 1; q 1 1])) = Ok [5 # 2; 1 # 1; 1 # 2]%Q.
Proof. eexists. split; [eexists; split; [reflexivity|reflexivity]|]. vm_compute. reflexivity. Qed.

(** C02.  Chunked filtering is the same as one call, in any arithmetic. *)
Theorem C02_fir_chunks (A : Arith) (b s : arr A) ops (f : fir A) (chunks : list (list A)) :
  fir_used b s ops f -> chunks <> [] -> Forall (fun c => c <> []) chunks ->
  call_chunks fir_filter f chunks = fir_filter f (concat chunks).
Proof.
  intros Hf Hc HF. destruct (fir_used_inv _ _ _ _ Hf) as [Hne _].
  set (step := fun (g : fir A) (x : A) => let '(s', r) := fir_step (fdt g) (fb g) (fs g) x in (with_s g s', r)).
  assert (Hr : forall xs g, run step g xs =
            let '(s', r) := run (@fir_step A (fdt g) (fb g)) (fs g) xs in (with_s g s', r)).
  { intros xs. induction xs as [|v xs IH]; intros g; [destruct g; reflexivity|].
    cbn [run]. unfold step at 1. destruct (fir_step (fdt g) (fb g) (fs g) v) as [s1 [y|e]]; [|reflexivity].
    rewrite IH. cbn [with_s fdt fb fs]. destruct (run _ s1 xs) as [s2 [ys|e]]; reflexivity. }
  assert (Hcall : forall g xs, fb g <> [] -> xs <> [] -> fir_filter g xs = run step g xs).
  { intros g xs Hg Hx. rewrite Hr. unfold fir_filter. destruct xs; [congruence|].
    destruct (fb g) eqn:E; [congruence|]. reflexivity. }
  rewrite (call_chunks_run_gen step fir_filter (fun g => fb g <> []) Hcall).
  - symmetry. apply Hcall; [exact Hne|]. destruct chunks as [|c cs]; [congruence|].
    inversion HF; subst. cbn. destruct c; [congruence|discriminate].
  - intros g xs Hg. apply (run_inv step (fun g => fb g <> [])); [|exact Hg].
    intros g' v H. unfold step. destruct (fir_step _ _ _ _); exact H.
  - exact Hne.
  - exact HF.
Qed.
Print Assumptions C02_fir_chunks.

Example C02_example :
  exists f, @fir_used FA (mkArr DFloat [0.125; 0.75]%float) (mkArr DFloat []) [] f /\
    fls (snd (call_chunks fir_filter f [[1.5]; [2.25; 0.3125]]%float)) = Ok [0.1875; 1.40625; 1.7265625]%float /\
    fls (snd (fir_filter f [1.5; 2.25; 0.3125]%float)) = Ok [0.1875; 1.40625; 1.7265625]%float.
Proof. eexists. split; [eexists; split; reflexivity|]. split; vm_compute; reflexivity. Qed.

(** C03.  Superposition. *)
Theorem C03_fir_superposition (A : Arith) (L : Laws A) dt (b s t x u : list A) (p q : A) :
  b <> [] -> length s = length b -> length t = length b ->
  length x = length u -> x <> [] ->
  Forall (fits dt) b -> Forall (fits dt) s -> Forall (fits dt) t ->
  Forall (fits dt) x -> Forall (fits dt) u -> fits dt p -> fits dt q ->
  exists y v w f' g' h',
    fir_filter (mkFir dt b s) x = (f', Ok y) /\
    fir_filter (mkFir dt b t) u = (g', Ok v) /\
    fir_filter (mkFir dt b (lin p q s t)) (lin p q x u) = (h', Ok w) /\
    length w = length x /\
    forall n, n < length x -> nth n w zero = add (mul p (nth n y zero)) (mul q (nth n v zero)).
Proof.
  intros Hb Hs Ht Hl Hx Tb Ts Tt Tx Tu Tp Tq.
  assert (Hu : u <> []) by (destruct x, u; cbn in *; congruence).
  assert (Hlin : lin p q x u <> []).
  { intros C. apply (f_equal (@length A)) in C. rewrite length_lin in C by exact Hl. destruct x; cbn in *; congruence. }
  destruct (fir_filter_conv A L (mkFir dt b s) x) as (f' & y & E1 & L1 & Y1);
    [split; assumption|split; assumption|assumption|].
  destruct (fir_filter_conv A L (mkFir dt b t) u) as (g' & v & E2 & L2 & Y2);
    [split; assumption|split; assumption|assumption|].
  destruct (fir_filter_conv A L (mkFir dt b (lin p q s t)) (lin p q x u)) as (h' & w & E3 & L3 & Y3).
  { split; [assumption|]. cbn. rewrite length_lin; congruence. }
  { split; [assumption|]. cbn. apply lin_typed; auto; congruence. }
  { exact Hlin. }
  exists y, v, w, f', g', h'. repeat (split; [assumption|]).
  rewrite length_lin in L3 by exact Hl. split; [exact L3|].
  intros n Hn. rewrite Y1, Y2, Y3 by (rewrite ?length_lin; lia). cbn [fb fs fdt].
  rewrite !map_cast_fits by (try apply lin_typed; assumption).
  apply convolution_lin; auto; congruence.
Qed.
Print Assumptions C03_fir_superposition.

Example C03_example :
  let f s := @mkFir QA DFloat [q 1 2; q 1 1] s in
  let l := @lin QA (q 2 1) (q (-3) 1) in
  let s := [q 1 1; q 0 1] in let t := [q 0 1; q 5 1] in
  let x := [q 2 1; q 1 3] in let u := [q 7 1; q 1 1] in
  rqs (snd (fir_filter (f s) x)) = Ok [2 # 1; 13 # 6]%Q /\
  rqs (snd (fir_filter (f t) u)) = Ok [7 # 2; 15 # 2]%Q /\
  rqs (snd (fir_filter (f (l s t)) (l x u))) = Ok [-13 # 2; -109 # 6]%Q.
Proof. repeat split; vm_compute; reflexivity. Qed.

(** C04.  reset(c) puts the filter in the steady state of the constant c. *)
Theorem C04_fir_reset_steady (A : Arith) (L : Laws A) (b s : arr A) ops (f : fir A) (c : A) (n : nat) :
  arr_ok b -> fir_used b s ops f -> fits (fdt f) c -> n <> 0 ->
  exists f' y, fir_reset f (Some c) = (f', Ok tt) /\
    snd (fir_filter f' (repeat c n)) = Ok y /\ length y = n /\
    forall k, k < n -> nth k y zero = mul c (bigsum (length (fb f)) (fun i => nth i (fb f) zero)).
Proof.
  intros Hb Hf Hc Hn.
  pose proof (fir_used_inv _ _ _ _ Hf) as Hi. pose proof (fir_used_typed L _ _ _ _ Hb Hf) as Ht.
  set (f1 := with_s f (map (fun _ => cast (fdt f) c) (fs f))).
  assert (Hi1 : fir_inv f1) by (apply (fir_exec_inv f (OReset (Some c))); exact Hi).
  assert (Ht1 : fir_typed f1) by (apply (fir_exec_typed L f (OReset (Some c))); assumption).
  destruct (fir_filter_conv A L f1 (repeat c n) Hi1 Ht1) as (f2 & y & E & Hl & Hy).
  { destruct n; [congruence|discriminate]. }
  exists f1, y. split; [reflexivity|].
  rewrite E. cbn [snd]. split; [reflexivity|]. rewrite repeat_length in Hl, Hy. split; [exact Hl|].
  intros k Hk. rewrite Hy by exact Hk. unfold convolution. cbn [f1 with_s fb fs fdt].
  rewrite <- (bigsum_scal A L). apply bigsum_ext. intros i Hi'.
  rewrite (sig_const A _ _ c).
  - rewrite (Rmul_comm (law_ring L)). reflexivity.
  - intros j Hj. rewrite map_length in Hj. rewrite (nth_map_lt _ _ j zero) by exact Hj. exact Hc.
  - intros j Hj. rewrite map_length, repeat_length in Hj.
    rewrite (nth_map_lt _ _ j zero) by (rewrite repeat_length; exact Hj).
    rewrite nth_repeat_lt by exact Hj. exact Hc.
  - rewrite !map_length, repeat_length. destruct Hi as [_ Hlen]. rewrite Hlen. lia.
Qed.
Print Assumptions C04_fir_reset_steady.

Example C04_example : exists f,
  @fir_used QA (mkArr DFloat [q 1 2; q 1 4]) (mkArr DFloat []) [OFilter [q 9 1]] f /\
  rqs (snd (fir_filter (fst (fir_reset f (Some (q 8 1)))) (repeat (q 8 1) 3))) = Ok [6 # 1; 6 # 1; 6 # 1]%Q.
Proof. eexists. split; [eexists; split; reflexivity|]. vm_compute. reflexivity. Qed.

(** C05.  Construction from explicit coefficients and state. *)
Theorem C05_fir_construction (A : Arith) (b s : arr A) :
  (els b = [] -> fir_make b s = Err ValueError) /\
  (els b <> [] -> exists f, fir_make b s = Ok f /\
     length (fb f) = max (length (els b)) (length (els s)) /\
     length (fs f) = max (length (els b)) (length (els s)) /\
     (forall i, nth i (fb f) zero = nth i (els b) zero) /\
     (forall i, i < length (fs f) -> nth i (fs f) zero = cast (fdt f) (nth i (els s) zero)) /\
     (length (els s) <= length (els b) -> fdt f = adt b) /\
     (length (els b) < length (els s) -> fdt f = promote (adt b) DFloat)).
Proof.
  split.
  - intros E. unfold fir_make. rewrite E. reflexivity.
  - intros Hb. unfold fir_make.
    destruct (Nat.eqb_spec (length (els b)) 0) as [E|_]; [destruct (els b); cbn in *; congruence|].
    eexists. split; [reflexivity|]. cbn [fb fs fdt].
    assert (Hz : forall (l : list A) n i, nth i (l ++ zeros n) zero = nth i l zero).
    { intros l n i. destruct (Nat.lt_ge_cases i (length l)) as [H|H].
      - apply app_nth1; exact H.
      - rewrite app_nth2 by exact H. unfold zeros. rewrite (nth_overflow l) by exact H.
        generalize (i - length l) as j. clear. induction n; destruct j; cbn; auto. }
    assert (Hm : forall d (l : list A) i, i < length l -> nth i (map (cast d) l) zero = cast d (nth i l zero)).
    { intros d l i H. rewrite (nth_indep _ zero (cast d zero)) by (rewrite map_length; exact H). apply map_nth. }
    destruct (Nat.ltb_spec (length (els b)) (length (els s))) as [H|H]; cbn [els adt].
    + assert (Hlz : length (els b ++ zeros (length (els s) - length (els b))) = length (els s)).
      { unfold zeros. rewrite app_length, repeat_length. lia. }
      rewrite !Hlz, Nat.ltb_irrefl, map_length.
      repeat split; try lia.
      * intros i. apply Hz.
      * intros i Hi. apply Hm. exact Hi.
    + rewrite map_length. destruct (Nat.ltb_spec (length (els s)) (length (els b))) as [H1|H1].
      * assert (Hlz : length (els s ++ zeros (length (els b) - length (els s))) = length (els b)).
        { unfold zeros. rewrite app_length, repeat_length. lia. }
        rewrite Hlz. repeat split; try lia.
        intros i Hi. rewrite Hm by lia. rewrite Hz. reflexivity.
      * repeat split; try lia. intros i Hi. apply Hm. exact Hi.
Qed.
Print Assumptions C05_fir_construction.

Example C05_example :
  let show r := rmap (fun f : fir QA => (fdt f, qs (fb f), qs (fs f))) r in
  show (@fir_make QA (mkArr DInt [q 2 1]) (mkArr DFloat [q 1 2; q 1 4])) =
  Ok (DFloat, [2 # 1; 0 # 1], [1 # 2; 1 # 4])%Q /\
  show (@fir_make QA (mkArr DInt [q 2 1; q 3 1]) (mkArr DFloat [q 7 2])) =
  Ok (DInt, [2 # 1; 3 # 1], [3 # 1; 0 # 1])%Q.
Proof. split; vm_compute; reflexivity. Qed.

(** C06.  Safety of any history of calls, in any arithmetic. *)
Theorem C06_fir_history (A : Arith) (b s : arr A) f0 ops (f : fir A) :
  fir_make b s = Ok f0 -> f = fold_left fir_exec ops f0 ->
  fb f = fb f0 /\ fdt f = fdt f0 /\ length (fs f) = length (fb f0) /\
  (forall x, x <> [] -> exists f' y, fir_filter f x = (f', Ok y) /\ length y = length x) /\
  fir_filter f [] = (f, Err ValueError) /\
  (forall c, exists f', fir_reset f (Some c) = (f', Ok tt)) /\
  fir_reset f None = (f, Err ValueError).
Proof.
  intros H E. assert (Hu : fir_used b s ops f) by (exists f0; auto).
  destruct (fir_used_b _ _ _ _ Hu) as (f1 & H1 & Eb & Ed).
  rewrite H in H1. injection H1 as <-.
  destruct (fir_used_inv _ _ _ _ Hu) as [Hne Hlen].
  split; [exact Eb|]. split; [exact Ed|]. split; [congruence|]. split.
  - intros x Hx. rewrite fir_filter_eq by assumption. eexists _, _. split; [reflexivity|]. apply length_fir_ys.
  - split; [reflexivity|]. split; [intros c; eexists; reflexivity|reflexivity].
Qed.
Print Assumptions C06_fir_history.

Example C06_example : exists f0 : fir FA,
  fir_make (mkArr DFloat [1; 2]%float) (mkArr DFloat []) = Ok f0 /\
  length (fs (fold_left fir_exec [OFilter []; OFilter [nan; 1]; OReset None; OReset (Some 3)]%float f0)) = 2.
Proof. eexists. split; [reflexivity|vm_compute; reflexivity]. Qed.

(** C07.  The filtered signal is the stored one: with integer coefficients every
    sample is truncated first. *)
Theorem C07_fir_quantised (A : Arith) (L : Laws A) (b s : arr A) ops (f : fir A) (x : list A) :
  arr_ok b -> fir_used b s ops f -> x <> [] ->
  exists f' y, fir_filter f x = (f', Ok y) /\ length y = length x /\
    forall n, n < length x ->
      nth n y zero = convolution (fb f) (fs f) (map (cast (fdt f)) x) n.
Proof.
  intros Hb Hf Hx. apply fir_filter_conv; auto.
  - eapply fir_used_inv; eassumption.
  - eapply fir_used_typed; eassumption.
Qed.
Print Assumptions C07_fir_quantised.

(** The integer conversion of reals truncates toward zero. *)
Theorem C07_cast_int_truncates (x : R) :
  (exists z, @cast RA DInt x = IZR z) /\
  (Rabs (@cast RA DInt x) <= Rabs x)%R /\ (Rabs (x - @cast RA DInt x) < 1)%R /\
  (0 <= x * @cast RA DInt x)%R.
Proof.
  cbn. split; [apply Rtrunc_is_IZR|]. unfold Rtrunc.
  destruct (Rle_dec 0 x) as [H|H].
  - destruct (base_Int_part x) as [H1 H2].
    assert (Hz : (0 <= IZR (Int_part x))%R).
    { apply IZR_le. assert (-1 < Int_part x)%Z; [|lia]. apply lt_IZR. lra. }
    rewrite (Rabs_right (IZR (Int_part x))) by lra. rewrite (Rabs_right x) by lra.
    rewrite (Rabs_right (x - IZR (Int_part x))) by lra.
    repeat split; try lra. apply Rmult_le_pos; lra.
  - destruct (base_Int_part (- x)) as [H1 H2].
    assert (Hz : (0 <= IZR (Int_part (- x)))%R).
    { apply IZR_le. assert (-1 < Int_part (- x))%Z; [|lia]. apply lt_IZR. lra. }
    rewrite (Rabs_left1 (- IZR (Int_part (- x)))) by lra. rewrite (Rabs_left1 x) by lra.
    rewrite (Rabs_left1 (x - - IZR (Int_part (- x)))) by lra.
    repeat split; try lra. replace (x * - IZR (Int_part (- x)))%R with ((- x) * IZR (Int_part (- x)))%R by ring.
    apply Rmult_le_pos; lra.
Qed.
Print Assumptions C07_cast_int_truncates.

(** The convolution law without the representability condition is false. *)
Theorem C07_convolution_refuted :
  exists (b s : arr QA) f x y, arr_ok b /\ fir_make b s = Ok f /\ x <> [] /\
    snd (fir_filter f x) = Ok y /\ nth 0 y zero <> convolution (fb f) (fs f) x 0.
Proof.
  exists (mkArr DInt [q 1 1]), (mkArr DFloat []). eexists. exists [q 1 2]. eexists.
  split; [constructor; [exact (Qctrunc_Z 1)|constructor]|].
  split; [reflexivity|]. split; [discriminate|]. split; [reflexivity|].
  intros C. apply (f_equal this) in C. vm_compute in C. discriminate.
Qed.
Print Assumptions C07_convolution_refuted.

(** C08.  Design by constraints: rejected exactly when a constraint is invalid... *)
Definition design_invalid (style : string) (frequency : R) (order count : Z) : Prop :=
  (~ exists t, In t ["blackman"; "hamming"; "hann"; "kaiser"]%string /\ py_lower style = t) \/
  (frequency <= 0)%R \/ (1 <= frequency)%R \/ (order <= 0)%Z \/ (count <= 0)%Z.

Lemma fir_style_iff style :
  mem_str (py_title style) fir_STYLE = true <->
  exists t, In t ["blackman"; "hamming"; "hann"; "kaiser"]%string /\ py_lower style = t.
Proof.
  rewrite (mem_title_iff _ _ fir_STYLE_titles). split.
  - intros (t & Hin & E). exists (py_lower style). split; [|reflexivity]. rewrite E.
    cbn in Hin. destruct Hin as [<-|[<-|[<-|[<-|[]]]]]; cbn; tauto.
  - intros (t & Hin & E). cbn in Hin.
    destruct Hin as [<-|[<-|[<-|[<-|[]]]]]; rewrite E;
      [exists "Blackman"%string|exists "Hamming"%string|exists "Hann"%string|exists "Kaiser"%string];
      (split; [cbn; tauto|reflexivity]).
Qed.

Theorem C08_fir_design_rejects firwin eps style frequency order count complement gain :
  design_invalid style frequency order count ->
  fir_design firwin eps style frequency order count complement gain = Err ValueError.
Proof.
  intros H. unfold fir_design.
  destruct (mem_str (py_title style) fir_STYLE) eqn:Es; cbn [negb].
  2: reflexivity.
  destruct H as [H|H]; [exfalso; apply H; apply fir_style_iff; exact Es|].
  destruct (Rleb frequency 0) eqn:E1; [reflexivity|].
  destruct (Rleb 1 frequency) eqn:E2; [reflexivity|]. cbn [orb].
  destruct (Z.leb_spec order 0) as [E3|E3]; [reflexivity|].
  destruct (Z.leb_spec count 0) as [E4|E4]; [reflexivity|].
  exfalso. destruct H as [H|[H|[H|H]]]; try lia.
  - apply Rleb_iff in H. congruence.
  - apply Rleb_iff in H. congruence.
Qed.
Print Assumptions C08_fir_design_rejects.

(** ... and otherwise the first best candidate of the search, normalised. *)
Theorem C08_fir_design_best firwin eps style frequency order count (complement : bool) gain :
  ~ design_invalid style frequency order count ->
  (forall taps cutoff window, firwin taps cutoff window <> None) ->
  let f := if complement then (1 - frequency)%R else frequency in
  let cand := fun scale => firwin (Z.to_nat order + 1) (Rmin (scale * f) (1 - eps)) (py_lower (py_title style)) in
  exists b v n i,
    fir_design firwin eps style frequency order count complement gain = Ok b /\
    best_of cand (fir_err f (Z.to_nat count)) eps (3 / 100) 500 (10000 * eps) n i v /\
    length b = length v /\
    let total := @bigsum RA (length v) (fun i => nth i v 0%R) in
    (complement = false -> forall k, nth k b 0%R = (gain * nth k v 0)%R) /\
    (complement = true -> forall k, nth k b 0%R = (gain * ((-1) ^ k * nth k v 0) / total)%R) /\
    (complement = true -> total <> 0%R ->
       @bigsum RA (length b) (fun k => ((-1) ^ k * nth k b 0)%R) = gain).
Proof.
  intros Hv Hw f cand. unfold fir_design.
  destruct (mem_str (py_title style) fir_STYLE) eqn:Es; cbn [negb].
  2:{ exfalso. apply Hv. left. intros C. apply fir_style_iff in C. congruence. }
  destruct (Rleb frequency 0) eqn:E1; [exfalso; apply Hv; right; left; apply Rleb_iff; exact E1|].
  destruct (Rleb 1 frequency) eqn:E2; [exfalso; apply Hv; right; right; left; apply Rleb_iff; exact E2|].
  cbn [orb].
  destruct (Z.leb_spec order 0) as [E3|E3]; [exfalso; apply Hv; do 3 right; left; exact E3|].
  destruct (Z.leb_spec count 0) as [E4|E4]; [exfalso; apply Hv; do 4 right; exact E4|].
  cbv zeta.
  destruct (search_correct cand (fir_err f (Z.to_nat count)) eps (10000 * eps) (3 / 100) 500 0 None)
    as (v & m & n & i & E & B).
  { intros sc. apply Hw. }
  { split; [intros; lia|reflexivity]. }
  { lia. }
  change (scale_at cand (fir_err f (Z.to_nat count)) eps (3 / 100) 0) with 1%R in E.
  match type of E with ?lhs = _ =>
    match goal with |- context [@fir_search ?o ?V ?a ?b ?c ?d ?e ?n ?s ?m] =>
      change (@fir_search o V a b c d e n s m) with lhs end end.
  rewrite E. rewrite Nat.add_0_r in B.
  eexists. exists v, n, i. split; [reflexivity|]. split; [exact B|].
  rewrite map_length. split.
  { destruct complement; rewrite ?map_length, ?length_alternate; reflexivity. }
  rewrite sum_alternate2.
  set (total := @bigsum RA (length v) (fun i => nth i v 0%R)).
  change (@bigsum RA (length v) (fun i => nth i v 0%R)) with total. cbn zeta.
  split; [|split].
  - intros ->. intros k. rewrite nth_map_scale by ring. ring.
  - intros ->. intros k. rewrite (nth_map_scale (fun c => (c * gain)%R)) by ring.
    rewrite (nth_map_scale (fun c => (c / total)%R)) by (unfold Rdiv; ring).
    rewrite nth_alternate. unfold sgn, Rdiv. ring.
  - intros -> Ht. rewrite map_length, length_alternate.
    transitivity (@bigsum RA (length v) (fun i => @mul RA (gain / total)%R (nth i v 0%R))).
    + apply (@bigsum_ext RA). intros k _.
      rewrite (nth_map_scale (fun c => (c * gain)%R)) by ring.
      rewrite (nth_map_scale (fun c => (c / total)%R)) by (unfold Rdiv; ring).
      rewrite nth_alternate. unfold Rdiv. change (@mul RA) with Rmult. change (@eq (carrier RA)) with (@eq R).
      transitivity ((sgn k * sgn k) * (gain * / total * nth k v 0))%R; [unfold sgn; ring|].
      rewrite sgn_sq. ring.
    + rewrite (bigsum_scal RA RA_laws). cbn. fold total. field. exact Ht.
Qed.
Print Assumptions C08_fir_design_best.

(** Constraints that are accepted, and a design function without NaN. *)
Example C08_example : ~ design_invalid "kaIser" (1 / 10) 2 1 /\
  (forall taps cutoff window, (fun (_ : nat) (_ : R) (_ : string) => Some [1; 2; 1]%R) taps cutoff window <> None).
Proof.
  split; [|discriminate].
  intros [H|H].
  - apply H. exists "kaiser"%string. split; [cbn; tauto|reflexivity].
  - destruct H as [H|[H|[H|H]]]; try lia; lra.
Qed.

(** C09.  Frequency response: right for even lengths ... *)
Theorem C09_fir_response_even (f : fir CA) (L c : Z) y ax :
  fir_response f (2 * L) c = Ok (y, ax) ->
  length y = Z.to_nat (2 * L) /\ length ax = length y /\
  forall k, k < length y ->
    nth k ax 0%R = (-1 + 2 * INR k / IZR (2 * L))%R /\
    nth k y (RtoC 0) = Cpow (transfer (fb f) (nth k ax 0%R)) (Z.to_nat c).
Proof. exact (fir_response_even f L c y ax). Qed.
Print Assumptions C09_fir_response_even.

(** ... and off by 1/length for odd ones. *)
Theorem C09_fir_response_odd (f : fir CA) (L c : Z) y ax :
  fir_response f (2 * L + 1) c = Ok (y, ax) ->
  length y = Z.to_nat (2 * L + 1) /\ length ax = length y /\
  forall k, k < length y ->
    nth k ax 0%R = (-1 + 2 * INR k / IZR (2 * L + 1))%R /\
    nth k y (RtoC 0) = Cpow (transfer (fb f) (nth k ax 0%R - / IZR (2 * L + 1))) (Z.to_nat c).
Proof. exact (fir_response_odd f L c y ax). Qed.
Print Assumptions C09_fir_response_odd.

Theorem C09_fir_response_rejects (f : fir CA) (length count : Z) :
  is_ok (fir_response f length count) = true <-> (0 < length)%Z /\ (0 < count)%Z.
Proof.
  unfold fir_response. destruct (Z.leb_spec length 0); cbn; [split; [discriminate|lia]|].
  destruct (Z.leb_spec count 0); cbn; split; try discriminate; lia.
Qed.
Print Assumptions C09_fir_response_rejects.

(** For an odd length the values and the axis really disagree: for b = [0, 1],
    length 1 the value 1 is paired with frequency -1, where the response is -1. *)
Theorem C09_odd_axis_refuted :
  exists (f : fir CA) y ax, fir_response f 1 1 = Ok (y, ax) /\
    nth 0 y (RtoC 0) <> transfer (fb f) (nth 0 ax 0%R).
Proof.
  exists (mkFir DComplex [RtoC 0; RtoC 1] [RtoC 0; RtoC 0]). eexists _, _. split; [reflexivity|].
  destruct (fir_response_odd (mkFir DComplex [RtoC 0; RtoC 1] [RtoC 0; RtoC 0]) 0 1 _ _ eq_refl)
    as (_ & _ & H).
  destruct (H 0) as [Ha Hy]; [vm_compute; lia|].
  cbn [fb] in *. intros C.
  assert (Hx : forall z, transfer [RtoC 0; RtoC 1] z = cis (- (PI * z))).
  { intros z. unfold transfer. cbn. unfold cis, Cplus, Cmult, RtoC; cbn. f_equal; ring_simplify; f_equal; ring. }
  change (2 * 0 + 1)%Z with 1%Z in *. rewrite Hy in C. rewrite Ha in C. cbn [Cpow] in C.
  change (Z.to_nat 1) with 1 in C. cbn [Cpow] in C. rewrite !Hx in C.
  replace (- (PI * (-1 + 2 * INR 0 / 1 - / 1)))%R with (0 + 2 * IZR 1 * PI)%R in C by (cbn; field).
  replace (- (PI * (-1 + 2 * INR 0 / 1)))%R with PI in C by (cbn; field).
  rewrite cis_2PI_IZR in C. unfold cis in C. rewrite cos_0, cos_PI in C. injection C as C _. 
  apply (f_equal (fun r : R => r)) in C. cbn in C. lra.
Qed.
Print Assumptions C09_odd_axis_refuted.
