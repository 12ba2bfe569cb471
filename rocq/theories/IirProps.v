(** Properties C10-C17: IirFilter, run time part. *)
From Coq Require Import List Arith ZArith Lia Bool String Reals Lra QArith Qcanon Floats Ring.
From Coquelicot Require Import Complex.
From Verif Require Import Base BaseLemmas PyString Instances FirModel FirSpec FirProofs IirModel IirSpec IirProofs.
Import ListNotations.
Set Asymmetric Patterns.
Close Scope Q_scope. Close Scope R_scope. Close Scope C_scope. Close Scope string_scope. Open Scope nat_scope.

(** A filter constructed from a, b and a state no longer than the longer of them,
    then used in any way. *)
Definition iir_used {A : Arith} (a b s : arr A) (ops : list (iir_op A)) (f : iir A) : Prop :=
  length (els s) <= max (length (els a)) (length (els b)) /\
  exists f0, iir_make a b s = Ok f0 /\ f = fold_left iir_exec ops f0.

(** Arrays hold numbers of their dtype, and a integer b goes with an integer a
    (otherwise the integer state array truncates the feedback). *)
Definition coeffs_ok {A : Arith} (a b : arr A) : Prop :=
  arr_ok a /\ arr_ok b /\ (adt b = DInt -> adt a = DInt).

Lemma iir_fold_inv {A} ops (f0 : iir A) : iir_inv f0 -> iir_inv (fold_left iir_exec ops f0).
Proof. revert f0; induction ops as [|o ops IH]; intros f0 H; [exact H|]. apply IH. apply iir_exec_inv. exact H. Qed.

Lemma iir_used_inv {A} a b s ops (f : iir A) : iir_used a b s ops f -> iir_inv f.
Proof. intros (Hl & f0 & H & ->). apply iir_fold_inv. eapply iir_make_inv; eassumption. Qed.

Lemma iir_fold_ab {A} ops (f0 : iir A) :
  ia (fold_left iir_exec ops f0) = ia f0 /\ ib (fold_left iir_exec ops f0) = ib f0 /\
  idt (fold_left iir_exec ops f0) = idt f0.
Proof.
  revert f0. induction ops as [|o ops IH]; intros f0; [auto|]. cbn [fold_left].
  destruct (IH (iir_exec f0 o)) as (-> & -> & ->). apply iir_exec_ab.
Qed.

Lemma iir_used_typed {A} (L : Laws A) a b s ops (f : iir A) :
  coeffs_ok a b -> iir_used a b s ops f -> iir_typed A f.
Proof.
  intros (Ta & Tb & Hd) (Hl & f0 & H & ->).
  pose proof (iir_make_inv _ _ _ _ Hl H) as Hi. apply (iir_make_typed L) in H; auto.
  revert f0 H Hi. induction ops as [|o ops IH]; intros f0 H Hi; [exact H|].
  apply IH; [apply (iir_exec_typed A L); auto|apply iir_exec_inv; exact Hi].
Qed.

Lemma iir_used_a0 {A} (L : Laws A) a b s ops (f : iir A) : iir_used a b s ops f -> nth 0 (ia f) zero = zero.
Proof.
  intros (Hl & f0 & H & ->). destruct (iir_fold_ab ops f0) as (-> & _). eapply (iir_make_a0 L); eassumption.
Qed.

(** C10.  From rest the output is the one solution of the difference equation. *)
Theorem C10_iir_difference_from_rest (A : Arith) (L : Laws A) (a b s : arr A) ops (f : iir A) (x : list A) :
  coeffs_ok a b -> iir_used a b s ops f -> is_ f = zeros (length (ib f)) ->
  x <> [] -> Forall (fits (idt f)) x ->
  exists f' y, iir_filter f x = (f', Ok y) /\
    satisfies_difference (ia f) (ib f) y x /\
    forall z, satisfies_difference (ia f) (ib f) z x -> z = y.
Proof.
  intros Hc Hf Hz Hx Tx.
  pose proof (iir_used_inv _ _ _ _ _ Hf) as Hi. destruct (iir_used_typed L _ _ _ _ _ Hc Hf) as (Ta & Tb & Ts).
  pose proof (iir_used_a0 L _ _ _ _ _ Hf) as H0.
  destruct (iir_filter_ok f x Hi Hx) as (s' & y & Er & E & _ & _).
  exists (iir_with_s f s'), y. split; [exact E|]. destruct Hi as (Hb & Ha & Hs).
  rewrite Hz in Er.
  pose proof (iir_difference_rest A L _ _ _ _ _ _ Hb Ha H0 Ta Tb Tx Er) as Hd.
  split; [exact Hd|]. intros z Hz'. eapply difference_unique; eassumption.
Qed.
Print Assumptions C10_iir_difference_from_rest.

(** A freshly constructed filter without state argument is at rest, and its
    coefficients are the given ones followed by zeros. *)
Theorem C10_iir_fresh_is_at_rest (A : Arith) (L : Laws A) (a b : arr A) dts f :
  iir_make a b (mkArr dts []) = Ok f ->
  is_ f = zeros (length (ib f)) /\
  (forall i, nth i (ia f) zero = nth i (els a) zero) /\ (forall i, nth i (ib f) zero = nth i (els b) zero).
Proof.
  intros H.
  assert (Hne : els a <> [] \/ els b <> []).
  { destruct (els a) as [|v l] eqn:Ea; [|left; discriminate]. destruct (els b) as [|w m] eqn:Eb; [|right; discriminate].
    unfold iir_make in H. rewrite Ea, Eb in H. discriminate. }
  assert (Ha0 : els a <> [] -> eqb (nth 0 (els a) zero) zero = true).
  { intros Hn. unfold iir_make in H. destruct (els a) as [|v l]; [congruence|].
    destruct (eqb v zero) eqn:E; [exact E|discriminate]. }
  assert (Hz : eqb (@zero A) zero = true) by (apply (law_eqb L); reflexivity).
  destruct (iir_make_ok a b (mkArr dts []) Hne Ha0 Hz) as (f1 & E & Ea & Eb & Lb & Ls).
  rewrite H in E. injection E as <-.
  split; [|split; [|exact Eb]].
  - apply (nth_ext _ _ zero zero).
    + unfold zeros. rewrite repeat_length. congruence.
    + intros i Hi. rewrite (nth_zeros A).
      assert (Hs : forall g (b1 : arr A), fir_make b1 (mkArr dts []) = Ok g -> nth i (fs g) zero = zero).
      { intros g b1. unfold fir_make. cbn [els length]. destruct (Nat.eqb _ _); [discriminate|].
        rewrite (proj2 (Nat.ltb_ge (length (els b1)) 0)) by lia.
        intros E. injection E as <-. cbn [fs].
        destruct (Nat.ltb_spec 0 (length (els b1))); [|destruct (els b1); destruct i; reflexivity].
        cbn [app]. rewrite Nat.sub_0_r. unfold zeros.
        destruct (Nat.lt_ge_cases i (length (els b1))) as [Hl|Hl].
        - rewrite (nth_map_lt _ _ i zero) by (rewrite repeat_length; exact Hl).
          rewrite nth_repeat_lt by exact Hl. apply (law_fits_zero L).
        - apply nth_overflow. rewrite map_length, repeat_length. exact Hl. }
      unfold iir_make in H.
      destruct (match els a with [] => false | a0 :: _ => negb (eqb a0 zero) end); [discriminate|].
      cbv zeta in H. cbn [els adt] in H.
      destruct (pad (els a) _) as [|a0 a']; [discriminate|].
      destruct (negb (eqb a0 zero)); [discriminate|].
      match type of H with context [fir_make ?b1 ?s1] => destruct (fir_make b1 s1) as [g|e] eqn:E end; [|discriminate].
      injection H as <-. cbn [is_]. eapply Hs; eassumption.
  - intros i. rewrite Ea. apply nth_pad.
Qed.
Print Assumptions C10_iir_fresh_is_at_rest.

Example C10_example : exists f,
  @iir_used QA (mkArr DFloat [q 0 1; q 1 2]) (mkArr DFloat [q 1 1; q 1 1; q 2 1]) (mkArr DFloat []) [] f /\
  qs (is_ f) = [0 # 1; 0 # 1; 0 # 1]%Q /\
  rqs (snd (iir_filter f [q 1 1; q 0 1; q 0 1; q 0 1])) = Ok [1 # 1; 3 # 2; 11 # 4; 11 # 8]%Q.
Proof.
  eexists. split; [split; [cbn; lia|eexists; split; reflexivity]|]. split; vm_compute; reflexivity.
Qed.

(** C11.  From any state, the difference equation holds from sample N on. *)
Theorem C11_iir_difference_any_state (A : Arith) (L : Laws A) (a b s : arr A) ops (f : iir A) (x : list A) :
  coeffs_ok a b -> iir_used a b s ops f -> x <> [] -> Forall (fits (idt f)) x ->
  exists f' y, iir_filter f x = (f', Ok y) /\ length y = length x /\
    forall n, length (ib f) - 1 <= n < length x ->
      nth n y zero = difference_rhs (ia f) (ib f) y x n.
Proof.
  intros Hc Hf Hx Tx.
  pose proof (iir_used_inv _ _ _ _ _ Hf) as Hi. destruct (iir_used_typed L _ _ _ _ _ Hc Hf) as (Ta & Tb & Ts).
  pose proof (iir_used_a0 L _ _ _ _ _ Hf) as H0.
  destruct (iir_filter_ok f x Hi Hx) as (s' & y & Er & E & _ & Hl).
  exists (iir_with_s f s'), y. split; [exact E|]. split; [exact Hl|]. destruct Hi as (Hb & Ha & Hs).
  exact (iir_difference_late A L _ _ _ _ _ _ _ Hb Ha H0 Hs Ta Tb Ts Tx Er).
Qed.
Print Assumptions C11_iir_difference_any_state.

(** Before sample N the equation can fail: the state is not past outputs. *)
Theorem C11_iir_early_samples_refuted :
  exists (a b s : arr QA) f x y, coeffs_ok a b /\ iir_used a b s [] f /\
    snd (iir_filter f x) = Ok y /\ nth 0 y zero <> difference_rhs (ia f) (ib f) y x 0.
Proof.
  exists (mkArr DFloat [q 0 1; q 1 2]), (mkArr DFloat [q 1 1; q 0 1]), (mkArr DFloat [q 1 1]).
  eexists. exists [q 0 1]. eexists. split.
  - split; [|split]; [repeat constructor..|discriminate].
  - split; [split; [cbn; lia|eexists; split; reflexivity]|]. split; [reflexivity|].
    intros C. apply (f_equal this) in C. vm_compute in C. discriminate.
Qed.
Print Assumptions C11_iir_early_samples_refuted.

Example C11_example : exists f,
  @iir_used QA (mkArr DFloat [q 0 1; q 1 2]) (mkArr DFloat [q 1 1; q 3 1]) (mkArr DFloat [q 4 1])
            [IFilter [q 2 1]; IFilter []] f /\
  rqs (snd (iir_filter f [q 1 1; q 5 1; q 0 1])) = Ok [15 # 1; 31 # 2; 91 # 4]%Q.
Proof.
  eexists. split; [split; [cbn; lia|eexists; split; reflexivity]|]. vm_compute. reflexivity.
Qed.

(** C12.  Chunked filtering is the same as one call, in any arithmetic. *)
Theorem C12_iir_chunks (A : Arith) (a b s : arr A) ops (f : iir A) (chunks : list (list A)) :
  iir_used a b s ops f -> chunks <> [] -> Forall (fun c => c <> []) chunks ->
  call_chunks iir_filter f chunks = iir_filter f (concat chunks).
Proof.
  intros Hf Hc HF. destruct (iir_used_inv _ _ _ _ _ Hf) as [Hne _].
  set (step := fun (g : iir A) (x : A) =>
    let '(s', r) := iir_step (idt g) (ia g) (ib g) (is_ g) x in (iir_with_s g s', r)).
  assert (Hr : forall xs g, run step g xs =
            let '(s', r) := run (@iir_step A (idt g) (ia g) (ib g)) (is_ g) xs in (iir_with_s g s', r)).
  { intros xs. induction xs as [|v xs IH]; intros g; [destruct g; reflexivity|].
    cbn [run]. unfold step at 1. destruct (iir_step (idt g) (ia g) (ib g) (is_ g) v) as [s1 [y|e]]; [|reflexivity].
    rewrite IH. cbn [iir_with_s idt ia ib is_]. destruct (run _ s1 xs) as [s2 [ys|e]]; reflexivity. }
  assert (Hcall : forall g xs, ib g <> [] -> xs <> [] -> iir_filter g xs = run step g xs).
  { intros g xs Hg Hx. rewrite Hr. apply iir_filter_run; assumption. }
  rewrite (call_chunks_run_gen step iir_filter (fun g => ib g <> []) Hcall).
  - symmetry. apply Hcall; [exact Hne|]. destruct chunks as [|c cs]; [congruence|].
    inversion HF; subst. cbn. destruct c; [congruence|discriminate].
  - intros g xs Hg. apply (run_inv step (fun g => ib g <> [])); [|exact Hg].
    intros g' v H. unfold step. destruct (iir_step _ _ _ _); exact H.
  - exact Hne.
  - exact HF.
Qed.
Print Assumptions C12_iir_chunks.

Example C12_example :
  exists f, @iir_used FA (mkArr DFloat [0; 0.5]%float) (mkArr DFloat [0.125; 0.75]%float) (mkArr DFloat []) [] f /\
    fls (snd (call_chunks iir_filter f [[1.5]; [2.25; 0.3125]]%float)) = Ok [0.1875; 1.5; 2.4765625]%float /\
    fls (snd (iir_filter f [1.5; 2.25; 0.3125]%float)) = Ok [0.1875; 1.5; 2.4765625]%float.
Proof. eexists. split; [split; [cbn; lia|eexists; split; reflexivity]|]. split; vm_compute; reflexivity. Qed.

(** C13.  Superposition of outputs and of states. *)
Theorem C13_iir_superposition (A : Arith) (L : Laws A) dt (a b s t x u : list A) (p q : A) :
  b <> [] -> length a = length b -> length s = length b -> length t = length b ->
  length x = length u -> x <> [] ->
  Forall (fits dt) a -> Forall (fits dt) b -> Forall (fits dt) s -> Forall (fits dt) t ->
  Forall (fits dt) x -> Forall (fits dt) u -> fits dt p -> fits dt q ->
  exists s' t' y v,
    iir_filter (mkIir dt a b s) x = (mkIir dt a b s', Ok y) /\
    iir_filter (mkIir dt a b t) u = (mkIir dt a b t', Ok v) /\
    iir_filter (mkIir dt a b (lin p q s t)) (lin p q x u) = (mkIir dt a b (lin p q s' t'), Ok (lin p q y v)) /\
    length y = length x /\ length v = length x.
Proof.
  intros Hb Ha Hs Ht Hl Hx Ta Tb Ts Tt Tx Tu Tp Tq.
  destruct (iir_run_lin A L dt a b p q Hb Ha Ta Tb Tp Tq x u s t) as (s' & t' & y & v & E1 & E2 & E3); auto.
  exists s', t', y, v.
  assert (Hu : u <> []) by (destruct x, u; cbn in *; congruence).
  assert (Hlin : lin p q x u <> []).
  { intros C. apply (f_equal (@length A)) in C. rewrite length_lin in C by exact Hl. destruct x; cbn in *; congruence. }
  rewrite !iir_filter_run by assumption. cbn [idt ia ib is_]. rewrite E1, E2, E3.
  split; [reflexivity|]. split; [reflexivity|]. split; [reflexivity|].
  split; [eapply run_length; eassumption|]. rewrite Hl. eapply run_length; eassumption.
Qed.
Print Assumptions C13_iir_superposition.

Example C13_example :
  let f s := @mkIir QA DFloat [q 0 1; q 1 2] [q 1 2; q 1 1] s in
  let l := @lin QA (q 2 1) (q (-3) 1) in
  let s := [q 1 1; q 0 1] in let t := [q 0 1; q 5 1] in
  let x := [q 2 1; q 1 3] in let u := [q 7 1; q 1 1] in
  rqs (snd (iir_filter (f s) x)) = Ok [9 # 4; 79 # 24]%Q /\
  rqs (snd (iir_filter (f t) u)) = Ok [53 # 8; 173 # 16]%Q /\
  rqs (snd (iir_filter (f (l s t)) (l x u))) = Ok [-123 # 8; -1241 # 48]%Q.
Proof. repeat split; vm_compute; reflexivity. Qed.

Section C14.
  Variable A : Arith.
  Hypothesis L : Laws A.
  Let Rth := law_ring L.
  Add Ring Aring5 : Rth.
  Local Notation "0" := (@zero A).
  Local Notation "1" := (@one A).
  Local Infix "+" := (@add A).
  Local Infix "-" := (@sub A).
  Local Infix "*" := (@mul A).

  Lemma sub_neq0 (x y : A) : x <> y -> x - y <> 0.
  Proof. intros H C. apply H. transitivity (x - y + y); [ring|]. rewrite C. ring. Qed.

  (** C14.  With unit DC gain reset(c) installs the steady state of the constant c,
      whatever happened before. *)
  Theorem C14_iir_reset_steady (a b s : arr A) ops (f : iir A) (c : A) (n : nat) :
    coeffs_ok a b -> iir_used a b s ops f ->
    total (ib f) = 1 - total (ia f) -> nth O (ib f) 0 <> 1 -> total (ia f) <> 1 ->
    fits (idt f) c -> fits (idt f) (div c (1 - total (ia f))) -> n <> O ->
    exists f', iir_reset f (Some c) = (f', Ok tt) /\
      iir_filter f' (repeat c n) = (f', Ok (repeat c n)).
  Proof.
    intros Hc Hf Hg Hb0 HA Tc Tl Hn.
    pose proof (iir_used_inv _ _ _ _ _ Hf) as Hi. destruct (iir_used_typed L _ _ _ _ _ Hc Hf) as (Ta & Tb & Ts).
    pose proof (iir_used_a0 L _ _ _ _ _ Hf) as H0.
    pose proof Hi as (Hb & Ha & Hs).
    assert (Hl : (1 < length (ib f))%nat).
    { destruct (ib f) as [|b0 [|b1 b']] eqn:Eb; cbn; try lia; [congruence|]. exfalso.
      destruct (ia f) as [|a0 [|a1 a']]; try discriminate. cbn [nth] in H0, Hb0. subst a0.
      unfold total in Hg. cbn in Hg. apply Hb0. transitivity (0 + b0); [ring|]. rewrite Hg. ring. }
    set (lev := div c (1 - total (ia f))) in *.
    pose proof (sub_neq0 1 (total (ia f)) (not_eq_sym HA)) as HA'.
    pose proof (sub_neq0 1 _ (not_eq_sym Hb0)) as Hb0'.
    assert (Hden : iir_den A (ia f) (ib f) = (1 - total (ia f)) * (1 - nth O (ib f) 0)).
    { unfold iir_den. rewrite Hg. ring. }
    assert (Hnz : (1 - total (ia f)) * (1 - nth O (ib f) 0) <> 0).
    { intros C. apply Hb0'. eapply (mul_integral A L); [exact C|exact HA']. }
    assert (Hlev : div (c * (1 - nth O (ib f) 0)) (iir_den A (ia f) (ib f)) = lev).
    { rewrite Hden. apply (div_unique A L); [exact Hnz|].
      transitivity ((lev * (1 - total (ia f))) * (1 - nth O (ib f) 0)); [ring|].
      unfold lev. rewrite (law_div L) by exact HA'. reflexivity. }
    assert (Hfix : c + lev * total (ia f) = lev).
    { transitivity (lev * (1 - total (ia f)) + lev * total (ia f)); [|ring]. f_equal.
      unfold lev. symmetry. apply (law_div L). exact HA'. }
    rewrite (iir_reset_eq A L f c Hi H0 Hl). rewrite Hlev.
    set (st := cast (idt f) c :: repeat (cast (idt f) lev) (length (ib f) - 1)).
    exists (iir_with_s f st). split; [reflexivity|].
    assert (Hst : length st = length (ib f)).
    { unfold st. cbn [length]. rewrite repeat_length. lia. }
    assert (Hla : length (ia f) = S (length (ib f) - 1)) by lia.
    assert (Hstep : iir_step (idt f) (ia f) (ib f) st c = (st, Ok c)).
    { rewrite iir_step_eq by assumption.
      assert (Hh : hist (idt f) (ia f) st = repeat (cast (idt f) lev) (length (ib f) - 1)).
      { unfold st. rewrite (hist_const A L) by (assumption || lia).
        rewrite Tc, Tl, Hfix, Tl. replace (length (ib f) - 1)%nat with (S (length (ib f) - 1 - 1)) at 2 by lia. reflexivity. }
      rewrite Hh. fold st. f_equal. f_equal. unfold st.
      assert (Hlc : length (cvec (ia f) (ib f)) = S (length (ib f) - 1)).
      { unfold cvec. rewrite map_length, combine_length. lia. }
      rewrite (dot_const A L) by exact Hlc.
      rewrite (total_cvec A L) by exact Ha. rewrite (nth_cvec A L) by exact Ha. rewrite H0, Tc, Tl, Hg.
      transitivity (cast (idt f) (nth O (ib f) 0 * c + (lev * (1 - total (ia f))) * (1 - nth O (ib f) 0))); [f_equal; ring|].
      unfold lev. rewrite (law_div L) by exact HA'.
      transitivity (cast (idt f) c); [f_equal; ring|exact Tc]. }
    rewrite iir_filter_run; [|exact Hb|destruct n; [congruence|discriminate]].
    cbn [iir_with_s idt ia ib is_].
    assert (Hrun : run (iir_step (idt f) (ia f) (ib f)) st (repeat c n) = (st, Ok (repeat c n))).
    { clear Hn. induction n as [|n IH]; [reflexivity|]. cbn [repeat run]. rewrite Hstep, IH. reflexivity. }
    rewrite Hrun. reflexivity.
  Qed.

  (** C15.  After reset(c), one more sample c leaves the state where it is if and
      only if the DC gain is one. *)
  Theorem C15_iir_reset_steady_iff_unit_gain (a b s : arr A) ops (f : iir A) (c : A) :
    coeffs_ok a b -> iir_used a b s ops f -> (1 < length (ib f))%nat ->
    total (ia f) <> 1 -> c <> 0 -> fits (idt f) c ->
    let den := total (ia f) * nth O (ib f) 0 + total (ib f) - nth O (ib f) 0 in
    let lev := div (c * (1 - nth O (ib f) 0)) den in
    den <> 0 -> fits (idt f) lev ->
    exists f', iir_reset f (Some c) = (f', Ok tt) /\
      (fst (iir_filter f' [c]) = f' <-> total (ib f) = 1 - total (ia f)).
  Proof.
    intros Hc Hf Hl HA Hc0 Tc den lev Hden Tl.
    pose proof (iir_used_inv _ _ _ _ _ Hf) as Hi. destruct (iir_used_typed L _ _ _ _ _ Hc Hf) as (Ta & Tb & Ts).
    pose proof (iir_used_a0 L _ _ _ _ _ Hf) as H0.
    pose proof Hi as (Hb & Ha & Hs).
    rewrite (iir_reset_eq A L f c Hi H0 Hl). change (iir_den A (ia f) (ib f)) with den. fold lev.
    rewrite Tc, Tl.
    set (st := c :: repeat lev (length (ib f) - 1)).
    exists (iir_with_s f st). split; [reflexivity|].
    assert (Hst : length st = length (ib f)).
    { unfold st. cbn [length]. rewrite repeat_length. lia. }
    assert (Hla : length (ia f) = S (length (ib f) - 1)) by lia.
    rewrite iir_filter_run; [|exact Hb|discriminate].
    cbn [iir_with_s idt ia ib is_ run]. rewrite iir_step_eq by assumption.
    cbn [fst iir_with_s idt ia ib is_].
    assert (Hh : hist (idt f) (ia f) st = cast (idt f) (c + lev * total (ia f)) :: repeat lev (length (ib f) - 1 - 1))
      by (unfold st; apply (hist_const A L); assumption || lia).
    rewrite Hh, Tc.
    assert (Tw : fits (idt f) (c + lev * total (ia f))).
    { apply (law_fits_add L); [exact Tc|]. apply (law_fits_mul L); [exact Tl|].
      unfold total. apply (fits_bigsum A L). intros i _. apply (fits_nth A L). exact Ta. }
    rewrite Tw.
    assert (Hr : repeat lev (length (ib f) - 1) = lev :: repeat lev (length (ib f) - 1 - 1)).
    { replace (length (ib f) - 1)%nat with (S (length (ib f) - 1 - 1)) at 1 by lia. reflexivity. }
    pose proof (sub_neq0 1 (total (ia f)) (not_eq_sym HA)) as HA'.
    assert (Hd : lev * den = c * (1 - nth O (ib f) 0)) by (unfold lev; apply (law_div L); exact Hden).
    assert (Hiff : c + lev * total (ia f) = lev <-> total (ib f) = 1 - total (ia f)).
    { split; intros E.
      - assert (E1 : c = lev * (1 - total (ia f))).
        { transitivity (c + lev * total (ia f) - lev * total (ia f)); [ring|]. rewrite E at 1. ring. }
        assert (Hlev : lev <> 0).
        { intros C. apply Hc0. rewrite E1, C. ring. }
        assert (E2 : lev * (total (ib f) - (1 - total (ia f))) = 0).
        { transitivity (lev * den - (lev * (1 - total (ia f))) * (1 - nth O (ib f) 0)); [unfold den; ring|].
          rewrite Hd, <- E1. ring. }
        pose proof (mul_integral A L _ _ E2 Hlev) as E3.
        transitivity (total (ib f) - (1 - total (ia f)) + (1 - total (ia f))); [ring|]. rewrite E3. ring.
      - assert (E1 : den = (1 - total (ia f)) * (1 - nth O (ib f) 0)) by (unfold den; rewrite E; ring).
        assert (Hb0 : 1 - nth O (ib f) 0 <> 0).
        { intros C. apply Hden. rewrite E1, C. ring. }
        assert (E2 : c = lev * (1 - total (ia f))).
        { apply (mul_cancel_r A L _ _ (1 - nth O (ib f) 0) Hb0). rewrite <- Hd, E1. ring. }
        transitivity (lev * (1 - total (ia f)) + lev * total (ia f)); [f_equal; exact E2|ring]. }
    rewrite <- Hiff. unfold st. rewrite Hr. destruct f as [dt a1 b1 s1]. unfold iir_with_s.
    cbn [idt ia ib is_]. split; intros E.
    - injection E as E. exact E.
    - rewrite E. reflexivity.
  Qed.
End C14.
Print Assumptions C14_iir_reset_steady.
Print Assumptions C15_iir_reset_steady_iff_unit_gain.

Example C14_example : exists f f',
  @iir_used QA (mkArr DFloat [q 0 1; q 1 2]) (mkArr DFloat [q 1 4; q 1 4]) (mkArr DFloat []) [IFilter [q 9 1]] f /\
  this (total (ib f)) = this (sub one (total (ia f))) /\
  iir_reset f (Some (q 8 1)) = (f', Ok tt) /\ qs (is_ f') = [8 # 1; 16 # 1]%Q /\
  rqs (snd (iir_filter f' (repeat (q 8 1) 3))) = Ok [8 # 1; 8 # 1; 8 # 1]%Q.
Proof.
  eexists. eexists. split; [split; [cbn; lia|eexists; split; reflexivity]|].
  split; [vm_compute; reflexivity|]. split; [reflexivity|]. split; vm_compute; reflexivity.
Qed.

(** The documented steady state fails for DC gain two (as with gain = 2.0): the
    output on the constant 8 starts at 12 and moves toward 16. *)
Theorem C15_iir_reset_steady_refuted : exists (a b s : arr QA) f f',
  coeffs_ok a b /\ iir_used a b s [] f /\
  total (ib f) = mul (q 2 1) (sub one (total (ia f))) /\
  iir_reset f (Some (q 8 1)) = (f', Ok tt) /\
  rqs (snd (iir_filter f' (repeat (q 8 1) 4))) = Ok [12 # 1; 14 # 1; 15 # 1; 31 # 2]%Q.
Proof.
  exists (mkArr DFloat [q 0 1; q 1 2]), (mkArr DFloat [q 1 2; q 1 2]), (mkArr DFloat []). eexists. eexists.
  split; [split; [|split]; [repeat constructor..|discriminate]|].
  split; [split; [cbn; lia|eexists; split; reflexivity]|].
  split; [apply Qc_is_canon; vm_compute; reflexivity|].
  split; [reflexivity|]. vm_compute. reflexivity.
Qed.
Print Assumptions C15_iir_reset_steady_refuted.

(** With pass-through coefficients reset divides zero by zero: in IEEE arithmetic the
    state and every output of order-1 pass-through become NaN. *)
Theorem C15_iir_reset_nan : exists (a b s : arr FA) f f' y,
  iir_used a b s [] f /\ fls (Ok (ib f)) = Ok [1; 0]%float /\
  iir_reset f (Some 1%float) = (f', Ok tt) /\
  fls (snd (iir_filter f' [1; 1]%float)) = Ok y /\ map PrimFloat.is_nan y = [true; true].
Proof.
  exists (mkArr DFloat [0; 0]%float), (mkArr DFloat [1; 0]%float), (mkArr DFloat []). eexists. eexists. eexists.
  split; [split; [cbn; lia|eexists; split; reflexivity]|].
  split; [vm_compute; reflexivity|].
  split; [reflexivity|]. split; [vm_compute; reflexivity|]. vm_compute. reflexivity.
Qed.
Print Assumptions C15_iir_reset_nan.

(** C16.  Construction: validation, alignment, and what a too long state does. *)
Theorem C16_iir_construction (A : Arith) (a b s : arr A) :
  eqb (@zero A) zero = true ->
  (els a = [] /\ els b = [] -> iir_make a b s = Err IndexError) /\
  (els a <> [] /\ eqb (nth 0 (els a) zero) zero = false -> iir_make a b s = Err ValueError) /\
  ((els a <> [] \/ els b <> []) -> (els a <> [] -> eqb (nth 0 (els a) zero) zero = true) ->
   exists f, iir_make a b s = Ok f /\
     let n := max (length (els a)) (length (els b)) in
     length (ia f) = n /\ length (ib f) = max n (length (els s)) /\ length (is_ f) = max n (length (els s)) /\
     (forall i, nth i (ia f) zero = nth i (els a) zero) /\
     (forall i, nth i (ib f) zero = nth i (els b) zero) /\
     (length (els s) <= n -> forall ops x, x <> [] ->
        exists f' y, iir_filter (fold_left iir_exec ops f) x = (f', Ok y) /\ length y = length x) /\
     (n < length (els s) -> forall x, x <> [] -> iir_filter f x = (f, Err ValueError)) /\
     iir_filter f [] = (f, Err ValueError)).
Proof.
  intros Hz. split; [|split].
  - intros [Ea Eb]. unfold iir_make. rewrite Ea, Eb. reflexivity.
  - intros [Ha E]. unfold iir_make. destruct (els a) as [|a0 a']; [congruence|]. cbn [nth] in E. rewrite E. reflexivity.
  - intros Hne Ha0. destruct (iir_make_ok a b s Hne Ha0 Hz) as (f & E & Ea & Eb & Lb & Ls).
    exists f. split; [exact E|]. cbv zeta. set (n := max (length (els a)) (length (els b))) in *.
    assert (La : length (ia f) = n) by (rewrite Ea; apply length_pad; unfold n; lia).
    assert (Hn : n <> 0).
    { unfold n. destruct Hne as [H|H]; [destruct (els a)|destruct (els b)]; cbn [length]; try congruence; lia. }
    split; [exact La|]. split; [exact Lb|]. split; [exact Ls|].
    split; [intros i; rewrite Ea; apply nth_pad|]. split; [exact Eb|]. split; [|split].
    + intros Hs ops x Hx.
      assert (Hi : iir_inv (fold_left iir_exec ops f)) by (apply iir_fold_inv; eapply iir_make_inv; eassumption).
      destruct (iir_filter_ok _ x Hi Hx) as (s' & y & _ & E' & _ & Hl). eexists _, y. eauto.
    + intros Hs x Hx. apply iir_long_state; [|lia| |exact Hx].
      * intros C. rewrite C in Lb. cbn in Lb. lia.
      * intros C. rewrite C in La. cbn in La. lia.
    + reflexivity.
Qed.
Print Assumptions C16_iir_construction.

Example C16_example :
  let show r := rmap (fun f : iir QA => (idt f, qs (ia f), qs (ib f), qs (is_ f))) r in
  show (@iir_make QA (mkArr DInt [q 0 1; q 1 1]) (mkArr DFloat [q 1 2]) (mkArr DFloat [])) =
  Ok (DFloat, [0 # 1; 1 # 1], [1 # 2; 0 # 1], [0 # 1; 0 # 1])%Q /\
  show (@iir_make QA (mkArr DFloat [q 1 1]) (mkArr DFloat [q 1 2]) (mkArr DFloat [])) = Err ValueError /\
  show (@iir_make QA (mkArr DFloat [q 0 1]) (mkArr DFloat [q 1 2]) (mkArr DFloat [q 1 1; q 2 1])) =
  Ok (DFloat, [0 # 1], [1 # 2; 0 # 1], [1 # 1; 2 # 1])%Q /\
  match @iir_make QA (mkArr DFloat [q 0 1]) (mkArr DFloat [q 1 2]) (mkArr DFloat [q 1 1; q 2 1]) with
  | Ok f => rqs (snd (iir_filter f [q 1 1])) = Err ValueError | Err _ => False end.
Proof. repeat split; vm_compute; reflexivity. Qed.

(** C17.  With a zero recursive part an IirFilter is the FirFilter of b. *)
Theorem C17_iir_zero_a_is_fir (A : Arith) (L : Laws A) dt (a b s x : list A) :
  b <> [] -> length a = length b -> length s = length b -> Forall (fits dt) s ->
  (forall i, nth i a zero = zero) ->
  snd (iir_filter (mkIir dt a b s) x) = snd (fir_filter (mkFir dt b s) x) /\
  is_ (fst (iir_filter (mkIir dt a b s) x)) = fs (fst (fir_filter (mkFir dt b s) x)).
Proof.
  intros Hb Ha Hs Ts Hz. destruct x as [|v x]; [split; reflexivity|].
  rewrite iir_filter_run by (exact Hb || discriminate). cbn [idt ia ib is_].
  rewrite (iir_run_fir A L) by assumption.
  unfold fir_filter. cbn [length Nat.eqb fb fdt fs]. destruct b as [|b0 b']; [congruence|].
  destruct (run _ _ _); split; reflexivity.
Qed.
Print Assumptions C17_iir_zero_a_is_fir.

Example C17_example :
  rqs (snd (iir_filter (@mkIir QA DFloat [q 0 1; q 0 1] [q 1 2; q 3 1] [q 1 1; q 7 1]) [q 2 1; q 5 1])) = Ok [4 # 1; 17 # 2]%Q /\
  rqs (snd (fir_filter (@mkFir QA DFloat [q 1 2; q 3 1] [q 1 1; q 7 1]) [q 2 1; q 5 1])) = Ok [4 # 1; 17 # 2]%Q.
Proof. split; vm_compute; reflexivity. Qed.
