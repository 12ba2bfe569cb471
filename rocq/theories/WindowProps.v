(** Properties C32-C33: WindowFilter. *)
From Coq Require Import List Arith ZArith Lia Bool String Reals Lra QArith Qcanon Floats.
From Verif Require Import Base BaseLemmas PyString Instances CalculusModel CalculusProps WindowModel.
Import ListNotations.
Set Asymmetric Patterns.
Close Scope Q_scope. Close Scope R_scope. Close Scope string_scope. Open Scope nat_scope.

(** C32. *)
Theorem C32_window_product (O : OArith) (b x : list O) :
  length x = length b ->
  exists y, window_filter b (Vec x) = (b, Ok y) /\ length y = length b /\
    forall n, n < length b -> nth n y zero = mul (nth n b zero) (nth n x zero).
Proof.
  intros H. eexists. cbn [window_filter]. rewrite H, Nat.eqb_refl. split; [reflexivity|].
  rewrite length_map2. split; [lia|]. intros n Hn. apply nth_map2; lia.
Qed.
Print Assumptions C32_window_product.
Example C32_example : rqs (snd (@window_filter QO [q 1 2; q 1 1; q 1 2] (Vec [q 3 1; q (-1) 1; q 5 1]))) = Ok [3 # 2; -1; 5 # 2]%Q.
Proof. vm_compute. reflexivity. Qed.

Theorem C32_window_rejects (O : OArith) (b : list O) (a : nd O) :
  match a with Vec x => length x <> length b | Other _ _ => True end ->
  window_filter b a = (b, Err ValueError).
Proof.
  destruct a as [x|r n]; intros H; [|reflexivity]. cbn [window_filter].
  destruct (Nat.eqb_spec (length x) (length b)); [congruence|reflexivity].
Qed.
Print Assumptions C32_window_rejects.
Example C32_reject_example : snd (@window_filter QO [q 1 2; q 1 1] (Vec [q 3 1])) = Err ValueError /\
  snd (@window_filter QO [q 1 2; q 1 1] (Other 2 2)) = Err ValueError.
Proof. split; reflexivity. Qed.

(** Calls are independent: the result of a call does not depend on the calls before it. *)
Theorem C32_window_stateless (O : OArith) (b : list O) (calls : list (nd O)) (a : nd O) :
  window_filter (fold_left (fun b c => fst (window_filter b c)) calls b) a = window_filter b a.
Proof.
  f_equal. induction calls as [|c calls IH]; [reflexivity|]. cbn [fold_left].
  destruct c as [x|r n]; [|exact IH]. cbn [window_filter]. destruct (negb _); exact IH.
Qed.
Print Assumptions C32_window_stateless.
Example C32_stateless_example : rqs (snd (window_filter (fold_left (fun b c => fst (@window_filter QO b c))
   [Vec [q 1 1]; Vec [q 1 1; q 2 1]; Other 3 2] [q 1 2; q 1 3]) (Vec [q 6 1; q 6 1]))) = Ok [3; 2]%Q.
Proof. vm_compute. reflexivity. Qed.

(** The constructor accepts exactly the four styles (any case) and non-negative orders. *)
Theorem C32_window_constructor (O : OArith) (gw : string -> nat -> list O) style order normal :
  (window_make gw style order normal = Err ValueError <->
     (~ In (py_title style) ["Blackman"; "Hamming"; "Hann"; "Kaiser"]%string \/ (order < 0)%Z)) /\
  (forall e, window_make gw style order normal = Err e -> e = ValueError).
Proof.
  unfold window_make. destruct (mem_str (py_title style) window_styles) eqn:E; cbn [negb].
  - apply mem_str_iff in E. destruct (Z.ltb_spec order 0).
    + split; [split; auto|congruence].
    + split; [|discriminate]. split; [discriminate|]. intros [C|C]; [contradiction C|lia].
  - split; [|congruence]. split; [|reflexivity]. intros _. left. intros C. apply mem_str_iff in C. unfold window_styles in E. congruence.
Qed.
Print Assumptions C32_window_constructor.
Example C32_constructor_example : @window_make QO (fun _ n => repeat (q 1 1) n) "hann"%string (-1) true = Err ValueError /\
  @window_make QO (fun _ n => repeat (q 1 1) n) "hAmmING"%string 1 false = Ok [q 1 1; q 1 1].
Proof. split; reflexivity. Qed.

(** C33.  Specification: mean magnitude. *)
Definition mean_magnitude (b : list R) : R := (fold_right Rplus 0 (map Rabs b) / INR (length b))%R.

Lemma sum_RA (l : list R) : @Base.sum RA l = fold_right Rplus 0%R l.
Proof.
  etransitivity; [apply (law_sum RA_laws)|]. induction l as [|a l IH]; [reflexivity|].
  cbn [length fold_right]. etransitivity; [apply (bigsum_S_l RA RA_laws)|].
  exact (f_equal (Rplus a) IH).
Qed.

Lemma fold_scale (k : R) (l : list R) : fold_right Rplus 0%R (map (fun v => (v * k)%R) l) = (fold_right Rplus 0%R l * k)%R.
Proof. induction l as [|a l IH]; cbn; [ring|]. rewrite IH. ring. Qed.
Lemma fold_abs_pos (l : list R) : (0 <= fold_right Rplus 0 (map Rabs l))%R.
Proof. induction l as [|a l IH]; cbn; [lra|]. pose proof (Rabs_pos a). lra. Qed.
Lemma fold_abs_zero (l : list R) : fold_right Rplus 0%R (map Rabs l) = 0%R <-> Forall (fun v => v = 0%R) l.
Proof.
  split.
  - induction l as [|a l IH]; intros H; [constructor|]. cbn in H.
    pose proof (Rabs_pos a). pose proof (fold_abs_pos l). constructor.
    + destruct (Req_dec a 0) as [C|C]; [exact C|]. pose proof (Rabs_pos_lt a C). lra.
    + apply IH. lra.
  - induction 1 as [|a l H _ IH]; cbn; [reflexivity|]. rewrite IH, H, Rabs_R0. ring.
Qed.

(** get_window returns as many points as asked for. *)
Definition window_sized {O : OArith} (gw : string -> nat -> list O) : Prop := forall w n, length (gw w n) = n.

Theorem C33_window_mean_one (gw : string -> nat -> list R) style order b :
  @window_sized RO gw -> @window_make RO gw style order true = Ok b ->
  ~ Forall (fun v => v = 0%R) (gw (py_lower (py_title style)) (Z.to_nat (order + 1))) ->
  mean_magnitude b = 1%R /\ length b = Z.to_nat (order + 1) /\
  (* the shape is that of the raw window *)
  exists k, (0 < k)%R /\ b = map (fun v => (v * k)%R) (gw (py_lower (py_title style)) (Z.to_nat (order + 1))).
Proof.
  intros Hsz E Hnz. unfold window_make in E. destruct (negb _); [discriminate|].
  destruct (Z.ltb_spec order 0); [discriminate|].
  remember (gw (py_lower (py_title style)) (Z.to_nat (order + 1))) as w eqn:Ew.
  assert (Hw : length w = Z.to_nat (order + 1)) by (subst w; apply Hsz).
  injection E as E.
  set (S := fold_right Rplus 0%R (map Rabs w)).
  assert (HS : (0 < S)%R).
  { destruct (fold_abs_pos w) as [C|C]; [exact C|]. exfalso. apply Hnz, fold_abs_zero. symmetry. exact C. }
  set (k := (IZR (order + 1) / S)%R).
  assert (Hk : (0 < k)%R) by (unfold k; apply Rdiv_lt_0_compat; [apply IZR_lt; lia|exact HS]).
  assert (Eb : b = map (fun v => (v * k)%R) w).
  { rewrite <- E. unfold window_normal. apply map_ext. intros v. cbn [mul RO oa RA]. f_equal. unfold k, S.
    cbn [div RA oa RO]. f_equal; [apply of_Z_IZR|apply sum_RA]. }
  split; [|split; [rewrite Eb, map_length; exact Hw|exists k; split; [exact Hk|exact Eb]]].
  unfold mean_magnitude. rewrite Eb, map_length, map_map, Hw.
  rewrite (map_ext (fun v => Rabs (v * k)) (fun v => (Rabs v * k)%R)) by (intros; rewrite Rabs_mult, (Rabs_pos_eq k) by lra; reflexivity).
  rewrite <- (map_map Rabs (fun v => (v * k)%R)), fold_scale. fold S. unfold k.
  rewrite INR_IZR_INZ, Z2Nat.id by lia. assert (IZR (order + 1) <> 0%R) by (apply not_0_IZR; lia).
  field. split; lra.
Qed.
Print Assumptions C33_window_mean_one.

(** The cosine windows of scipy.signal (general_cosine, symmetric, n points; a single
    point is 1): contract of get_window for three of the four styles. *)
Definition cosine_angle (n i : nat) : R := (- PI + 2 * PI * INR i / INR (n - 1))%R.
Definition cosine_point (w : string) (a : R) : R :=
  if String.eqb w "hann" then (1/2 + 1/2 * cos a)%R
  else if String.eqb w "hamming" then (54/100 + 46/100 * cos a)%R
  else (42/100 + 1/2 * cos a + 8/100 * cos (2 * a))%R.
Definition cosine_window (w : string) (n : nat) : list R :=
  if n <=? 1 then repeat 1%R n else map (fun i => cosine_point w (cosine_angle n i)) (seq 0 n).

Lemma cosine_window_length w n : length (cosine_window w n) = n.
Proof. unfold cosine_window. destruct (n <=? 1); [apply repeat_length|]. rewrite map_length, seq_length. reflexivity. Qed.

Lemma cos_gt_m1 a : (- PI < a <= 0)%R -> (-1 < cos a)%R.
Proof.
  intros H. pose proof PI_RGT_0. rewrite <- cos_neg, <- cos_PI. apply cos_decreasing_1; lra.
Qed.

(** Raw Hann and Blackman windows are identically zero exactly for order 1 (two points),
    the Hamming window never is. *)
Lemma zero_windows n : 1 <= n ->
  (Forall (fun v => v = 0%R) (cosine_window "hann" n) <-> n = 2) /\
  (Forall (fun v => v = 0%R) (cosine_window "blackman" n) <-> n = 2) /\
  ~ Forall (fun v => v = 0%R) (cosine_window "hamming" n).
Proof.
  intros Hn. assert (H2 : n = 1 \/ n = 2 \/ 3 <= n) by lia. destruct H2 as [E|[E|H3]].
  - subst n. repeat split; try lia; intros H; inversion H; lra.
  - subst n. unfold cosine_window. change (2 <=? 1) with false. cbv iota.
    assert (E0 : cosine_angle 2 0 = (- PI)%R) by (unfold cosine_angle; cbn; field).
    assert (E1 : cosine_angle 2 1 = PI%R) by (unfold cosine_angle; cbn; field).
    cbn [seq map]. rewrite E0, E1. unfold cosine_point. cbn [String.eqb Ascii.eqb Bool.eqb].
    rewrite cos_neg, cos_PI. replace (2 * - PI)%R with (- (2 * PI))%R by ring. rewrite cos_neg, cos_2PI.
    repeat split; auto.
    + intros _. repeat constructor; lra.
    + intros _. repeat constructor; lra.
    + intros H. inversion H; lra.
  - unfold cosine_window. destruct (Nat.leb_spec n 1); [lia|].
    assert (Hc : (-1 < cos (cosine_angle n 1))%R).
    { apply cos_gt_m1. unfold cosine_angle. pose proof PI_RGT_0. cbn [INR]. rewrite Rmult_1_r.
      assert (2 <= INR (n - 1))%R by (replace 2%R with (INR 2) by reflexivity; apply le_INR; lia).
      assert (0 < 2 * PI / INR (n - 1))%R by (apply Rdiv_lt_0_compat; lra).
      assert (2 * PI / INR (n - 1) <= PI)%R.
      { apply (Rmult_le_reg_r (INR (n - 1))); [lra|]. unfold Rdiv. rewrite Rmult_assoc, Rinv_l by lra. nra. }
      lra. }
    pose proof (COS_bound (cosine_angle n 1)) as [_ Hc1].
    assert (Hin : forall w, In (cosine_point w (cosine_angle n 1)) (map (fun i => cosine_point w (cosine_angle n i)) (seq 0 n))).
    { intros w. apply in_map_iff. exists 1. split; [reflexivity|]. apply in_seq. lia. }
    repeat split; try lia; intros HF; rewrite Forall_forall in HF; specialize (HF _ (Hin _)); exfalso;
      unfold cosine_point in HF; cbn [String.eqb Ascii.eqb Bool.eqb] in HF; rewrite ?cos_2a_cos in HF; nra.
Qed.
(** A window built without normalisation is identically zero exactly when it is Hann or
    Blackman of order 1, whatever get_window is, as long as it meets the contract. *)
Theorem C33_zero_windows (gw : string -> nat -> list R) style order b :
  (forall w n, In w ["hann"; "hamming"; "blackman"]%string -> gw w n = cosine_window w n) ->
  In (py_title style) ["Hann"; "Hamming"; "Blackman"]%string -> @window_make RO gw style order false = Ok b ->
  Forall (fun v => v = 0%R) b <-> order = 1%Z /\ py_title style <> "Hamming"%string.
Proof.
  intros Hg Hs E. unfold window_make in E. destruct (negb _); [discriminate|]. destruct (Z.ltb_spec order 0); [discriminate|].
  assert (Eb : b = gw (py_lower (py_title style)) (Z.to_nat (order + 1))) by congruence. rewrite Eb. clear E Eb.
  destruct (zero_windows (Z.to_nat (order + 1)) ltac:(lia)) as (Z1 & Z2 & Z3).
  destruct Hs as [<-|[<-|[<-|[]]]]; rewrite Hg by (cbn; tauto).
  - change (py_lower "Hann") with "hann"%string. rewrite Z1. split; [intros; split; [lia|discriminate]|intros [? _]; lia].
  - change (py_lower "Hamming") with "hamming"%string. split; [intros F; contradiction|intros [_ F]; contradiction F; reflexivity].
  - change (py_lower "Blackman") with "blackman"%string. rewrite Z2. split; [intros; split; [lia|discriminate]|intros [? _]; lia].
Qed.
Print Assumptions C33_zero_windows.

Example C33_example : exists b, @window_make RO cosine_window "Hann"%string 2 true = Ok b /\ mean_magnitude b = 1%R.
Proof.
  eexists. split; [reflexivity|].
  apply (C33_window_mean_one cosine_window "Hann"%string 2 _ cosine_window_length eq_refl).
  intros C. apply (proj1 (zero_windows 3 ltac:(lia))) in C. discriminate.
Qed.

(** So normalisation fails there: no multiple of the window the constructor starts from has
    mean magnitude one, and what it returns has not (0/0 is nan in numpy, 0 here). *)
Theorem C33_hann_order_1_refuted (gw : string -> nat -> list R) :
  (forall w n, In w ["hann"; "hamming"; "blackman"]%string -> gw w n = cosine_window w n) ->
  exists raw b, @window_make RO gw "Hann"%string 1 false = Ok raw /\ @window_make RO gw "Hann"%string 1 true = Ok b /\
    mean_magnitude b <> 1%R /\ ~ exists k, mean_magnitude (map (fun v => (v * k)%R) raw) = 1%R.
Proof.
  intros Hg. set (raw := gw "hann"%string 2).
  assert (HF : Forall (fun v => v = 0%R) raw) by (unfold raw; rewrite Hg by (cbn; tauto); apply zero_windows; lia).
  assert (N : forall k, mean_magnitude (map (fun v => (v * k)%R) raw) <> 1%R).
  { intros k H. assert (HF2 : Forall (fun v => v = 0%R) (map (fun v => (v * k)%R) raw)).
    { apply Forall_forall. intros v Hv. apply in_map_iff in Hv. destruct Hv as (u & Eu & Hu).
      rewrite Forall_forall in HF. rewrite (HF u Hu) in Eu. subst v. ring. }
    apply fold_abs_zero in HF2. unfold mean_magnitude in H. rewrite HF2 in H. lra. }
  exists raw. eexists. split; [reflexivity|]. split; [reflexivity|]. split.
  - eapply N.
  - intros [k H]. exact (N k H).
Qed.
Print Assumptions C33_hann_order_1_refuted.

(** IEEE: the Hann window of order 1 becomes NaN; the Blackman window of order 1, whose two
    raw points are the rounding error of 0.42 - 0.5 + 0.08, becomes [-1, -1]. *)
Definition scipy_two_points (w : string) (n : nat) : list float :=
  if String.eqb w "hann" then [0.5 * 1 + 0.5 * -1; 0.5 * 1 + 0.5 * -1]%float
  else [0.42 * 1 + 0.5 * -1 + 0.08 * 1; 0.42 * 1 + 0.5 * -1 + 0.08 * 1]%float.
Example C33_float_order_1 :
  fls (@window_make FO scipy_two_points "Hann"%string 1 true) = Ok [nan; nan] /\
  fls (@window_make FO scipy_two_points "Blackman"%string 1 true) = Ok [-1; -1]%float.
Proof. split; vm_compute; reflexivity. Qed.
