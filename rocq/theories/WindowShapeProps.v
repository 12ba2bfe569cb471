(** The windows WindowFilter applies, when scipy.signal.get_window follows its documented
    formulae (FirwinModel.window_point, with the modified Bessel function I0 as its power
    series): symmetric, rising to the middle, between 0 and 1, with known ends. *)
From Coq Require Import String List Arith ZArith Bool Reals Lra Lia.
From Coquelicot Require Import Coquelicot.
From Verif Require Import Base BaseLemmas PyString Instances CalculusModel CalculusProps FirwinModel FirwinProps WindowModel WindowProps.
Import ListNotations.
Open Scope R_scope.

(** I0(x) = sum over k of (x^2/4)^k / (k!)^2. *)
Definition i0_coef (k : nat) : R := / (4 ^ k * (INR (fact k) * INR (fact k))).
Definition bessel_i0 (x : R) : R := PSeries i0_coef (x * x).

Lemma fact_ge1 k : 1 <= INR (fact k).
Proof. replace 1 with (INR 1) by reflexivity. apply le_INR. pose proof (lt_O_fact k). lia. Qed.
Lemma i0_coef_pos k : 0 < i0_coef k.
Proof.
  unfold i0_coef. apply Rinv_0_lt_compat. pose proof (fact_ge1 k). apply Rmult_lt_0_compat; [apply pow_lt; lra|nra].
Qed.
Lemma i0_coef_le k : i0_coef k <= / INR (fact k).
Proof.
  unfold i0_coef. pose proof (fact_ge1 k). assert (1 <= 4 ^ k) by (apply pow_R1_Rle; lra).
  apply Rinv_le_contravar; [lra|]. assert (INR (fact k) <= INR (fact k) * INR (fact k)) by nra.
  assert (0 <= INR (fact k) * INR (fact k)) by nra. nra.
Qed.
Lemma i0_ex y : 0 <= y -> ex_series (fun k => i0_coef k * y ^ k).
Proof.
  intros Hy. apply (ex_series_le (K := R_AbsRing) (V := R_CompleteNormedModule) _ (fun k => / INR (fact k) * y ^ k)).
  - intros n. change (Rabs (i0_coef n * y ^ n) <= / INR (fact n) * y ^ n).
    pose proof (i0_coef_pos n). pose proof (i0_coef_le n). pose proof (pow_le y n Hy).
    rewrite Rabs_pos_eq by nra. apply Rmult_le_compat_r; assumption.
  - exists (exp y). pose proof (is_exp_Reals y) as H. apply is_pseries_R in H. exact H.
Qed.
Lemma i0_0 : bessel_i0 0 = 1.
Proof.
  unfold bessel_i0. rewrite Rmult_0_l, PSeries_0. unfold i0_coef. cbn. field.
Qed.
Lemma i0_lt y z : 0 <= y < z -> PSeries i0_coef y < PSeries i0_coef z.
Proof.
  intros [Hy Hz]. unfold PSeries. rewrite (Series_incr_n _ 2) by (try lia; apply i0_ex; lra).
  rewrite (Series_incr_n (fun k => i0_coef k * z ^ k) 2) by (try lia; apply i0_ex; lra).
  cbn [Init.Nat.pred sum_f_R0].
  assert (Series (fun k => i0_coef (2 + k) * y ^ (2 + k)) <= Series (fun k => i0_coef (2 + k) * z ^ (2 + k))).
  { apply Series_le.
    - intros n. pose proof (i0_coef_pos (2 + n)). pose proof (pow_le y (2 + n) Hy). split; [nra|].
      apply Rmult_le_compat_l; [lra|]. apply pow_incr. lra.
    - apply (ex_series_incr_n (K := R_AbsRing) (V := R_NormedModule) (fun k => i0_coef k * z ^ k) 2). apply i0_ex. lra. }
  pose proof (i0_coef_pos 1). cbn [pow]. cbn [Init.Nat.add] in *. nra.
Qed.
Lemma i0_mono x y : 0 <= x -> x < y -> bessel_i0 x < bessel_i0 y.
Proof. intros Hx Hy. unfold bessel_i0. apply i0_lt. nra. Qed.
Lemma i0_ge1 x : 0 <= x -> 1 <= bessel_i0 x.
Proof. intros [H|<-]; [|rewrite i0_0; lra]. rewrite <- i0_0. left. apply i0_mono; lra. Qed.

(** What get_window(window, n, False) documents. *)
Definition documented (gw : string -> nat -> list R) : Prop :=
  forall w n, gw w n = map (window_point bessel_i0 w n) (seq 0 n).

(** The value of a window at its two ends. *)
Definition end_value (style : string) : R :=
  if String.eqb style "hamming" then 8 / 100
  else if String.eqb style "kaiser" then / bessel_i0 7 else 0.

Definition angle (M i : nat) : R := - PI + INR i * (2 * PI / INR (M - 1)).
Lemma cs2 a b M i : cosine_sum [a; b] M i = a + b * cos (angle M i).
Proof. unfold cosine_sum, angle. cbn. rewrite Rmult_0_l, cos_0, !Rmult_1_l. ring. Qed.
Lemma cs3 a b c M i : cosine_sum [a; b; c] M i = a - c + b * cos (angle M i) + 2 * c * cos (angle M i) ^ 2.
Proof.
  unfold cosine_sum. fold (angle M i). cbn [length seq combine map fold_right fst snd INR].
  rewrite Rmult_0_l, cos_0, Rmult_1_l. replace ((1 + 1) * angle M i) with (2 * angle M i) by ring. rewrite cos_2a_cos. ring.
Qed.
Lemma angle_cos_lt M i j : (2 <= M)%nat -> (i < j)%nat -> (2 * j <= M - 1)%nat -> cos (angle M i) < cos (angle M j).
Proof.
  intros HM Hi Hj. pose proof PI_RGT_0. assert (D : 0 < INR (M - 1)) by (apply lt_0_INR; lia).
  assert (P : 0 < 2 * PI / INR (M - 1)) by (apply Rdiv_lt_0_compat; lra).
  assert (A : INR i < INR j) by (apply lt_INR; exact Hi). assert (B : 0 <= INR i) by apply pos_INR.
  assert (E : INR j * (2 * PI / INR (M - 1)) <= PI).
  { apply (Rmult_le_reg_r (INR (M - 1))); [exact D|].
    replace (INR j * (2 * PI / INR (M - 1)) * INR (M - 1)) with (2 * INR j * PI) by (field; lra).
    assert (2 * INR j <= INR (M - 1)) by (replace 2 with (INR 2) by reflexivity; rewrite <- mult_INR; apply le_INR, Hj). nra. }
  rewrite <- (cos_neg (angle M i)), <- (cos_neg (angle M j)). unfold angle. apply cos_decreasing_1; nra.
Qed.
Lemma angle_cos_sym M i : (2 <= M)%nat -> (i <= M - 1)%nat -> cos (angle M (M - 1 - i)) = cos (angle M i).
Proof.
  intros HM Hi. rewrite <- (cos_neg (angle M i)). f_equal. unfold angle. rewrite minus_INR by exact Hi.
  field. apply not_0_INR. lia.
Qed.
Lemma angle_mid M i : (2 <= M)%nat -> (2 * i = M - 1)%nat -> angle M i = 0.
Proof.
  intros HM Hi. unfold angle. rewrite <- Hi, mult_INR. cbn [INR]. field. apply not_0_INR. lia.
Qed.
Lemma angle_0 M : angle M 0 = - PI.
Proof. unfold angle. cbn [INR]. ring. Qed.

Definition kt (M i : nat) : R := 1 - ((INR i - INR (M - 1) / 2) / (INR (M - 1) / 2)) ^ 2.
Lemma kt_form M i : (2 <= M)%nat -> kt M i = 4 * INR i * (INR (M - 1) - INR i) / INR (M - 1) ^ 2.
Proof. intros HM. unfold kt. field. apply not_0_INR. lia. Qed.
Lemma kt_range M i : (2 <= M)%nat -> (i <= M - 1)%nat -> 0 <= kt M i <= 1.
Proof.
  intros HM Hi. split; [|unfold kt; assert (H := pow2_ge_0 ((INR i - INR (M - 1) / 2) / (INR (M - 1) / 2))); lra].
  rewrite kt_form by exact HM. assert (D : 0 < INR (M - 1)) by (apply lt_0_INR; lia).
  assert (INR i <= INR (M - 1)) by (apply le_INR, Hi). pose proof (pos_INR i).
  apply Rmult_le_pos; [nra|]. left. apply Rinv_0_lt_compat, pow_lt, D.
Qed.
Lemma kt_lt M i j : (2 <= M)%nat -> (i < j)%nat -> (2 * j <= M - 1)%nat -> kt M i < kt M j.
Proof.
  intros HM Hi Hj. rewrite !kt_form by exact HM. assert (D : 0 < INR (M - 1)) by (apply lt_0_INR; lia).
  assert (A : INR i < INR j) by (apply lt_INR; exact Hi).
  assert (2 * INR j <= INR (M - 1)) by (replace 2 with (INR 2) by reflexivity; rewrite <- mult_INR; apply le_INR, Hj).
  apply Rmult_lt_compat_r; [apply Rinv_0_lt_compat, pow_lt, D|]. nra.
Qed.
Lemma kt_sym M i : (2 <= M)%nat -> (i <= M - 1)%nat -> kt M (M - 1 - i) = kt M i.
Proof. intros HM Hi. rewrite !kt_form by exact HM. rewrite minus_INR by exact Hi. f_equal. ring. Qed.
Lemma kaiser_kt M i : kaiser bessel_i0 M i = bessel_i0 (7 * sqrt (kt M i)) / bessel_i0 7.
Proof. reflexivity. Qed.
Lemma i0_7 : 0 < bessel_i0 7.
Proof. assert (H := i0_ge1 7 ltac:(lra)). lra. Qed.

Definition known (w : string) : Prop := In w ["blackman"; "hamming"; "hann"; "kaiser"]%string.
Lemma by_style (P : R -> R -> Prop) w M i j : known w -> (2 <= M)%nat ->
  P (kaiser bessel_i0 M i) (kaiser bessel_i0 M j) ->
  P (5 / 10 + 5 / 10 * cos (angle M i)) (5 / 10 + 5 / 10 * cos (angle M j)) ->
  P (54 / 100 + 46 / 100 * cos (angle M i)) (54 / 100 + 46 / 100 * cos (angle M j)) ->
  P (34 / 100 + 50 / 100 * cos (angle M i) + 16 / 100 * cos (angle M i) ^ 2)
    (34 / 100 + 50 / 100 * cos (angle M j) + 16 / 100 * cos (angle M j) ^ 2) ->
  P (window_point bessel_i0 w M i) (window_point bessel_i0 w M j).
Proof.
  intros Hw HM P1 P2 P3 P4. unfold window_point. destruct (Nat.leb_spec M 1); [lia|].
  destruct Hw as [<-|[<-|[<-|[<-|[]]]]]; cbn [String.eqb Ascii.eqb Bool.eqb]; rewrite ?cs2, ?cs3; try assumption.
  replace (42 / 100 - 8 / 100) with (34 / 100) by lra. replace (2 * (8 / 100)) with (16 / 100) by lra. exact P4.
Qed.
Lemma point_lt w M i j : known w -> (2 <= M)%nat -> (i < j)%nat -> (2 * j <= M - 1)%nat ->
  window_point bessel_i0 w M i < window_point bessel_i0 w M j.
Proof.
  intros Hw HM Hi Hj. pose proof (angle_cos_lt M i j HM Hi Hj). pose proof (COS_bound (angle M i)). pose proof (COS_bound (angle M j)).
  apply by_style with (P := Rlt); try assumption; try nra.
  rewrite !kaiser_kt. apply Rmult_lt_compat_r; [apply Rinv_0_lt_compat, i0_7|].
  pose proof (kt_lt M i j HM Hi Hj). pose proof (kt_range M i HM ltac:(lia)). pose proof (kt_range M j HM ltac:(lia)).
  apply i0_mono; [apply Rmult_le_pos; [lra|apply sqrt_pos]|]. apply Rmult_lt_compat_l; [lra|]. apply sqrt_lt_1; lra.
Qed.
Lemma point_sym w M i : known w -> (2 <= M)%nat -> (i <= M - 1)%nat -> window_point bessel_i0 w M (M - 1 - i) = window_point bessel_i0 w M i.
Proof.
  intros Hw HM Hi. apply by_style with (P := eq); try assumption; rewrite ?angle_cos_sym by assumption; try reflexivity.
  rewrite !kaiser_kt, kt_sym by assumption. reflexivity.
Qed.
Lemma point_mid w M i : known w -> (2 <= M)%nat -> (2 * i = M - 1)%nat -> window_point bessel_i0 w M i = 1.
Proof.
  intros Hw HM Hi. apply by_style with (P := fun x _ => x = 1) (j := i); try assumption; rewrite ?angle_mid, ?cos_0 by assumption; try lra.
  rewrite kaiser_kt. assert (E : kt M i = 1).
  { rewrite kt_form by exact HM. rewrite <- Hi, mult_INR. cbn [INR]. field. apply not_0_INR. lia. }
  rewrite E, sqrt_1, Rmult_1_r. apply Rinv_r. pose proof i0_7. lra.
Qed.
Lemma point_end w M : known w -> (2 <= M)%nat -> window_point bessel_i0 w M 0 = end_value w.
Proof.
  intros Hw HM. unfold window_point, end_value. destruct (Nat.leb_spec M 1); [lia|].
  destruct Hw as [<-|[<-|[<-|[<-|[]]]]]; cbn [String.eqb Ascii.eqb Bool.eqb]; rewrite ?cs2, ?cs3, ?angle_0, ?cos_neg, ?cos_PI; try lra.
  rewrite kaiser_kt. assert (E : kt M 0 = 0).
  { rewrite kt_form by exact HM. cbn [INR]. unfold Rdiv. ring. }
  rewrite E, sqrt_0, Rmult_0_r, i0_0. unfold Rdiv. ring.
Qed.
Lemma end_range w : known w -> 0 <= end_value w <= 1.
Proof.
  pose proof (i0_ge1 7 ltac:(lra)). intros [<-|[<-|[<-|[<-|[]]]]]; unfold end_value; cbn [String.eqb Ascii.eqb Bool.eqb]; try lra.
  split; [left; apply Rinv_0_lt_compat; lra|]. rewrite <- Rinv_1. apply Rinv_le_contravar; lra.
Qed.
Lemma point_range w M i : known w -> (2 <= M)%nat -> (i <= M - 1)%nat -> end_value w <= window_point bessel_i0 w M i <= 1.
Proof.
  intros Hw HM.
  assert (L : forall i, (2 * i <= M - 1)%nat -> end_value w <= window_point bessel_i0 w M i).
  { intros k Hk. rewrite <- (point_end w M Hw HM). destruct (Nat.eq_dec k 0) as [->|]; [lra|]. left. apply point_lt; try assumption; lia. }
  intros Hi. split.
  - destruct (le_lt_dec (2 * i) (M - 1)); [auto|]. rewrite <- point_sym by assumption. apply L. lia.
  - pose proof (COS_bound (angle M i)). apply by_style with (P := fun x _ => x <= 1) (j := i); try assumption; try nra.
    rewrite kaiser_kt. pose proof i0_7. pose proof (kt_range M i HM Hi).
    apply (Rmult_le_reg_r (bessel_i0 7)); [assumption|]. unfold Rdiv. rewrite Rmult_assoc, Rinv_l, Rmult_1_r, Rmult_1_l by lra.
    assert (Q : sqrt (kt M i) <= 1) by (rewrite <- sqrt_1; apply sqrt_le_1; lra).
    destruct Q as [Q|Q]; [|rewrite Q, Rmult_1_r; lra]. left. apply i0_mono; [apply Rmult_le_pos; [lra|apply sqrt_pos]|lra].
Qed.

Lemma known_style style : mem_str (py_title style) window_styles = true -> known (py_lower (py_title style)).
Proof. intros H. apply mem_str_iff in H. destruct H as [<-|[<-|[<-|[<-|[]]]]]; cbn; tauto. Qed.
Lemma make_raw gw style order b : documented gw -> @window_make RO gw style order false = Ok b ->
  known (py_lower (py_title style)) /\ (0 <= order)%Z /\
  b = map (window_point bessel_i0 (py_lower (py_title style)) (S (Z.to_nat order))) (seq 0 (S (Z.to_nat order))).
Proof.
  intros Hg E. unfold window_make in E. destruct (mem_str (py_title style) window_styles) eqn:Em; [|discriminate].
  destruct (Z.ltb_spec order 0); [discriminate|]. split; [apply known_style, Em|]. split; [assumption|].
  cbn [negb] in E. rewrite Hg in E. replace (Z.to_nat (order + 1)) with (S (Z.to_nat order)) in E by lia. congruence.
Qed.

(** A window without normalisation, of order n (n + 1 points). *)
Theorem C186_window_shape gw style order b : documented gw -> @window_make RO gw style order false = Ok b ->
  let n := Z.to_nat order in let at_ i := nth i b 0 in
  length b = S n /\
  (forall i, (i <= n)%nat -> at_ (n - i)%nat = at_ i) /\
  (forall i j, (i < j)%nat -> (2 * j <= n)%nat -> at_ i < at_ j) /\
  (forall i, (i <= n)%nat -> 0 <= at_ i <= 1) /\
  (forall i, (2 * i = n)%nat -> at_ i = 1) /\
  ((1 <= n)%nat -> at_ 0%nat = end_value (py_lower (py_title style)) /\
     forall i, (i <= n)%nat -> at_ 0%nat <= at_ i).
Proof.
  intros Hg E n at_. destruct (make_raw _ _ _ _ Hg E) as (Hk & Ho & Eb). fold n in Eb. set (w := py_lower (py_title style)) in *.
  assert (A : forall i, (i <= n)%nat -> at_ i = window_point bessel_i0 w (S n) i).
  { intros i Hi. unfold at_. rewrite Eb. rewrite nth_indep with (d' := window_point bessel_i0 w (S n) 0) by (rewrite map_length, seq_length; lia).
    rewrite map_nth, seq_nth by lia. reflexivity. }
  split; [rewrite Eb, map_length, seq_length; reflexivity|]. destruct (Nat.eq_dec n 0) as [N0|N0].
  { assert (A0 : at_ 0%nat = 1) by (rewrite A by lia; unfold window_point; rewrite N0; reflexivity).
    repeat split; intros; try lia; try (replace i with 0%nat by lia; rewrite A0; lra). f_equal. lia. }
  assert (HM : (2 <= S n)%nat) by lia. pose proof (end_range w Hk).
  split; [intros i Hi; rewrite !A by lia; replace (n - i)%nat with (S n - 1 - i)%nat by lia; apply point_sym; try assumption; lia|].
  split; [intros i j Hi Hj; rewrite !A by lia; apply point_lt; try assumption; lia|].
  split; [intros i Hi; rewrite A by lia; destruct (point_range w (S n) i Hk HM ltac:(lia)); lra|].
  split; [intros i Hi; rewrite A by lia; apply point_mid; try assumption; lia|].
  intros _. rewrite (A 0%nat) by lia. rewrite point_end by assumption. split; [reflexivity|].
  intros i Hi. rewrite A by lia. apply point_range; try assumption; lia.
Qed.
Print Assumptions C186_window_shape.

Lemma sum_bound (l : list R) : Forall (fun v => 0 <= v <= 1) l ->
  0 <= fold_right Rplus 0 (map Rabs l) <= INR (length l).
Proof.
  induction 1 as [|x l Hx H IH]; [cbn; lra|]. cbn [map fold_right length]. rewrite S_INR, Rabs_pos_eq by lra. lra.
Qed.
Lemma sum_strict (l : list R) x : Forall (fun v => 0 <= v <= 1) l -> In x l -> x < 1 ->
  fold_right Rplus 0 (map Rabs l) < INR (length l).
Proof.
  induction 1 as [|y l Hy H IH]; intros Hi Hx; [contradiction|]. pose proof (sum_bound l H). cbn [map fold_right length].
  rewrite S_INR, Rabs_pos_eq by lra. destruct Hi as [->|Hi]; [lra|]. specialize (IH Hi Hx). lra.
Qed.

(** Normalisation raises every window by one factor above 1, unless the window is a single
    point (factor 1) or vanishes (Hann and Blackman of order 1). *)
Theorem C186_normal_factor gw style order raw b : documented gw ->
  @window_make RO gw style order false = Ok raw -> @window_make RO gw style order true = Ok b ->
  ((order = 1)%Z -> py_title style = "Hamming"%string \/ py_title style = "Kaiser"%string) ->
  exists k, b = map (fun v => v * k) raw /\ (order = 0%Z -> k = 1) /\ ((1 <= order)%Z -> 1 < k).
Proof.
  intros Hg E1 E2 Hz. pose proof (C186_window_shape gw style order raw Hg E1) as S. cbv zeta in S. destruct S as (L & Sy & Lt & Rg & Md & En).
  destruct (make_raw _ _ _ _ Hg E1) as (Hk & Ho & Eb). set (n := Z.to_nat order) in *.
  assert (F : Forall (fun v => 0 <= v <= 1) raw).
  { apply Forall_forall. intros v Hv. destruct (In_nth raw v 0 Hv) as (i & Hi & <-). apply Rg. lia. }
  assert (Pos : exists v, In v raw /\ 0 < v).
  { destruct (Nat.eq_dec n 0) as [N0|N0].
    { exists (nth 0 raw 0). split; [apply nth_In; lia|]. rewrite (Md 0%nat) by lia. lra. }
    destruct (Nat.eq_dec n 1) as [N1|N1].
    { exists (nth 0 raw 0). split; [apply nth_In; lia|]. rewrite (proj1 (En ltac:(lia))). pose proof i0_7.
      destruct (Hz ltac:(lia)) as [Q|Q]; rewrite Q; unfold end_value; cbn [py_lower smap String.eqb Ascii.eqb Bool.eqb];
      [change (0 < 8 / 100); lra|change (0 < / bessel_i0 7); apply Rinv_0_lt_compat; assumption]. }
    exists (nth 1 raw 0). split; [apply nth_In; lia|]. pose proof (Lt 0%nat 1%nat ltac:(lia) ltac:(lia)). pose proof (Rg 0%nat ltac:(lia)). lra. }
  assert (Nz : ~ Forall (fun v => v = 0) raw).
  { intros Q. rewrite Forall_forall in Q. destruct Pos as (v & Hv & Pv). specialize (Q v Hv). lra. }
  set (T := fold_right Rplus 0 (map Rabs raw)).
  assert (HT : 0 < T).
  { destruct (sum_bound raw F) as [[Q|Q] _]; [exact Q|]. exfalso. apply Nz, fold_abs_zero. symmetry. exact Q. }
  exists (IZR (order + 1) / T). split; [|split].
  - unfold window_make in E1, E2. destruct (negb _); [discriminate|]. destruct (Z.ltb_spec order 0); [discriminate|].
    assert (R0 : raw = gw (py_lower (py_title style)) (Z.to_nat (order + 1))) by congruence. rewrite <- R0 in E2.
    assert (Q : b = @window_normal RO (order + 1) raw) by congruence. rewrite Q. unfold window_normal. apply map_ext. intros v.
    cbn [mul RO oa RA]. f_equal. unfold T. cbn [div RA oa RO]. f_equal; [apply of_Z_IZR|apply sum_RA].
  - intros ->. destruct raw as [|v [|v' raw]]; try (cbn in L; lia). assert (V : v = 1) by (apply (Md 0%nat); reflexivity).
    unfold T. cbn [map fold_right]. rewrite V, Rabs_R1. change (IZR (0 + 1)) with 1. field.
  - intros H1. apply (Rmult_lt_reg_r T); [exact HT|]. unfold Rdiv. rewrite Rmult_assoc, Rinv_l, Rmult_1_r, Rmult_1_l by lra.
    replace (IZR (order + 1)) with (INR (length raw)) by (rewrite INR_IZR_INZ; f_equal; lia).
    apply (sum_strict raw (nth 0 raw 0) F); [apply nth_In; lia|].
    destruct (Nat.eq_dec n 1) as [N1|N1].
    + rewrite (proj1 (En ltac:(lia))). pose proof (i0_mono 0 7 ltac:(lra) ltac:(lra)) as I. rewrite i0_0 in I.
      assert (/ bessel_i0 7 < 1) by (rewrite <- Rinv_1; apply Rinv_lt_contravar; lra).
      unfold end_value. destruct (String.eqb _ "hamming"); [lra|]. destruct (String.eqb _ "kaiser"); lra.
    + pose proof (Lt 0%nat 1%nat ltac:(lia) ltac:(lia)). pose proof (Rg 1%nat ltac:(lia)). lra.
Qed.
Print Assumptions C186_normal_factor.

(** What filtering does with such a window: no sample grows, and reversing the signal
    reverses the result. *)
Theorem C186_window_filter gw style order b x : documented gw -> @window_make RO gw style order false = Ok b ->
  length x = S (Z.to_nat order) ->
  exists y, @window_filter RO b (Vec (O := RO) x) = (b, Ok y) /\
    @window_filter RO b (Vec (O := RO) (rev x)) = (b, Ok (rev y)) /\
    forall i, Rabs (nth i y 0) <= Rabs (nth i x 0).
Proof.
  intros Hg E Lx. pose proof (C186_window_shape gw style order b Hg E) as S. cbv zeta in S. destruct S as (L & Sy & Lt & Rg & _).
  assert (Ex : length x = length b) by congruence.
  destruct (C32_window_product RO b x Ex) as (y & Ey & Ly & Vy). exists y. split; [exact Ey|].
  assert (Exr : length (rev x) = length b) by (rewrite rev_length; exact Ex).
  destruct (C32_window_product RO b (rev x) Exr) as (z & Ez & Lz & Vz). split.
  - etransitivity; [exact Ez|]. f_equal. f_equal. apply (nth_ext _ _ 0 0); [rewrite rev_length; refine (eq_trans Lz _); symmetry; exact Ly|].
    intros i Hi0. assert (Hi : (i < @length R b)%nat) by (replace (@length R b) with (@length R z) by exact Lz; exact Hi0).
    etransitivity; [apply Vz, Hi|].
    assert (Lx' : @length R x = Datatypes.S (Z.to_nat order)) by exact Lx. assert (Lb' : @length R b = Datatypes.S (Z.to_nat order)) by exact L.
    assert (Ly' : @length R y = Datatypes.S (Z.to_nat order)) by (rewrite <- Lb'; exact Ly).
    assert (Hi' : (i < Datatypes.S (Z.to_nat order))%nat) by (rewrite <- Lb'; exact Hi).
    etransitivity; [|symmetry; refine (rev_nth (A := R) y 0 _); rewrite Ly'; exact Hi'].
    rewrite Ly'. replace (Datatypes.S (Z.to_nat order) - Datatypes.S i)%nat with (Z.to_nat order - i)%nat by lia.
    etransitivity; [|symmetry; apply Vy; change (Z.to_nat order - i < @length R b)%nat; lia].
    assert (A1 : @nth R i (rev x) 0 = @nth R (Z.to_nat order - i) x 0).
    { refine (eq_trans (rev_nth (A := R) x 0 _) _); [change (i < @length R x)%nat; rewrite Lx'; exact Hi'|]. f_equal.
      change (@length R x - Datatypes.S i = Z.to_nat order - i)%nat. rewrite Lx'. lia. }
    assert (A2 : @nth R (Z.to_nat order - i) b 0 = @nth R i b 0) by (apply Sy; lia).
    change (@nth R i b 0 * @nth R i (rev x) 0 = @nth R (Z.to_nat order - i) b 0 * @nth R (Z.to_nat order - i) x 0).
    rewrite A1, A2. reflexivity.
  - intros i. change (Rabs (@nth R i y 0) <= Rabs (@nth R i x 0)). destruct (le_lt_dec (length b) i) as [Hi|Hi].
    + assert (Q : @nth R i y 0 = 0) by (apply nth_overflow; change (@length R y <= i)%nat; rewrite <- Ly in Hi; exact Hi).
      rewrite Q, Rabs_R0. apply Rabs_pos.
    + assert (Q : @nth R i y 0 = @nth R i b 0 * @nth R i x 0) by (apply Vy, Hi). rewrite Q, Rabs_mult.
      assert (B : 0 <= @nth R i b 0 <= 1) by (apply Rg; assert (H9 : (i < @length R b)%nat) by exact Hi; assert (L9 : @length R b = Datatypes.S (Z.to_nat order)) by exact L; lia).
      rewrite (Rabs_pos_eq (@nth R i b 0)) by lra. pose proof (Rabs_pos (@nth R i x 0)). nra.
Qed.
Print Assumptions C186_window_filter.

(** The documented windows exist and the constructor accepts every style. *)
Definition doc_window (w : string) (n : nat) : list R := map (window_point bessel_i0 w n) (seq 0 n).
Example C186_example_documented : documented doc_window /\
  Forall (fun s => exists b, @window_make RO doc_window s 4 false = Ok b) ["blackman"; "HAMMING"; "Hann"; "kaiser"]%string.
Proof. split; [intros w n; reflexivity|]. repeat constructor; eexists; reflexivity. Qed.
(** Hamming of order 2 is 0.08, 1, 0.08; normalised it is scaled by 3/1.16. *)
Example C186_example_hamming : exists raw b, @window_make RO doc_window "Hamming" 2 false = Ok raw /\ raw = [8 / 100; 1; 8 / 100] /\
  @window_make RO doc_window "Hamming" 2 true = Ok b /\ nth 1 b 0 = 3 / (116 / 100).
Proof.
  eexists. eexists. split; [reflexivity|].
  assert (E0 : window_point bessel_i0 "hamming" 3 0 = 8 / 100) by (rewrite point_end by (cbn; tauto || lia); reflexivity).
  assert (E1 : window_point bessel_i0 "hamming" 3 1 = 1) by (apply point_mid; cbn; tauto || lia).
  assert (E2 : window_point bessel_i0 "hamming" 3 2 = 8 / 100) by (rewrite <- E0; apply (point_sym "hamming" 3 0); cbn; tauto || lia).
  assert (E : doc_window "hamming" 3 = [8 / 100; 1; 8 / 100]) by (unfold doc_window; cbn [seq map]; rewrite E0, E1, E2; reflexivity).
  split; [exact E|]. split; [reflexivity|].
  change (nth 1 (@window_normal RO 3 (doc_window "hamming" 3)) 0 = 3 / (116 / 100)). rewrite E.
  assert (T : @sum RA (map Rabs [8 / 100; 1; 8 / 100]) = 116 / 100) by (rewrite sum_RA; cbn [map fold_right]; rewrite !Rabs_pos_eq by lra; lra).
  transitivity (1 * (@of_Z RA 3 / @sum RA (map Rabs [8 / 100; 1; 8 / 100]))); [reflexivity|]. rewrite T, of_Z_IZR. change (1 * (3 / (116 / 100)) = 3 / (116 / 100)). field.
Qed.
(** Normalising amplifies: a normalised Hamming window of order 2 multiplies its middle
    sample by more than 2. *)
Example C186_example_amplifies : 2 < 3 / (116 / 100).
Proof. lra. Qed.
