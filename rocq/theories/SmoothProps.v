(** Properties C153-C154: accuracy of DerivativeFilter and IntegralFilter on samples of
    smooth functions. *)
From Coq Require Import List Arith ZArith Lia Bool Reals Lra.
From Coquelicot Require Import Coquelicot.
From Verif Require Import Base BaseLemmas Instances FirModel FirSpec FirProofs FirProps
  IirModel IirSpec IirProofs IirProps CalculusModel CalculusSpec CalculusProps.
Import ListNotations.
Set Asymmetric Patterns.
Close Scope C_scope. Open Scope R_scope.

(** ** Smooth functions and their samples *)
(** On the open interval f has K derivatives and the K-th is at most M. *)
Definition smooth (f : R -> R) (lo hi : R) (K : nat) (M : R) : Prop :=
  forall t, lo < t < hi -> (forall k, (k <= K)%nat -> ex_derive_n f k t) /\ Rabs (Derive_n f K t) <= M.
(** x are the samples of f at t0, t0 + h, t0 + 2 h, ..., all inside the interval. *)
Definition sampled (f : R -> R) (lo hi t0 h : R) (x : list R) : Prop :=
  forall k, (k < length x)%nat -> lo < t0 + INR k * h < hi /\ nth k x 0 = f (t0 + INR k * h).

Lemma open_locally lo hi t (P : R -> Prop) : lo < t < hi -> (forall s, lo < s < hi -> P s) -> locally t P.
Proof.
  intros Ht H. assert (He : 0 < Rmin (t - lo) (hi - t)) by (apply Rmin_pos; lra). exists (mkposreal _ He). intros s Hs.
  apply H. unfold ball in Hs. cbn in Hs. unfold AbsRing_ball, abs, minus, plus, opp in Hs. cbn in Hs.
  apply Rabs_lt_between in Hs. pose proof (Rmin_l (t - lo) (hi - t)). pose proof (Rmin_r (t - lo) (hi - t)). lra.
Qed.

(** Taylor's theorem with a bound on the remainder, in both directions. *)
Lemma taylor f lo hi K M c u : smooth f lo hi (S K) M -> lo < c < hi -> lo < c + u < hi ->
  Rabs (f (c + u) - sum_f_R0 (fun m => u ^ m / INR (fact m) * Derive_n f m c) K) <= M * Rabs u ^ S K / INR (fact (S K)).
Proof.
  intros Hs Hc Hu. assert (Fp : forall n, 0 < INR (fact n)) by (intros n; apply lt_0_INR, lt_O_fact).
  destruct (Rtotal_order u 0) as [Hn|[H0|Hp]].
  - set (g := fun t => f (- t)).
    assert (Loc : forall t, lo < - t < hi -> locally (- t) (fun y : R_UniformSpace => forall k, (k <= S K)%nat -> ex_derive_n f k y)).
    { intros t Ht. apply (open_locally lo hi); [exact Ht|]. intros s Hs'. apply Hs. exact Hs'. }
    assert (LocK : forall t k, (k <= S K)%nat -> lo < - t < hi -> locally (- t) (fun y : R_UniformSpace => forall j, (j <= k)%nat -> ex_derive_n f j y)).
    { intros t k Hk Ht. apply (open_locally lo hi); [exact Ht|]. intros s Hs' j Hj. apply Hs; [exact Hs'|lia]. }
    destruct (Taylor_Lagrange g K (- c) (- c - u)) as (z & Hz & E); [lra| |].
    { intros t Ht k Hk. apply ex_derive_n_comp_opp. apply LocK; [exact Hk|lra]. }
    unfold g in E at 1. replace (- (- c - u)) with (c + u) in E by ring. rewrite E.
    assert (Es : sum_f_R0 (fun m => (- c - u - - c) ^ m / INR (fact m) * Derive_n g m (- c)) K =
                 sum_f_R0 (fun m => u ^ m / INR (fact m) * Derive_n f m c) K).
    { apply sum_eq. intros m Hm. unfold g. rewrite Derive_n_comp_opp by (apply LocK; [lia|rewrite Ropp_involutive; lra]).
      rewrite Ropp_involutive. replace (- c - u - - c) with (-1 * u) by ring. rewrite Rpow_mult_distr.
      assert (Hsq : (-1) ^ m * (-1) ^ m = 1) by (rewrite <- Rpow_mult_distr; replace (-1 * -1) with 1 by ring; apply pow1).
      replace ((-1) ^ m * u ^ m / INR (fact m) * ((-1) ^ m * Derive_n f m c))
        with (((-1) ^ m * (-1) ^ m) * (u ^ m / INR (fact m) * Derive_n f m c)) by (unfold Rdiv; ring).
      rewrite Hsq. ring. }
    rewrite Es. replace (- c - u - - c) with (- u) by ring.
    match goal with |- Rabs (?a + ?b - ?a) <= _ => replace (a + b - a) with b by ring end.
    unfold g. rewrite Derive_n_comp_opp by (apply LocK; [lia|lra]). destruct (Hs (- z) ltac:(lra)) as [_ HM].
    unfold Rdiv. rewrite !Rabs_mult, Rabs_inv, (Rabs_pos_eq (INR (fact (S K)))) by (left; apply Fp).
    rewrite <- !RPow_abs, Rabs_Ropp. replace (Rabs (-1)) with 1 by (rewrite Rabs_left; lra). rewrite pow1, Rmult_1_l.
    rewrite (Rmult_comm M). rewrite !Rmult_assoc. apply Rmult_le_compat_l; [apply pow_le, Rabs_pos|].
    rewrite (Rmult_comm M). apply Rmult_le_compat_l; [left; apply Rinv_0_lt_compat, Fp|exact HM].
  - subst u. rewrite Rplus_0_r in *. replace (sum_f_R0 _ K) with (f c).
    + rewrite Rminus_eq_0, Rabs_R0. rewrite pow_ne_zero by lia. unfold Rdiv. lra.
    + clear Hs. induction K as [|K IH]; [cbn; field|]. rewrite tech5, <- IH. rewrite pow_ne_zero by lia. unfold Rdiv. ring.
  - destruct (Taylor_Lagrange f K c (c + u)) as (z & Hz & E); [lra| |].
    { intros t Ht k Hk. apply Hs; [lra|exact Hk]. }
    rewrite E. replace (c + u - c) with u by ring.
    match goal with |- Rabs (?a + ?b - ?a) <= _ => replace (a + b - a) with b by ring end.
    destruct (Hs z ltac:(lra)) as [_ HM].
    unfold Rdiv. rewrite !Rabs_mult, Rabs_inv, (Rabs_pos_eq (INR (fact (S K)))) by (left; apply Fp).
    rewrite <- !RPow_abs. rewrite (Rmult_comm M), !Rmult_assoc. apply Rmult_le_compat_l; [apply pow_le, Rabs_pos|].
    rewrite (Rmult_comm M). apply Rmult_le_compat_l; [left; apply Rinv_0_lt_compat, Fp|exact HM].
Qed.

(** ** DerivativeFilter *)
(** Error constants of the table. *)
Definition derivative_error (d o : Z) : R :=
  match d, o with
  | 1%Z, 1%Z => 1 / 24 | 1%Z, 2%Z => 1 / 6 | 1%Z, 4%Z => 1 / 18
  | 2%Z, 2%Z => 1 / 12 | 2%Z, 4%Z => 1 / 3 | 2%Z, 6%Z => 35 / 48 | 2%Z, 8%Z => 23 / 60
  | 3%Z, 4%Z => 17 / 60 | 3%Z, 6%Z => 41 / 80 | 3%Z, 8%Z => 191 / 180
  | _, _ => 0
  end.

Lemma derivative_error_sum d o deg ns den : exact_degree d o = Some deg -> @derivative_B RA d o = Some (Some (rrow ns den)) ->
  length ns = S (Z.to_nat o) ->
  @bigsum RA (S (Z.to_nat o)) (fun i => Rabs (nth i (rrow ns den) 0) * Rabs (IZR o / 2 - INR i) ^ S deg) = derivative_error d o * INR (fact (S deg)).
Proof.
  intros H EB Hl.
  pose proof (exact_degree_list _ _ _ H) as Hin. remember (d, o, deg) as p eqn:E. symmetry in E. cbn [In] in Hin.
  repeat match type of Hin with _ \/ _ => destruct Hin as [<-|Hin] end; [..|contradiction];
  injection E as -> -> ->; cbn [derivative_B] in EB; rewrite table_row_R in EB; injection EB as EB; rewrite <- EB;
  to_nat; unfold rrow; cbn [bigsum nth map INR add zero mul RA derivative_error]; rr;
  match goal with |- context [fact ?n] => let m := eval compute in (fact n) in change (fact n) with m end; rewrite INR_IZR_INZ;
  repeat match goal with |- context [Rabs ?x] => first [rewrite (Rabs_pos_eq x) by lra | rewrite (Rabs_left x) by lra] end; 
  match goal with |- context [Z.of_nat ?n] => let m := eval compute in (Z.of_nat n) in change (Z.of_nat n) with m end; field.
Qed.

(** Taylor coefficients of f at c in the variable (t - c) / h. *)
Definition taylor_coeffs (f : R -> R) (c h : R) (deg : nat) : list R :=
  map (fun k => Derive_n f k c * h ^ k / INR (fact k)) (seq 0 (S deg)).
Lemma peval_seq (g : nat -> R) : forall n a s, peval (map g (seq a (S n))) s = sum_f_R0 (fun k => g (a + k)%nat * s ^ k) n.
Proof.
  induction n as [|n IH]; intros a s; [cbn; rewrite Nat.add_0_r; ring|].
  change (seq a (S (S n))) with (a :: seq (S a) (S n)). cbn [map peval]. rewrite IH.
  rewrite (decomp_sum (fun k => g (a + k)%nat * s ^ k) (S n)) by lia. cbn [pred pow]. rewrite Nat.add_0_r. f_equal; [ring|].
  rewrite scal_sum. apply sum_eq. intros i Hi. replace (S a + i)%nat with (a + S i)%nat by lia. ring.
Qed.
Lemma peval_taylor f c h deg s : peval (taylor_coeffs f c h deg) s =
  sum_f_R0 (fun m => (s * h) ^ m / INR (fact m) * Derive_n f m c) deg.
Proof.
  unfold taylor_coeffs. rewrite peval_seq. apply sum_eq. intros i Hi. cbn [Nat.add]. rewrite Rpow_mult_distr. unfold Rdiv. ring.
Qed.
Lemma taylor_derivative f c h d o deg : exact_degree d o = Some deg ->
  peval (Nat.iter (Z.to_nat d) pderiv (taylor_coeffs f c h deg)) 0 = Derive_n f (Z.to_nat d) c * h ^ Z.to_nat d.
Proof.
  intros H. pose proof (exact_degree_list _ _ _ H) as Hin. remember (d, o, deg) as p eqn:E. symmetry in E. cbn [In] in Hin.
  repeat match type of Hin with _ \/ _ => destruct Hin as [<-|Hin] end; [..|contradiction];
  injection E as -> -> ->; to_nat; unfold taylor_coeffs; cbn [map seq Nat.iter nat_rect pderiv padd peval];
  repeat match goal with |- context [INR (fact ?n)] => let m := eval compute in (fact n) in change (fact n) with m end;
  generalize (Derive_n f); intros D; cbn [INR pow]; field.
Qed.

Lemma bigsum_minus n (f g : nat -> R) : @bigsum RA n f - @bigsum RA n g = @bigsum RA n (fun i => f i - g i).
Proof. induction n as [|n IH]; cbn [bigsum]; [rr; ring|]. rewrite <- IH. rr. ring. Qed.
Lemma bigsum_abs_le n (f g : nat -> R) : (forall i, (i < n)%nat -> Rabs (f i) <= g i) -> Rabs (@bigsum RA n f) <= @bigsum RA n g.
Proof.
  induction n as [|n IH]; intros H; cbn [bigsum]; [cbn; rewrite Rabs_R0; lra|]. cbn [add RA].
  eapply Rle_trans; [apply Rabs_triang|]. apply Rplus_le_compat; [apply IH; intros; apply H; lia|apply H; lia].
Qed.
Lemma bigsum_scale n (f : nat -> R) a : @bigsum RA n (fun i => f i * a) = @bigsum RA n f * a.
Proof. induction n as [|n IH]; cbn [bigsum]; [rr; ring|]. rewrite IH. rr. ring. Qed.

(** C153.  On samples of a smooth function taken h apart, the output over h^derivative is the
    derivative in the middle of the window up to C M h^(deg + 1 - derivative), M a bound on the
    (deg + 1)-th derivative. *)
Theorem C153_derivative_accuracy (d o : Z) (deg : nat) ops (g : fir RA) (f : R -> R) (lo hi t0 h M : R) (x : list R) :
  exact_degree d o = Some deg -> derivative_used d o ops g -> x <> [] -> 0 < h ->
  smooth f lo hi (S deg) M -> sampled f lo hi t0 h x ->
  exists g' y, fir_filter g x = (g', Ok y) /\ length y = length x /\
    forall n, (Z.to_nat o <= n < length x)%nat ->
      let t := t0 + (INR n - IZR o / 2) * h in
      Rabs (nth n y 0 / h ^ Z.to_nat d - Derive_n f (Z.to_nat d) t) <= derivative_error d o * M * h ^ (S deg - Z.to_nat d).
Proof.
  intros Hd Hu Hx Hh Hs Hx0.
  destruct (derivative_used_fir _ _ _ _ _ Hd Hu) as (ns & den & EB & Hl & Hf & Eb & Ed).
  destruct (exact_degree_cases _ _ _ Hd) as (ns' & den' & EB' & _ & Hd3 & Hex).
  rewrite EB in EB'. injection EB' as EB'.
  destruct (C01_fir_convolution RA RA_laws _ _ _ g x (Forall_RA_float _ : arr_ok (mkArr DFloat _)) Hf Hx) as (g' & y & E & Hly & Hy & _).
  { rewrite Ed. apply Forall_RA_float. }
  exists g', y. split; [exact E|]. split; [exact Hly|]. intros n [Hn1 Hn2] t.
  assert (Ho : IZR o = INR (Z.to_nat o)).
  { rewrite INR_IZR_INZ, Z2Nat.id; [reflexivity|]. pose proof (exact_degree_list _ _ _ Hd) as Hin. cbn [In] in Hin.
    repeat match type of Hin with _ \/ _ => destruct Hin as [Hin|Hin]; [injection Hin; lia|] end. contradiction. }
  assert (Hon : 0 <= INR (Z.to_nat o) <= INR n) by (split; [apply pos_INR|apply le_INR; lia]).
  assert (In0 : lo < t < hi).
  { destruct (Hx0 n Hn2) as [H1 _]. destruct (Hx0 (n - Z.to_nat o)%nat ltac:(lia)) as [H2 _]. rewrite minus_INR in H2 by lia.
    unfold t. rewrite Ho. assert (0 <= INR (Z.to_nat o) / 2 * h) by (apply Rmult_le_pos; lra). lra. }
  set (q := taylor_coeffs f t h deg).
  assert (Lq : length q = S deg) by (unfold q, taylor_coeffs; rewrite map_length, seq_length; reflexivity).
  assert (Ey : nth n y 0 = @bigsum RA (S (Z.to_nat o)) (fun i => nth i (rrow ns den) 0 * f (t + (IZR o / 2 - INR i) * h))).
  { change 0 with (@zero RA) at 1. rewrite (Hy n Hn2). rewrite Eb. unfold convolution, rrow. rewrite map_length, Hl.
    apply (@bigsum_ext RA). intros i Hi. unfold sig. destruct (Z.ltb_spec (Z.of_nat n - Z.of_nat i) 0%Z); [lia|].
    replace (Z.to_nat (Z.of_nat n - Z.of_nat i)) with (n - i)%nat by lia.
    destruct (Hx0 (n - i)%nat ltac:(lia)) as [_ Hsi]. rr. rewrite Hsi. f_equal. f_equal. unfold t. rewrite minus_INR by lia. ring. }
  assert (Eq : Derive_n f (Z.to_nat d) t * h ^ Z.to_nat d =
    @bigsum RA (S (Z.to_nat o)) (fun i => nth i (rrow ns den) 0 * peval q (IZR o / 2 - INR i))).
  { rewrite <- (taylor_derivative f t h d o deg Hd). fold q. rewrite EB'. rewrite Hex by (rewrite Lq; lia). f_equal. field. }
  assert (Bound : Rabs (nth n y 0 - Derive_n f (Z.to_nat d) t * h ^ Z.to_nat d) <= derivative_error d o * M * h ^ S deg).
  { rewrite Ey, Eq, bigsum_minus.
    apply Rle_trans with (@bigsum RA (S (Z.to_nat o)) (fun i => Rabs (nth i (rrow ns den) 0) * Rabs (IZR o / 2 - INR i) ^ S deg * (M * h ^ S deg / INR (fact (S deg))))).
    - apply bigsum_abs_le. intros i Hi. rewrite <- Rmult_minus_distr_l, Rabs_mult, Rmult_assoc. apply Rmult_le_compat_l; [apply Rabs_pos|].
      unfold q. rewrite peval_taylor. eapply Rle_trans; [apply (taylor f lo hi deg M)|].
      + exact Hs.
      + exact In0.
      + destruct (Hx0 (n - i)%nat ltac:(lia)) as [H1 _]. rewrite minus_INR in H1 by lia. unfold t. lra.
      + right. rewrite Rabs_mult, (Rabs_pos_eq h), Rpow_mult_distr by lra. unfold Rdiv. ring.
    - right. rewrite bigsum_scale. rewrite (derivative_error_sum d o deg ns den Hd EB Hl). field. apply INR_fact_neq_0. }
  assert (Hp : 0 < h ^ Z.to_nat d) by (apply pow_lt; exact Hh).
  apply Rmult_le_reg_r with (h ^ Z.to_nat d); [exact Hp|]. rewrite <- (Rabs_pos_eq (h ^ Z.to_nat d)) at 2 by lra. rewrite <- Rabs_mult.
  replace ((nth n y 0 / h ^ Z.to_nat d - Derive_n f (Z.to_nat d) t) * h ^ Z.to_nat d) with (nth n y 0 - Derive_n f (Z.to_nat d) t * h ^ Z.to_nat d) by (field; lra).
  eapply Rle_trans; [exact Bound|]. right. rewrite (Rmult_assoc _ (h ^ (S deg - Z.to_nat d))), <- pow_add. f_equal. f_equal.
  assert (Z.to_nat d <= S deg)%nat; [|lia]. pose proof (exact_degree_list _ _ _ Hd) as Hin. cbn [In] in Hin.
  repeat match type of Hin with _ \/ _ => destruct Hin as [Hin|Hin]; [injection Hin as <- <- <-; cbn; lia|] end. contradiction.
Qed.
Print Assumptions C153_derivative_accuracy.
(** The sine is smooth with M = 1. *)
Lemma Derive_n_sin k t : (Derive_n sin k t = sin (t + INR k * (PI / 2))) /\ ex_derive_n sin k t.
Proof.
  revert t. induction k as [|k IH]; intros t; [cbn; split; [f_equal; ring|exact I]|].
  assert (D : forall t, is_derive (Derive_n sin k) t (sin (t + INR (S k) * (PI / 2)))).
  { intros u. eapply is_derive_ext; [intros s; symmetry; apply IH|]. rewrite S_INR.
    replace (sin (u + (INR k + 1) * (PI / 2))) with (cos (u + INR k * (PI / 2))).
    - auto_derive; [exact I|ring].
    - replace (u + (INR k + 1) * (PI / 2)) with (PI / 2 + (u + INR k * (PI / 2))) by ring. symmetry. apply sin_cos_shift || (rewrite sin_plus, sin_PI2, cos_PI2; ring). }
  split; [cbn [Derive_n]; apply is_derive_unique, D|]. cbn [ex_derive_n]. eexists. apply D.
Qed.
Lemma sin_smooth lo hi K : smooth sin lo hi K 1.
Proof.
  intros t _. split; [intros k _; apply Derive_n_sin|]. rewrite (proj1 (Derive_n_sin K t)). apply Rabs_le. apply SIN_bound.
Qed.
Example C153_example : exists g, @derivative_make RA 1 4 = Ok g /\ exact_degree 1 4 = Some 4%nat /\ derivative_used 1 4 [] g /\
  smooth sin (-1) 1 5 1 /\ sampled sin (-1) 1 0 (1 / 10) (map (fun k => sin (0 + INR k * (1 / 10))) (seq 0 6)) /\
  derivative_error 1 4 * 1 * (1 / 10) ^ (5 - 1) = 1 / 180000.
Proof.
  eexists. split; [reflexivity|]. split; [reflexivity|]. split; [eexists; split; reflexivity|]. split; [apply sin_smooth|]. split.
  - intros k Hk. rewrite map_length, seq_length in Hk. rewrite nth_map_seq by exact Hk. split; [|reflexivity].
    assert (0 <= INR k <= 5) by (split; [apply pos_INR|]; replace 5 with (INR 5) by (cbn; ring); apply le_INR; lia). lra.
  - cbn. field.
Qed.

(** ** IntegralFilter *)
Section Antiderivative.
  Variables (f : R -> R) (lo hi c : R) (K : nat) (M : R).
  Hypothesis Hs : smooth f lo hi (S K) M.
  Hypothesis Hc : lo < c < hi.
  Let F (t : R) : R := RInt f c t.

  Lemma smooth_continuous t : lo < t < hi -> continuous f t.
  Proof.
    intros Ht. destruct (Hs t Ht) as [H _]. apply (ex_derive_continuous (K := R_AbsRing) (V := R_NormedModule)).
    specialize (H 1%nat ltac:(lia)). exact H.
  Qed.
  Lemma smooth_ex_RInt a b : lo < a < hi -> lo < b < hi -> ex_RInt f a b.
  Proof.
    intros Ha Hb. apply (ex_RInt_continuous (V := R_CompleteNormedModule)). intros t Ht. apply smooth_continuous.
    revert Ht. unfold Rmin, Rmax. destruct (Rle_dec a b); lra.
  Qed.
  Lemma F_derive t : lo < t < hi -> is_derive F t (f t).
  Proof.
    intros Ht. apply (is_derive_RInt (V := R_NormedModule) f F c).
    - apply (open_locally lo hi); [exact Ht|]. intros s Hs'. apply (RInt_correct (V := R_CompleteNormedModule)). apply smooth_ex_RInt; assumption.
    - apply smooth_continuous. exact Ht.
  Qed.
  Lemma F_Derive_n m : (m <= S K)%nat -> forall t, lo < t < hi -> Derive_n F (S m) t = Derive_n f m t.
  Proof.
    induction m as [|m IH]; intros Hm t Ht; [cbn [Derive_n]; apply is_derive_unique, F_derive, Ht|].
    change (Derive_n F (S (S m)) t) with (Derive (Derive_n F (S m)) t). change (Derive_n f (S m) t) with (Derive (Derive_n f m) t).
    apply Derive_ext_loc. apply (open_locally lo hi); [exact Ht|]. intros s Hs'. apply IH; [lia|exact Hs'].
  Qed.
  Lemma F_smooth : smooth F lo hi (S (S K)) M.
  Proof.
    intros t Ht. split.
    - intros [|[|k]] Hk; [exact I|eexists; apply F_derive; exact Ht|].
      change (ex_derive (Derive_n F (S k)) t). apply ex_derive_ext_loc with (Derive_n f k).
      + apply (open_locally lo hi); [exact Ht|]. intros s Hs'. symmetry. apply F_Derive_n; [lia|exact Hs'].
      + destruct (Hs t Ht) as [H _]. exact (H (S k) ltac:(lia)).
    - rewrite F_Derive_n by (lia || exact Ht). apply Hs. exact Ht.
  Qed.

  (** The integral over c - u .. c + u from the derivatives at c. *)
  Lemma integral_taylor u : 0 <= u -> lo < c - u -> c + u < hi ->
    Rabs (RInt f (c - u) (c + u) - sum_f_R0 (fun m => (u ^ S m - (- u) ^ S m) / INR (fact (S m)) * Derive_n f m c) K)
      <= 2 * M * u ^ S (S K) / INR (fact (S (S K))).
  Proof.
    intros Hu H1 H2.
    assert (E : RInt f (c - u) (c + u) = F (c + u) - F (c + - u)).
    { pose proof (RInt_Chasles f (c - u) c (c + u) ltac:(apply smooth_ex_RInt; lra) ltac:(apply smooth_ex_RInt; lra)) as Ch.
      pose proof (opp_RInt_swap f c (c - u) ltac:(apply smooth_ex_RInt; lra)) as Sw.
      change (RInt f (c - u) c + RInt f c (c + u) = RInt f (c - u) (c + u)) in Ch.
      change (- RInt f c (c - u) = RInt f (c - u) c) in Sw. unfold F. replace (c + - u) with (c - u) by ring. lra. }
    pose proof (taylor F lo hi (S K) M c u F_smooth Hc ltac:(lra)) as T1. pose proof (taylor F lo hi (S K) M c (- u) F_smooth Hc ltac:(lra)) as T2.
    rewrite Rabs_Ropp in T2. rewrite (Rabs_pos_eq u) in T1, T2 by exact Hu.
    assert (D : forall v, sum_f_R0 (fun m => v ^ m / INR (fact m) * Derive_n F m c) (S K) =
      F c + sum_f_R0 (fun m => v ^ S m / INR (fact (S m)) * Derive_n f m c) K).
    { intros v. rewrite (decomp_sum _ (S K)) by lia. cbn [pred]. f_equal.
      - cbn [pow Derive_n fact]. change (INR 1) with 1. field.
      - apply sum_eq. intros i Hi. rewrite F_Derive_n by (lia || exact Hc). reflexivity. }
    rewrite D in T1, T2. rewrite E.
    assert (Sm : sum_f_R0 (fun m => (u ^ S m - (- u) ^ S m) / INR (fact (S m)) * Derive_n f m c) K =
      sum_f_R0 (fun m => u ^ S m / INR (fact (S m)) * Derive_n f m c) K - sum_f_R0 (fun m => (- u) ^ S m / INR (fact (S m)) * Derive_n f m c) K).
    { rewrite <- minus_sum. apply sum_eq. intros i _. unfold Rdiv. ring. }
    rewrite Sm. set (A := sum_f_R0 _ K) in *. set (B := sum_f_R0 (fun m => (- u) ^ S m / INR (fact (S m)) * Derive_n f m c) K) in *.
    replace (F (c + u) - F (c + - u) - (A - B)) with ((F (c + u) - (F c + A)) + - (F (c + - u) - (F c + B))) by ring.
    eapply Rle_trans; [apply Rabs_triang|]. rewrite Rabs_Ropp.
    replace (2 * M * u ^ S (S K) / INR (fact (S (S K)))) with (M * u ^ S (S K) / INR (fact (S (S K))) + M * u ^ S (S K) / INR (fact (S (S K)))) by (unfold Rdiv; ring).
    apply Rplus_le_compat; assumption.
  Qed.
End Antiderivative.

(** Weighted means at the nodes k/2 - i against the mean over the interval of half width r:
    exact for polynomials below degree p. *)
Definition moment (r L : R) (q : list R) : R :=
  fold_right (fun mc acc => snd mc * (r ^ S (fst mc) - (- r) ^ S (fst mc)) / INR (S (fst mc)) / L + acc) 0 (combine (seq 0 (length q)) q).
Lemma moment_seq r L (g : nat -> R) : forall n a,
  fold_right (fun mc acc => snd mc * (r ^ S (fst mc) - (- r) ^ S (fst mc)) / INR (S (fst mc)) / L + acc) 0 (combine (seq a (S n)) (map g (seq a (S n)))) =
  sum_f_R0 (fun k => g (a + k)%nat * (r ^ S (a + k) - (- r) ^ S (a + k)) / INR (S (a + k)) / L) n.
Proof.
  induction n as [|n IH]; intros a.
  - cbn [seq map combine fold_right fst snd sum_f_R0]. rewrite Nat.add_0_r. ring.
  - change (seq a (S (S n))) with (a :: seq (S a) (S n)). cbn [map combine fold_right fst snd]. rewrite IH.
    rewrite (decomp_sum (fun k => g (a + k)%nat * (r ^ S (a + k) - (- r) ^ S (a + k)) / INR (S (a + k)) / L) (S n)) by lia.
    cbn [pred]. rewrite Nat.add_0_r. f_equal. apply sum_eq. intros i Hi. replace (S a + i)%nat with (a + S i)%nat by lia. reflexivity.
Qed.

Definition node_sum (k p : nat) : R := @bigsum RA (S k) (fun i => nth i (integral_weights k) 0 * Rabs (INR k / 2 - INR i) ^ p).
Lemma weights_pos k i : (k <= 4)%nat -> 0 <= nth i (integral_weights k) 0.
Proof. intros Hk. do 5 (destruct k as [|k]; [do 6 (destruct i as [|i]; [cbn; lra|]); cbn; lra|]). lia. Qed.

Lemma quadrature f lo hi c h M k K r L : (k <= 4)%nat -> smooth f lo hi (S K) M -> lo < c < hi -> 0 < h -> 0 < r -> 0 < L ->
  lo < c - r * h -> c + r * h < hi -> (forall i, (i <= k)%nat -> lo < c + (INR k / 2 - INR i) * h < hi) ->
  (forall q, (length q <= S K)%nat -> @bigsum RA (S k) (fun i => nth i (integral_weights k) 0 * peval q (INR k / 2 - INR i)) = moment r L q) ->
  Rabs (@bigsum RA (S k) (fun i => nth i (integral_weights k) 0 * f (c + (INR k / 2 - INR i) * h)) * h - RInt f (c - r * h) (c + r * h) / L)
    <= (node_sum k (S K) / INR (fact (S K)) + 2 * r ^ S (S K) / INR (fact (S (S K))) / L) * M * h ^ S (S K).
Proof.
  intros Hk Hs Hc Hh Hr HL H1 H2 Hn Hex. assert (Fp : forall n, 0 < INR (fact n)) by (intros n; apply lt_0_INR, lt_O_fact).
  set (q := taylor_coeffs f c h K).
  assert (Lq : length q = S K) by (unfold q, taylor_coeffs; rewrite map_length, seq_length; reflexivity).
  specialize (Hex q ltac:(rewrite Lq; lia)).
  assert (Em : moment r L q * h = sum_f_R0 (fun m => ((r * h) ^ S m - (- (r * h)) ^ S m) / INR (fact (S m)) * Derive_n f m c) K / L).
  { unfold moment. rewrite Lq. unfold q, taylor_coeffs. rewrite moment_seq. cbn [Nat.add]. unfold Rdiv. rewrite Rmult_comm, scal_sum.
    rewrite (Rmult_comm _ (/ L)), scal_sum. apply sum_eq. intros m Hm. rewrite fact_simpl, mult_INR.
    replace (- (r * h)) with (- r * h) by ring. rewrite !Rpow_mult_distr. rewrite Rinv_mult. cbn [pow]. ring. }
  assert (A1 : Rabs (@bigsum RA (S k) (fun i => nth i (integral_weights k) 0 * f (c + (INR k / 2 - INR i) * h)) - moment r L q)
    <= node_sum k (S K) / INR (fact (S K)) * M * h ^ S K).
  { rewrite <- Hex, bigsum_minus.
    apply Rle_trans with (@bigsum RA (S k) (fun i => nth i (integral_weights k) 0 * Rabs (INR k / 2 - INR i) ^ S K * (M * h ^ S K / INR (fact (S K))))).
    - apply bigsum_abs_le. intros i Hi. rewrite <- Rmult_minus_distr_l, Rabs_mult, (Rabs_pos_eq (nth i (integral_weights k) 0)) by (apply weights_pos; exact Hk).
      rewrite Rmult_assoc. apply Rmult_le_compat_l; [apply weights_pos; exact Hk|]. unfold q. rewrite peval_taylor.
      eapply Rle_trans; [apply (taylor f lo hi K M); [exact Hs|exact Hc|apply Hn; lia]|].
      right. rewrite Rabs_mult, (Rabs_pos_eq h), Rpow_mult_distr by lra. unfold Rdiv. ring.
    - right. rewrite bigsum_scale. unfold node_sum. field. apply INR_fact_neq_0. }
  pose proof (integral_taylor f lo hi c K M Hs Hc (r * h) ltac:(left; apply Rmult_lt_0_compat; assumption) H1 H2) as A2.
  revert A1 A2 Em. generalize (sum_f_R0 (fun m => ((r * h) ^ S m - (- (r * h)) ^ S m) / INR (fact (S m)) * Derive_n f m c) K).
  change (carrier RA) with R. generalize (RInt f (c - r * h) (c + r * h)).
  generalize (@bigsum RA (S k) (fun i => nth i (integral_weights k) 0 * f (c + (INR k / 2 - INR i) * h))).
  cbn [RA carrier R_CompleteNormedModule CompleteNormedModule.sort]. intros S1 I S2 A1 A2 Em. change R in S1, I.
  replace (S1 * h - I / L) with ((S1 - moment r L q) * h + - ((I - S2) / L)) by (rewrite Rmult_minus_distr_r, Em; field; lra).
  eapply Rle_trans; [apply Rabs_triang|]. rewrite Rabs_Ropp. change ((I - S2) / L) with ((I - S2) * / L).
  rewrite !Rabs_mult, (Rabs_pos_eq h), (Rabs_pos_eq (/ L)) by (try (left; apply Rinv_0_lt_compat); lra).
  pose proof (Rmult_le_compat_r h _ _ ltac:(lra) A1) as B1.
  pose proof (Rmult_le_compat_r (/ L) _ _ ltac:(left; apply Rinv_0_lt_compat; lra) A2) as B2.
  eapply Rle_trans; [apply Rplus_le_compat; [exact B1|exact B2]|]. right. rewrite Rpow_mult_distr. unfold Rdiv. cbn [pow]. ring.
Qed.

(** Error constants: of the running integral, and of the rule over the last k intervals. *)
Definition integral_error (k : nat) : R :=
  match k with 0%nat => 1 / 24 | 1%nat => 1 / 6 | 2%nat => 5 / 24 | 3%nat => 5 / 12 | _ => 17 / 24 end.
Definition rule_power (k : nat) : nat := match k with 1%nat => 2 | 2%nat => 4 | 3%nat => 4 | _ => 6 end.
Definition rule_error (k : nat) : R :=
  match k with 1%nat => 1 / 6 | 2%nat => 1 / 45 | 3%nat => 31 / 320 | _ => 26 / 945 end.

Lemma quad_unit f lo hi c h M k : (k <= 4)%nat -> smooth f lo hi 2 M -> 0 < h ->
  lo < c - 1 / 2 * h -> c + 1 / 2 * h < hi -> (forall i, (i <= k)%nat -> lo < c + (INR k / 2 - INR i) * h < hi) ->
  Rabs (@bigsum RA (S k) (fun i => nth i (integral_weights k) 0 * f (c + (INR k / 2 - INR i) * h)) * h - RInt f (c - 1 / 2 * h) (c + 1 / 2 * h))
    <= integral_error k * M * h ^ 3.
Proof.
  intros Hk Hs Hh H1 H2 Hn.
  pose proof (quadrature f lo hi c h M k 1 (1 / 2) 1 Hk Hs ltac:(lra) Hh ltac:(lra) ltac:(lra) H1 H2 Hn) as Q.
  rewrite Rdiv_1 in Q. eapply Rle_trans; [apply Q|].
  - intros q0 Hq. destruct q0 as [|q0 [|q1 [|]]]; cbn [length] in Hq; [| | |lia];
      (do 5 (destruct k as [|k]; [cbn [bigsum RA carrier integral_weights nth INR peval fold_right moment length combine seq fst snd pow map add zero]; rr; cbn; field|])); lia.
  - right. f_equal. f_equal. unfold node_sum. do 5 (destruct k as [|k]; [cbn -[Rabs]; rewrite ?INR_IZR_INZ; cbn -[Rabs];
      repeat match goal with |- context [Rabs ?v] => first [rewrite (Rabs_pos_eq v) by lra|rewrite (Rabs_left1 v) by lra] end; rr; field|]); lia.
Qed.

Lemma rule_exact k q0 : (1 <= k <= 4)%nat -> (length q0 <= rule_power k)%nat ->
  @bigsum RA (S k) (fun i => nth i (integral_weights k) 0 * peval q0 (INR k / 2 - INR i)) = moment (INR k / 2) (INR k) q0.
Proof.
  intros Hk Hq. destruct k as [|k]; [lia|]. do 4 (destruct k as [|k]; [cbn [rule_power] in Hq; do 7 (destruct q0 as [|? q0]; [first [exfalso; cbn [length] in Hq; lia|cbn; field]|]); cbn [length] in Hq; lia|]). lia.
Qed.
Lemma quad_rule f lo hi c h M k : (1 <= k <= 4)%nat -> smooth f lo hi (rule_power k) M -> 0 < h ->
  lo < c - INR k / 2 * h -> c + INR k / 2 * h < hi ->
  Rabs (@bigsum RA (S k) (fun i => nth i (integral_weights k) 0 * f (c + (INR k / 2 - INR i) * h)) * h - RInt f (c - INR k / 2 * h) (c + INR k / 2 * h) / INR k)
    <= rule_error k * M * h ^ S (rule_power k).
Proof.
  intros Hk Hs Hh H1 H2. assert (HK : 1 <= INR k) by (replace 1 with (INR 1) by reflexivity; apply le_INR; lia).
  assert (Hkh : 0 < INR k / 2 * h) by (apply Rmult_lt_0_compat; lra).
  replace (rule_power k) with (S (pred (rule_power k))) in * by (do 5 (destruct k as [|k]; [cbn; lia|]); lia).
  eapply Rle_trans; [apply (quadrature f lo hi c h M k (pred (rule_power k)) (INR k / 2) (INR k)); try lra; try lia; try exact Hs|].
  - intros i Hi. assert (0 <= INR i <= INR k) by (split; [apply pos_INR|apply le_INR; lia]).
    assert (0 <= INR i * h <= INR k * h) by (split; [apply Rmult_le_pos; lra|apply Rmult_le_compat_r; lra]). lra.
  - intros q0 Hq. apply rule_exact; [exact Hk|]. do 5 (destruct k as [|k]; [cbn in *; lia|]); lia.
  - right. f_equal. f_equal. unfold node_sum. destruct k as [|k]; [lia|]. do 4 (destruct k as [|k]; [cbn -[Rabs fact]; rewrite ?INR_IZR_INZ; cbn -[Rabs];
      repeat match goal with |- context [Rabs ?v] => first [rewrite (Rabs_pos_eq v) by lra|rewrite (Rabs_left1 v) by lra] end; rr; field|]); lia.
Qed.

Lemma integral_step (k : nat) ops (g : iir RA) (f : R -> R) (lo hi t0 h : R) (x : list R) :
  (k <= 4)%nat -> integral_used k ops g -> x <> [] -> sampled f lo hi t0 h x ->
  exists g' y, iir_filter g x = (g', Ok y) /\ length y = length x /\
    forall n, (k <= n)%nat -> (S n < length x)%nat -> nth (S n) y 0 = nth n y 0 +
      @bigsum RA (S k) (fun i => nth i (integral_weights k) 0 * f (t0 + (INR (S n) - INR k / 2) * h + (INR k / 2 - INR i) * h)).
Proof.
  intros Hk Hu Hx Hs. destruct (integral_used_iir k ops g Hk Hu) as (Hi & La & Lb & Ed & Ea & Eb).
  destruct (C11_iir_difference_any_state RA RA_laws _ _ _ _ _ x (integral_coeffs_ok k) Hi Hx) as (g' & y & Ef & Hl & Hy).
  { rewrite Ed. apply Forall_RA_float. }
  exists g', y. split; [exact Ef|]. split; [exact Hl|]. intros n Hn1 Hn2. pose proof (Hy (S n)) as Hyn. change (@zero RA) with 0 in Hyn.
  rewrite Hyn by (split; [rewrite Lb; lia|exact Hn2]). clear Hyn. rewrite (integral_rhs k) by assumption.
  replace (Z.of_nat (S n) - 1)%Z with (Z.of_nat n) by lia.
  unfold sig at 1. destruct (Z.ltb_spec (Z.of_nat n) 0%Z); [lia|]. rewrite Nat2Z.id. f_equal.
  unfold convolution. rewrite length_weights by exact Hk. apply (@bigsum_ext RA). intros i Hi'. unfold sig.
  destruct (Z.ltb_spec (Z.of_nat (S n) - Z.of_nat i) 0%Z); [lia|]. change (@zero RA) with 0.
  replace (Z.to_nat (Z.of_nat (S n) - Z.of_nat i)) with (S n - i)%nat by lia.
  destruct (Hs (S n - i)%nat ltac:(lia)) as [_ Hsi]. rr. rewrite Hsi. f_equal. f_equal. rewrite minus_INR by lia. ring.
Qed.

(** C154.  The running integral, and the rule over the last k intervals. *)
Theorem C154_integral_accuracy (k : nat) ops (g : iir RA) (f : R -> R) (lo hi t0 h M : R) (x : list R) :
  (k <= 4)%nat -> integral_used k ops g -> x <> [] -> 0 < h -> smooth f lo hi 2 M -> sampled f lo hi t0 h x ->
  exists g' y, iir_filter g x = (g', Ok y) /\ length y = length x /\
    forall m n, (k <= m <= n)%nat -> (n < length x)%nat ->
      let s := t0 + (INR m - (INR k - 1) / 2) * h in let t := t0 + (INR n - (INR k - 1) / 2) * h in
      lo < s < hi -> lo < t < hi ->
      Rabs (h * (nth n y 0 - nth m y 0) - RInt f s t) <= integral_error k * M * h ^ 3 * INR (n - m).
Proof.
  intros Hk Hu Hx Hh Hs Hx0.
  destruct (integral_step k ops g f lo hi t0 h x Hk Hu Hx Hx0) as (g' & y & E & Hl & Hstep).
  exists g', y. split; [exact E|]. split; [exact Hl|]. intros m n [Hm Hmn] Hn s t Is It. unfold t in *. clear t.
  revert Hn It. induction Hmn as [|n Hmn IH]; intros Hn It.
  - rewrite Nat.sub_diag. cbn [INR]. rewrite Rmult_0_r. fold s. rewrite RInt_point. unfold Rminus at 2. rewrite Rplus_opp_r, Rmult_0_r.
    change (@zero R_CompleteNormedModule) with 0. rewrite Rminus_0_r, Rabs_R0. lra.
  - set (t := t0 + (INR n - (INR k - 1) / 2) * h) in *. set (t' := t0 + (INR (S n) - (INR k - 1) / 2) * h) in *.
    assert (Et : t' = t + h) by (unfold t, t'; rewrite S_INR; ring).
    assert (Hst : s <= t) by (unfold s, t; apply Rplus_le_compat_l, Rmult_le_compat_r; [lra|]; pose proof (le_INR _ _ Hmn); lra).
    specialize (IH ltac:(lia) ltac:(lra)).
    set (c := t0 + (INR (S n) - INR k / 2) * h) in *.
    assert (E1 : c - 1 / 2 * h = t) by (unfold c, t; rewrite S_INR; field). assert (E2 : c + 1 / 2 * h = t') by (unfold c, t'; field).
    pose proof (quad_unit f lo hi c h M k Hk Hs Hh ltac:(lra) ltac:(lra)) as Q. rewrite E1, E2 in Q.
    assert (Ch : RInt f s t' = RInt f s t + RInt f t t').
    { pose proof (RInt_Chasles f s t t' ltac:(apply (smooth_ex_RInt f lo hi 1 M Hs); lra) ltac:(apply (smooth_ex_RInt f lo hi 1 M Hs); lra)) as Ch. symmetry. exact Ch. }
    rewrite Ch. rewrite (Hstep n ltac:(lia) Hn). fold c.
    match goal with |- context [nth n y 0 + ?b] => set (S1 := b) in * end.
    replace (h * (nth n y 0 + S1 - nth m y 0) - (RInt f s t + RInt f t t'))
      with ((h * (nth n y 0 - nth m y 0) - RInt f s t) + (S1 * h - RInt f t t')) by ring.
    eapply Rle_trans; [apply Rabs_triang|]. rewrite Nat.sub_succ_l, S_INR by exact Hmn.
    rewrite Rmult_plus_distr_l, Rmult_1_r. apply Rplus_le_compat; [exact IH|]. apply Q.
    intros i Hi. destruct (Hx0 (S n - i)%nat ltac:(lia)) as [H1 _]. rewrite minus_INR in H1 by lia. unfold c. lra.
Qed.
Print Assumptions C154_integral_accuracy.

Theorem C154_integral_rule (k : nat) ops (g : iir RA) (f : R -> R) (lo hi t0 h M : R) (x : list R) :
  (1 <= k <= 4)%nat -> integral_used k ops g -> x <> [] -> 0 < h -> smooth f lo hi (rule_power k) M -> sampled f lo hi t0 h x ->
  exists g' y, iir_filter g x = (g', Ok y) /\ length y = length x /\
    forall n, (k <= n)%nat -> (S n < length x)%nat ->
      let t := t0 + INR (S n) * h in
      Rabs (h * (nth (S n) y 0 - nth n y 0) - RInt f (t - INR k * h) t / INR k) <= rule_error k * M * h ^ S (rule_power k).
Proof.
  intros Hk Hu Hx Hh Hs Hx0.
  destruct (integral_step k ops g f lo hi t0 h x ltac:(lia) Hu Hx Hx0) as (g' & y & E & Hl & Hstep).
  exists g', y. split; [exact E|]. split; [exact Hl|]. intros n Hn1 Hn2 t. rewrite (Hstep n Hn1 Hn2).
  set (c := t0 + (INR (S n) - INR k / 2) * h).
  destruct (Hx0 (S n) Hn2) as [I1 _]. destruct (Hx0 (S n - k)%nat ltac:(lia)) as [I2 _]. rewrite minus_INR in I2 by lia.
  pose proof (quad_rule f lo hi c h M k Hk Hs Hh) as Q.
  replace (c - INR k / 2 * h) with (t - INR k * h) in Q by (unfold c, t; field). replace (c + INR k / 2 * h) with t in Q by (unfold c, t; field).
  assert (E0 : forall v b : R, h * (v + b - v) = b * h) by (intros; ring). rewrite E0. apply Q; unfold t; lra.
Qed.
Print Assumptions C154_integral_rule.

Example C154_example : exists g, @integral_make RA 2 = Ok g /\ integral_used 2 [] g /\ smooth sin (-1) 1 2 1 /\ smooth sin (-1) 1 (rule_power 2) 1 /\
  sampled sin (-1) 1 0 (1 / 10) (map (fun k => sin (0 + INR k * (1 / 10))) (seq 0 6)) /\
  rule_error 2 * 1 * (1 / 10) ^ S (rule_power 2) = 1 / 4500000.
Proof.
  destruct (proj2 (C19_integral_orders RA 2 (proj2 (Reqb_iff 0 0) eq_refl)) ltac:(lia)) as (g & E). exists g. split; [exact E|].
  split; [exists g; split; [exact E|reflexivity]|]. split; [apply sin_smooth|]. split; [apply sin_smooth|]. split.
  - intros k Hk. rewrite map_length, seq_length in Hk. rewrite nth_map_seq by exact Hk. split; [|reflexivity].
    assert (0 <= INR k <= 5) by (split; [apply pos_INR|]; replace 5 with (INR 5) by (cbn; ring); apply le_INR; lia). lra.
  - cbn. field.
Qed.
