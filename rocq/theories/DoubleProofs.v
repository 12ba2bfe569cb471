(** Dot products of doubles: no overflow, error bound, NaN propagation. *)
From Flocq Require Import Core Relative BinarySingleNaN PrimFloat.
From Coq Require Import List Arith ZArith Reals Lra Lia Floats Permutation.
From Verif Require Import Base BaseLemmas Instances DoubleSpec.
Import ListNotations.
Open Scope R_scope.

Lemma uro_pos : 0 < uro. Proof. unfold uro. pose proof (bpow_gt_0 radix2 (-52)). lra. Qed.
Lemma eta0_pos : 0 < eta0. Proof. unfold eta0. pose proof (bpow_gt_0 radix2 (-1074)). lra. Qed.
Lemma huge_pos : 0 < huge. Proof. apply bpow_gt_0. Qed.

Lemma nearest_close x : Rabs (nearest x - x) <= uro * Rabs x + eta0.
Proof.
  destruct (error_N_FLT radix2 (-1074) 53 ltac:(lia) (fun z => negb (Z.even z)) x) as (eps & eta & He & Hn & _ & E).
  unfold nearest. rewrite E. replace (x * (1 + eps) + eta - x) with (x * eps + eta) by ring.
  eapply Rle_trans; [apply Rabs_triang|]. rewrite Rabs_mult. unfold uro, eta0.
  change (- (53) + 1)%Z with (-52)%Z in He.
  pose proof (Rmult_le_compat_l _ _ _ (Rabs_pos x) He). lra.
Qed.
Lemma nearest_val x : nearest (val x) = val x.
Proof. apply round_generic; [apply valid_rnd_N|]. apply (generic_format_B2R 53 1024). Qed.
Lemma nearest_bound x : Rabs (nearest x) <= (1 + uro) * Rabs x + eta0.
Proof.
  pose proof (nearest_close x). pose proof (Rabs_triang (nearest x - x) x).
  replace (nearest x - x + x) with (nearest x) in H0 by ring. lra.
Qed.

Lemma add_fin x y : finite x -> finite y -> Rabs (nearest (val x + val y)) < huge ->
  finite (x + y)%float /\ val (x + y)%float = nearest (val x + val y).
Proof.
  unfold finite. rewrite !is_finite_equiv. intros Hx Hy H.
  pose proof (Bplus_correct 53 1024 ltac:(reflexivity) ltac:(reflexivity) mode_NE (Prim2B x) (Prim2B y) Hx Hy) as K.
  rewrite Rlt_bool_true in K by exact H. unfold val. rewrite add_equiv. split; apply K.
Qed.
Lemma mul_fin x y : finite x -> finite y -> Rabs (nearest (val x * val y)) < huge ->
  finite (x * y)%float /\ val (x * y)%float = nearest (val x * val y).
Proof.
  unfold finite. rewrite !is_finite_equiv. intros Hx Hy H.
  pose proof (Bmult_correct 53 1024 ltac:(reflexivity) ltac:(reflexivity) mode_NE (Prim2B x) (Prim2B y)) as K.
  rewrite Rlt_bool_true in K by exact H. unfold val. rewrite mul_equiv. split; [|apply K].
  destruct K as (_ & K & _). exact (eq_trans K (f_equal2 andb Hx Hy)).
Qed.
Lemma val_zero : val 0%float = 0. Proof. reflexivity. Qed.
Lemma fin_zero : finite 0%float. Proof. reflexivity. Qed.

(** Exact sum, and sum of magnitudes *)
Definition exact (l : list (float * float)) : R := fold_right (fun p r => val (fst p) * val (snd p) + r) 0 l.
Definition mags (l : list (float * float)) : R := fold_right (fun p r => Rabs (val (fst p)) * Rabs (val (snd p)) + r) 0 l.
Lemma exact_app l m : exact (l ++ m) = exact l + exact m.
Proof. unfold exact. induction l as [|p l IH]; cbn [app fold_right]; [ring|]. rewrite IH. ring. Qed.
Lemma mags_app l m : mags (l ++ m) = mags l + mags m.
Proof. unfold mags. induction l as [|p l IH]; cbn [app fold_right]; [ring|]. rewrite IH. ring. Qed.
Lemma exact_perm l m : Permutation l m -> exact l = exact m.
Proof. unfold exact. induction 1; cbn [fold_right] in *; lra. Qed.
Lemma mags_perm l m : Permutation l m -> mags l = mags m.
Proof. unfold mags. induction 1; cbn [fold_right] in *; lra. Qed.
Lemma mags_pos l : 0 <= mags l.
Proof. unfold mags. induction l as [|p l IH]; cbn [fold_right]; [lra|]. pose proof (Rmult_le_pos _ _ (Rabs_pos (val (fst p))) (Rabs_pos (val (snd p)))). lra. Qed.
Lemma exact_mags l : Rabs (exact l) <= mags l.
Proof.
  unfold exact, mags. induction l as [|p l IH]; cbn [fold_right]; [rewrite Rabs_R0; lra|]. eapply Rle_trans; [apply Rabs_triang|].
  rewrite Rabs_mult. lra.
Qed.

(** Relative and absolute error of a dot product of length n *)
Definition gam (n : nat) : R := (1 + uro) ^ n - 1.
Definition und (n : nat) : R := INR (2 * n - 1) * (1 + uro) ^ n * eta0.
Lemma pow_ge n : 1 <= (1 + uro) ^ n. Proof. apply pow_R1_Rle. pose proof uro_pos. lra. Qed.
Lemma gam_pos n : 0 <= gam n. Proof. unfold gam. pose proof (pow_ge n). lra. Qed.
Lemma und_pos n : 0 <= und n.
Proof. unfold und. pose proof (pow_ge n). pose proof (pos_INR (2 * n - 1)). pose proof eta0_pos. apply Rmult_le_pos; [apply Rmult_le_pos; lra|lra]. Qed.
Lemma pow_mono m n : (m <= n)%nat -> (1 + uro) ^ m <= (1 + uro) ^ n.
Proof. intros H. apply Rle_pow; [pose proof uro_pos; lra|exact H]. Qed.
Lemma gam_mono m n : (m <= n)%nat -> gam m <= gam n.
Proof. intros H. unfold gam. pose proof (pow_mono m n H). lra. Qed.
Lemma und_mono m n : (m <= n)%nat -> und m <= und n.
Proof.
  intros H. unfold und. pose proof (pow_mono m n H). pose proof (pow_ge m). pose proof (le_INR (2 * m - 1) (2 * n - 1) ltac:(lia)). pose proof (pos_INR (2 * m - 1)). pose proof eta0_pos.
  apply Rmult_le_compat_r; [lra|]. apply Rmult_le_compat; lra.
Qed.
Lemma gam_S n : gam (S n) = (1 + uro) * gam n + uro. Proof. unfold gam. cbn [pow]. ring. Qed.

(** The result is finite and close if the magnitudes are not too large. *)
Definition good (l : list (float * float)) (v : float) : Prop :=
  finite v /\ Rabs (val v - exact l) <= gam (length l) * mags l + und (length l).
Lemma good_bound l v : good l v -> Rabs (val v) <= (1 + gam (length l)) * mags l + und (length l).
Proof.
  intros [_ H]. pose proof (exact_mags l). pose proof (Rabs_triang (val v - exact l) (exact l)).
  replace (val v - exact l + exact l) with (val v) in H1 by ring. lra.
Qed.

(** one rounding after an inexact argument *)
Lemma round_err z e E a : Rabs (z - e) <= E -> Rabs e <= a -> Rabs (nearest z - e) <= (1 + uro) * E + uro * a + eta0.
Proof.
  intros H1 H2. pose proof (nearest_close z) as K. pose proof uro_pos.
  assert (Z : Rabs z <= a + E).
  { pose proof (Rabs_triang (z - e) e) as T. replace (z - e + e) with z in T by ring. lra. }
  pose proof (Rabs_triang (nearest z - z) (z - e)) as T. replace (nearest z - z + (z - e)) with (nearest z - e) in T by ring.
  assert (uro * Rabs z <= uro * (a + E)) by (apply Rmult_le_compat_l; lra). lra.
Qed.
Lemma err_size z e E a : Rabs (z - e) <= E -> Rabs e <= a -> Rabs z <= a + E.
Proof. intros H1 H2. pose proof (Rabs_triang (z - e) e) as T. replace (z - e + e) with z in T by ring. lra. Qed.

Theorem dots_good l v : dots l v -> Forall (fun p => finite (fst p) /\ finite (snd p)) l ->
  (1 + gam (length l)) * mags l + und (length l) < huge -> good l v.
Proof.
  pose proof uro_pos as U. pose proof eta0_pos as T0.
  induction 1 as [|x y|x y l v w D IH Hf|l m v w D1 IH1 D2 IH2|l m v P D IH]; intros F H.
  - split; [exact fin_zero|]. rewrite val_zero. cbn. replace (0 - 0) with 0 by ring. rewrite Rabs_R0. unfold gam, und. cbn. lra.
  - inversion F as [|p q [Fx Fy] _]; subst; cbn [fst snd] in *.
    assert (E : Rabs (nearest (val x * val y) - val x * val y) <= gam 1 * mags [(x, y)] + und 1).
    { eapply Rle_trans; [apply nearest_close|]. rewrite Rabs_mult. unfold gam, und, mags. cbn.
      pose proof (Rmult_le_pos _ _ (Rabs_pos (val x)) (Rabs_pos (val y))). nra. }
    assert (E2 : Rabs (nearest (val x * val y)) < huge).
    { eapply Rle_lt_trans; [|exact H]. cbn [length]. eapply Rle_trans; [apply (err_size _ _ _ _ E (Rle_refl _))|].
      pose proof (exact_mags [(x, y)]) as K. unfold exact in K. cbn [fold_right fst snd] in K. rewrite Rplus_0_r in K. lra. }
    destruct (mul_fin x y Fx Fy E2) as [F1 V1]. split; [exact F1|]. rewrite V1. unfold exact. cbn [fold_right fst snd]. rewrite Rplus_0_r. exact E.
  - inversion F as [|p q [Fx Fy] Fl]; subst; cbn [fst snd] in *. cbn [length] in *.
    set (n := length l) in *. set (xy := val x * val y).
    assert (Em : mags ((x, y) :: l) = Rabs xy + mags l) by (unfold xy; rewrite Rabs_mult; reflexivity).
    assert (Ee : exact ((x, y) :: l) = xy + exact l) by reflexivity.
    rewrite Em in *. pose proof (Rabs_pos xy) as P0. pose proof (mags_pos l) as P1. pose proof (exact_mags l) as P2.
    pose proof (gam_pos n). pose proof (und_pos n). pose proof (gam_mono n (S n) ltac:(lia)). pose proof (und_mono n (S n) ltac:(lia)).
    assert (G : good l v).
    { apply IH; [exact Fl|]. eapply Rle_lt_trans; [|exact H].
      assert (gam n * mags l <= gam (S n) * mags l) by (apply Rmult_le_compat_r; lra).
      assert (0 <= gam (S n) * Rabs xy) by (apply Rmult_le_pos; lra). lra. }
    destruct G as [Fv Ev]. fold n in Ev.
    assert (E : Rabs (nearest (xy + val v) - (xy + exact l)) <= gam (S n) * (Rabs xy + mags l) + und (S n)).
    { assert (E1 : Rabs (xy + val v - (xy + exact l)) <= gam n * mags l + und n) by (replace (xy + val v - (xy + exact l)) with (val v - exact l) by ring; exact Ev).
      pose proof (round_err _ _ _ (Rabs xy + mags l) E1 ltac:(eapply Rle_trans; [apply Rabs_triang|lra])) as E2.
      rewrite gam_S. assert (0 <= (1 + uro) * gam n * Rabs xy) by (apply Rmult_le_pos; [apply Rmult_le_pos; lra|lra]).
      assert (und (S n) >= (1 + uro) * und n + eta0).
      { unfold und. pose proof (le_INR (2 * n - 1 + 1) (2 * S n - 1) ltac:(lia)) as LI. rewrite plus_INR in LI. cbn [INR] in LI. cbn [pow].
        pose proof (pow_ge n). set (p := (1 + uro) * (1 + uro) ^ n) in *. assert (1 <= p) by (unfold p; nra).
        assert ((INR (2 * n - 1) + 1) * p <= INR (2 * S n - 1) * p) by (apply Rmult_le_compat_r; lra).
        assert ((INR (2 * n - 1) * p + 1) * eta0 <= (INR (2 * S n - 1) * p) * eta0) by (apply Rmult_le_compat_r; lra). unfold p in *. lra. }
      nra. }
    rewrite <- Ee in E.
    assert (E2 : Rabs (nearest (xy + val v)) < huge).
    { eapply Rle_lt_trans; [|exact H]. pose proof (err_size _ _ _ _ E (exact_mags _)) as Z. rewrite Em in Z. lra. }
    destruct (proj1 Hf Fx Fy Fv E2) as [Fw Vw]. split; [exact Fw|]. fold xy in Vw. rewrite Vw. cbn [length]. fold n. rewrite Em. exact E.
  - apply Forall_app in F. destruct F as [F1 F2]. rewrite app_length, mags_app in H.
    pose proof (mags_pos l) as P1. pose proof (mags_pos m) as P2. pose proof (exact_mags l) as Q1. pose proof (exact_mags m) as Q2.
    set (n1 := length l) in *. set (n2 := length m) in *.
    pose proof (gam_pos n1). pose proof (gam_pos n2). pose proof (und_pos n1). pose proof (und_pos n2).
    pose proof (gam_pos (n1 + n2)).
    pose proof (gam_mono n1 (n1 + n2) ltac:(lia)). pose proof (gam_mono n2 (n1 + n2) ltac:(lia)).
    pose proof (und_mono n1 (n1 + n2) ltac:(lia)). pose proof (und_mono n2 (n1 + n2) ltac:(lia)).
    assert (0 <= gam (n1 + n2) * mags l) by (apply Rmult_le_pos; lra). assert (0 <= gam (n1 + n2) * mags m) by (apply Rmult_le_pos; lra).
    assert (G1 : good l v).
    { apply IH1; [exact F1|]. fold n1. assert (gam n1 * mags l <= gam (n1 + n2) * mags l) by (apply Rmult_le_compat_r; lra). lra. }
    assert (G2 : good m w).
    { apply IH2; [exact F2|]. fold n2. assert (gam n2 * mags m <= gam (n1 + n2) * mags m) by (apply Rmult_le_compat_r; lra). lra. }
    assert (E : Rabs (nearest (val v + val w) - exact (l ++ m)) <= gam (n1 + n2) * (mags l + mags m) + und (n1 + n2)).
    { destruct G1 as [Fv Ev], G2 as [Fw Ew]. fold n1 in Ev. fold n2 in Ew. rewrite exact_app.
      destruct (Nat.eq_dec n1 0) as [Z1|Z1]; [|destruct (Nat.eq_dec n2 0) as [Z2|Z2]].
      - assert (El : l = []) by (destruct l; [reflexivity|discriminate]). subst l. unfold n1 in *. cbn [length] in *.
        assert (V0 : val v = 0).
        { unfold gam, und in Ev. cbn in Ev. assert (Rabs (val v - 0) <= 0) by lra. pose proof (Rabs_pos (val v - 0)).
          destruct (Req_dec (val v - 0) 0) as [K|K]; [lra|]. pose proof (Rabs_pos_lt _ K). lra. }
        rewrite V0, Rplus_0_l, nearest_val. cbn [Nat.add]. cbn [exact mags fold_right]. rewrite !Rplus_0_l. exact Ew.
      - assert (El : m = []) by (destruct m; [reflexivity|discriminate]). subst m. unfold n2 in *. cbn [length] in *.
        assert (V0 : val w = 0).
        { unfold gam, und in Ew. cbn in Ew. assert (Rabs (val w - 0) <= 0) by lra. pose proof (Rabs_pos (val w - 0)).
          destruct (Req_dec (val w - 0) 0) as [K|K]; [lra|]. pose proof (Rabs_pos_lt _ K). lra. }
        rewrite V0, Rplus_0_r, nearest_val. rewrite Nat.add_0_r. cbn [exact mags fold_right]. rewrite !Rplus_0_r. exact Ev.
      - assert (E1 : Rabs (val v + val w - (exact l + exact m)) <= (gam n1 * mags l + und n1) + (gam n2 * mags m + und n2)).
        { replace (val v + val w - (exact l + exact m)) with ((val v - exact l) + (val w - exact m)) by ring.
          eapply Rle_trans; [apply Rabs_triang|]. lra. }
        pose proof (round_err _ _ _ (mags l + mags m) E1 ltac:(eapply Rle_trans; [apply Rabs_triang|lra])) as E2.
        destruct (n1 + n2)%nat as [|n] eqn:En; [lia|]. rewrite gam_S.
        pose proof (gam_mono n1 n ltac:(lia)). pose proof (gam_mono n2 n ltac:(lia)). pose proof (gam_pos n).
        assert ((1 + uro) * (gam n1 * mags l) <= (1 + uro) * (gam n * mags l)) by (apply Rmult_le_compat_l; [lra|]; apply Rmult_le_compat_r; lra).
        assert ((1 + uro) * (gam n2 * mags m) <= (1 + uro) * (gam n * mags m)) by (apply Rmult_le_compat_l; [lra|]; apply Rmult_le_compat_r; lra).
        assert ((1 + uro) * (und n1 + und n2) + eta0 <= und (S n)).
        { unfold und. pose proof (pow_mono n1 n ltac:(lia)). pose proof (pow_mono n2 n ltac:(lia)).
          assert (LI : INR (2 * S n - 1) = INR (2 * n1 - 1) + INR (2 * n2 - 1) + 1) by (rewrite <- plus_INR, <- S_INR; f_equal; lia).
          rewrite LI. cbn [pow]. pose proof (pow_ge n) as G. set (p := (1 + uro) ^ n) in *.
          pose proof (pos_INR (2 * n1 - 1)) as I1. pose proof (pos_INR (2 * n2 - 1)) as I2. set (i1 := INR (2 * n1 - 1)) in *. set (i2 := INR (2 * n2 - 1)) in *.
          assert (i1 * (1 + uro) ^ n1 <= i1 * p) by (apply Rmult_le_compat_l; lra). assert (i2 * (1 + uro) ^ n2 <= i2 * p) by (apply Rmult_le_compat_l; lra).
          assert (1 <= (1 + uro) * p) by nra.
          assert ((1 + uro) * (i1 * (1 + uro) ^ n1 + i2 * (1 + uro) ^ n2) <= (1 + uro) * (i1 * p + i2 * p)) by (apply Rmult_le_compat_l; lra).
          assert (((1 + uro) * (i1 * (1 + uro) ^ n1 + i2 * (1 + uro) ^ n2) + 1) * eta0 <= ((i1 + i2 + 1) * ((1 + uro) * p)) * eta0) by (apply Rmult_le_compat_r; lra).
          lra. }
        nra. }
    assert (E2 : Rabs (nearest (val v + val w)) < huge).
    { pose proof (err_size _ _ _ _ E (exact_mags _)) as Z. rewrite mags_app in Z. lra. }
    destruct (add_fin v w (proj1 G1) (proj1 G2) E2) as [Fw Vw]. split; [exact Fw|]. rewrite Vw, app_length, mags_app. fold n1 n2. exact E.
  - rewrite <- (mags_perm _ _ P), <- (Permutation_length P) in H.
    assert (F' : Forall (fun p => finite (fst p) /\ finite (snd p)) l) by (eapply Permutation_Forall; [apply Permutation_sym; exact P|exact F]).
    destruct (IH F' H) as [Fv Ev]. split; [exact Fv|]. rewrite <- (exact_perm _ _ P), <- (mags_perm _ _ P), <- (Permutation_length P). exact Ev.
Qed.

(** ** NaN *)
Lemma mul_nan x y : nonnumber x \/ nonnumber y -> nonnumber (x * y)%float.
Proof.
  unfold nonnumber. rewrite !is_nan_equiv, mul_equiv. intros [H|H].
  - destruct (Prim2B x); try discriminate. reflexivity.
  - destruct (Prim2B y); try discriminate. destruct (Prim2B x); reflexivity.
Qed.
Lemma add_nan x y : nonnumber x \/ nonnumber y -> nonnumber (x + y)%float.
Proof.
  unfold nonnumber. rewrite !is_nan_equiv, add_equiv. intros [H|H].
  - destruct (Prim2B x); try discriminate. reflexivity.
  - destruct (Prim2B y); try discriminate. destruct (Prim2B x); reflexivity.
Qed.
Lemma mul_inf_zero x y : ~ finite x -> finite y -> val y = 0 -> nonnumber (x * y)%float /\ nonnumber (y * x)%float.
Proof.
  unfold finite, nonnumber, val. rewrite !is_finite_equiv, !is_nan_equiv, !mul_equiv. intros Hx Hy V.
  destruct (Prim2B y) as [sy|sy| |sy my ey Ey] eqn:E; try discriminate.
  - destruct (Prim2B x); try (exfalso; apply Hx; reflexivity); split; reflexivity.
  - exfalso. apply eq_0_F2R in V. destruct sy; discriminate.
Qed.
Definition poison (p : float * float) : Prop :=
  nonnumber (fst p) \/ nonnumber (snd p) \/ (~ finite (fst p) /\ val (snd p) = 0 /\ finite (snd p)) \/ (~ finite (snd p) /\ val (fst p) = 0 /\ finite (fst p)).
Lemma mul_poison x y : poison (x, y) -> nonnumber (x * y)%float.
Proof.
  intros [H|[H|[(H1 & H2 & H3)|(H1 & H2 & H3)]]]; cbn [fst snd] in *.
  - apply mul_nan; auto.
  - apply mul_nan; auto.
  - apply (mul_inf_zero x y H1 H3 H2).
  - apply (mul_inf_zero y x H1 H3 H2).
Qed.
Lemma dots_nan l v : dots l v -> Exists poison l -> nonnumber v.
Proof.
  induction 1 as [|x y|x y l v w D IH Hf|l m v w D1 IH1 D2 IH2|l m v P D IH]; intros H.
  - inversion H.
  - inversion H as [p l Hp|p l Hp]; subst; [apply mul_poison; exact Hp|inversion Hp].
  - apply (proj2 Hf). inversion H as [p q Hp|p q Hp]; subst; [|auto]. destruct Hp as [Hp|[Hp|[Hp|Hp]]]; cbn [fst snd] in Hp; tauto.
  - apply Exists_app in H. apply add_nan. destruct H; auto.
  - apply IH. apply Exists_exists in H. destruct H as (p & Hin & Hp). apply Exists_exists. exists p. split; [|exact Hp].
    eapply Permutation_in; [apply Permutation_sym; exact P|exact Hin].
Qed.

(** ** Adding up from left to right is one of the orders. *)
Lemma dots_left l : forall m k v, length l = length m -> dots k v ->
  dots (k ++ combine l m) (dot_from PrimFloat.add PrimFloat.mul v l m).
Proof.
  induction l as [|x l IH]; intros [|y m] k v H D; try discriminate; cbn.
  - rewrite app_nil_r. exact D.
  - replace (k ++ (x, y) :: combine l m) with ((k ++ [(x, y)]) ++ combine l m) by (rewrite <- app_assoc; reflexivity).
    apply IH; [cbn in H; congruence|]. apply dots_add; [exact D|apply dots_mul].
Qed.
Lemma left_any_order : any_order (dot_from PrimFloat.add PrimFloat.mul 0%float).
Proof. intros l m H. apply (dots_left l m [] 0%float H dots_nil). Qed.

(** ** Sums over a window *)
Lemma weighted_bigsum (g : float -> R) l : forall m, length l = length m ->
  fold_right (fun p r => g (fst p) * g (snd p) + r) 0 (combine l m) = @bigsum RA (length l) (fun i => (g (nth i l 0%float) * g (nth i m 0%float))%R).
Proof.
  induction l as [|x l IH]; intros [|y m] H; try discriminate; [reflexivity|]. cbn [combine fold_right length fst snd].
  rewrite IH by (cbn in H; congruence). rewrite (bigsum_S_l RA RA_laws). reflexivity.
Qed.
Definition aval (x : float) : R := Rabs (val x).
Lemma aval_zero : aval 0%float = 0. Proof. unfold aval. rewrite val_zero. apply Rabs_R0. Qed.
