(** Single operations on doubles: values, exactness, comparison. *)
From Flocq Require Import Core Relative Sterbenz Plus_error BinarySingleNaN PrimFloat.
From Coq Require Import List Arith ZArith Reals Lra Lia Floats.
From Verif Require Import Base BaseLemmas Instances CalculusModel DoubleSpec DoubleProofs.
Open Scope R_scope.

Lemma sub_fin x y : finite x -> finite y -> Rabs (nearest (val x - val y)) < huge ->
  finite (x - y)%float /\ val (x - y)%float = nearest (val x - val y).
Proof.
  unfold finite. rewrite !is_finite_equiv. intros Hx Hy H.
  pose proof (Bminus_correct 53 1024 ltac:(reflexivity) ltac:(reflexivity) mode_NE (Prim2B x) (Prim2B y) Hx Hy) as K.
  rewrite Rlt_bool_true in K by exact H. unfold val. rewrite sub_equiv. split; apply K.
Qed.
Lemma div_fin x y : finite x -> val y <> 0 -> Rabs (nearest (val x / val y)) < huge ->
  finite (x / y)%float /\ val (x / y)%float = nearest (val x / val y).
Proof.
  unfold finite. rewrite !is_finite_equiv. intros Hx Hy H.
  pose proof (Bdiv_correct 53 1024 ltac:(reflexivity) ltac:(reflexivity) mode_NE (Prim2B x) (Prim2B y) Hy) as K.
  rewrite Rlt_bool_true in K by exact H. unfold val. rewrite div_equiv. split; [|apply K].
  destruct K as (_ & K & _). exact (eq_trans K Hx).
Qed.
Lemma abs_fin x : finite x -> finite (PrimFloat.abs x) /\ val (PrimFloat.abs x) = Rabs (val x).
Proof. unfold finite, val. rewrite !is_finite_equiv, abs_equiv. intros H. split; [rewrite is_finite_Babs; exact H|apply B2R_Babs]. Qed.
Lemma ltb_val x y : finite x -> finite y -> (PrimFloat.ltb x y = true <-> val x < val y).
Proof.
  unfold finite, val. rewrite !is_finite_equiv. intros Hx Hy. rewrite ltb_equiv, Bltb_correct by assumption.
  destruct (Rlt_bool_spec (B2R (Prim2B x)) (B2R (Prim2B y))); split; intros; try lra; try reflexivity; discriminate.
Qed.
Lemma leb_val x y : finite x -> finite y -> (PrimFloat.leb x y = true <-> val x <= val y).
Proof.
  unfold finite, val. rewrite !is_finite_equiv. intros Hx Hy. rewrite leb_equiv, Bleb_correct by assumption.
  destruct (Rle_bool_spec (B2R (Prim2B x)) (B2R (Prim2B y))); split; intros; try lra; try reflexivity; discriminate.
Qed.
Lemma nearest_le x y : x <= y -> nearest x <= nearest y.
Proof. apply round_le; [apply FLT_exp_valid; reflexivity|apply valid_rnd_N]. Qed.
Lemma nearest_opp x : nearest (- x) = - nearest x.
Proof. apply round_NE_opp. Qed.
(** Multiples of 2^e below 2^(53+e) are doubles. *)
Lemma grid_format m e : (-1074 <= e)%Z -> (Z.abs m <= 2 ^ 53)%Z -> generic_format radix2 (FLT_exp (-1074) 53) (IZR m * bpow radix2 e).
Proof.
  intros He Hm. destruct (Z.eq_dec (Z.abs m) (2 ^ 53)) as [E|E].
  - assert (C : m = (2 ^ 53)%Z \/ m = (- 2 ^ 53)%Z) by lia.
    assert (G : generic_format radix2 (FLT_exp (-1074) 53) (bpow radix2 (53 + e))).
    { apply generic_format_bpow. unfold FLT_exp. lia. }
    assert (B : IZR (2 ^ 53) * bpow radix2 e = bpow radix2 (53 + e)).
    { rewrite bpow_plus. f_equal. }
    destruct C as [-> | ->]; [rewrite B; exact G|]. rewrite opp_IZR, Ropp_mult_distr_l_reverse, B. apply generic_format_opp, G.
  - apply generic_format_FLT. exists (Float radix2 m e); [reflexivity| |exact He]. cbn [Fnum]. change (radix2 ^ 53)%Z with (2 ^ 53)%Z. lia.
Qed.
Lemma nearest_grid m e : (-1074 <= e)%Z -> (Z.abs m <= 2 ^ 53)%Z -> nearest (IZR m * bpow radix2 e) = IZR m * bpow radix2 e.
Proof. intros He Hm. apply round_generic; [apply valid_rnd_N|apply grid_format; assumption]. Qed.
Lemma nearest_IZR m : (Z.abs m <= 2 ^ 53)%Z -> nearest (IZR m) = IZR m.
Proof. intros H. pose proof (nearest_grid m 0 ltac:(lia) H) as E. cbn [bpow] in E. rewrite Rmult_1_r in E. exact E. Qed.
(** Rounding does not pass an integer. *)
Lemma nearest_ceil x m : (Z.abs m <= 2 ^ 53)%Z -> Rabs x <= IZR m -> Rabs (nearest x) <= IZR m.
Proof.
  intros Hm H. assert (-IZR m <= x <= IZR m) by (revert H; unfold Rabs; destruct (Rcase_abs x); lra). apply Rabs_le. split.
  - rewrite <- (nearest_IZR m Hm), <- nearest_opp. apply nearest_le. lra.
  - rewrite <- (nearest_IZR m Hm). apply nearest_le. lra.
Qed.
Lemma nearest_nonneg x : 0 <= x -> 0 <= nearest x.
Proof. intros H. rewrite <- (nearest_IZR 0 ltac:(cbn; lia)). apply nearest_le. exact H. Qed.
(** Sterbenz: differences of numbers within a factor of two are exact. *)
Lemma nearest_sterbenz x y : generic_format radix2 (FLT_exp (-1074) 53) x -> generic_format radix2 (FLT_exp (-1074) 53) y ->
  y / 2 <= x <= 2 * y -> nearest (x - y) = x - y.
Proof.
  intros Hx Hy H. apply round_generic; [apply valid_rnd_N|]. apply sterbenz; [apply FLT_exp_valid; reflexivity|apply FLT_exp_monotone|exact Hx|exact Hy|exact H].
Qed.
Lemma val_format x : generic_format radix2 (FLT_exp (-1074) 53) (val x).
Proof. apply (generic_format_B2R 53 1024). Qed.
Lemma huge_big : IZR (2 ^ 60) < huge.
Proof. unfold huge. change (IZR (2 ^ 60)) with (bpow radix2 60). apply bpow_lt. lia. Qed.
Lemma eta_uro : eta0 <= uro.
Proof. unfold eta0, uro. apply Rmult_le_compat_l; [lra|]. apply bpow_le. lia. Qed.
Lemma add_close x y : Rabs (nearest (val x + val y) - (val x + val y)) <= uro * Rabs (val x + val y).
Proof.
  assert (P53 : Prec_gt_0 53) by reflexivity.
  destruct (Plus_error.FLT_plus_error_N_ex radix2 (-1074) 53 (fun z => negb (Z.even z)) (val x) (val y) (val_format x) (val_format y)) as (eps & He & E).
  unfold nearest. rewrite E. replace ((val x + val y) * (1 + eps) - (val x + val y)) with (eps * (val x + val y)) by ring.
  rewrite Rabs_mult. apply Rmult_le_compat_r; [apply Rabs_pos|]. eapply Rle_trans; [exact He|].
  assert (U : u_ro radix2 53 = uro) by reflexivity. rewrite U. pose proof uro_pos as Up.
  apply Rmult_le_reg_r with (1 + uro); [lra|]. unfold Rdiv. rewrite Rmult_assoc, Rinv_l by lra. nra.
Qed.
Lemma of_pos_double p : (Z.pos p <= 2 ^ 53)%Z -> finite (@CalculusModel.of_pos FA p) /\ val (@CalculusModel.of_pos FA p) = IZR (Z.pos p).
Proof.
  pose proof huge_big as Hb. assert (Hlt : forall z, (Z.abs z <= 2 ^ 53)%Z -> Rabs (IZR z) < huge).
  { intros z Hz. rewrite <- abs_IZR. eapply Rle_lt_trans; [apply IZR_le; exact Hz|]. eapply Rlt_trans; [|exact Hb]. apply IZR_lt. reflexivity. }
  assert (Two : forall f z, finite f -> val f = IZR z -> (0 <= z)%Z -> (2 * z <= 2 ^ 53)%Z -> finite (f + f)%float /\ val (f + f)%float = IZR (2 * z)).
  { intros f z F V Pz Hz. assert (E : val f + val f = IZR (2 * z)) by (rewrite V, mult_IZR; lra).
    assert (Hh : Rabs (nearest (val f + val f)) < huge) by (rewrite E, nearest_IZR by lia; apply Hlt; lia).
    destruct (add_fin f f F F Hh) as [F2 V2]. rewrite E, nearest_IZR in V2 by lia. split; assumption. }
  induction p as [p IH|p IH|]; intros Hp; cbn [CalculusModel.of_pos].
  - destruct IH as [F V]; [lia|]. destruct (Two _ _ F V ltac:(lia) ltac:(lia)) as [F2 V2].
    assert (E : val 1%float + val (@CalculusModel.of_pos FA p + @CalculusModel.of_pos FA p)%float = IZR (Z.pos p~1)).
    { rewrite V2. change (val 1%float) with (B2R (Prim2B 1%float)). replace (B2R (Prim2B 1%float)) with 1; [|unfold B2R; cbn; unfold F2R; cbn; lra].
      rewrite (Pos2Z.inj_xI p), plus_IZR. ring. }
    assert (Hh : Rabs (nearest (val 1%float + val (@CalculusModel.of_pos FA p + @CalculusModel.of_pos FA p)%float)) < huge) by (rewrite E, nearest_IZR by lia; apply Hlt; lia).
    destruct (add_fin 1%float _ eq_refl F2 Hh) as [F3 V3]. rewrite E, nearest_IZR in V3 by lia. split; assumption.
  - destruct IH as [F V]; [lia|]. destruct (Two _ _ F V ltac:(lia) ltac:(lia)) as [F2 V2]. split; [exact F2|]. etransitivity; [exact V2|]. f_equal.
  - split; [reflexivity|]. unfold val, B2R. cbn. unfold F2R. cbn. lra.
Qed.
Lemma of_Z_double z : (Z.abs z <= 2 ^ 53)%Z -> finite (@CalculusModel.of_Z FA z) /\ val (@CalculusModel.of_Z FA z) = IZR z.
Proof.
  intros H. destruct z as [|p|p]; cbn [CalculusModel.of_Z]; [split; reflexivity|apply of_pos_double; lia|].
  destruct (of_pos_double p ltac:(lia)) as [F V]. split.
  - unfold finite in *. rewrite is_finite_equiv in *. change (@opp FA) with PrimFloat.opp. rewrite opp_equiv, is_finite_Bopp. exact F.
  - unfold val in *. change (@opp FA) with PrimFloat.opp. rewrite opp_equiv, B2R_Bopp, V. rewrite <- opp_IZR. reflexivity.
Qed.
