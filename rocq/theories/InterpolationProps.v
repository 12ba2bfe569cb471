(** Property C155: accuracy of PolynomialRateFilter on samples of smooth functions. *)
From Coq Require Import List Arith ZArith Lia Bool Reals Lra.
From Coquelicot Require Import Coquelicot.
From Verif Require Import Base BaseLemmas Instances CalculusModel CalculusSpec CalculusProps Rounding PolyphaseModel PolyphaseProps
  PolynomialModel PolynomialProps SmoothProps.
Import ListNotations.
Set Asymmetric Patterns.
Close Scope C_scope. Open Scope R_scope.

(** A weighted mean that is exact for polynomials of degree K, at a point. *)
Lemma interpolation f lo hi c h M K n (w v : nat -> R) : smooth f lo hi (S K) M -> lo < c < hi -> 0 < h ->
  (forall i, (i < n)%nat -> lo < c + v i * h < hi) ->
  (forall q, length q = S K -> @bigsum RA n (fun i => w i * peval q (v i)) = nth 0 q 0) ->
  Rabs (@bigsum RA n (fun i => w i * f (c + v i * h)) - f c)
    <= @bigsum RA n (fun i => Rabs (w i) * Rabs (v i) ^ S K) * (M * h ^ S K / INR (fact (S K))).
Proof.
  intros Hs Hc Hh Hn Hex. set (q := taylor_coeffs f c h K).
  assert (Lq : length q = S K) by (unfold q, taylor_coeffs; rewrite map_length, seq_length; reflexivity).
  assert (E0 : f c = @bigsum RA n (fun i => w i * peval q (v i))).
  { rewrite (Hex q Lq). unfold q, taylor_coeffs. change (seq 0 (S K)) with (0%nat :: seq 1 K). cbn [map nth pow fact Derive_n]. change (INR 1) with 1. field. }
  rewrite E0, bigsum_minus. eapply Rle_trans.
  - apply (bigsum_abs_le n _ (fun i => Rabs (w i) * Rabs (v i) ^ S K * (M * h ^ S K / INR (fact (S K))))). intros i Hi.
    rewrite <- Rmult_minus_distr_l, Rabs_mult, Rmult_assoc. apply Rmult_le_compat_l; [apply Rabs_pos|].
    unfold q. rewrite peval_taylor. eapply Rle_trans; [apply (taylor f lo hi K M); [exact Hs|exact Hc|apply Hn; exact Hi]|].
    right. rewrite Rabs_mult, (Rabs_pos_eq h), Rpow_mult_distr by lra. unfold Rdiv. ring.
  - right. apply bigsum_scale.
Qed.

(** The values of the three fits as weighted means of the window. *)
Definition weight (k : Z) (t : R) (i : nat) : R :=
  match k with
  | 1%Z => nth i [1 - t; t] 0
  | 2%Z => nth i [- (t * (1 - t)) / 4 - 3 * (t - 1 / 2) / 10; 1 / 2 + t * (1 - t) / 4 - (t - 1 / 2) / 10;
                1 / 2 + t * (1 - t) / 4 + (t - 1 / 2) / 10; - (t * (1 - t)) / 4 + 3 * (t - 1 / 2) / 10] 0
  | _ => nth i [t * (1 - t) * (t - 2) / 6; (1 + t) * (1 - t) * (2 - t) / 2; (1 + t) * t * (2 - t) / 2; (1 + t) * t * (t - 1) / 6] 0
  end.
Definition distance (k : Z) (t : R) (i : nat) : R :=
  match k with 1%Z => nth i [- t; 1 - t] 0 | _ => nth i [- 1 - t; - t; 1 - t; 2 - t] 0 end.
Definition points (k : Z) : nat := match k with 1%Z => 2 | _ => 4 end.
(** Error constants. *)
Definition interp_error (k : Z) : R := match k with 1%Z => 1 / 8 | 2%Z => 1 / 2 | _ => 15 / 512 end.

Lemma weight_exact k t q : (1 <= k <= 3)%Z -> length q = S (Z.to_nat k) ->
  @bigsum RA (points k) (fun i => weight k t i * peval q (distance k t i)) = nth 0 q 0.
Proof.
  intros Hk Hq. assert (k = 1 \/ k = 2 \/ k = 3)%Z as Ck by lia. destruct Ck as [Ck|[Ck|Ck]]; subst k.
  - destruct q as [|a [|b [|]]]; try discriminate Hq. cbn. ring.
  - destruct q as [|a [|b [|c [|]]]]; try discriminate Hq. cbn. field.
  - destruct q as [|a [|b [|c [|d [|]]]]]; try discriminate Hq. cbn. field.
Qed.

Lemma weight_bound k t : (1 <= k <= 3)%Z -> 0 <= t <= 1 ->
  @bigsum RA (points k) (fun i => Rabs (weight k t i) * Rabs (distance k t i) ^ S (Z.to_nat k)) / INR (fact (S (Z.to_nat k))) <= interp_error k.
Proof.
  intros Hk Ht. assert (H4 : 0 <= t * (1 - t) <= 1 / 4).
  { split; [apply Rmult_le_pos; lra|]. pose proof (pow2_ge_0 (t - 1 / 2)). lra. }
  assert (P1 : 0 <= (1 + t) * (1 - t) * (2 - t)) by (repeat apply Rmult_le_pos; lra).
  assert (P2 : 0 <= (1 + t) * t * (2 - t)) by (repeat apply Rmult_le_pos; lra).
  assert (P3 : 0 <= t * (1 - t) * (2 - t)) by (repeat apply Rmult_le_pos; lra).
  assert (P4 : 0 <= (1 + t) * t * (1 - t)) by (repeat apply Rmult_le_pos; lra).
  assert (k = 1 \/ k = 2 \/ k = 3)%Z as Ck by lia. destruct Ck as [Ck|[Ck|Ck]]; subst k.
  - change (points 1) with 2%nat. change (Z.to_nat 1) with 1%nat. cbn [bigsum weight distance nth interp_error].
    rewrite Rabs_Ropp, (Rabs_pos_eq (1 - t)), (Rabs_pos_eq t) by lra. cbn [add zero RA]. replace (INR (fact 2)) with 2 by (cbn; ring).
    match goal with |- ?a / 2 <= _ => replace a with (t * (1 - t)) by ring end. lra.
  - set (s := t * (1 - t)) in *. change (points 2) with 4%nat. change (Z.to_nat 2) with 2%nat. cbn [bigsum weight distance nth interp_error]. fold s.
    assert (A0 : Rabs (- s / 4 - 3 * (t - 1 / 2) / 10) <= 17 / 80) by (apply Rabs_le; lra).
    assert (A1 : Rabs (1 / 2 + s / 4 - (t - 1 / 2) / 10) <= 49 / 80) by (apply Rabs_le; lra).
    assert (A2 : Rabs (1 / 2 + s / 4 + (t - 1 / 2) / 10) <= 49 / 80) by (apply Rabs_le; lra).
    assert (A3 : Rabs (- s / 4 + 3 * (t - 1 / 2) / 10) <= 17 / 80) by (apply Rabs_le; lra).
    rewrite (Rabs_left1 (-1 - t)), (Rabs_left1 (- t)), (Rabs_pos_eq (1 - t)), (Rabs_pos_eq (2 - t)) by lra.
    replace (- (-1 - t)) with (1 + t) by ring. rewrite Ropp_involutive.
    assert (B0 : 0 <= (1 + t) ^ 3) by (apply pow_le; lra). assert (B1 : 0 <= t ^ 3) by (apply pow_le; lra).
    assert (B2 : 0 <= (1 - t) ^ 3) by (apply pow_le; lra). assert (B3 : 0 <= (2 - t) ^ 3) by (apply pow_le; lra).
    assert (Sum : (1 + t) ^ 3 + (2 - t) ^ 3 = 9 - 9 * s) by (unfold s; ring).
    assert (Sum2 : t ^ 3 + (1 - t) ^ 3 = 1 - 3 * s) by (unfold s; ring).
    pose proof (Rmult_le_compat_r _ _ _ B0 A0). pose proof (Rmult_le_compat_r _ _ _ B1 A1).
    pose proof (Rmult_le_compat_r _ _ _ B2 A2). pose proof (Rmult_le_compat_r _ _ _ B3 A3).
    cbn [add zero RA]. replace (INR (fact 3)) with 6 by (cbn; ring). lra.
  - change (points 3) with 4%nat. change (Z.to_nat 3) with 3%nat. cbn [bigsum weight distance nth interp_error].
    rewrite (Rabs_left1 (-1 - t)), (Rabs_left1 (- t)), (Rabs_pos_eq (1 - t)), (Rabs_pos_eq (2 - t)) by lra.
    replace (- (-1 - t)) with (1 + t) by ring. rewrite Ropp_involutive.
    rewrite (Rabs_left1 (t * (1 - t) * (t - 2) / 6)), (Rabs_left1 ((1 + t) * t * (t - 1) / 6)), (Rabs_pos_eq ((1 + t) * (1 - t) * (2 - t) / 2)),
      (Rabs_pos_eq ((1 + t) * t * (2 - t) / 2)) by lra.
    cbn [add zero RA]. replace (INR (fact 4)) with 24 by (cbn; ring).
    set (s := t * (1 - t)) in *.
    assert (E : s * (4 - 4 * s - 3 * s ^ 2) <= 45 / 64).
    { assert (0 <= (1 / 4 - s) * (45 / 16 - 19 / 4 * s - 3 * s ^ 2)).
      { apply Rmult_le_pos; [lra|]. assert (s ^ 2 <= (1 / 4) ^ 2) by (apply pow_incr; lra). lra. }
      lra. }
    match goal with |- ?a / 24 <= _ => replace a with (s * (4 - 4 * s - 3 * s ^ 2)) by (unfold s; field) end. lra.
Qed.

(** The least-squares fits are the weighted means. *)
Lemma fit_weights fit k x0 x1 x2 x3 t : (2 <= k <= 3)%Z -> is_lsq fit k ->
  pval (fit grid [x0; x1; x2; x3] k) t = @bigsum RA 4 (fun i => weight k t i * nth i [x0; x1; x2; x3] 0).
Proof.
  intros Hk Hf. assert (k = 2 \/ k = 3)%Z as Ck by lia. destruct Ck as [Ck|Ck]; subst k.
  - destruct (Hf [x0; x1; x2; x3] eq_refl) as [L Hmin]. set (c := fit grid [x0; x1; x2; x3] 2%Z) in *. clearbody c.
    specialize (Hmin (quad_fit x0 x1 x2 x3) eq_refl). change (Z.to_nat 2) with 2%nat in L.
    destruct c as [|p [|q [|r [|]]]]; try discriminate L. set (b := quad_fit x0 x1 x2 x3) in *.
    assert (E : sq_err [p; q; r] grid [x0; x1; x2; x3] = sq_err b grid [x0; x1; x2; x3] + sq_err [p; q; r] grid (map (pval b) grid)).
    { unfold b. cbn. field. }
    assert (Sq : forall a : R, a ^ 2 <= 0 -> a = 0). { intros a Ha. pose proof (pow2_ge_0 a). destruct (Req_dec a 0) as [C|C]; [exact C|]. exfalso. apply (pow_nonzero a 2); [exact C|lra]. }
    set (cc := [p; q; r]) in *. assert (E' : sq_err cc grid (map (pval b) grid) <= 0) by lra. unfold grid in E'. cbn [map sq_err] in E'.
    pose proof (pow2_ge_0 (pval cc (-1) - pval b (-1))). pose proof (pow2_ge_0 (pval cc 0 - pval b 0)).
    pose proof (pow2_ge_0 (pval cc 1 - pval b 1)). pose proof (pow2_ge_0 (pval cc 2 - pval b 2)).
    assert (E0 : pval cc (-1) - pval b (-1) = 0) by (apply Sq; lra). assert (E1 : pval cc 0 - pval b 0 = 0) by (apply Sq; lra).
    assert (E2 : pval cc 1 - pval b 1 = 0) by (apply Sq; lra). assert (E3 : pval cc 2 - pval b 2 = 0) by (apply Sq; lra).
    assert (Ec : pval cc t = pval (0 :: b) t).
    { unfold b, quad_fit. cbv zeta. apply cubic_determined; [left; reflexivity|]. unfold grid. intros i Hi.
      destruct i as [|[|[|[|i]]]]; [| | | |lia]; cbn [nth]; [apply Rminus_diag_uniq in E0; rewrite E0|apply Rminus_diag_uniq in E1; rewrite E1|apply Rminus_diag_uniq in E2; rewrite E2|apply Rminus_diag_uniq in E3; rewrite E3];
        unfold b, quad_fit; cbn; field. }
    rewrite Ec. unfold b. cbn. field.
  - destruct (fit_exact fit 3 [x0; x1; x2; x3] (cubic_fit x0 x1 x2 x3) Hf ltac:(lia) eq_refl eq_refl) as [L F].
    { intros i Hi. apply cubic_fit_ok; exact Hi. }
    unfold cubic_fit in *. rewrite (cubic_determined _ _ _ _ _ (or_intror L)) by (intros i Hi; rewrite F by exact Hi; symmetry; apply (cubic_fit_ok x0 x1 x2 x3); exact Hi).
    cbn. field.
Qed.

(** Outputs that use no padding. *)
Definition inside (k : Z) (L : nat) (s : R) : Prop := if (k =? 1)%Z then s < INR L - 1 else 1 <= s < INR L - 2.

(** C155. *)
Theorem C155_polynomial_accuracy (fit : list R -> list R -> Z -> list R) (r : R) (k : Z) (f : R -> R) (lo hi t0 h M : R) (x : list R) :
  (1 <= k <= 3)%Z -> (k <> 1%Z -> is_lsq fit k) -> 0 < r -> (2 <= length x)%nat -> 0 < h ->
  smooth f lo hi (S (Z.to_nat k)) M -> sampled f lo hi t0 h x ->
  exists y, prateR fit (mkP r k) x = Ok y /\ Z.of_nat (length y) = rheR (INR (length x) * r) /\
    forall j, (j < length y)%nat -> inside k (length x) (INR j / r) ->
      Rabs (nth j y 0 - f (t0 + INR j / r * h)) <= interp_error k * M * h ^ S (Z.to_nat k).
Proof.
  intros Hk Hf Hr Hl Hh Hs Hx.
  assert (Main : forall (y : list R) (j m : nat), INR m <= INR j / r < INR (S m) -> (forall i, (i < points k)%nat -> lo < t0 + INR j / r * h + distance k (INR j / r - INR m) i * h < hi) ->
    lo < t0 + INR j / r * h < hi ->
    nth j y 0 = @bigsum RA (points k) (fun i => weight k (INR j / r - INR m) i * f (t0 + INR j / r * h + distance k (INR j / r - INR m) i * h)) ->
    Rabs (nth j y 0 - f (t0 + INR j / r * h)) <= interp_error k * M * h ^ S (Z.to_nat k)).
  { intros y j m Hm Hn Hc Hy. rewrite Hy. rewrite S_INR in Hm.
    assert (HM : 0 <= M). { destruct (Hs _ Hc) as [_ HM]. eapply Rle_trans; [apply Rabs_pos|exact HM]. }
    eapply Rle_trans; [apply (interpolation f lo hi (t0 + INR j / r * h) h M (Z.to_nat k)); [exact Hs|exact Hc|exact Hh|exact Hn|]|].
    - intros q Hq. apply weight_exact; assumption.
    - pose proof (weight_bound k (INR j / r - INR m) Hk ltac:(lra)) as WB.
      match goal with |- ?a * (M * ?b / ?c) <= _ => replace (a * (M * b / c)) with (a / c * (M * b)) by (unfold Rdiv; ring) end.
      rewrite (Rmult_assoc (interp_error k)). apply Rmult_le_compat_r; [|exact WB]. apply Rmult_le_pos; [exact HM|]. apply pow_le; lra. }
  destruct (Z.eq_dec k 1) as [Ck|Hk1]; [subst k|].
  - destruct (prate_one fit r x Hr Hl) as (y & Y1 & Y2 & Y3). exists y. split; [exact Y1|]. split; [exact Y2|]. intros j Hj Hin.
    destruct (Y3 j Hj) as (K1 & K2 & K3). set (t := INR j / r) in *. set (m := Z.to_nat (Int_part t)) in *. unfold inside in Hin. cbn in Hin.
    assert (Hm : (S m < length x)%nat). { apply INR_lt. rewrite S_INR. lra. }
    destruct (Hx m ltac:(lia)) as [I0 X0]. destruct (Hx (S m) Hm) as [I1 X1].
    assert (Hb : lo < t0 + t * h < hi).
    { rewrite S_INR in *. assert (INR m * h <= t * h) by (apply Rmult_le_compat_r; lra). assert (t * h <= (INR m + 1) * h) by (apply Rmult_le_compat_r; lra). lra. }
    apply (Main y j m K2); [|exact Hb|].
    + intros i Hi. rewrite S_INR in I1. cbn [points] in Hi. destruct i as [|[|i]]; [| |lia]; cbn [distance nth]; fold t; lra.
    + rewrite K3. unfold xext. rewrite !app_nth1 by lia. rewrite X0, X1. cbn [bigsum points weight distance nth]. fold t. rr. rewrite S_INR. clearbody t m.
      replace (t0 + t * h + - (t - INR m) * h) with (t0 + INR m * h) by ring. replace (t0 + t * h + (1 - (t - INR m)) * h) with (t0 + (INR m + 1) * h) by ring. ring.
  - destruct (prate_higher fit r k x Hr ltac:(lia) Hl) as (y & Y1 & Y2 & Y3). exists y. split; [exact Y1|]. split; [exact Y2|]. intros j Hj Hin.
    destruct (Y3 j Hj) as (m & K1 & K2 & K3). set (t := INR j / r) in *. unfold inside in Hin. destruct (Z.eqb_spec k 1); [lia|].
    assert (Hm1 : (1 <= m)%nat). { destruct m as [|m]; [|lia]. cbn [INR] in K2. lra. }
    assert (Hm2 : (m + 2 < length x)%nat). { apply INR_lt. rewrite plus_INR. cbn [INR]. lra. }
    assert (Hpad : forall i, (i < 4)%nat -> nth (m + i) (xpad x) 0 = nth (m + i - 1) x 0).
    { intros i Hi. rewrite nth_xpad by lia. destruct (Nat.eqb_spec (m + i) 0); [lia|]. destruct (Nat.leb_spec (m + i) (length x)); [|lia]. reflexivity. }
    assert (Hd : forall i, (i < 4)%nat -> t0 + t * h + distance k (t - INR m) i * h = t0 + INR (m + i - 1) * h).
    { intros i Hi. rewrite minus_INR, plus_INR by lia. assert (k = 2 \/ k = 3)%Z as Ck by lia; destruct Ck as [Ck|Ck]; subst k; (destruct i as [|[|[|[|i]]]]; [| | | |lia]; cbn [distance nth INR]; ring). }
    assert (Hp : points k = 4%nat) by (assert (k = 2 \/ k = 3)%Z as Ck by lia; destruct Ck as [Ck|Ck]; subst k; reflexivity).
    apply (Main y j m K2).
    + intros i Hi. rewrite Hp in Hi. fold t. rewrite Hd by exact Hi. apply Hx. lia.
    + fold t. destruct (Hx m ltac:(lia)) as [I0 _]. destruct (Hx (S m) ltac:(lia)) as [I1 _]. rewrite S_INR in *.
      assert (INR m * h <= t * h) by (apply Rmult_le_compat_r; lra). assert (t * h <= (INR m + 1) * h) by (apply Rmult_le_compat_r; lra). lra.
    + rewrite K3. rewrite window_eq by lia. rewrite fit_weights by (lia || (apply Hf; exact Hk1)). rewrite Hp. apply (@bigsum_ext RA). intros i Hi. fold t. rewrite Hd by exact Hi.
      destruct (Hx (m + i - 1)%nat ltac:(lia)) as [_ Hxi]. rewrite <- Hxi. rewrite <- Hpad by exact Hi.
      destruct i as [|[|[|[|i]]]]; [rewrite Nat.add_0_r| | | |lia]; reflexivity.
Qed.
Print Assumptions C155_polynomial_accuracy.

(** The last interval of order one is extrapolated. *)
Theorem C155_polynomial_extrapolation (fit : list R -> list R -> Z -> list R) (r : R) (f : R -> R) (lo hi t0 h M : R) (x y : list R) :
  0 < r -> (2 <= length x)%nat -> 0 < h -> smooth f lo hi 2 M -> sampled f lo hi t0 h x -> prateR fit (mkP r 1) x = Ok y ->
  forall j, (j < length y)%nat -> INR (length x) - 1 <= INR j / r -> t0 + INR j / r * h < hi ->
    Rabs (nth j y 0 - f (t0 + INR j / r * h)) <= M * h ^ 2.
Proof.
  intros Hr Hl Hh Hs Hx E j Hj Ht Hb. destruct (prate_one fit r x Hr Hl) as (y2 & Y1 & Y2 & Y3). rewrite E in Y1. injection Y1 as Y1. subst y2.
  destruct (Y3 j Hj) as (K1 & K2 & K3). set (t := INR j / r) in *. set (m := Z.to_nat (Int_part t)) in *.
  assert (Hm : m = (length x - 1)%nat).
  { assert (INR (length x - 1) < INR (S m)) by (rewrite minus_INR by lia; change (INR 1) with 1; lra). apply INR_lt in H. lia. }
  destruct (Hx m K1) as [I0 X0]. destruct (Hx (m - 1)%nat ltac:(lia)) as [I1 X1]. rewrite minus_INR in I1, X1 by lia. change (INR 1) with 1 in I1, X1.
  set (c := t0 + INR m * h) in *. set (th := t - INR m). rewrite S_INR in K2. assert (Hth : 0 <= th < 1) by (unfold th; lra).
  assert (HM : 0 <= M). { destruct (Hs _ I0) as [_ HM]. eapply Rle_trans; [apply Rabs_pos|exact HM]. }
  assert (Et : t0 + t * h = c + th * h) by (unfold c, th; ring). rewrite Et in *.
  assert (0 <= th * h) by (apply Rmult_le_pos; lra).
  pose proof (taylor f lo hi 1 M c (th * h) Hs I0 ltac:(lra)) as T1.
  replace (t0 + (INR m - 1) * h) with (c + - h) in * by (unfold c; ring).
  pose proof (taylor f lo hi 1 M c (- h) Hs I0 I1) as T2. rewrite Rabs_Ropp in T2. rewrite (Rabs_pos_eq (th * h)) in T1 by assumption. rewrite (Rabs_pos_eq h) in T2 by lra.
  cbn [sum_f_R0 pow fact Nat.mul Nat.add INR Derive_n] in T1, T2.
  assert (Ey : nth j y 0 = f c + th * (f c - f (c + - h))).
  { rewrite K3. unfold xext. rewrite Hm, (app_nth1 x _ 0 (n := (length x - 1)%nat)), (app_nth2 x _ 0 (n := S (length x - 1))) by lia. replace (S (length x - 1) - length x)%nat with 0%nat by lia. cbn [nth].
    rewrite <- Hm. replace (length x - 2)%nat with (m - 1)%nat by lia. rewrite X0, X1. unfold th. ring. }
  rewrite Ey. set (D := Derive f c) in *.
  apply Rabs_le_between in T1. apply Rabs_le_between in T2. apply Rabs_le.
  assert (T3 : - (M * (h * (h * 1)) / (1 + 1)) * th <= (f (c + - h) - (1 / 1 * f c + - h * 1 / 1 * D)) * th <= M * (h * (h * 1)) / (1 + 1) * th) by (split; apply Rmult_le_compat_r; lra).
  assert (Hmh : 0 <= M * h ^ 2) by (apply Rmult_le_pos; [exact HM|apply pow_le; lra]).
  assert (th * th <= 1) by (apply Rle_trans with (1 * 1); [apply Rmult_le_compat; lra|lra]).
  assert (Q : M * (th * h * (th * h * 1)) / (1 + 1) + M * (h * (h * 1)) / (1 + 1) * th <= M * h ^ 2).
  { replace (M * (th * h * (th * h * 1)) / (1 + 1) + M * (h * (h * 1)) / (1 + 1) * th) with (M * h ^ 2 * ((th * th + th) / 2)) by field.
    rewrite <- (Rmult_1_r (M * h ^ 2)) at 2. apply Rmult_le_compat_l; lra. }
  lra.
Qed.
Print Assumptions C155_polynomial_extrapolation.

Example C155_example : is_lsq some_fit 3 /\ inside 3 6 (INR 3 / 2) /\ smooth sin (-1) 1 4 1 /\
  sampled sin (-1) 1 0 (1 / 10) (map (fun k => sin (0 + INR k * (1 / 10))) (seq 0 6)) /\ interp_error 3 * 1 * (1 / 10) ^ 4 = 3 / 1024000.
Proof.
  split; [apply some_fit_lsq|]. split; [unfold inside; cbn; lra|]. split; [apply sin_smooth|]. split.
  - intros k Hk. rewrite map_length, seq_length in Hk. rewrite nth_map_seq by exact Hk. split; [|reflexivity].
    assert (0 <= INR k <= 5) by (split; [apply pos_INR|]; replace 5 with (INR 5) by (cbn; ring); apply le_INR; lia). lra.
  - cbn. field.
Qed.
