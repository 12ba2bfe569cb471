(** C191: ComplexTransform in IEEE doubles with line voltages (neutral=False). *)
From Flocq Require Import Core BinarySingleNaN PrimFloat Relative Plus_error.
From Coq Require Import List Arith ZArith Lia Bool Reals Lra Floats.
From Coquelicot Require Import Complex.
From Verif Require Import Base BaseLemmas Instances PolyC DoubleSpec DoubleProofs DoubleOps FixedPointProps CTransModel CTransProps CTransDoubleModel CTransDoubleProps AdaptDoubleModel AdaptDoubleProps CTransLineModel.
Import ListNotations.
Set Asymmetric Patterns.
Local Open Scope R_scope.

(** What is assumed of GAIN, computed by pow and exp: parts within 2^-50. *)
Definition gain_ok (g : cf) : Prop :=
  finite (fst g) /\ finite (snd g) /\ Rabs (val (fst g) - 1 / 2) <= bpow radix2 (-50) /\ Rabs (val (snd g) + R_sqrt.sqrt 3 / 6) <= bpow radix2 (-50).
(** The line factor 1 / GAIN. *)
Definition lined (neutral : bool) (z : C) : C := Cmult z (line_factor neutral).

(** ** Rounding errors in units of 2^-53 M *)
Definition cl (M E : R) (v : float) (a : R) : Prop := finite v /\ Rabs (val v - a) <= E * (uro * M).
Definition range (M : R) : Prop := bpow radix2 (-960) <= M <= bpow radix2 1005.
Lemma range_1 : range 1.
Proof. split; change 1 with (bpow radix2 0); apply bpow_le; lia. Qed.
Lemma uro_tiny : 0 < uro <= / 1000000000.
Proof. split; [apply uro_pos|]. rewrite uro_small. cbn. lra. Qed.
Lemma range_facts M : range M -> 0 < M /\ eta0 <= / 4 * (uro * M) /\ 16 * M < huge.
Proof.
  intros [L H]. pose proof (bpow_gt_0 radix2 (-960)). split; [lra|]. split.
  - unfold eta0. rewrite uro_small. apply Rle_trans with (bpow radix2 (-2) * (bpow radix2 (-53) * bpow radix2 (-960))).
    + rewrite <- !bpow_plus. pose proof (bpow_le radix2 (-1074) (-2 + (-53 + -960)) ltac:(lia)). pose proof (bpow_gt_0 radix2 (-1074)). lra.
    + change (bpow radix2 (-2)) with (/ 4). apply Rmult_le_compat_l; [lra|]. apply Rmult_le_compat_l; [apply bpow_ge_0|exact L].
  - apply Rle_lt_trans with (bpow radix2 4 * bpow radix2 1005); [change (bpow radix2 4) with 16; lra|]. rewrite <- bpow_plus. unfold huge. apply bpow_lt. lia.
Qed.
(** One rounded operation. *)
Lemma step M E B z a : range M -> 0 <= E <= 2000 -> 0 <= B <= 8 -> Rabs (z - a) <= E * (uro * M) -> Rabs a <= B * M ->
  Rabs (nearest z) < huge /\ Rabs (nearest z - a) <= (E + B + 1) * (uro * M).
Proof.
  intros RM HE HB Hz Ha. destruct (range_facts M RM) as (MP & ET & HG). pose proof uro_tiny as [U1 U2].
  pose proof (round_err z a _ _ Hz Ha) as R. assert (UM : 0 < uro * M) by (apply Rmult_lt_0_compat; lra).
  assert (K : uro * (E * (uro * M)) <= / 4 * (uro * M)). { rewrite <- Rmult_assoc. apply Rmult_le_compat_r; [lra|]. apply Rle_trans with (/ 1000000000 * 2000); [apply Rmult_le_compat; lra|lra]. }
  assert (Q : Rabs (nearest z - a) <= (E + B + 1) * (uro * M)) by (replace (uro * (B * M)) with (B * (uro * M)) in R by ring; lra). split; [|exact Q].
  pose proof (err_size _ _ _ _ Q Ha) as S. apply Rle_lt_trans with (1 := S). apply Rle_lt_trans with (2 := HG).
  assert ((E + B + 1) * (uro * M) <= M). { rewrite <- Rmult_assoc. rewrite <- (Rmult_1_l M) at 2. apply Rmult_le_compat_r; [lra|]. apply Rle_trans with (2009 * / 1000000000); [apply Rmult_le_compat; lra|lra]. }
  assert (B * M <= 8 * M) by (apply Rmult_le_compat_r; lra). lra.
Qed.
Lemma add_cl M E F B v w a b : range M -> 0 <= E -> 0 <= F -> E + F <= 2000 -> 0 <= B <= 8 -> cl M E v a -> cl M F w b -> Rabs (a + b) <= B * M -> cl M (E + F + B + 1) (v + w)%float (a + b).
Proof.
  intros RM HE HF HEF HB [Fv Ev] [Fw Ew] Ha. destruct (step M (E + F) B (val v + val w) (a + b) RM ltac:(lra) HB) as [S1 S2]; [|exact Ha|].
  - replace (val v + val w - (a + b)) with ((val v - a) + (val w - b)) by ring. eapply Rle_trans; [apply Rabs_triang|]. lra.
  - destruct (add_fin v w Fv Fw S1) as [Fz Vz]. split; [exact Fz|]. rewrite Vz. exact S2.
Qed.
Lemma sub_cl M E F B v w a b : range M -> 0 <= E -> 0 <= F -> E + F <= 2000 -> 0 <= B <= 8 -> cl M E v a -> cl M F w b -> Rabs (a - b) <= B * M -> cl M (E + F + B + 1) (v - w)%float (a - b).
Proof.
  intros RM HE HF HEF HB [Fv Ev] [Fw Ew] Ha. destruct (step M (E + F) B (val v - val w) (a - b) RM ltac:(lra) HB) as [S1 S2]; [|exact Ha|].
  - replace (val v - val w - (a - b)) with ((val v - a) - (val w - b)) by ring. eapply Rle_trans; [apply Rabs_triang|]. rewrite Rabs_Ropp. lra.
  - destruct (sub_fin v w Fv Fw S1) as [Fz Vz]. split; [exact Fz|]. rewrite Vz. exact S2.
Qed.
Lemma mul_cl M E G K A c v k a : range M -> 0 <= E <= 1500 -> 0 <= G <= 200 -> 0 <= K <= 2 -> 0 <= A <= 4 -> cl 1 G c k -> Rabs k <= K -> cl M E v a -> Rabs a <= A * M -> G * A + K * E <= 1500 ->
  cl M (G * A + K * E + K * A + 2) (c * v)%float (k * a).
Proof.
  intros RM HE HG HK HA [Fc Ec] Hk [Fv Ev] Ha HS. rewrite Rmult_1_r in Ec. destruct (range_facts M RM) as (MP & _ & _). pose proof uro_tiny as [U1 U2].
  assert (UM : 0 < uro * M) by (apply Rmult_lt_0_compat; lra). assert (Hka : 0 <= K * A <= 8) by (split; [apply Rmult_le_pos; lra|apply Rle_trans with (2 * 4); [apply Rmult_le_compat; lra|lra]]).
  assert (GA : 0 <= G * A) by (apply Rmult_le_pos; lra). assert (KE : 0 <= K * E) by (apply Rmult_le_pos; lra).
  destruct (step M (G * A + K * E + 1) (K * A) (val c * val v) (k * a) RM ltac:(lra) Hka) as [S1 S2].
  - replace (val c * val v - k * a) with ((val c - k) * a + k * (val v - a) + (val c - k) * (val v - a)) by ring.
    eapply Rle_trans; [apply Rabs_triang|]. eapply Rle_trans; [apply Rplus_le_compat_r, Rabs_triang|]. rewrite !Rabs_mult.
    assert (Rabs (val c - k) * Rabs a <= G * uro * (A * M)) by (apply Rmult_le_compat; try apply Rabs_pos; assumption).
    assert (Rabs k * Rabs (val v - a) <= K * (E * (uro * M))) by (apply Rmult_le_compat; try apply Rabs_pos; assumption).
    assert (Rabs (val c - k) * Rabs (val v - a) <= G * uro * (E * (uro * M))) by (apply Rmult_le_compat; try apply Rabs_pos; assumption).
    assert (G * uro * (E * (uro * M)) <= 1 * (uro * M)). { rewrite <- Rmult_assoc. apply Rmult_le_compat_r; [lra|]. apply Rle_trans with (200 * / 1000000000 * 1500); [repeat apply Rmult_le_compat; try lra; apply Rmult_le_pos; lra|lra]. }
    replace ((G * A + K * E + 1) * (uro * M)) with (G * uro * (A * M) + K * (E * (uro * M)) + 1 * (uro * M)) by ring. lra.
  - rewrite Rabs_mult. replace (K * A * M) with (K * (A * M)) by ring. apply Rmult_le_compat; try apply Rabs_pos; assumption.
  - destruct (mul_fin c v Fc Fv S1) as [Fz Vz]. split; [exact Fz|]. rewrite Vz. replace (G * A + K * E + K * A + 2) with (G * A + K * E + 1 + K * A + 1) by ring. exact S2.
Qed.
Lemma mul_comm_float (x y : float) : (x * y)%float = (y * x)%float.
Proof.
  apply Prim2SF_inj. rewrite !mul_spec. unfold SF64mul. destruct (Prim2SF x) as [s|s| |s m e], (Prim2SF y) as [u|u| |u n f]; cbn; rewrite ?(xorb_comm u); try reflexivity.
  rewrite (Pos.mul_comm m), (Z.add_comm e). reflexivity.
Qed.
Lemma mul_cl_r M E G K A c v k a : range M -> 0 <= E <= 1500 -> 0 <= G <= 200 -> 0 <= K <= 2 -> 0 <= A <= 4 -> cl 1 G c k -> Rabs k <= K -> cl M E v a -> Rabs a <= A * M -> G * A + K * E <= 1500 ->
  cl M (G * A + K * E + K * A + 2) (v * c)%float (a * k).
Proof.
  intros RM HE HG HK HA Hc Hk Hv Ha HS. rewrite (Rmult_comm a k), mul_comm_float. apply mul_cl; assumption.
Qed.
Lemma div_cl E F x y a b : 0 <= E <= 100 -> 0 <= F <= 100 -> cl 1 E x a -> cl 1 F y b -> 9 / 20 <= b <= 1 -> Rabs (a / b) <= 2 -> cl 1 (5 / 2 * (E + 2 * F) + 3) (x / y)%float (a / b).
Proof.
  intros HE HF [Fx Ex] [Fy Ey] Hb Hq. rewrite Rmult_1_r in Ex, Ey. pose proof uro_tiny as [U1 U2].
  assert (FU : F * uro <= 100 * / 1000000000) by (apply Rmult_le_compat; lra). pose proof (Rabs_le_inv _ _ Ey) as Ey'.
  assert (Y : 2 / 5 <= val y) by lra.
  destruct (step 1 (5 / 2 * (E + 2 * F)) 2 (val x / val y) (a / b) range_1 ltac:(lra) ltac:(lra)) as [S1 S2]; [|lra|].
  - rewrite Rmult_1_r. replace (val x / val y - a / b) with (((val x - a) - a / b * (val y - b)) / val y) by (field; lra).
    unfold Rdiv at 1. rewrite Rabs_mult, Rabs_inv, (Rabs_right (val y)) by lra.
    assert (Rabs (val x - a - a / b * (val y - b)) <= (E + 2 * F) * uro).
    { eapply Rle_trans; [apply Rabs_triang|]. rewrite Rabs_Ropp, Rabs_mult. assert (Rabs (a / b) * Rabs (val y - b) <= 2 * (F * uro)) by (apply Rmult_le_compat; try apply Rabs_pos; assumption). lra. }
    assert (/ val y <= 5 / 2) by (replace (5 / 2) with (/ (2 / 5)) by field; apply Rinv_le_contravar; lra).
    replace (5 / 2 * (E + 2 * F) * uro) with ((E + 2 * F) * uro * (5 / 2)) by ring. apply Rmult_le_compat; try assumption; [apply Rabs_pos|]. left. apply Rinv_0_lt_compat. lra.
  - destruct (div_fin x y Fx ltac:(lra) S1) as [Fz Vz]. split; [exact Fz|]. rewrite Vz. replace (5 / 2 * (E + 2 * F) + 3) with (5 / 2 * (E + 2 * F) + 2 + 1) by ring. exact S2.
Qed.
Lemma cl_weak M E E' v a : 0 <= M -> E <= E' -> cl M E v a -> cl M E' v a.
Proof. intros HM HE [F H]. split; [exact F|]. apply Rle_trans with (1 := H). apply Rmult_le_compat_r; [|exact HE]. apply Rmult_le_pos; [pose proof uro_pos; lra|exact HM]. Qed.
Lemma cl_self M v : cl M 0 v (val v) <-> finite v.
Proof. split; [intros [H _]; exact H|]. intros H. split; [exact H|]. rewrite Rminus_eq_0, Rabs_R0. lra. Qed.

(** ** GAIN *)
Lemma root3_bounds : 57 / 100 <= R_sqrt.sqrt 3 / 3 <= 58 / 100.
Proof. pose proof sqrt3. pose proof sqrt3_pos. split; nra. Qed.
Section Gain.
  Variable g : cf.
  Hypothesis Hg : gain_ok g.
  Let t := R_sqrt.sqrt 3 / 3.
  Lemma gain_parts : cl 1 8 (fst g) (1 / 2) /\ cl 1 8 (snd g) (- (t / 2)).
  Proof.
    destruct Hg as (F1 & F2 & E1 & E2). rewrite e50 in E1, E2. split; (split; [assumption|]); rewrite Rmult_1_r; [exact E1|].
    replace (val (snd g) - - (t / 2)) with (val (snd g) + R_sqrt.sqrt 3 / 6) by (unfold t; field). exact E2.
  Qed.
  Lemma tt : t * t = 1 / 3.
  Proof. unfold t. pose proof sqrt3. nra. Qed.
  (** Division by GAIN. *)
  Lemma div_gain_close M E x a b : range M -> 0 <= E <= 100 -> cl M E (fst x) a -> cl M E (snd x) b -> Rabs a <= M -> Rabs b <= M ->
    cl M (5 / 2 * E + 425) (fst (cdivF x g)) (fst (lined false (a, b))) /\ cl M (5 / 2 * E + 425) (snd (cdivF x g)) (snd (lined false (a, b))).
  Proof.
    intros RM HE Ca Cb Ha Hb. destruct (range_facts M RM) as (MP & _). destruct gain_parts as [Gc Ge]. pose proof root3_bounds as TB. fold t in TB. pose proof tt as T2.
    destruct x as [x0 x1], g as [c e]. cbn [fst snd] in *. unfold cdivF.
    assert (L : PrimFloat.leb (PrimFloat.abs e) (PrimFloat.abs c) = true).
    { destruct Gc as [Fc Ec], Ge as [Fe Ee]. destruct (abs_fin c Fc) as [F1 V1], (abs_fin e Fe) as [F2 V2]. apply leb_val; [assumption..|]. rewrite V1, V2. pose proof uro_tiny.
      apply Rabs_le_inv in Ec. apply Rabs_le_inv in Ee. rewrite (Rabs_right (val c)), (Rabs_left (val e)); lra. }
    rewrite L. assert (Z : PrimFloat.eqb (PrimFloat.abs c) 0 = false).
    { destruct Gc as [Fc Ec]. destruct (abs_fin c Fc) as [F1 V1]. rewrite eqb_equiv. pose proof uro_tiny. apply Rabs_le_inv in Ec.
      destruct (Beqb (Prim2B (PrimFloat.abs c)) (Prim2B 0)) eqn:Q; [|reflexivity]. exfalso. rewrite Beqb_correct in Q; [|rewrite <- is_finite_equiv; exact F1|reflexivity].
      revert Q. case Req_bool_spec; [|discriminate]. intros Q _. change (B2R (Prim2B (PrimFloat.abs c))) with (val (PrimFloat.abs c)) in Q. rewrite V1 in Q. change (B2R (Prim2B 0)) with 0 in Q. rewrite Rabs_right in Q; lra. }
    rewrite Z. cbn [andb]. set (r := (e / c)%float). set (s := (1 / (c + e * r))%float).
    assert (Cr : cl 1 63 r (- t)).
    { replace (- t) with (- (t / 2) / (1 / 2)) by field. unfold r. replace 63 with (5 / 2 * (8 + 2 * 8) + 3) by field. apply div_cl; try lra; try assumption.
      replace (- (t / 2) / (1 / 2)) with (- t) by field. apply Rabs_le. lra. }
    assert (Cs : cl 1 198 s (3 / 2)).
    { assert (P : cl 1 (8 * (58 / 100) + 3 / 10 * 63 + 3 / 10 * (58 / 100) + 2) (e * r)%float (- (t / 2) * - t)) by (apply mul_cl; try lra; try assumption; [exact range_1|apply Rabs_le; lra|apply Rabs_le; lra]).
      replace (- (t / 2) * - t) with (1 / 6) in P by lra.
      assert (Q : cl 1 (8 + (8 * (58 / 100) + 3 / 10 * 63 + 3 / 10 * (58 / 100) + 2) + 7 / 10 + 1) (c + e * r)%float (1 / 2 + 1 / 6)) by (apply add_cl; try lra; try assumption; [exact range_1|apply Rabs_le; lra]).
      unfold s. replace (3 / 2) with (1 / (1 / 2 + 1 / 6)) by field. eapply cl_weak; [| |eapply (div_cl 0); [| | |exact Q| |]]; try lra.
      - replace 1 with (val 1%float) at 2 by (destruct val_lits as (V & _); exact V). apply cl_self. reflexivity.
      - replace (1 / (1 / 2 + 1 / 6)) with (3 / 2) by field. apply Rabs_le. lra. }
    assert (W : forall v w a b, cl M E v a -> cl M E w b -> Rabs a <= M -> Rabs b <= M -> cl M (5 / 2 * E + 425) ((v + w * r) * s)%float (3 / 2 * a - 3 / 2 * t * b) /\ cl M (5 / 2 * E + 425) ((v - w * r) * s)%float (3 / 2 * a + 3 / 2 * t * b)).
    { clear Ca Cb Ha Hb a b. intros v w a b Ca Cb Ha Hb. apply Rabs_le_inv in Ha.
      assert (P : cl M (63 * 1 + 58 / 100 * E + 58 / 100 * 1 + 2) (w * r)%float (b * - t)) by (apply mul_cl_r; try lra; try assumption; apply Rabs_le; lra).
      assert (TB2 : - (58 / 100 * M) <= t * b <= 58 / 100 * M). { apply Rabs_le_inv. rewrite Rabs_mult, (Rabs_right t) by lra. apply Rmult_le_compat; try lra. apply Rabs_pos. }
      split.
      - assert (Q : cl M (E + (63 * 1 + 58 / 100 * E + 58 / 100 * 1 + 2) + 158 / 100 + 1) (v + w * r)%float (a + b * - t)) by (apply add_cl; try lra; try assumption; apply Rabs_le; lra).
        replace (3 / 2 * a - 3 / 2 * t * b) with ((a + b * - t) * (3 / 2)) by ring.
        eapply cl_weak; [lra| |eapply (mul_cl_r M _ 198 (3 / 2) (158 / 100)); [..|exact Cs| |exact Q| |]]; try lra; try assumption; apply Rabs_le; lra.
      - assert (Q : cl M (E + (63 * 1 + 58 / 100 * E + 58 / 100 * 1 + 2) + 158 / 100 + 1) (v - w * r)%float (a - b * - t)) by (apply sub_cl; try lra; try assumption; apply Rabs_le; lra).
        replace (3 / 2 * a + 3 / 2 * t * b) with ((a - b * - t) * (3 / 2)) by ring.
        eapply cl_weak; [lra| |eapply (mul_cl_r M _ 198 (3 / 2) (158 / 100)); [..|exact Cs| |exact Q| |]]; try lra; try assumption; apply Rabs_le; lra. }
    cbn [fst snd]. unfold lined, line_factor, Cmult. cbn [fst snd]. split.
    - replace (a * (3 / 2) - b * (R_sqrt.sqrt 3 / 2)) with (3 / 2 * a - 3 / 2 * t * b) by (unfold t; field). apply W; assumption.
    - replace (a * (R_sqrt.sqrt 3 / 2) + b * (3 / 2)) with (3 / 2 * b + 3 / 2 * t * a) by (unfold t; field). apply W; assumption.
  Qed.
  (** Multiplication by GAIN. *)
  Lemma mul_gain_close M E A x a b : range M -> 0 <= E <= 1500 -> 0 <= A <= 5 / 2 -> cl M E (fst x) (fst (lined false (a, b))) -> cl M E (snd x) (snd (lined false (a, b))) ->
    Rabs (fst (lined false (a, b))) <= A * M -> Rabs (snd (lined false (a, b))) <= A * M ->
    cl M (8 / 10 * E + 18 * A + 6) (fst (cmulF x g)) a /\ cl M (8 / 10 * E + 18 * A + 6) (snd (cmulF x g)) b.
  Proof.
    intros RM HE HA C1 C2 B1 B2. destruct (range_facts M RM) as (MP & _). destruct gain_parts as [Gc Ge]. pose proof root3_bounds as TB. fold t in TB. pose proof tt as T2.
    set (p := fst (lined false (a, b))) in *. set (q := snd (lined false (a, b))) in *.
    assert (Ep : p = 3 / 2 * a - 3 / 2 * t * b) by (unfold p, lined, line_factor, Cmult, t; cbn [fst snd]; field).
    assert (Eq : q = 3 / 2 * b + 3 / 2 * t * a) by (unfold q, lined, line_factor, Cmult, t; cbn [fst snd]; field).
    unfold cmulF. cbn [fst snd].
    assert (S : forall v k, (cl 1 8 v k) -> Rabs k <= 3 / 10 -> forall w z, cl M E w z -> Rabs z <= A * M -> cl M (8 * A + 3 / 10 * E + 3 / 10 * A + 2) (w * v)%float (z * k)) by (intros; apply mul_cl_r; try lra; assumption).
    assert (L : forall v k, (cl 1 8 v k) -> Rabs k <= 1 / 2 -> forall w z, cl M E w z -> Rabs z <= A * M -> cl M (8 * A + 1 / 2 * E + 1 / 2 * A + 2) (w * v)%float (z * k)) by (intros; apply mul_cl_r; try lra; assumption).
    assert (K1 : Rabs (1 / 2) <= 1 / 2) by (apply Rabs_le; lra). assert (K2 : Rabs (- (t / 2)) <= 3 / 10) by (apply Rabs_le; lra).
    assert (D1 : p * (1 / 2) - q * - (t / 2) = a) by (rewrite Ep, Eq; replace (3 / 2 * t * a) with (3 / 2 * a * t) by ring; replace ((3 / 2 * a - 3 / 2 * t * b) * (1 / 2) - (3 / 2 * b + 3 / 2 * a * t) * - (t / 2)) with (3 / 4 * a + 3 / 4 * a * (t * t)) by field; rewrite T2; field).
    assert (D2 : p * - (t / 2) + q * (1 / 2) = b) by (rewrite Ep, Eq; replace ((3 / 2 * a - 3 / 2 * t * b) * - (t / 2) + (3 / 2 * b + 3 / 2 * t * a) * (1 / 2)) with (3 / 4 * b + 3 / 4 * b * (t * t)) by field; rewrite T2; field).
    assert (Z1 : Rabs a <= A * M). { rewrite <- D1. replace (p * (1 / 2) - q * - (t / 2)) with (p * (1 / 2) + q * (t / 2)) by ring. eapply Rle_trans; [apply Rabs_triang|]. rewrite !Rabs_mult. rewrite (Rabs_right (1 / 2)), (Rabs_right (t / 2)) by lra.
      pose proof (Rabs_pos q). assert (Rabs q * (t / 2) <= A * M * (1 / 2)) by (apply Rmult_le_compat; lra). lra. }
    assert (Z2 : Rabs b <= A * M). { rewrite <- D2. eapply Rle_trans; [apply Rabs_triang|]. rewrite !Rabs_mult. rewrite Rabs_Ropp, (Rabs_right (1 / 2)), (Rabs_right (t / 2)) by lra.
      pose proof (Rabs_pos p). assert (Rabs p * (t / 2) <= A * M * (1 / 2)) by (apply Rmult_le_compat; lra). lra. }
    split.
    - rewrite <- D1. rewrite <- D1 in Z1. eapply cl_weak; [lra| |eapply (sub_cl M _ _ A); [..|exact (L _ _ Gc K1 _ _ C1 B1)|exact (S _ _ Ge K2 _ _ C2 B2)|exact Z1]]; try lra; assumption.
    - rewrite <- D2. rewrite <- D2 in Z2. eapply cl_weak; [lra| |eapply (add_cl M _ _ A); [..|exact (S _ _ Ge K2 _ _ C1 B1)|exact (L _ _ Gc K1 _ _ C2 B2)|exact Z2]]; try lra; assumption.
  Qed.
End Gain.

(** ** The transform *)
Lemma lined_true z : lined true z = z.
Proof. unfold lined, line_factor. ring. Qed.
Lemma ctL_true d root3 inv gain x : ctL_transform d root3 inv gain x true = ctF_transform d root3 inv x.
Proof. destruct x as [v|n m]; [reflexivity|]. cbn [ctL_transform]. destruct (ctF_transform d root3 inv (MatF n m)) as [[y|]|]; reflexivity. Qed.
(** Which signals are refused does not depend on neutral. *)
Theorem C191_refusals d root3 inv gain x neutral : length inv = 3%nat ->
  let bad := match x with VecF v => v = [] | MatF n m => length m <> 3%nat \/ n = 0%nat end in
  (forall e, ctL_transform d root3 inv gain x neutral = Err e <-> e = ValueError /\ bad) /\
  (~ bad -> match x with
    | VecF v => exists t, ctL_transform d root3 inv gain x neutral = Ok (MatF (length v) t) /\ length t = 3%nat /\ Forall (fun r => length r = length v) t
    | MatF n m => exists y, ctL_transform d root3 inv gain x neutral = Ok (VecF y) /\ length y = n
    end).
Proof.
  intros Li bad. unfold bad. destruct x as [v|n m]; cbn [ctL_transform ctF_transform].
  - assert (Lv : length (if neutral then v else map (fun a => cdivF a gain) v) = length v) by (destruct neutral; [reflexivity|apply map_length]). rewrite Lv. split.
    + intros e. destruct v as [|a v]; cbn [length Nat.eqb]; [|split; [discriminate|intros [_ H]; discriminate]]. split; [intros H; injection H as <-; auto|intros [-> _]; reflexivity].
    + intros H. destruct v as [|a v]; [contradiction H; reflexivity|]. cbn [length Nat.eqb]. eexists. split; [reflexivity|]. rewrite map_length, seq_length. split; [exact Li|].
      apply Forall_forall. intros r Hr. apply in_map_iff in Hr. destruct Hr as (k & <- & _). rewrite map_length. exact Lv.
  - split.
    + intros e. destruct m as [|m0 [|m1 [|m2 [|m3 m]]]]; cbn [length Nat.eqb orb negb]; destruct n as [|n]; cbn [Nat.eqb];
        first [split; [intros H; injection H as <-; split; [reflexivity|first [left; discriminate|right; reflexivity]]|intros [-> _]; reflexivity]|split; [discriminate|intros [_ [H|H]]; [contradiction H; reflexivity|discriminate]]].
    + intros H. destruct m as [|m0 [|m1 [|m2 [|m3 m]]]]; try (exfalso; apply H; left; discriminate). destruct n as [|n]; [exfalso; apply H; right; reflexivity|]. cbn [length Nat.eqb orb negb].
      eexists. split; [reflexivity|]. destruct neutral; rewrite ?map_length, seq_length; reflexivity.
Qed.
Print Assumptions C191_refusals.

Lemma inv_ok_length inv : inv_ok inv -> length inv = 3%nat.
Proof. unfold inv_ok. rewrite inv_coef. intros Hi. inversion Hi as [|? ? ? ? _ H1]; subst; inversion H1 as [|? ? ? ? _ H2]; subst; inversion H2 as [|? ? ? ? _ H3]; subst; inversion H3; reflexivity. Qed.
Lemma lined_size neutral z M : Rabs (fst z) <= M -> Rabs (snd z) <= M -> Rabs (fst (lined neutral z)) <= 237 / 100 * M /\ Rabs (snd (lined neutral z)) <= 237 / 100 * M.
Proof.
  intros H1 H2. pose proof (Rabs_pos (fst z)). destruct neutral; [rewrite lined_true; lra|]. unfold lined, line_factor, Cmult. cbn [fst snd]. pose proof root3_bounds as TB.
  assert (K : forall x, Rabs x <= M -> - (87 / 100 * M) <= x * (R_sqrt.sqrt 3 / 2) <= 87 / 100 * M).
  { intros x Hx. apply Rabs_le_inv. rewrite Rabs_mult, (Rabs_right (R_sqrt.sqrt 3 / 2)) by lra. rewrite Rmult_comm. apply Rmult_le_compat; try lra. apply Rabs_pos. }
  pose proof (K _ H1). pose proof (K _ H2). apply Rabs_le_inv in H1. apply Rabs_le_inv in H2. split; apply Rabs_le; lra.
Qed.
Lemma phase_sub k (z w : C) : phase k z - phase k w = phase k (fst z - fst w, snd z - snd w).
Proof. unfold phase. cbn [fst snd]. ring. Qed.
Lemma range_scale M c : 1 <= c <= 4 -> bpow radix2 (-960) <= M <= bpow radix2 990 -> bpow radix2 (-960) <= c * M <= bpow radix2 999 /\ range (c * M) /\ range M.
Proof.
  intros Hc HM. pose proof (bpow_gt_0 radix2 (-960)). assert (E : 4 * bpow radix2 990 = bpow radix2 992) by (change 4 with (bpow radix2 2); rewrite <- bpow_plus; reflexivity).
  assert (M <= c * M) by (rewrite <- (Rmult_1_l M) at 1; apply Rmult_le_compat_r; lra). assert (c * M <= 4 * bpow radix2 990) by (apply Rmult_le_compat; lra).
  pose proof (bpow_le radix2 992 999 ltac:(lia)). pose proof (bpow_le radix2 992 1005 ltac:(lia)). unfold range. lra.
Qed.

Section Runs.
  Variables (d : list float -> list float -> float) (root3 : float) (inv : list (list float)) (gain : cf).
  Hypotheses (Hd : any_order d) (Hr : root_ok root3) (Hi : inv_ok inv) (Hg : gain_ok gain).
  (** The phases of one sample. *)
  Definition sample_phases (neutral : bool) (a : cf) : list float := phasesF d inv (if neutral then a else cdivF a gain).
  Lemma sample_phases_close neutral M E (x : cf) (z : C) : bpow radix2 (-960) <= M <= bpow radix2 990 -> 0 <= E <= 100 -> cl M E (fst x) (fst z) -> cl M E (snd x) (snd z) -> Rabs (fst z) <= M -> Rabs (snd z) <= M ->
    forall k, (k < 3)%nat -> cl M (7 / 2 * E + 700) (nth k (sample_phases neutral x) 0%float) (phase k (lined neutral z)).
  Proof.
    intros RM HE C1 C2 Z1 Z2 k Hk. destruct (range_scale M (5 / 2) ltac:(lra) RM) as (R1 & R2 & R3). destruct (range_facts M R3) as (MP & _). pose proof uro_tiny as [U1 U2].
    assert (UM : 0 < uro * M) by (apply Rmult_lt_0_compat; lra).
    set (x' := if neutral then x else cdivF x gain).
    assert (C : cl M (5 / 2 * E + 425) (fst x') (fst (lined neutral z)) /\ cl M (5 / 2 * E + 425) (snd x') (snd (lined neutral z))).
    { unfold x'. destruct neutral; [rewrite lined_true; split; (eapply cl_weak; [| |eassumption]; lra)|]. destruct z as [a b]. apply div_gain_close; assumption. }
    destruct (lined_size neutral z M Z1 Z2) as [B1 B2].
    assert (SB : (5 / 2 * E + 425) * (uro * M) <= / 1000 * M). { rewrite <- Rmult_assoc. apply Rmult_le_compat_r; [lra|]. apply Rle_trans with (675 * / 1000000000); [apply Rmult_le_compat; lra|lra]. }
    destruct C as [[F1 D1] [F2 D2]].
    assert (S1 : sized (5 / 2 * M) (fst x')) by (split; [exact F1|]; pose proof (err_size _ _ _ _ D1 B1); lra).
    assert (S2 : sized (5 / 2 * M) (snd x')) by (split; [exact F2|]; pose proof (err_size _ _ _ _ D2 B2); lra).
    destruct (phases_close d inv x' (5 / 2 * M) Hd Hi S1 S2) as [_ PC]; [pose proof (bpow_le radix2 999 1000 ltac:(lia)); lra|]. destruct (PC k Hk) as [F Q]. unfold sample_phases. split; [exact F|]. change (Rabs (val (nth k (phasesF d inv x') 0%float) - phase k (lined neutral z)) <= (7 / 2 * E + 700) * (uro * M)).
    assert (L : Rabs (phase k (cval x') - phase k (lined neutral z)) <= 7 / 5 * ((5 / 2 * E + 425) * (uro * M))) by (rewrite phase_sub; apply phase_bound; assumption).
    replace (val (nth k (phasesF d inv x') 0%float) - phase k (lined neutral z)) with ((val (nth k (phasesF d inv x') 0%float) - phase k (cval x')) + (phase k (cval x') - phase k (lined neutral z))) by ring.
    eapply Rle_trans; [apply Rabs_triang|]. replace (38 * uro * (5 / 2 * M)) with (95 * (uro * M)) in Q by field. lra.
  Qed.
  (** The complex sample of three phases. *)
  Definition sample_join (neutral : bool) (a b c : float) : cf := let z := joinF d root3 [a; b; c] in if neutral then z else cmulF z gain.
  Lemma sample_join_close neutral M E N (a b c : float) (a' b' c' : R) (z : C) : bpow radix2 (-960) <= M <= bpow radix2 990 -> 0 <= E <= 700 -> 1 <= N <= 7 / 2 ->
    cl M E a a' -> cl M E b b' -> cl M E c c' -> sized (N * M) a -> sized (N * M) b -> sized (N * M) c ->
    unphase (RtoC a') (RtoC b') (RtoC c') = lined neutral z -> forall A, 0 <= A <= 5 / 2 -> Rabs (fst (lined neutral z)) <= A * M -> Rabs (snd (lined neutral z)) <= A * M ->
    cl M (4 / 3 * E + 26 * N + 18 * A + 6) (fst (sample_join neutral a b c)) (fst z) /\ cl M (4 / 3 * E + 26 * N + 18 * A + 6) (snd (sample_join neutral a b c)) (snd z).
  Proof.
    intros RM HE HN [Fa Ea] [Fb Eb] [Fc Ec] Sa Sb Sc Ez A HA B1 B2. destruct (range_scale M N ltac:(lra) RM) as (R1 & R2 & R3). destruct (range_facts M R3) as (MP & _).
    assert (R1' : bpow radix2 (-960) <= N * M <= bpow radix2 1000) by (pose proof (bpow_le radix2 999 1000 ltac:(lia)); lra).
    destruct (join_close d root3 a b c (N * M) Hd Hr Sa Sb Sc R1') as (F1 & F2 & D1 & D2). destruct (join_lipschitz _ _ _ _ _ _ _ Ea Eb Ec) as [L1 L2]. rewrite Ez in L1, L2.
    set (w := joinF d root3 [a; b; c]) in *. set (e := unphase (RtoC (val a)) (RtoC (val b)) (RtoC (val c))) in *.
    assert (C : cl M (4 / 3 * E + 26 * N) (fst w) (fst (lined neutral z)) /\ cl M (4 / 3 * E + 26 * N) (snd w) (snd (lined neutral z))).
    { split; (split; [assumption|]); replace ((4 / 3 * E + 26 * N) * (uro * M)) with (26 * uro * (N * M) + 4 / 3 * (E * (uro * M))) by ring.
      - eapply Rle_trans; [|exact (Rplus_le_compat _ _ _ _ D1 L1)]. eapply Rle_trans; [|apply Rabs_triang]. right. f_equal. ring.
      - eapply Rle_trans; [|exact (Rplus_le_compat _ _ _ _ D2 L2)]. eapply Rle_trans; [|apply Rabs_triang]. right. f_equal. ring. }
    unfold sample_join. fold w. cbv zeta. destruct neutral; [rewrite lined_true in C; destruct C; split; (eapply cl_weak; [| |eassumption]; lra)|].
    destruct z as [z0 z1]. destruct C as [C1 C2]. destruct (mul_gain_close gain Hg M (4 / 3 * E + 26 * N) A w z0 z1 R3 ltac:(lra) HA C1 C2 B1 B2) as [K1 K2].
    split; (eapply cl_weak; [| |eassumption]; lra).
  Qed.

  Lemma run_vec neutral v : v <> [] -> ctL_transform d root3 inv gain (VecF v) neutral = Ok (MatF (length v) (map (fun k => map (fun a => nth k (sample_phases neutral a) 0%float) v) (seq 0 3))).
  Proof.
    intros Hv. cbn [ctL_transform ctF_transform]. rewrite (inv_ok_length inv Hi). destruct v as [|a v]; [contradiction|].
    destruct neutral; cbn [length map Nat.eqb]; [reflexivity|]. rewrite map_length. f_equal. f_equal. unfold sample_phases. cbn [seq map]. rewrite !map_map. reflexivity.
  Qed.
  Lemma run_mat neutral n a b c : (0 < n)%nat -> ctL_transform d root3 inv gain (MatF n [a; b; c]) neutral = Ok (VecF (map (fun j => sample_join neutral (nth j a 0%float) (nth j b 0%float) (nth j c 0%float)) (seq 0 n))).
  Proof.
    intros Hn. cbn [ctL_transform]. rewrite mat_run by exact Hn. destruct neutral; [reflexivity|]. rewrite map_map. reflexivity.
  Qed.
End Runs.
Lemma unlined_size neutral z A : Rabs (fst (lined neutral z)) <= A -> Rabs (snd (lined neutral z)) <= A -> Rabs (fst z) <= A /\ Rabs (snd z) <= A.
Proof.
  intros H1 H2. destruct neutral; [rewrite lined_true in *; auto|]. unfold lined, line_factor, Cmult in *. cbn [fst snd] in *. destruct z as [a b]. cbn [fst snd] in *.
  pose proof root3_bounds as TB. pose proof sqrt3 as S3. set (s := R_sqrt.sqrt 3) in *. apply Rabs_le_inv in H1. apply Rabs_le_inv in H2. 
  set (p := a * (3 / 2) - b * (s / 2)) in *. set (q := a * (s / 2) + b * (3 / 2)) in *.
  assert (Ea : a = p / 2 + q * (s / 6)) by (unfold p, q; replace ((a * (3 / 2) - b * (s / 2)) / 2 + (a * (s / 2) + b * (3 / 2)) * (s / 6)) with (3 / 4 * a + a * (s * s) / 12) by field; rewrite S3; field).
  assert (Eb : b = q / 2 - p * (s / 6)) by (unfold p, q; replace ((a * (s / 2) + b * (3 / 2)) / 2 - (a * (3 / 2) - b * (s / 2)) * (s / 6)) with (3 / 4 * b + b * (s * s) / 12) by field; rewrite S3; field).
  assert (K : forall x, - A <= x <= A -> - (A / 2) <= x * (s / 6) <= A / 2).
  { intros x Hx. apply Rabs_le_inv. rewrite Rabs_mult, (Rabs_right (s / 6)) by lra. apply Rabs_le in Hx. replace (A / 2) with (A * (1 / 2)) by field. apply Rmult_le_compat; try lra. apply Rabs_pos. }
  pose proof (K p H1). pose proof (K q H2). split; apply Rabs_le; lra.
Qed.
Lemma unlined neutral (e : C) : lined neutral (Cdiv e (line_factor neutral)) = e.
Proof. unfold lined. field. apply line_nz. Qed.
Lemma cl_bound M E v a B : E * uro <= B -> 0 <= M -> cl M E v a -> finite v /\ Rabs (val v - a) <= B * M.
Proof. intros HB HM [F H]. split; [exact F|]. apply Rle_trans with (1 := H). rewrite <- Rmult_assoc. apply Rmult_le_compat_r; assumption. Qed.
Lemma ulp_bounds : 700 * uro <= bpow radix2 (-43) /\ 56 * uro <= bpow radix2 (-47) /\ 1200 * uro <= bpow radix2 (-42).
Proof. rewrite uro_small. cbn. lra. Qed.

(** The phases of complex samples up to M, for either value of neutral, are the phases of the
    samples times the line factor up to 2^-43 M. *)
Theorem C191_phases d root3 inv gain neutral (v : list cf) M : any_order d -> inv_ok inv -> gain_ok gain -> v <> [] ->
  Forall (fun a => sized M (fst a) /\ sized M (snd a)) v -> bpow radix2 (-960) <= M <= bpow radix2 990 ->
  exists t, ctL_transform d root3 inv gain (VecF v) neutral = Ok (MatF (length v) t) /\ length t = 3%nat /\
    forall k, (k < 3)%nat -> length (nth k t []) = length v /\ forall j, (j < length v)%nat ->
      finite (nth j (nth k t []) 0%float) /\
      Rabs (val (nth j (nth k t []) 0%float) - phase k (Cmult (cval (nth j v (0%float, 0%float))) (line_factor neutral))) <= bpow radix2 (-43) * M.
Proof.
  intros Hd Hi Hg Hv HS HM. eexists. split; [apply run_vec; assumption|]. split; [reflexivity|]. intros k Hk. rewrite nth_seq_map by exact Hk. split; [apply map_length|].
  intros j Hj. rewrite (nth_map_in _ v j (0%float, 0%float)) by exact Hj. destruct (proj1 (Forall_forall _ _) HS _ (nth_In v (0%float, 0%float) Hj)) as [S1 S2].
  set (x := nth j v (0%float, 0%float)) in *. destruct ulp_bounds as (U & _). pose proof (bpow_gt_0 radix2 (-960)).
  apply (cl_bound M (7 / 2 * 0 + 700)); [lra|lra|]. apply (sample_phases_close d inv gain Hd Hi Hg neutral M 0 x (cval x) HM ltac:(lra)); [apply cl_self, S1|apply cl_self, S2|apply S1|apply S2|exact Hk].
Qed.
Print Assumptions C191_phases.

Lemma unphase_size (a b c M : R) : Rabs a <= M -> Rabs b <= M -> Rabs c <= M ->
  Rabs (fst (unphase (RtoC a) (RtoC b) (RtoC c))) <= 4 / 3 * M /\ Rabs (snd (unphase (RtoC a) (RtoC b) (RtoC c))) <= 4 / 3 * M.
Proof.
  intros Ga Gb Gc. pose proof (Rabs_pos a). rewrite unphase_parts. cbn [fst snd]. apply Rabs_le_inv in Ga. apply Rabs_le_inv in Gb. apply Rabs_le_inv in Gc. split; [apply Rabs_le; lra|].
  pose proof sqrt_third. rewrite Rabs_mult, (Rabs_right (R_sqrt.sqrt 3 / 3)) by lra. assert (Rabs (b - c) <= 2 * M) by (apply Rabs_le; lra). pose proof (Rabs_pos (b - c)). nra.
Qed.
(** The complex samples of phases up to M are the exact ones over the line factor up to 2^-47 M. *)
Theorem C191_complex d root3 inv gain neutral n (a b c : list float) M : any_order d -> root_ok root3 -> gain_ok gain -> (0 < n)%nat -> length a = n -> length b = n -> length c = n ->
  Forall (sized M) a -> Forall (sized M) b -> Forall (sized M) c -> bpow radix2 (-960) <= M <= bpow radix2 990 ->
  exists w, ctL_transform d root3 inv gain (MatF n [a; b; c]) neutral = Ok (VecF w) /\ length w = n /\
    forall j, (j < n)%nat -> let z := nth j w (0%float, 0%float) in
      let e := Cdiv (unphase (RtoC (val (nth j a 0%float))) (RtoC (val (nth j b 0%float))) (RtoC (val (nth j c 0%float)))) (line_factor neutral) in
      finite (fst z) /\ finite (snd z) /\ Rabs (val (fst z) - fst e) <= bpow radix2 (-47) * M /\ Rabs (val (snd z) - snd e) <= bpow radix2 (-47) * M.
Proof.
  intros Hd Hr Hg Hn La Lb Lc Sa Sb Sc HM. eexists. split; [apply run_mat; exact Hn|]. rewrite map_length, seq_length. split; [reflexivity|]. intros j Hj. cbv zeta.
  rewrite (nth_seq_map _ n j) by exact Hj.
  assert (G : forall l, length l = n -> Forall (sized M) l -> sized M (nth j l 0%float)) by (intros l L S; apply (proj1 (Forall_forall _ _) S), nth_In; lia).
  pose proof (G a La Sa) as Ga. pose proof (G b Lb Sb) as Gb. pose proof (G c Lc Sc) as Gc. set (x0 := nth j a 0%float) in *. set (x1 := nth j b 0%float) in *. set (x2 := nth j c 0%float) in *.
  destruct (unphase_size _ _ _ M (proj2 Ga) (proj2 Gb) (proj2 Gc)) as [B1 B2]. set (e := unphase (RtoC (val x0)) (RtoC (val x1)) (RtoC (val x2))) in *.
  destruct ulp_bounds as (_ & U & _). pose proof (bpow_gt_0 radix2 (-960)). assert (One : forall v, sized M v -> sized (1 * M) v) by (intros v; rewrite Rmult_1_l; auto).
  assert (C : cl M (4 / 3 * 0 + 26 * 1 + 18 * (4 / 3) + 6) (fst (sample_join d root3 gain neutral x0 x1 x2)) (fst (Cdiv e (line_factor neutral))) /\
              cl M (4 / 3 * 0 + 26 * 1 + 18 * (4 / 3) + 6) (snd (sample_join d root3 gain neutral x0 x1 x2)) (snd (Cdiv e (line_factor neutral)))).
  { apply (sample_join_close d root3 gain Hd Hr Hg neutral M 0 1 x0 x1 x2 (val x0) (val x1) (val x2)); try lra; try (apply cl_self; first [apply Ga|apply Gb|apply Gc]); try (apply One; assumption);
      rewrite unlined; first [reflexivity|assumption]. }
  destruct C as [C1 C2]. apply (cl_bound _ _ _ _ (bpow radix2 (-47))) in C1; [|lra|lra]. apply (cl_bound _ _ _ _ (bpow radix2 (-47))) in C2; [|lra|lra]. tauto.
Qed.
Print Assumptions C191_complex.

(** Complex to three phases to complex with the same neutral: back up to 2^-42 M. *)
Theorem C191_round_trip d root3 inv gain neutral (v : list cf) M : any_order d -> root_ok root3 -> inv_ok inv -> gain_ok gain -> v <> [] ->
  Forall (fun a => sized M (fst a) /\ sized M (snd a)) v -> bpow radix2 (-960) <= M <= bpow radix2 990 ->
  exists t w, ctL_transform d root3 inv gain (VecF v) neutral = Ok t /\ ctL_transform d root3 inv gain t neutral = Ok (VecF w) /\ length w = length v /\
    forall j, (j < length v)%nat -> let z := nth j w (0%float, 0%float) in let x := nth j v (0%float, 0%float) in
      finite (fst z) /\ finite (snd z) /\
      Rabs (val (fst z) - val (fst x)) <= bpow radix2 (-42) * M /\ Rabs (val (snd z) - val (snd x)) <= bpow radix2 (-42) * M.
Proof.
  intros Hd Hr Hi Hg Hv HS HM. eexists _, _. split; [apply run_vec; assumption|]. split; [apply run_mat; destruct v; [congruence|cbn; lia]|]. rewrite map_length, seq_length. split; [reflexivity|].
  intros j Hj. cbv zeta. rewrite (nth_seq_map _ (length v) j) by exact Hj. rewrite !(nth_map_in _ v j (0%float, 0%float)) by exact Hj.
  destruct (proj1 (Forall_forall _ _) HS _ (nth_In v (0%float, 0%float) Hj)) as [S1 S2]. set (x := nth j v (0%float, 0%float)) in *. pose proof (bpow_gt_0 radix2 (-960)). destruct ulp_bounds as (_ & _ & U).
  pose proof uro_tiny as [U1 U2]. assert (US : 700 * (uro * M) <= / 1000 * M) by (rewrite <- Rmult_assoc; apply Rmult_le_compat_r; lra).
  assert (P : forall k, (k < 3)%nat -> cl M 700 (nth k (sample_phases d inv gain neutral x) 0%float) (phase k (lined neutral (cval x))) /\ sized (7 / 2 * M) (nth k (sample_phases d inv gain neutral x) 0%float)).
  { intros k Hk. assert (C : cl M 700 (nth k (sample_phases d inv gain neutral x) 0%float) (phase k (lined neutral (cval x)))).
    { eapply cl_weak; [lra| |apply (sample_phases_close d inv gain Hd Hi Hg neutral M 0 x (cval x) HM ltac:(lra)); [apply cl_self, S1|apply cl_self, S2|apply S1|apply S2|exact Hk]]. lra. }
    split; [exact C|]. destruct C as [F E]. split; [exact F|]. destruct (lined_size neutral (cval x) M (proj2 S1) (proj2 S2)) as [B1 B2].
    pose proof (err_size _ _ _ _ E (phase_bound k _ _ Hk B1 B2)). lra. }
  destruct (P 0%nat ltac:(lia)) as [P0 Z0], (P 1%nat ltac:(lia)) as [P1 Z1], (P 2%nat ltac:(lia)) as [P2 Z2].
  destruct (lined_size neutral (cval x) M (proj2 S1) (proj2 S2)) as [B1 B2].
  destruct (sample_join_close d root3 gain Hd Hr Hg neutral M 700 (7 / 2) _ _ _ _ _ _ (cval x) HM ltac:(lra) ltac:(lra) P0 P1 P2 Z0 Z1 Z2 (unphase_phase _) (237 / 100) ltac:(lra) B1 B2) as [C1 C2].
  apply (cl_bound _ _ _ _ (bpow radix2 (-42))) in C1; [|lra|lra]. apply (cl_bound _ _ _ _ (bpow radix2 (-42))) in C2; [|lra|lra]. tauto.
Qed.
Print Assumptions C191_round_trip.

(** Three phases to complex to three phases: each phase less the mean, up to 2^-42 M. *)
Theorem C191_three_round_trip d root3 inv gain neutral n (a b c : list float) M : any_order d -> root_ok root3 -> inv_ok inv -> gain_ok gain -> (0 < n)%nat -> length a = n -> length b = n -> length c = n ->
  Forall (sized M) a -> Forall (sized M) b -> Forall (sized M) c -> bpow radix2 (-960) <= M <= bpow radix2 989 ->
  exists y t, ctL_transform d root3 inv gain (MatF n [a; b; c]) neutral = Ok y /\ ctL_transform d root3 inv gain y neutral = Ok (MatF n t) /\ length t = 3%nat /\
    forall k j, (k < 3)%nat -> (j < n)%nat -> let x i := val (nth j (nth i [a; b; c] []) 0%float) in
      finite (nth j (nth k t []) 0%float) /\
      Rabs (val (nth j (nth k t []) 0%float) - (x k - (x 0%nat + x 1%nat + x 2%nat) / 3)) <= bpow radix2 (-42) * M.
Proof.
  intros Hd Hr Hi Hg Hn La Lb Lc Sa Sb Sc HM. eexists _, _. split; [apply run_mat; exact Hn|]. set (w := map _ (seq 0 n)). assert (Lw : length w = n) by (unfold w; rewrite map_length, seq_length; reflexivity).
  assert (Wn : w <> []) by (intros W; rewrite W in Lw; cbn in Lw; lia). split; [exact (eq_ind (length w) (fun m => ctL_transform d root3 inv gain (VecF w) neutral = Ok (MatF m _)) (run_vec d root3 inv gain Hi neutral w Wn) n Lw)|]. split; [reflexivity|].
  intros k j Hk Hj. cbv zeta. rewrite nth_seq_map by exact Hk. rewrite (nth_map_in _ w j (0%float, 0%float)) by lia. unfold w. rewrite (nth_seq_map _ n j) by exact Hj. clear w Lw Wn.
  change (nth 0 [a; b; c] []) with a. change (nth 1 [a; b; c] []) with b. change (nth 2 [a; b; c] []) with c.
  assert (G : forall l, length l = n -> Forall (sized M) l -> sized M (nth j l 0%float)) by (intros l L S; apply (proj1 (Forall_forall _ _) S), nth_In; lia).
  pose proof (G a La Sa) as Ga. pose proof (G b Lb Sb) as Gb. pose proof (G c Lc Sc) as Gc.
  assert (Ex : val (nth j (nth k [a; b; c] []) 0%float) = nth k [val (nth j a 0%float); val (nth j b 0%float); val (nth j c 0%float)] 0) by (destruct k as [|[|[|k]]]; [reflexivity..|lia]).
  rewrite Ex. set (x0 := nth j a 0%float) in *. set (x1 := nth j b 0%float) in *. set (x2 := nth j c 0%float) in *.
  destruct (unphase_size _ _ _ M (proj2 Ga) (proj2 Gb) (proj2 Gc)) as [B1 B2]. 
  assert (PE : phase k (unphase (RtoC (val x0)) (RtoC (val x1)) (RtoC (val x2))) = nth k [val x0; val x1; val x2] 0 - (val x0 + val x1 + val x2) / 3).
  { destruct (phase_unphase (val x0) (val x1) (val x2)) as (P0 & P1 & P2). unfold mean3 in *. destruct k as [|[|[|k]]]; [exact P0|exact P1|exact P2|lia]. }
  set (e := unphase (RtoC (val x0)) (RtoC (val x1)) (RtoC (val x2))) in *. destruct ulp_bounds as (_ & _ & U). pose proof (bpow_gt_0 radix2 (-960)).
  assert (B9 : bpow radix2 990 = 2 * bpow radix2 989) by (change 2 with (bpow radix2 1); rewrite <- bpow_plus; reflexivity).
  assert (One : forall v, sized M v -> sized (1 * M) v) by (intros v; rewrite Rmult_1_l; auto). set (z := Cdiv e (line_factor neutral)).
  assert (C : cl M 56 (fst (sample_join d root3 gain neutral x0 x1 x2)) (fst z) /\ cl M 56 (snd (sample_join d root3 gain neutral x0 x1 x2)) (snd z)).
  { replace 56 with (4 / 3 * 0 + 26 * 1 + 18 * (4 / 3) + 6) by field. 
    apply (sample_join_close d root3 gain Hd Hr Hg neutral M 0 1 x0 x1 x2 (val x0) (val x1) (val x2)); try lra; try (apply cl_self; first [apply Ga|apply Gb|apply Gc]); try (apply One; assumption);
      unfold z; rewrite unlined; first [reflexivity|assumption]. }
  set (y := sample_join d root3 gain neutral x0 x1 x2) in *.
  assert (Sz : Rabs (fst z) <= 4 / 3 * M /\ Rabs (snd z) <= 4 / 3 * M) by (apply (unlined_size neutral); unfold z; rewrite unlined; assumption).
  assert (Re : forall v r, cl M 56 v r -> cl (4 / 3 * M) 42 v r) by (intros v r [F H0]; split; [exact F|]; replace (42 * (uro * (4 / 3 * M))) with (56 * (uro * M)) by field; exact H0).
  assert (Q := sample_phases_close d inv gain Hd Hi Hg neutral (4 / 3 * M) 42 y z ltac:(lra) ltac:(lra) (Re _ _ (proj1 C)) (Re _ _ (proj2 C)) (proj1 Sz) (proj2 Sz) k Hk).
  pose proof uro_tiny. unfold z in Q. rewrite unlined, PE in Q. apply (cl_bound _ _ _ _ (bpow radix2 (-42) * (3 / 4))) in Q; [|lra|lra].
  destruct Q as [Q1 Q2]. split; [exact Q1|]. replace (bpow radix2 (-42) * M) with (bpow radix2 (-42) * (3 / 4) * (4 / 3 * M)) by field. exact Q2.
Qed.
Print Assumptions C191_three_round_trip.

(** Columns do not mix, whatever the doubles and the gain. *)
Theorem C191_columns d root3 inv gain neutral :
  (forall v w t u j k, ctL_transform d root3 inv gain (VecF v) neutral = Ok (MatF (length v) t) -> ctL_transform d root3 inv gain (VecF w) neutral = Ok (MatF (length w) u) ->
     (j < length v)%nat -> (j < length w)%nat -> nth j v (0%float, 0%float) = nth j w (0%float, 0%float) ->
     length t = length u /\ ((k < length t)%nat -> nth j (nth k t []) 0%float = nth j (nth k u []) 0%float)) /\
  (forall n m p q y z j, length p = 3%nat -> length q = 3%nat -> ctL_transform d root3 inv gain (MatF n p) neutral = Ok (VecF y) -> ctL_transform d root3 inv gain (MatF m q) neutral = Ok (VecF z) ->
     (j < n)%nat -> (j < m)%nat -> (forall k, (k < 3)%nat -> nth j (nth k p []) 0%float = nth j (nth k q []) 0%float) ->
     nth j y (0%float, 0%float) = nth j z (0%float, 0%float)).
Proof.
  split.
  - intros v w t u j k Ht Hu Hv Hw E. set (f := fun a : cf => if neutral then a else cdivF a gain).
    assert (R : forall v, ctL_transform d root3 inv gain (VecF v) neutral = ctF_transform d root3 inv (VecF (map f v))).
    { intros l. unfold f. cbn [ctL_transform]. destruct neutral; [rewrite map_id|]; reflexivity. }
    rewrite R in Ht, Hu. assert (L : forall l : list cf, length (map f l) = length l) by (intros l; apply map_length).
    destruct (C181_columns d root3 inv) as [H _]. apply (H (map f v) (map f w)); [| |rewrite map_length; assumption|rewrite map_length; assumption|].
    + etransitivity; [exact Ht|]. f_equal. f_equal. symmetry. apply L.
    + etransitivity; [exact Hu|]. f_equal. f_equal. symmetry. apply L.
    + rewrite (nth_map_in f v j (0%float, 0%float)), (nth_map_in f w j (0%float, 0%float)) by assumption. f_equal. exact E.
  - intros n m p q y z j Lp Lq Hy Hz Hn Hm E. destruct p as [|p0 [|p1 [|p2 [|]]]]; try discriminate. destruct q as [|q0 [|q1 [|q2 [|]]]]; try discriminate.
    rewrite run_mat in Hy by lia. rewrite run_mat in Hz by lia. injection Hy; intros Ey. injection Hz; intros Ez. subst y z. rewrite !nth_seq_map by assumption.
    pose proof (E 0%nat ltac:(lia)) as E0. pose proof (E 1%nat ltac:(lia)) as E1. pose proof (E 2%nat ltac:(lia)) as E2. cbn [nth] in E0, E1, E2. rewrite E0, E1, E2. reflexivity.
Qed.
Print Assumptions C191_columns.

Lemma cdiv_nan_parts x g : nonnumber (fst x) \/ nonnumber (snd x) -> PrimFloat.eqb (PrimFloat.abs (fst g)) 0 = false -> nonnumber (fst (cdivF x g)) /\ nonnumber (snd (cdivF x g)).
Proof.
  destruct x as [a b], g as [c e]. cbn [fst snd]. intros H Z. unfold cdivF. rewrite Z. cbn [andb].
  destruct (PrimFloat.leb (PrimFloat.abs e) (PrimFloat.abs c)); cbn [fst snd]; (split; apply mul_nan; left).
  - apply add_nan. destruct H as [H|H]; [left; exact H|right; apply mul_nan; left; exact H].
  - apply sub_nans. destruct H as [H|H]; [right; apply mul_nan; left; exact H|left; exact H].
  - apply add_nan. destruct H as [H|H]; [left; apply mul_nan; left; exact H|right; exact H].
  - apply sub_nans. destruct H as [H|H]; [right; exact H|left; apply mul_nan; left; exact H].
Qed.
(** A NaN part makes the three phases of that sample NaN; a NaN phase, or an infinite first
    phase, makes both parts of that sample NaN. *)
Theorem C191_nan d root3 inv gain neutral : any_order d -> PrimFloat.eqb (PrimFloat.abs (fst gain)) 0 = false ->
  (forall v t j k, Forall (fun row => length row = 3%nat) inv -> ctL_transform d root3 inv gain (VecF v) neutral = Ok (MatF (length v) t) ->
     (j < length v)%nat -> (k < length inv)%nat -> nonnumber (fst (nth j v (0%float, 0%float))) \/ nonnumber (snd (nth j v (0%float, 0%float))) ->
     nonnumber (nth j (nth k t []) 0%float)) /\
  (forall n p y j, length p = 3%nat -> ctL_transform d root3 inv gain (MatF n p) neutral = Ok (VecF y) -> (j < n)%nat ->
     Exists (fun r => nonnumber (nth j r 0%float)) p \/ ~ finite (nth j (nth 0 p []) 0%float) ->
     nonnumber (fst (nth j y (0%float, 0%float))) /\ nonnumber (snd (nth j y (0%float, 0%float)))).
Proof.
  intros Hd Hz. destruct (C181_nan d root3 inv Hd) as [N1 N2]. split.
  - intros v t j k Hi Ht Hj Hk H. set (f := fun a : cf => if neutral then a else cdivF a gain).
    assert (R : ctL_transform d root3 inv gain (VecF v) neutral = ctF_transform d root3 inv (VecF (map f v))) by (unfold f; cbn [ctL_transform]; destruct neutral; [rewrite map_id|]; reflexivity).
    rewrite R in Ht. assert (L : length (map f v) = length v) by apply map_length.
    apply (N1 (map f v) t j k Hi); [etransitivity; [exact Ht|]; f_equal; f_equal; symmetry; exact L|rewrite map_length; exact Hj|exact Hk|].
    rewrite (nth_map_in f v j (0%float, 0%float)) by exact Hj. unfold f. destruct neutral; [exact H|]. left. apply cdiv_nan_parts; assumption.
  - intros n p y j Lp Hy Hj H. destruct p as [|p0 [|p1 [|p2 [|]]]]; try discriminate. rewrite run_mat in Hy by lia. injection Hy; intros Ey. subst y. rewrite nth_seq_map by exact Hj.
    assert (J : nonnumber (fst (joinF d root3 [nth j p0 0%float; nth j p1 0%float; nth j p2 0%float])) /\ nonnumber (snd (joinF d root3 [nth j p0 0%float; nth j p1 0%float; nth j p2 0%float]))).
    { apply join_nan; [exact Hd|]. destruct H as [H|H]; [|cbn [nth] in H; tauto].
      inversion H as [? ? Q|? ? H1]; subst; [tauto|]. inversion H1 as [? ? Q|? ? H2]; subst; [tauto|]. inversion H2 as [? ? Q|? ? H3]; subst; [tauto|]. inversion H3. }
    unfold sample_join. cbv zeta. destruct neutral; [exact J|]. unfold cmulF. cbn [fst snd]. split; [apply sub_nans|apply add_nan]; left; apply mul_nan; left; apply J.
Qed.
Print Assumptions C191_nan.

(** ** Examples: GAIN as numpy computes it on a common platform. *)
Definition g191 : cf := (0.5, - 0x1.279a74590331cp-2)%float.
Lemma g191_ok : gain_ok g191.
Proof.
  split; [reflexivity|]. split; [reflexivity|]. cbn [g191 fst snd]. assert (V1 : val 0.5%float = 1 / 2) by litval. rewrite V1, Rminus_eq_0, Rabs_R0. split; [apply bpow_ge_0|].
  assert (V2 : val (- 0x1.279a74590331cp-2)%float = - (5200308914369308 / 18014398509481984)) by litval. rewrite V2. assert (B : bpow radix2 (-50) = / 1125899906842624) by (cbn; lra). rewrite B.
  pose proof sqrt3 as Q. pose proof sqrt3_pos as P. set (s := R_sqrt.sqrt 3) in *. 
  assert (A : 3900231685776980 / 2251799813685248 <= s) by (apply Rnot_lt_le; intros L; nra).
  assert (D : s <= 3900231685776982 / 2251799813685248) by (apply Rnot_lt_le; intros L; nra). apply Rabs_le. lra.
Qed.
Example C191_example : any_order leftdot /\ root_ok r181 /\ inv_ok inv181 /\ length inv181 = 3%nat /\ gain_ok g191 /\ PrimFloat.eqb (PrimFloat.abs (fst g191)) 0 = false /\
  Forall (fun a => sized 4 (fst a) /\ sized 4 (snd a)) x181 /\ bpow radix2 (-960) <= 4 <= bpow radix2 989 /\
  (match ctL_transform leftdot r181 inv181 g191 (VecF x181) false with
  | Ok (MatF n [a; b; c]) => (n =? 2)%nat && PrimFloat.ltb (PrimFloat.abs (nth 0 a 0 - 1.5)) 0x1p-50 && negb (PrimFloat.ltb (PrimFloat.abs (nth 0 a 0 - 1)) 0.25) && PrimFloat.ltb (PrimFloat.abs (nth 0 b 0)) 0x1p-50
  | _ => false end)%float = true /\
  (match ctL_transform leftdot r181 inv181 g191 (MatF 1 [[1.5]; [0]; [-1.5]]) false with
  | Ok (VecF [(a, b)]) => PrimFloat.ltb (PrimFloat.abs (a - 1)) 0x1p-50 && PrimFloat.ltb (PrimFloat.abs b) 0x1p-50
  | _ => false end)%float = true /\
  (match ctL_transform leftdot r181 inv181 g191 (MatF 1 [[1; 2]]) false, ctL_transform leftdot r181 inv181 g191 (VecF [(nan, 1); (1, 0)]) false with
  | Err ValueError, Ok (MatF _ [a; b; c]) => PrimFloat.is_nan (nth 0 a 0) && PrimFloat.is_nan (nth 0 c 0) && negb (PrimFloat.is_nan (nth 1 a 0))
  | _, _ => false end)%float = true.
Proof.
  destruct C181_phases_example as (E1 & E2 & E3 & _ & E4 & E5 & _). split; [exact E1|]. split; [exact E2|]. split; [exact E3|]. split; [reflexivity|]. split; [exact g191_ok|]. split; [reflexivity|].
  split; [exact E4|]. split; [assert (H4 : 4 = bpow radix2 2) by (cbn; lra); rewrite H4; split; apply bpow_le; lia|]. repeat split; vm_compute; reflexivity.
Qed.
