(** Property C170: PolyphaseRateFilter in IEEE doubles. *)
From Flocq Require Import Core BinarySingleNaN PrimFloat.
From Coq Require Import List Arith ZArith Bool Reals Lra Lia Floats.
From Verif Require Import Base BaseLemmas Instances CalculusModel CalculusProps RankModel Rounding PolyphaseModel PolyphaseProps DoubleSpec DoubleProofs DoubleOps PolyphaseDoubleProofs.
Import ListNotations.
Set Asymmetric Patterns.
Local Open Scope R_scope.

(** ** Specification *)
(** The filter in doubles, with numpy.dot any function [d]. *)
Definition polyF (d : list float -> list float -> float) : Type := poly (FOd d).
Definition filterF d (rnd : float -> Z) (B : list (list float)) (f : polyF d) (x : list float) : option (polyF d * res (list float)) := @poly_filter (FOd d) rnd B f x.
Definition idxF {d} (f : polyF d) : float := pindex f.
Definition rateF {d} (f : polyF d) : float := prate f.
Definition stF {d} (f : polyF d) : list float := ps f.
(** Signals of at most 2^49 / rr samples. *)
Definition fits (B : list (list float)) (x : list float) : Prop := (Z.of_nat (length B) * Z.of_nat (length x) <= 2 ^ 49)%Z.
Definition state_ok {d} (cc : nat) (B : list (list float)) (f : polyF d) : Prop :=
  finite (idxF f) /\ 0 <= val (idxF f) <= IZR (2 ^ 53) /\ finite (rateF f) /\ 0 <= val (rateF f) <= INR (length B) /\ length (stF f) = cc.
(** The number of outputs numpy.zeros(int(numpy.round(len(x) * rate))) makes room for. *)
Definition room {d} (f : polyF d) (x : list float) : Z := rheR (nearest (INR (length x) * val (rateF f))).

(** ** Lemmas *)
Lemma bank_len cc B : bank_okF cc B -> 1 <= INR (length B).
Proof. intros [H _]. destruct B; [congruence|]. apply (le_INR 1). cbn; lia. Qed.
Lemma room_rate (L r : R) : (0 < rheR (nearest (L * r)))%Z -> 1 / 4 <= L * r.
Proof.
  intros H. destruct (Rle_lt_dec (1 / 4) (L * r)) as [C|C]; [exact C|exfalso].
  assert (Q : nearest (1 / 4) = 1 / 4). { replace (1 / 4) with (IZR 1 * bpow radix2 (-2)) by (cbn; lra). apply nearest_grid; cbn; lia. }
  pose proof (nearest_le _ _ (Rlt_le _ _ C)) as Le. rewrite Q in Le.
  pose proof (below_rheR _ 0 H) as _. destruct (rheR_spec (nearest (L * r))) as [K _].
  assert (IZR 1 <= IZR (rheR (nearest (L * r)))) by (apply IZR_le; lia). pose proof (Rle_abs (IZR (rheR (nearest (L * r))) - nearest (L * r))). lra.
Qed.
Section Step.
  Variables (d : list float -> list float -> float) (B : list (list float)) (L : nat) (r : float).
  Notation RR := (INR (length B)).
  Notation rrF := (@of_nat (FOd d) (length B)).
  Hypotheses (HB : 1 <= RR) (HL : (Z.of_nat (length B) * Z.of_nat L <= 2 ^ 49)%Z) (H0 : (0 < L)%nat) (Hr : 0 < val r <= RR) (Hq : 1 / 4 <= INR L * val r).
  Lemma step_bounds : 1 <= RR / val r <= IZR (2 ^ 51).
  Proof.
    split.
    - apply Rmult_le_reg_r with (val r); [lra|]. unfold Rdiv. rewrite Rmult_assoc, Rinv_l by lra. lra.
    - apply Rmult_le_reg_r with (val r); [lra|]. unfold Rdiv. rewrite Rmult_assoc, Rinv_l, Rmult_1_r by lra.
      assert (A : RR * INR L <= IZR (2 ^ 49)) by (rewrite !INR_IZR_INZ, <- mult_IZR; apply IZR_le; exact HL).
      replace (2 ^ 51)%Z with (4 * 2 ^ 49)%Z by reflexivity. rewrite mult_IZR. 
      apply Rle_trans with (4 * (RR * INR L) * val r); [|apply Rmult_le_compat_r; lra].
      replace (4 * (RR * INR L) * val r) with (RR * (4 * (INR L * val r))) by ring. apply Rle_trans with (RR * 1); [lra|]. apply Rmult_le_compat_l; lra.
  Qed.
  Lemma rr_small : (Z.of_nat (length B) <= 2 ^ 49)%Z. Proof. nia. Qed.
  Lemma q_double : finite (rrF / r)%float /\ val (rrF / r)%float = nearest (RR / val r) /\ 0 <= val (rrF / r)%float <= IZR (2 ^ 51) /\
    Rabs (val (rrF / r)%float - RR / val r) <= uro * (RR / val r).
  Proof.
    destruct (of_nat_double d (length B)) as [Fr Vr]; [pose proof rr_small; lia|]. pose proof step_bounds as Sb.
    assert (N : 0 <= nearest (RR / val r) <= IZR (2 ^ 51)).
    { split; [apply nearest_nonneg; lra|]. rewrite <- (nearest_IZR (2 ^ 51)) by (cbn; lia). apply nearest_le. lra. }
    assert (Hh : Rabs (nearest (val rrF / val r)) < huge).
    { rewrite Vr. pose proof huge_big. assert (IZR (2 ^ 51) < IZR (2 ^ 60)) by (apply IZR_lt; reflexivity). rewrite Rabs_pos_eq; lra. }
    destruct (div_fin rrF r Fr ltac:(lra) Hh) as [F V]. rewrite Vr in V. split; [exact F|]. split; [exact V|]. rewrite V. split; [exact N|].
    pose proof (nearest_rel (RR / val r)) as K. rewrite (Rabs_pos_eq (RR / val r)) in K by lra. apply K. lra.
  Qed.
End Step.

Lemma filter_double d rnd cc B (f : polyF d) x (D : R -> Prop) (E : R) : rounds rnd -> bank_okF cc B -> fits B x -> state_ok cc B f -> x <> [] ->
  (forall v, D v -> D (v - INR (length B))) -> D (val (idxF f)) ->
  (0 < val (rateF f) -> 1 / 4 <= INR (length x) * val (rateF f) ->
   forall p, position D p -> val p < INR (length B) ->
   let q := (@of_nat (FOd d) (length B) / rateF f)%float in
   D (nearest (val p + val q)) /\ Rabs (nearest (val p + val q) - (val p + INR (length B) / val (rateF f))) <= E) ->
  exists f' y ts ii, filterF d rnd B f x = Some (f', Ok y) /\ state_ok cc B f' /\ D (val (idxF f')) /\ rateF f' = rateF f /\
    (ii <= length x)%nat /\ (Z.of_nat (length y) <= room f x)%Z /\ length ts = length y /\ ((Z.of_nat (length y) < room f x)%Z -> ii = length x) /\
    Rabs (val (idxF f') + INR ii * INR (length B) - (val (idxF f) + INR (length y) * (INR (length B) / val (rateF f)))) <= INR (length y) * E /\
    forall n, (n < length y)%nat -> Rabs (nth n ts 0 - (val (idxF f) + INR n * (INR (length B) / val (rateF f)))) <= INR n * E /\ output_double d cc B x (stF f) (nth n ts 0) (nth n y 0%float).
Proof.
  intros Hrnd HB Hx (F1 & B1 & F2 & B2 & L2) Nx Hsub D0 Hadd. pose proof (bank_len cc B HB) as RR1.
  assert (Lx : (0 < length x)%nat) by (destruct x; [congruence|cbn; lia]).
  assert (Lb : (0 < length B)%nat) by (apply INR_lt; cbn [INR]; lra).
  assert (Sx : (Z.of_nat (length x) <= 2 ^ 49)%Z) by (unfold fits in Hx; nia). assert (Sb : (Z.of_nat (length B) <= 2 ^ 49)%Z) by (unfold fits in Hx; nia).
  destruct (of_nat_double d (length x)) as [Fl Vl]; [lia|].
  assert (Prod : 0 <= INR (length x) * val (rateF f) <= IZR (2 ^ 49)).
  { split; [apply Rmult_le_pos; [apply pos_INR|lra]|]. apply Rle_trans with (INR (length x) * INR (length B)); [apply Rmult_le_compat_l; [apply pos_INR|lra]|].
    rewrite !INR_IZR_INZ, <- mult_IZR. apply IZR_le. unfold fits in Hx. lia. }
  assert (Np : 0 <= nearest (INR (length x) * val (rateF f)) <= IZR (2 ^ 49)).
  { split; [apply nearest_nonneg; lra|]. rewrite <- (nearest_IZR (2 ^ 49)) by (cbn; lia). apply nearest_le. lra. }
  assert (Hh : Rabs (nearest (val (@of_nat (FOd d) (length x)) * val (rateF f))) < huge).
  { rewrite Vl. pose proof huge_big. assert (IZR (2 ^ 49) < IZR (2 ^ 60)) by (apply IZR_lt; reflexivity). rewrite Rabs_pos_eq; lra. }
  destruct (mul_fin _ _ Fl F2 Hh) as [Fm Vm]. rewrite Vl in Vm.
  assert (Er : rnd (@of_nat (FOd d) (length x) * rateF f)%float = room f x) by (rewrite (Hrnd _ Fm), Vm; reflexivity).
  assert (R0 : (0 <= room f x)%Z) by (apply rheR_nonneg; lra).
  assert (Go : exists ii' p' s' ys ts, @poly_loop (FOd d) rnd B (rateF f) (length x + Z.to_nat (room f x)) x (Z.to_nat (room f x)) (idxF f) (stF f) = Some (p', s', Ok ys) /\
      (ii' <= length x)%nat /\ (length ys <= Z.to_nat (room f x))%nat /\ length ts = length ys /\ position D p' /\ length s' = cc /\ (length ys < Z.to_nat (room f x) -> ii' = length x)%nat /\
      Rabs (val p' + INR ii' * INR (length B) - (val (idxF f) + INR (length ys) * (INR (length B) / val (rateF f)))) <= INR (length ys) * E /\
      forall n, (n < length ys)%nat -> Rabs (nth n ts 0 - (val (idxF f) + INR n * (INR (length B) / val (rateF f)))) <= INR n * E /\ output_double d cc B x (stF f) (nth n ts 0) (nth n ys 0%float)).
  { destruct (Z.eq_dec (room f x) 0) as [Z0|Z0].
    - exists 0%nat, (idxF f), (stF f), [], []. rewrite Z0. cbn [Z.to_nat length]. rewrite Nat.add_0_r. split; [destruct x; [congruence|reflexivity]|].
      split; [lia|]. split; [lia|]. split; [reflexivity|]. split; [repeat split; try assumption; apply B1|]. split; [exact L2|]. split; [lia|]. split; [|intros n Hn; lia].
      cbn [INR]. rewrite !Rmult_0_l, !Rplus_0_r. unfold Rminus. rewrite Rplus_opp_r, Rabs_R0. lra.
    - assert (Q : 1 / 4 <= INR (length x) * val (rateF f)) by (apply room_rate; unfold room in *; lia).
      assert (Pr : 0 < val (rateF f)). { destruct (Req_dec (val (rateF f)) 0) as [C|C]; [rewrite C, Rmult_0_r in Q; lra|lra]. }
      destruct (q_double d B (length x) (rateF f) RR1 Hx Lx ltac:(lra) Q) as (Fq & Vq & Bq & _).
      destruct (loop_polyphase d rnd Hrnd cc B x (stF f) HB Sb D Hsub (rateF f) E Fq Bq (Hadd Pr Q) (length x + Z.to_nat (room f x)) 0 (Z.to_nat (room f x)) (idxF f) (stF f))
        as (ii & p' & s' & ys & ts & G1 & G2 & G3 & G4 & G5 & G6 & G7 & G8 & G9 & G10).
      + lia.
      + lia.
      + repeat split; try assumption; apply B1.
      + split; [exact L2|]. intros i Hi. unfold recentF. destruct i; [lia|]. cbn [Nat.leb]. reflexivity.
      + destruct HB as (_ & Hc & _). destruct (stF f); [cbn in L2; lia|discriminate].
      + cbn [INR] in G9, G10. rewrite Rmult_0_l, Rplus_0_r in G9, G10.
        exists ii, p', s', ys, ts. cbn [skipn] in G1. split; [exact G1|]. split; [lia|]. split; [exact G3|]. split; [exact G4|]. split; [exact G5|]. split; [apply G6|]. split; [exact G8|]. split; [exact G9|exact G10]. }
  destruct Go as (ii & p' & s' & ys & ts & G1 & G2 & G3 & G4 & (G5 & G5' & G5'') & G6 & G8 & G9 & G10).
  change (@length (carrier (FOd d)) ys) with (@length float ys) in *.
  exists (@mkPoly (FOd d) p' (rateF f) s'), ys, ts, ii. split.
  - unfold filterF, poly_filter.
    assert (Eb : Nat.eqb (@length (carrier (FOd d)) x) 0 = false) by (apply Nat.eqb_neq; change (@length (carrier (FOd d)) x) with (@length float x); lia). rewrite Eb.
    match goal with |- context [rnd ?v] => replace (rnd v) with (room f x) by (symmetry; exact Er) end.
    destruct (Z.ltb_spec (room f x) 0); [lia|].
    match goal with |- context [@poly_loop ?o ?n ?b ?c ?e ?g ?h ?i ?j] => replace (@poly_loop o n b c e g h i j) with (Some (p', s', Ok ys)) by (symmetry; exact G1) end. reflexivity.
  - split; [repeat split; try assumption; solve [apply G5'|apply B2]|]. split; [exact G5''|]. split; [reflexivity|]. split; [exact G2|]. split; [lia|]. split; [exact G4|]. split; [intros; apply G8; lia|]. split; [exact G9|exact G10].
Qed.

Definition any_position (v : R) : Prop := True.
(** Rounding error of one output, in rows. *)
Definition step_error (rr r : R) : R := uro * (rr + 3 * (rr / r)).
Lemma drift_double d (B : list (list float)) (L : nat) (r : float) : 1 <= INR (length B) -> (Z.of_nat (length B) * Z.of_nat L <= 2 ^ 49)%Z -> (0 < L)%nat -> val r <= INR (length B) ->
  0 < val r -> 1 / 4 <= INR L * val r -> forall p, position any_position p -> val p < INR (length B) ->
  let q := (@of_nat (FOd d) (length B) / r)%float in
  any_position (nearest (val p + val q)) /\ Rabs (nearest (val p + val q) - (val p + INR (length B) / val r)) <= step_error (INR (length B)) (val r).
Proof.
  intros HB HL H0 Hr1 Hr Hq p (Fp & Bp & _) Lp q. split; [exact I|].
  destruct (q_double d B L r HB HL H0 ltac:(lra) Hq) as (Fq & Vq & Bq & Cq). destruct (step_bounds B L r HB HL ltac:(lra) Hq) as [S1 S2]. fold q in Fq, Vq, Bq, Cq.
  pose proof (add_close p q) as A. set (st := INR (length B) / val r) in *. pose proof uro_pos as U.
  assert (U1 : uro <= 1) by (unfold uro; pose proof (bpow_le radix2 (-52) 0 ltac:(lia)) as Bq0; change (bpow radix2 0) with 1 in Bq0; lra).
  assert (Q2 : val q <= 2 * st). { assert (val q - st <= uro * st) by (eapply Rle_trans; [apply Rle_abs|exact Cq]). nra. }
  rewrite (Rabs_pos_eq (val p + val q)) in A by lra.
  replace (nearest (val p + val q) - (val p + st)) with ((nearest (val p + val q) - (val p + val q)) + (val q - st)) by ring.
  eapply Rle_trans; [apply Rabs_triang|]. unfold step_error. fold st. nra.
Qed.

(** ** C170 *)
Inductive polyF_op : Type := FFilter (x : list float) | FRate (r : float) | FReset (v : option float).
Definition polyF_exec {d} rnd (close : float -> float -> bool) (B : list (list float)) (f : polyF d) (o : polyF_op) : polyF d :=
  match o with
  | FFilter x => match filterF d rnd B f x with Some (f', _) => f' | None => f end
  | FRate r => fst (@poly_set_rate (FOd d) close (length B) f r)
  | FReset v => fst (@poly_reset (FOd d) f v)
  end.
(** Signals that fit and rates other than NaN. *)
Definition op_ok (B : list (list float)) (o : polyF_op) : Prop := match o with FFilter x => fits B x | FRate r => ~ nonnumber r | FReset _ => True end.

Lemma rate_double d rr r : (Z.of_nat rr <= 2 ^ 53)%Z -> ~ nonnumber r -> @prate_bad (FOd d) rr r = false -> finite r /\ 0 <= val r <= INR rr.
Proof.
  intros Hr N H. unfold prate_bad in H. apply orb_false_iff in H. destruct H as [H1 H2]. destruct (of_nat_double d rr Hr) as [Fr Vr].
  change (PrimFloat.ltb r 0 = false) in H1. change (PrimFloat.ltb (@of_nat (FOd d) rr) r = false) in H2.
  assert (F : finite r).
  { destruct (PrimFloat.is_finite r) eqn:E; [exact E|exfalso]. set (w := @of_nat (FOd d) rr) in *. unfold finite in Fr.
    rewrite is_finite_equiv in E, Fr. unfold nonnumber in N. rewrite is_nan_equiv in N. rewrite ltb_equiv in H1, H2.
    destruct (Prim2B r) as [s|[|]| |s m e He] eqn:Er; try discriminate; [destruct (Prim2B w) as [[|]|[|]| |[|] m e He]; cbn in Fr, H2; discriminate|apply N; reflexivity]. }
  split; [exact F|]. split.
  - destruct (Rle_lt_dec 0 (val r)) as [C|C]; [exact C|]. rewrite <- val_zero in C. apply (ltb_val r 0%float F eq_refl) in C. congruence.
  - destruct (Rle_lt_dec (val r) (INR rr)) as [C|C]; [exact C|]. rewrite <- Vr in C. apply (ltb_val _ _ Fr F) in C. congruence.
Qed.
Lemma exec_double d rnd close cc B (f : polyF d) o : rounds rnd -> bank_okF cc B -> (Z.of_nat (length B) <= 2 ^ 49)%Z -> state_ok cc B f -> op_ok B o -> state_ok cc B (polyF_exec rnd close B f o).
Proof.
  intros Hrnd HB Hb Hf Ho. destruct o as [x|r|v]; cbn [polyF_exec op_ok] in *.
  - destruct x as [|v x]; [exact Hf|]. pose proof Hf as (F1 & B1 & F2 & B2 & L2).
    destruct (filter_double d rnd cc B f (v :: x) any_position (step_error (INR (length B)) (val (rateF f))) Hrnd HB Ho Hf ltac:(discriminate) (fun _ _ => I) I) as (f' & y & ts & ii & G1 & G2 & _).
    + intros Pr Q. apply (drift_double d B (length (v :: x)) (rateF f)); [apply (bank_len cc), HB|exact Ho|cbn; lia|lra|exact Pr|exact Q].
    + rewrite G1. exact G2.
  - unfold poly_set_rate. destruct (@prate_bad (FOd d) (length B) r) eqn:E; [exact Hf|]. apply rate_double in E; [|lia|exact Ho]. cbn [fst].
    destruct Hf as (F1 & B1 & F2 & B2 & L2). unfold state_ok, idxF, rateF, stF in *. cbn [pindex prate ps]. destruct E as [E1 E2].
    destruct (close (prate f) r); [repeat split; try assumption; apply B1 || apply E2|]. change (@zero (FOd d)) with 0%float. rewrite val_zero.
    split; [reflexivity|]. split; [split; [lra|apply IZR_le; lia]|]. repeat split; try assumption; apply E2.
  - unfold poly_reset. destruct v as [v|]; [|exact Hf]. destruct Hf as (F1 & B1 & F2 & B2 & L2). unfold state_ok, idxF, rateF, stF in *. cbn [fst pindex prate ps].
    rewrite map_length. repeat split; try assumption; apply B1 || apply B2.
Qed.

(** Whatever the samples are, NaN and infinities included, and whatever history of calls came
    before, filter ends, selects a row of the bank for every output, and raises nothing. *)
Theorem C170_safe d rnd (close : float -> float -> bool) (cc : nat) (B : list (list float)) (r0 : float) (f0 : polyF d) (ops : list polyF_op) (x : list float) :
  rounds rnd -> bank_okF cc B -> (Z.of_nat (length B) <= 2 ^ 49)%Z -> ~ nonnumber r0 -> @poly_make (FOd d) (length B) cc r0 = Ok f0 -> Forall (op_ok B) ops ->
  let f := fold_left (polyF_exec rnd close B) ops f0 in
  finite (idxF f) /\ 0 <= val (idxF f) /\
  (x <> [] -> fits B x -> exists f' y, filterF d rnd B f x = Some (f', Ok y) /\ (Z.of_nat (length y) <= room f x)%Z /\ finite (idxF f') /\ 0 <= val (idxF f')).
Proof.
  intros Hrnd HB Hb N E Ho f. assert (Hf : state_ok cc B f).
  { assert (H0 : state_ok cc B f0).
    { unfold poly_make in E. destruct (@prate_bad (FOd d) (length B) r0) eqn:Eb; [discriminate|]. injection E as <-. apply rate_double in Eb; [|lia|exact N]. destruct Eb as [E1 E2].
      unfold state_ok, idxF, rateF, stF. cbn [pindex prate ps]. change (@zero (FOd d)) with 0%float. rewrite val_zero.
      split; [reflexivity|]. split; [split; [lra|apply IZR_le; lia]|]. split; [exact E1|]. split; [exact E2|]. apply repeat_length. }
    unfold f. clear f E. revert f0 H0. induction Ho as [|o ops Hop Ho IH]; intros f0 H0; [exact H0|]. cbn [fold_left]. apply IH, exec_double; assumption. }
  pose proof Hf as (F1 & B1 & F2 & B2 & L2). split; [exact F1|]. split; [apply B1|]. intros Nx Hx.
  destruct (filter_double d rnd cc B f x any_position (step_error (INR (length B)) (val (rateF f))) Hrnd HB Hx Hf Nx (fun _ _ => I) I) as (f' & y & ts & ii & G1 & G2 & _ & _ & _ & G3 & _).
  - intros Pr Q. apply (drift_double d B (length x) (rateF f)); [apply (bank_len cc), HB|exact Hx|destruct x; [congruence|cbn; lia]|lra|exact Pr|exact Q].
  - exists f', y. split; [exact G1|]. split; [exact G3|]. split; [apply G2|apply G2].
Qed.
Print Assumptions C170_safe.

(** Output n is the output of the exact filter at a position within n 2^-53 (rr + 3 rr / rate) rows
    of the exact position. *)
Theorem C170_positions d rnd (cc : nat) (B : list (list float)) (f : polyF d) (x : list float) :
  rounds rnd -> bank_okF cc B -> fits B x -> state_ok cc B f -> 0 < val (rateF f) -> x <> [] ->
  let rr := INR (length B) in let e := uro * (rr + 3 * (rr / val (rateF f))) in
  exists f' y ts ii, filterF d rnd B f x = Some (f', Ok y) /\ length ts = length y /\ state_ok cc B f' /\
    (forall n, (n < length y)%nat -> Rabs (nth n ts 0 - (val (idxF f) + INR n * (rr / val (rateF f)))) <= INR n * e /\ output_double d cc B x (stF f) (nth n ts 0) (nth n y 0%float)) /\
    (ii <= length x)%nat /\ Rabs (val (idxF f') + INR ii * rr - (val (idxF f) + INR (length y) * (rr / val (rateF f)))) <= INR (length y) * e.
Proof.
  intros Hrnd HB Hx Hf Pr Nx rr e. pose proof Hf as (F1 & B1 & F2 & B2 & L2).
  destruct (filter_double d rnd cc B f x any_position e Hrnd HB Hx Hf Nx (fun _ _ => I) I) as (f' & y & ts & ii & G1 & G2 & _ & _ & G3 & _ & G4 & _ & G5 & G6).
  - intros _ Q. apply (drift_double d B (length x) (rateF f)); [apply (bank_len cc), HB|exact Hx|destruct x; [congruence|cbn; lia]|lra|exact Pr|exact Q].
  - exists f', y, ts, ii. split; [exact G1|]. split; [exact G4|]. split; [exact G2|]. split; [exact G6|]. split; [exact G3|exact G5].
Qed.
Print Assumptions C170_positions.

(** From position zero every output there is room for is computed, for len * rate * (rate + 4) up to 2^50. *)
Theorem C170_count d rnd (cc : nat) (B : list (list float)) (f : polyF d) (x : list float) :
  rounds rnd -> bank_okF cc B -> fits B x -> state_ok cc B f -> 0 < val (rateF f) -> x <> [] -> val (idxF f) = 0 ->
  INR (length x) * val (rateF f) * (val (rateF f) + 4) <= IZR (2 ^ 50) ->
  exists f' y, filterF d rnd B f x = Some (f', Ok y) /\ Z.of_nat (length y) = room f x.
Proof.
  intros Hrnd HB Hx Hf Pr Nx I0 Small. pose proof Hf as (F1 & B1 & F2 & B2 & L2). pose proof (bank_len cc B HB) as RR1.
  destruct (filter_double d rnd cc B f x any_position (step_error (INR (length B)) (val (rateF f))) Hrnd HB Hx Hf Nx (fun _ _ => I) I) as (f' & y & ts & ii & G1 & G2 & _ & _ & _ & G3 & G4 & G7 & G5 & G6).
  - intros _ Q. apply (drift_double d B (length x) (rateF f)); [exact RR1|exact Hx|destruct x; [congruence|cbn; lia]|lra|exact Pr|exact Q].
  - exists f', y. split; [exact G1|]. destruct (Z.eq_dec (Z.of_nat (length y)) (room f x)) as [C|C]; [exact C|exfalso].
    assert (Lt : (Z.of_nat (length y) < room f x)%Z) by lia. rewrite (G7 Lt), I0 in G5. clear G6 G7.
    set (n := INR (length y)) in *. set (r := val (rateF f)) in *. set (RR := INR (length B)) in *. set (L := INR (length x)) in *. set (a := L * r) in *.
    destruct G2 as (_ & [P' _] & _). pose proof (Rle_abs (val (idxF f') + L * RR - (0 + n * (RR / r)))) as Ab.
    assert (Q : 1 / 4 <= a) by (apply (room_rate L r); unfold room in Lt; fold L r in Lt; lia).
    assert (Pn : 0 <= n) by apply pos_INR. pose proof uro_pos as U.
    assert (Hn : n + 1 / 2 <= nearest a).
    { destruct (rheR_spec (nearest a)) as [K _]. unfold room in Lt. fold L r a in Lt. assert (J : (Z.of_nat (length y) + 1 <= rheR (nearest a))%Z) by lia. apply IZR_le in J. rewrite plus_IZR, <- INR_IZR_INZ in J. fold n in J.
      pose proof (Rle_abs (IZR (rheR (nearest a)) - nearest a)). lra. }
    assert (Na : nearest a <= a + uro * a + uro).
    { pose proof (nearest_close a) as K. rewrite (Rabs_pos_eq a) in K by lra. pose proof (Rle_abs (nearest a - a)). pose proof eta_uro. lra. }
    assert (Ub : uro * IZR (2 ^ 50) = 1 / 8). { unfold uro. change (IZR (2 ^ 50)) with (bpow radix2 50). rewrite Rmult_assoc, <- bpow_plus. cbn. lra. }
    assert (Ba : uro * (a * (r + 4)) <= 1 / 8) by (rewrite <- Ub; apply Rmult_le_compat_l; lra).
    assert (Ur : uro <= 1 / 8). { rewrite <- Ub. rewrite <- (Rmult_1_r uro) at 1. apply Rmult_le_compat_l; [lra|]. apply (IZR_le 1). lia. }
    assert (Ua : 0 <= uro * a) by (apply Rmult_le_pos; lra). assert (Uar : 0 <= uro * a * r) by (apply Rmult_le_pos; lra).
    replace (uro * (a * (r + 4))) with (uro * a * r + 4 * (uro * a)) in Ba by ring.
    assert (N2 : n <= a) by lra.
    (* In units of a step: n (1 + uro (r + 3)) < a. *)
    assert (S : 0 < RR / r) by (apply Rdiv_lt_0_compat; lra).
    assert (LR : L * RR = a * (RR / r)) by (unfold a; field; lra).
    assert (Se : step_error RR r = uro * (r + 3) * (RR / r)) by (unfold step_error; field; lra).
    rewrite Se, LR in *. set (s := RR / r) in *.
    assert (K : a * s <= n * s + n * (uro * (r + 3)) * s) by lra.
    assert (K2 : a <= n + n * (uro * (r + 3))). { apply Rmult_le_reg_r with s; [exact S|]. lra. }
    assert (K3 : n * (uro * (r + 3)) <= a * (uro * (r + 3))) by (apply Rmult_le_compat_r; [apply Rmult_le_pos; lra|exact N2]).
    replace (a * (uro * (r + 3))) with (uro * a * r + 3 * (uro * a)) in K3 by ring. lra.
Qed.
Print Assumptions C170_count.

(** If rr / rate is an integer k, as for the rates 1, 2 and 1/2, and the position is an integer, no
    position is rounded. *)
Theorem C170_exact d rnd (cc : nat) (B : list (list float)) (f : polyF d) (x : list float) (k z : Z) :
  rounds rnd -> bank_okF cc B -> fits B x -> state_ok cc B f -> 0 < val (rateF f) -> x <> [] ->
  IZR k * val (rateF f) = INR (length B) -> val (idxF f) = IZR z ->
  exists f' y ii, filterF d rnd B f x = Some (f', Ok y) /\ (ii <= length x)%nat /\
    val (idxF f') = val (idxF f) + INR (length y) * IZR k - INR ii * INR (length B) /\
    forall n, (n < length y)%nat -> output_double d cc B x (stF f) (val (idxF f) + INR n * IZR k) (nth n y 0%float).
Proof.
  intros Hrnd HB Hx Hf Pr Nx Hk Hz. pose proof Hf as (F1 & B1 & F2 & B2 & L2). pose proof (bank_len cc B HB) as RR1.
  assert (Ek : INR (length B) / val (rateF f) = IZR k) by (rewrite <- Hk; field; lra).
  set (D := fun v : R => exists z, v = IZR z).
  destruct (filter_double d rnd cc B f x D 0 Hrnd HB Hx Hf Nx) as (f' & y & ts & ii & G1 & G2 & _ & _ & G3 & _ & G4 & _ & G5 & G6).
  - intros v [w ->]. exists (w - Z.of_nat (length B))%Z. rewrite minus_IZR, <- INR_IZR_INZ. reflexivity.
  - exists z. exact Hz.
  - intros _ Q p (Fp & Bp & [w Ew]) Lp q.
    assert (Lx : (0 < length x)%nat) by (destruct x; [congruence|cbn; lia]).
    destruct (q_double d B (length x) (rateF f) RR1 Hx Lx ltac:(lra) Q) as (Fq & Vq & Bq & _). destruct (step_bounds B (length x) (rateF f) RR1 Hx ltac:(lra) Q) as [S1 S2].
    assert (K2 : (0 <= k <= 2 ^ 51)%Z) by (split; apply le_IZR; rewrite <- Ek; lra).
    change (val q = nearest (INR (length B) / val (rateF f))) in Vq. rewrite Ek, nearest_IZR in Vq by lia. rewrite Vq, Ek, Ew, <- plus_IZR.
    assert (W : (0 <= w <= 2 ^ 49)%Z).
    { rewrite Ew in Bp, Lp. split; [apply le_IZR; lra|]. apply Z.lt_le_incl. apply lt_IZR. eapply Rlt_le_trans; [exact Lp|]. rewrite INR_IZR_INZ. apply IZR_le. unfold fits in Hx. nia. }
    rewrite nearest_IZR by lia. split; [exists (w + k)%Z; reflexivity|]. unfold Rminus. rewrite Rplus_opp_r, Rabs_R0. lra.
  - rewrite Ek in G5, G6. assert (Z0 : forall t n, Rabs t <= INR n * 0 -> t = 0).
    { intros t n Ht. rewrite Rmult_0_r in Ht. pose proof (Rabs_pos t). destruct (Req_dec t 0) as [G|G]; [exact G|]. apply Rabs_pos_lt in G. lra. }
    exists f', y, ii. split; [exact G1|]. split; [exact G3|]. split; [apply Z0 in G5; lra|].
    intros n Hn. destruct (G6 n Hn) as [A O]. apply Z0 in A. replace (val (idxF f) + INR n * IZR k) with (nth n ts 0) by lra. exact O.
Qed.
Print Assumptions C170_exact.

(** ** Rounding to integers *)
Definition rneF (p : float) : Z :=
  match Prim2B p with
  | B754_finite s m e _ => cond_Zopp s (if (0 <=? e)%Z then Z.pos m * 2 ^ e
      else let k := 2 ^ (- e) in let w := Z.pos m / k in
           match (2 * (Z.pos m mod k) ?= k)%Z with Lt => w | Gt => w + 1 | Eq => if Z.even w then w else w + 1 end)%Z
  | _ => 0%Z
  end.
Lemma rheR_opp v : rheR (- v) = (- rheR v)%Z.
Proof.
  destruct (rheR_spec v) as [A E]. apply rheR_unique; rewrite opp_IZR; replace (- IZR (rheR v) - - v) with (- (IZR (rheR v) - v)) by ring; rewrite Rabs_Ropp; [exact A|].
  intros H. rewrite Z.even_opp. apply E, H.
Qed.
Lemma rneF_rounds : rounds rneF.
Proof.
  intros v F. unfold rneF. pose proof F as F'. unfold finite in F'. rewrite is_finite_equiv in F'. destruct (Prim2B v) as [s|s| |s m e H] eqn:E; try discriminate.
  - unfold val. rewrite E. cbn [B2R]. symmetry. apply (rheR_IZR 0).
  - assert (V : val v = IZR (cond_Zopp s (Z.pos m)) * bpow radix2 e) by (unfold val; rewrite E; reflexivity).
    assert (P : rheR (IZR (Z.pos m) * bpow radix2 e) = (if (0 <=? e)%Z then Z.pos m * 2 ^ e
      else let k := 2 ^ (- e) in let w := Z.pos m / k in match (2 * (Z.pos m mod k) ?= k)%Z with Lt => w | Gt => w + 1 | Eq => if Z.even w then w else w + 1 end)%Z).
    { clear. destruct (Z.leb_spec 0 e) as [C|C].
      - rewrite <- (IZR_Zpower radix2 e C), <- mult_IZR. apply rheR_IZR.
      - cbv zeta. set (k := (2 ^ (- e))%Z). assert (Hk : (0 < k)%Z) by (apply Z.pow_pos_nonneg; lia).
        assert (Bk : IZR k * bpow radix2 e = 1).
        { unfold k. change (2 ^ (- e))%Z with (radix2 ^ (- e))%Z. rewrite IZR_Zpower by lia. rewrite <- bpow_plus. replace (- e + e)%Z with 0%Z by lia. reflexivity. }
        pose proof (Z.div_mod (Z.pos m) k ltac:(lia)) as Dm. pose proof (Z.mod_pos_bound (Z.pos m) k Hk) as Bd. set (w := (Z.pos m / k)%Z) in *. set (g := (Z.pos m mod k)%Z) in *.
        set (b := bpow radix2 e) in *. assert (Pb : 0 < b) by apply bpow_gt_0.
        assert (Vm : IZR (Z.pos m) * b = IZR w + IZR g * b) by (rewrite Dm, plus_IZR, mult_IZR; replace ((IZR k * IZR w + IZR g) * b) with (IZR w * (IZR k * b) + IZR g * b) by ring; rewrite Bk; ring).
        rewrite Vm. assert (Hg : 0 <= IZR g * b) by (apply Rmult_le_pos; [apply IZR_le; lia|lra]).
        destruct (Z.compare_spec (2 * g) k) as [Q|Q|Q].
        + assert (Hh : IZR g * b = 1 / 2). { apply (f_equal IZR) in Q. rewrite mult_IZR in Q. rewrite <- Q in Bk. lra. }
          rewrite Hh. destruct (Z.even w) eqn:Ew; apply rheR_unique; rewrite ?plus_IZR.
          * replace (IZR w - (IZR w + 1 / 2)) with (- (1 / 2)) by ring. rewrite Rabs_Ropp, Rabs_pos_eq; lra.
          * intros _. exact Ew.
          * replace (IZR w + 1 - (IZR w + 1 / 2)) with (1 / 2) by field. rewrite Rabs_pos_eq; lra.
          * intros _. rewrite Z.add_1_r, Z.even_succ, <- Z.negb_even, Ew. reflexivity.
        + assert (Hh : IZR g * b < 1 / 2). { apply IZR_lt in Q. rewrite mult_IZR in Q. apply (Rmult_lt_compat_r b) in Q; [|exact Pb]. lra. }
          apply rheR_unique; replace (IZR w - (IZR w + IZR g * b)) with (- (IZR g * b)) by ring; rewrite Rabs_Ropp, Rabs_pos_eq by lra; [lra|intros; lra].
        + assert (Hh : 1 / 2 < IZR g * b). { apply IZR_lt in Q. rewrite mult_IZR in Q. apply (Rmult_lt_compat_r b) in Q; [|exact Pb]. lra. }
          assert (H1 : IZR g * b < 1). { destruct Bd as [_ Bd]. apply IZR_lt in Bd. apply (Rmult_lt_compat_r b) in Bd; [|exact Pb]. lra. }
          apply rheR_unique; rewrite plus_IZR; replace (IZR w + 1 - (IZR w + IZR g * b)) with (1 - IZR g * b) by ring; rewrite Rabs_pos_eq by lra; [lra|intros; lra]. }
    rewrite V. destruct s; cbn [cond_Zopp]; [rewrite opp_IZR, Ropp_mult_distr_l_reverse, rheR_opp, P; reflexivity|rewrite P; reflexivity].
Qed.

(** In general the positions are not the exact ones: at rate 0.2, whose double is above 1/5, the second
    output is taken at sample 5, although sample 4 spans its exact position. *)
Definition fifth : float := 0x1.999999999999ap-3%float.
Definition dotF (a b : list float) : float := dot_from PrimFloat.add PrimFloat.mul 0%float a b.
Definition twoF : list (list float) := [[1]; [1]]%float.
Definition start (r : float) : polyF dotF := @mkPoly (FOd dotF) 0%float r [0%float].
Definition samples : list float := [0; 1; 2; 3; 4; 5; 6; 7; 8; 9]%float.
Theorem C170_exact_refuted : ~ forall (d : list float -> list float -> float) rnd (cc : nat) (B : list (list float)) (f f' : polyF d) (x y : list float),
  rounds rnd -> bank_okF cc B -> fits B x -> state_ok cc B f -> 0 < val (rateF f) -> x <> [] -> filterF d rnd B f x = Some (f', Ok y) ->
  forall n, (n < length y)%nat -> output_double d cc B x (stF f) (val (idxF f) + INR n * (INR (length B) / val (rateF f))) (nth n y 0%float).
Proof.
  intros H.
  assert (V : val fifth = 3602879701896397 / 18014398509481984) by (unfold val, B2R; cbn; unfold F2R; cbn; lra).
  assert (Ok1 : bank_okF 1 twoF) by (split; [discriminate|]; split; [lia|repeat constructor]).
  assert (St : state_ok 1 twoF (start fifth)).
  { unfold state_ok, idxF, rateF, stF, start. cbn [pindex prate ps]. rewrite V, val_zero. split; [reflexivity|]. split; [split; [lra|apply (IZR_le 0); lia]|]. split; [reflexivity|]. split; [cbn; lra|reflexivity]. }
  assert (P : 0 < val (rateF (start fifth))) by (unfold rateF, start; cbn [prate]; rewrite V; lra).
  destruct (C170_positions dotF rneF 1 twoF (start fifth) samples rneF_rounds Ok1 ltac:(unfold fits; cbn; lia) St P ltac:(discriminate)) as (f' & y & ts & ii & Run & _).
  assert (Ey : option_map snd (filterF dotF rneF twoF (start fifth) samples) = Some (Ok [0; 5]%float)) by (vm_compute; reflexivity).
  rewrite Run in Ey. cbn [option_map snd] in Ey. injection Ey as ->.
  destruct (H dotF rneF 1%nat twoF (start fifth) f' samples [0; 5]%float rneF_rounds Ok1 ltac:(unfold fits; cbn; lia) St P ltac:(discriminate) Run 1%nat ltac:(cbn; lia)) as (m & Hm & T & Y). clear H.
  unfold idxF, rateF, start in T. cbn [pindex prate] in T. rewrite val_zero, V in T. change (length twoF) with 2%nat in T.
  replace (INR 2) with 2 in T by (cbn; ring). replace (INR 1) with 1 in T by reflexivity. rewrite S_INR in T.
  assert (M : m = 4%nat).
  { assert (INR m < 5) by lra. assert (3 < INR m) by lra. assert (m < 5)%nat by (apply INR_lt; replace (INR 5) with 5 by (cbn; ring); assumption).
    assert (3 < m)%nat by (apply INR_lt; replace (INR 3) with 3 by (cbn; ring); assumption). lia. }
  subst m. set (kk := Z.to_nat _) in Y. assert (K : (kk <= 1)%nat) by (unfold kk; cbn [length twoF]; lia).
  apply (f_equal (PrimFloat.eqb 5)) in Y. destruct kk as [|[|kk]]; [vm_compute in Y; discriminate|vm_compute in Y; discriminate|lia].
Qed.
Print Assumptions C170_exact_refuted.

(** ** Examples *)
Definition bankF : list (list float) := [[0.5; 0.5]; [1; 0]; [0.25; 0.75]]%float.
Lemma bankF_ok : bank_okF 2 bankF. Proof. split; [discriminate|]. split; [lia|repeat constructor]. Qed.
Example C170_safe_ex : @poly_make (FOd dotF) (length bankF) 2 1.75%float = Ok (@mkPoly (FOd dotF) 0%float 1.75%float [0; 0]%float) /\ ~ nonnumber 1.75%float /\
  Forall (op_ok bankF) [FFilter [1; nan; infinity]%float; FRate infinity; FRate 0.125%float; FFilter [2; 3]%float; FReset (Some 1%float)] /\ rounds rneF /\
  exists y, option_map snd (filterF dotF rneF bankF (fold_left (polyF_exec rneF PrimFloat.eqb bankF) [FFilter [1; nan; infinity]%float; FRate infinity; FFilter [2; 3]%float; FReset (Some 1%float)]
    (@mkPoly (FOd dotF) 0%float 1.75%float [0; 0]%float)) [4; 5]%float) = Some (Ok y) /\ length y = 4%nat.
Proof.
  split; [unfold poly_make; assert (Eb : @prate_bad (FOd dotF) (length bankF) 1.75%float = false) by (vm_compute; reflexivity); rewrite Eb; reflexivity|].
  split; [discriminate|]. split; [|split; [exact rneF_rounds|eexists; vm_compute; split; reflexivity]].
  repeat (apply Forall_cons; [first [discriminate|exact I|unfold op_ok, fits; cbn; lia]|]). apply Forall_nil.
Qed.
Lemma start_ok r : finite r -> 0 <= val r <= 2 -> state_ok 1 twoF (start r).
Proof.
  intros F H. unfold state_ok, idxF, rateF, stF, start. cbn [pindex prate ps]. rewrite val_zero. split; [reflexivity|]. split; [split; [lra|apply (IZR_le 0); lia]|]. split; [exact F|]. split; [cbn; lra|reflexivity].
Qed.
Example C170_positions_ex : bank_okF 1 twoF /\ fits twoF samples /\ state_ok 1 twoF (start fifth) /\ 0 < val (rateF (start fifth)) /\
  option_map snd (filterF dotF rneF twoF (start fifth) samples) = Some (Ok [0; 5]%float).
Proof.
  assert (V : val fifth = 3602879701896397 / 18014398509481984) by (unfold val, B2R; cbn; unfold F2R; cbn; lra).
  split; [split; [discriminate|]; split; [lia|repeat constructor]|]. split; [unfold fits; cbn; lia|]. split; [apply start_ok; [reflexivity|rewrite V; lra]|]. split; [unfold rateF, start; cbn [prate]; rewrite V; lra|vm_compute; reflexivity].
Qed.
Example C170_count_ex : INR (length samples) * val (rateF (start fifth)) * (val (rateF (start fifth)) + 4) <= IZR (2 ^ 50) /\ val (idxF (start fifth)) = 0.
Proof.
  assert (V : val fifth = 3602879701896397 / 18014398509481984) by (unfold val, B2R; cbn; unfold F2R; cbn; lra).
  unfold rateF, idxF, start. cbn [prate pindex]. rewrite V. split; [|reflexivity]. apply Rle_trans with 100; [cbn; lra|apply (IZR_le 100); lia].
Qed.
(** Rate 1/2 in a bank of two rows: four rows per output. *)
Example C170_exact_ex : IZR 4 * val (rateF (start 0.5%float)) = INR (length twoF) /\ val (idxF (start 0.5%float)) = IZR 0 /\
  option_map snd (filterF dotF rneF twoF (start 0.5%float) samples) = Some (Ok [0; 2; 4; 6; 8]%float).
Proof.
  assert (V : val 0.5%float = 1 / 2) by (unfold val, B2R; cbn; unfold F2R; cbn; lra).
  unfold rateF, idxF, start. cbn [prate pindex]. rewrite V. split; [cbn; lra|]. split; [reflexivity|vm_compute; reflexivity].
Qed.
