(** Property C173: PidFilter in IEEE doubles. *)
From Flocq Require Import Core BinarySingleNaN PrimFloat.
From Coq Require Import List Arith ZArith Lia Bool Reals Lra Floats.
From Verif Require Import Base BaseLemmas Instances FirModel FirSpec FirProofs PidModel PidProps DoubleSpec DoubleProofs DoubleOps PolyphaseDoubleProofs.
Import ListNotations.
Set Asymmetric Patterns.
Local Open Scope R_scope.

(** ** Specification *)
(** A PidFilter in doubles, built by the constructor and used in any way; [d] is numpy.dot. *)
Definition usedF (d : list float -> list float -> float) (b : list float) (p : pid (FOd d)) : Prop := exists ops, @pid_used (FOd d) (@mkArr (FOd d) DFloat b) ops p.
Definition filterF d (p : pid (FOd d)) (x : list float) : pid (FOd d) * res (list float) := @pid_filter (FOd d) p x.
Definition integralF d (p : pid (FOd d)) : float := @pid_integral (FOd d) p.
Definition lastF d (p : pid (FOd d)) : float := @nth float 0 (fs (pfir p)) 0%float.
Definition limitF d (p : pid (FOd d)) : option float := plimit p.
Definition sumR (x : list float) : R := fold_right (fun v r => val v + r) 0 x.
(** The samples that are added to the integral [i] when the limit is [L]. *)
Fixpoint kept (L i : float) (x : list float) : list float :=
  match x with
  | [] => []
  | v :: x' => if PrimFloat.ltb (PrimFloat.abs (i + v)) L then v :: kept L (i + v)%float x' else kept L i x'
  end.

(** ** Lemmas *)
(** What is added to a double is lost if it is below a quarter of its last place. *)
Lemma nearest_absorb_pos s e : generic_format radix2 (FLT_exp (-1074) 53) s -> 0 < s -> Rabs e < bpow radix2 (-54) * s -> nearest (s + e) = s.
Proof.
  intros F P H. assert (V : Valid_exp (FLT_exp (-1074) 53)) by (apply FLT_exp_valid; reflexivity). unfold nearest.
  assert (M1 : bpow radix2 (mag radix2 s - 1) <= s) by (pose proof (bpow_mag_le radix2 s ltac:(lra)) as K; rewrite Rabs_pos_eq in K by lra; exact K).
  assert (M2 : s < bpow radix2 (mag radix2 s)) by (pose proof (bpow_mag_gt radix2 s) as K; rewrite Rabs_pos_eq in K by lra; exact K).
  assert (Hf : forall k, (k - 53 <= FLT_exp (-1074) 53 k)%Z) by (intros k; unfold FLT_exp; lia).
  assert (U : bpow radix2 (-53) * s <= Ulp.ulp radix2 (FLT_exp (-1074) 53) s).
  { rewrite ulp_neq_0 by lra. apply Rle_trans with (bpow radix2 (-53) * bpow radix2 (mag radix2 s)); [apply Rmult_le_compat_l; [apply bpow_ge_0|lra]|]. rewrite <- bpow_plus. apply bpow_le. unfold cexp. specialize (Hf (mag radix2 s)). lia. }
  assert (E53 : bpow radix2 (-53) = 2 * bpow radix2 (-54)) by (replace 2 with (bpow radix2 1) by reflexivity; rewrite <- bpow_plus; reflexivity).
  assert (Pd : Ulp.pred radix2 (FLT_exp (-1074) 53) s <= s - bpow radix2 (-53) * s).
  { rewrite pred_eq_pos by lra. unfold pred_pos. destruct (Req_bool_spec s (bpow radix2 (mag radix2 s - 1))) as [E|E]; [|lra].
    assert (bpow radix2 (-53) * s <= bpow radix2 (FLT_exp (-1074) 53 (mag radix2 s - 1))); [|lra].
    rewrite E at 1. rewrite <- bpow_plus. apply bpow_le. specialize (Hf (mag radix2 s - 1)%Z). lia. }
  assert (Sc : s + bpow radix2 (-53) * s <= Ulp.succ radix2 (FLT_exp (-1074) 53) s) by (rewrite succ_eq_pos by lra; lra).
  rewrite E53 in Sc, Pd. apply Rabs_lt_inv in H. apply Rle_antisym.
  - apply round_N_le_midp; [exact V|exact F|]. lra.
  - apply round_N_ge_midp; [exact V|exact F|]. lra.
Qed.
Lemma nearest_absorb s e : generic_format radix2 (FLT_exp (-1074) 53) s -> Rabs e < bpow radix2 (-54) * Rabs s -> nearest (s + e) = s.
Proof.
  intros F H. destruct (Rtotal_order s 0) as [N|[Z|P]].
  - rewrite (Rabs_left s) in H by exact N. rewrite <- (Ropp_involutive (s + e)), nearest_opp. replace (- (s + e)) with (- s + - e) by ring.
    rewrite nearest_absorb_pos; [ring|apply generic_format_opp, F|lra|rewrite Rabs_Ropp; exact H].
  - rewrite Z, Rabs_R0, Rmult_0_r in H. pose proof (Rabs_pos e). lra.
  - rewrite (Rabs_pos_eq s) in H by lra. apply nearest_absorb_pos; assumption.
Qed.
Lemma finite_top v : finite v -> Rabs (val v) < huge.
Proof. intros _. apply (abs_B2R_lt_emax prec emax). Qed.
Lemma same_double a b : finite a -> finite b -> val a = val b -> val a <> 0 -> a = b.
Proof.
  unfold finite. rewrite !is_finite_equiv. intros Fa Fb E N. apply Prim2B_inj. unfold val in *.
  destruct (Prim2B a) as [sa|sa| |sa ma ea Ha]; try discriminate; [destruct N; reflexivity|]. destruct (Prim2B b) as [sb|sb| |sb mb eb Hb]; try discriminate; [destruct N; exact E|].
  apply B2R_inj; [reflexivity|reflexivity|exact E].
Qed.
Lemma add_absorb s v : finite s -> finite v -> Rabs (val v) < bpow radix2 (-54) * Rabs (val s) -> (s + v)%float = s.
Proof.
  intros Fs Fv H. pose proof (nearest_absorb _ _ (val_format s) H) as E. destruct (add_fin s v Fs Fv) as [F V]; [rewrite E; apply finite_top, Fs|].
  apply same_double; [exact F|exact Fs|congruence|]. rewrite V, E. intros Z. rewrite Z, Rabs_R0, Rmult_0_r in H. pose proof (Rabs_pos (val v)). lra.
Qed.
Lemma add_bad i v : finite i -> ~ finite v -> ~ finite (i + v)%float.
Proof.
  unfold finite. rewrite !is_finite_equiv, add_equiv. destruct (Prim2B i) as [si|si| |si mi ei Hi]; intros Fi; try discriminate;
  destruct (Prim2B v) as [sv|sv| |sv mv ev Hv]; intros H; try (exfalso; apply H; reflexivity); cbn; discriminate.
Qed.

Section Run.
  Variable d : list float -> list float -> float.
  Notation inside l := (@PidModel.below (FOd d) l).
  Definition ints (l : option float) (i : float) (x : list float) : list float := @held (FOd d) (fun v => v) (inside l) i x.
  Lemma ints_cons l i v x : ints l i (v :: x) = let i' := if inside l (i + v)%float then (i + v)%float else i in i' :: ints l i' x.
  Proof. reflexivity. Qed.
  Lemma filter_view b p x : usedF d b p -> x <> [] ->
    exists p' y, filterF d p x = (p', Ok y) /\ length y = length x /\ usedF d b p' /\ limitF d p' = limitF d p /\ integralF d p' = last (ints (limitF d p) (integralF d p) x) (integralF d p) /\
      forall n, (n < length x)%nat -> nth n y 0%float = d b [nth n x 0; nth n (ints (limitF d p) (integralF d p) x) 0; nth n x 0 - (match n with O => lastF d p | S k => nth k x 0 end)]%float.
  Proof.
    intros (ops & Hu) Hx. destruct (pid_used_inv _ _ _ Hu) as (Hi & Hd & Hb). cbn [adt els] in Hd, Hb.
    destruct (@pid_filter_eq (FOd d) p x Hi Hx) as (p' & y & E & Hly & Hy & _ & _ & _ & Hl & Hn).
    exists p', y. split; [exact E|]. split; [exact Hly|]. split; [|split; [exact Hl|split]].
    - exists (ops ++ [PFilter (O := FOd d) x]). destruct Hu as (p0 & E0 & E1). exists p0. split; [exact E0|]. rewrite fold_left_app, <- E1. cbn [fold_left pid_exec]. rewrite E. reflexivity.
    - unfold integralF. rewrite Hn, Hd. reflexivity.
    - intros n H. specialize (Hy n H). rewrite Hd, Hb in Hy. etransitivity; [exact Hy|]. destruct n; reflexivity.
  Qed.
  Lemma inside_some L v : inside (Some L) v = PrimFloat.ltb (PrimFloat.abs v) L. Proof. reflexivity. Qed.
  Lemma inside_finite l v : inside l v = true -> finite v.
  Proof. destruct l as [L|]; intros H; unfold finite; eapply ltb_abs_finite; exact H. Qed.
  Lemma inside_none v : finite v -> inside None v = true.
  Proof. unfold finite. rewrite is_finite_equiv. change (inside None v) with (PrimFloat.ltb (PrimFloat.abs v) infinity). rewrite ltb_equiv, abs_equiv. change (Prim2B infinity) with (@B754_infinity 53 1024 false). destruct (Prim2B v); intros H; try discriminate; reflexivity. Qed.
End Run.
Lemma last_app_cons (A : list float) b B i : last (A ++ b :: B) i = last B b.
Proof. revert i. induction A as [|a A IH]; intros i; [apply last_cons2|]. cbn [app]. rewrite last_cons2. apply IH. Qed.

Lemma add_back i v : finite i -> finite v -> finite (i + v)%float -> val (i + v)%float = nearest (val i + val v).
Proof.
  unfold finite. rewrite !is_finite_equiv. intros Fi Fv F.
  pose proof (Bplus_correct prec emax Hprec Hmax mode_NE (Prim2B i) (Prim2B v) Fi Fv) as K. unfold val. rewrite add_equiv in *. destruct (Rlt_bool _ _); [apply K|].
  destruct K as [K _]. match type of F with BinarySingleNaN.is_finite ?b = _ => match type of K with B2SF ?c = _ => change c with b in K end; destruct b; cbn in F, K; discriminate end.
Qed.
Lemma last_repeat (i : float) n : last (repeat i n) i = i.
Proof. induction n as [|[|n] IH]; [reflexivity|reflexivity|exact IH]. Qed.

(** ** Theorems *)
(** Errors below 2^-54 of the integral are not integrated at all, however many there are. *)
Theorem C173_stall d b p x : usedF d b p -> x <> [] -> finite (integralF d p) ->
  Forall (fun v => finite v /\ Rabs (val v) < bpow radix2 (-54) * Rabs (val (integralF d p))) x ->
  exists p' y, filterF d p x = (p', Ok y) /\ integralF d p' = integralF d p /\ length y = length x /\
    forall n, (n < length x)%nat -> nth n y 0%float = d b [nth n x 0; integralF d p; nth n x 0 - (match n with O => lastF d p | S k => nth k x 0 end)]%float.
Proof.
  intros Hu Hx Fi Hs. destruct (filter_view d b p x Hu Hx) as (p' & y & E & Ly & _ & _ & Hi & Hy). exists p', y. split; [exact E|].
  assert (R : ints d (limitF d p) (integralF d p) x = repeat (integralF d p) (length x)).
  { clear - Fi Hs. set (i := integralF d p) in *. clearbody i. induction x as [|v x IH]; [reflexivity|]. pose proof (Forall_inv Hs) as [Fv Sv]. rewrite ints_cons. cbn [length repeat]. rewrite add_absorb by assumption.
    cbn zeta. rewrite Tauto.if_same, IH by (exact (Forall_inv_tail Hs)). reflexivity. }
  split; [|split; [exact Ly|]].
  - rewrite Hi, R. apply last_repeat.
  - intros n Hn. rewrite (Hy n Hn), R. rewrite (nth_indep (repeat _ _) 0%float (integralF d p)) by (rewrite repeat_length; exact Hn). rewrite nth_repeat. reflexivity.
Qed.

(** Without that, the integral is the sum of the samples kept up to n 2^-52 L. *)
Theorem C173_sum d b p x L : usedF d b p -> x <> [] -> finite (integralF d p) -> limitF d p = Some L -> finite L -> Forall finite x ->
  exists p' y, filterF d p x = (p', Ok y) /\ finite (integralF d p') /\
    Rabs (val (integralF d p') - (val (integralF d p) + sumR (kept L (integralF d p) x))) <= INR (length (kept L (integralF d p) x)) * (bpow radix2 (-52) * val L).
Proof.
  intros Hu Hx Fi Hl FL Fx. destruct (filter_view d b p x Hu Hx) as (p' & y & E & _ & _ & _ & Hi & _). exists p', y. split; [exact E|]. rewrite Hi, Hl. clear - Fi FL Fx.
  revert Fi. generalize (integralF d p). induction Fx as [|v x Fv Fx IH]; intros i Fi.
  - cbn [ints held last kept sumR fold_right length INR]. split; [exact Fi|]. replace (val i - (val i + 0)) with 0 by ring. rewrite Rabs_R0. lra.
  - rewrite ints_cons, inside_some. cbn zeta. rewrite last_cons2. cbn [kept]. destruct (PrimFloat.ltb (PrimFloat.abs (i + v)) L) eqn:T; [|apply IH, Fi].
    assert (Fn : finite (i + v)%float) by (unfold finite; eapply ltb_abs_finite; exact T).
    destruct (IH _ Fn) as [I1 I2]. split; [exact I1|]. cbn [length sumR fold_right]. fold (sumR (kept L (i + v)%float x)). rewrite S_INR.
    set (K := kept L (i + v)%float x) in *. set (w := val (last (ints d (Some L) (i + v)%float x) (i + v)%float)) in *.
    assert (B : Rabs (val (i + v)%float - (val i + val v)) <= bpow radix2 (-52) * val L).
    { pose proof (add_close i v) as C. rewrite <- (add_back i v Fi Fv Fn) in C. destruct (abs_fin _ Fn) as [Fa Va]. apply (ltb_val _ _ Fa FL) in T. rewrite Va in T.
      pose proof (Rabs_triang (val (i + v)%float) (- (val (i + v)%float - (val i + val v)))) as T2. rewrite Rabs_Ropp in T2. replace (val (i + v)%float + - (val (i + v)%float - (val i + val v))) with (val i + val v) in T2 by ring.
      assert (U2 : 2 * uro = bpow radix2 (-52)) by (unfold uro; lra). pose proof uro_pos as Up. assert (U3 : uro <= / 2) by (unfold uro; pose proof (bpow_le radix2 (-52) 0 ltac:(lia)); cbn in *; lra).
      pose proof (Rabs_pos (val i + val v)) as P0. rewrite <- U2. assert (uro * Rabs (val i + val v) <= / 2 * Rabs (val i + val v)) by (apply Rmult_le_compat_r; lra).
      assert (uro * Rabs (val i + val v) <= uro * (2 * val L)) by (apply Rmult_le_compat_l; lra). lra. }
    pose proof (Rabs_triang (w - (val (i + v)%float + sumR K)) (val (i + v)%float - (val i + val v))) as T3.
    replace (w - (val (i + v)%float + sumR K) + (val (i + v)%float - (val i + val v))) with (w - (val i + (val v + sumR K))) in T3 by ring. lra.
Qed.
(** Samples on a grid, like readings of a converter, are integrated without any error up to 2^53 steps. *)
Theorem C173_exact d b p x a ms e : usedF d b p -> x <> [] -> limitF d p = None -> (-1074 <= e <= 970)%Z ->
  finite (integralF d p) -> val (integralF d p) = IZR a * bpow radix2 e -> Forall2 (fun v m => finite v /\ val v = IZR m * bpow radix2 e) x ms ->
  (Z.abs a + fold_right (fun m r => Z.abs m + r) 0 ms <= 2 ^ 53)%Z ->
  exists p' y, filterF d p x = (p', Ok y) /\ finite (integralF d p') /\ val (integralF d p') = IZR (a + fold_right Z.add 0%Z ms) * bpow radix2 e.
Proof.
  intros Hu Hx Hl He Fi Vi Hs Hb. destruct (filter_view d b p x Hu Hx) as (p' & y & E & _ & _ & _ & Hi & _). exists p', y. split; [exact E|]. rewrite Hi, Hl. clear - He Fi Vi Hs Hb.
  revert a Fi Vi Hb. generalize (integralF d p). induction Hs as [|v m x ms [Fv Vv] _ IH]; intros i a Fi Vi Hb.
  - cbn [ints held last fold_right]. rewrite Z.add_0_r. split; assumption.
  - cbn [fold_right] in *. rewrite ints_cons. cbn zeta. rewrite last_cons2.
    assert (Pos : (0 <= fold_right (fun m r => Z.abs m + r) 0 ms)%Z) by (clear; induction ms; cbn [fold_right]; lia).
    assert (N : nearest (val i + val v) = IZR (a + m) * bpow radix2 e).
    { rewrite Vi, Vv. replace (IZR a * bpow radix2 e + IZR m * bpow radix2 e) with (IZR (a + m) * bpow radix2 e) by (rewrite plus_IZR; ring). apply nearest_grid; lia. }
    destruct (add_fin i v Fi Fv) as [Fn Vn].
    { rewrite N, Rabs_mult, (Rabs_pos_eq (bpow radix2 e)) by apply bpow_ge_0. rewrite <- abs_IZR. apply Rle_lt_trans with (bpow radix2 53 * bpow radix2 970).
      - apply Rmult_le_compat; [apply IZR_le; lia|apply bpow_ge_0| |apply bpow_le; lia]. replace (bpow radix2 53) with (IZR (2 ^ 53)) by reflexivity. apply IZR_le. lia.
      - rewrite <- bpow_plus. apply bpow_lt. lia. }
    rewrite (inside_none d) by exact Fn. replace (a + (m + fold_right Z.add 0 ms))%Z with (a + m + fold_right Z.add 0 ms)%Z by lia. apply IH; [exact Fn|congruence|lia].
Qed.
(** The limit setter accepts NaN, and then the integral never changes again. *)
Theorem C173_nan_limit d b p L : usedF d b p -> nonnumber L ->
  exists p1, @pid_set_limit (FOd d) p (Some L) = (p1, Ok tt) /\ forall xs, integralF d (fold_left (fun q x => fst (filterF d q x)) xs p1) = integralF d p.
Proof.
  intros Hu NL. exists (mkPid (pfir p) (Some L)). assert (Lt : forall v, PrimFloat.ltb v L = false) by (intros v; rewrite ltb_equiv; unfold nonnumber in NL; rewrite is_nan_equiv in NL; destruct (Prim2B L); try discriminate; destruct (Prim2B v) as [s|[|]| |[|] m e H]; reflexivity).
  assert (Set1 : @pid_set_limit (FOd d) p (Some L) = (mkPid (pfir p) (Some L), Ok tt)).
  { unfold pid_set_limit. replace (@oltb (FOd d) L (@zero (FOd d))) with false; [reflexivity|]. symmetry. change (PrimFloat.ltb L 0 = false). rewrite ltb_equiv. unfold nonnumber in NL. rewrite is_nan_equiv in NL. destruct (Prim2B L); try discriminate; reflexivity. }
  split; [exact Set1|]. intros xs.
  assert (G : forall xs q, usedF d b q -> limitF d q = Some L -> integralF d (fold_left (fun q x => fst (filterF d q x)) xs q) = integralF d q).
  { clear - Lt. induction xs as [|x xs IH]; intros q Hq HL; [reflexivity|]. cbn [fold_left]. destruct x as [|v x]; [apply IH; assumption|].
    destruct (filter_view d b q (v :: x) Hq ltac:(discriminate)) as (q' & y & -> & _ & Hq' & HL' & Hi & _). cbn [fst]. rewrite IH; [|exact Hq'|congruence]. rewrite Hi, HL. clear - Lt. generalize (integralF d q). generalize (v :: x). clear v x.
    induction l as [|v x IH]; intros i; [reflexivity|]. rewrite ints_cons, inside_some, Lt. cbn zeta. rewrite last_cons2. apply IH. }
  rewrite G; [reflexivity| |reflexivity]. destruct Hu as (ops & p0 & E0 & E1). exists (ops ++ [PLimit (O := FOd d) (Some L)]), p0. split; [exact E0|]. rewrite fold_left_app, <- E1. cbn [fold_left pid_exec]. rewrite Set1. reflexivity.
Qed.
(** NaN or infinity: from the second sample after it on, everything is as if it had not been there. *)
Theorem C173_recovers d b p u v a w : usedF d b p -> finite (integralF d p) -> ~ finite v ->
  exists p1 y1 p2 y2, filterF d p (u ++ v :: a :: w) = (p1, Ok y1) /\ filterF d p (u ++ a :: w) = (p2, Ok y2) /\
    integralF d p1 = integralF d p2 /\ skipn (length u + 2) y1 = skipn (length u + 1) y2.
Proof.
  intros Hu Fi Bv. destruct (filter_view d b p (u ++ v :: a :: w) Hu) as (p1 & y1 & E1 & L1 & _ & _ & I1 & Y1); [destruct u; discriminate|].
  destruct (filter_view d b p (u ++ a :: w) Hu) as (p2 & y2 & E2 & L2 & _ & _ & I2 & Y2); [destruct u; discriminate|].
  exists p1, y1, p2, y2. split; [exact E1|]. split; [exact E2|]. set (l := limitF d p) in *. set (i := integralF d p) in *. clearbody l i.
  set (A := ints d l i u). set (j := last A i). assert (LA : length A = length u) by (unfold A, ints; apply (@length_held (FOd d))).
  assert (Fj : finite j). { unfold j, A. clear - Fi. revert i Fi. induction u as [|t u IH]; intros i Fi; [exact Fi|]. rewrite ints_cons. cbn zeta. rewrite last_cons2. apply IH. destruct (@PidModel.below (FOd d) l _) eqn:T; [apply (inside_finite d _ _ T)|exact Fi]. }
  assert (App : forall t, ints d l i (u ++ t) = A ++ ints d l j t).
  { intros t. unfold A, j, A. clear. revert i. induction u as [|r u IH]; intros i; [reflexivity|]. cbn [app]. rewrite !ints_cons. cbn zeta. rewrite last_cons2. cbn [app]. f_equal. apply IH. }
  assert (Skip : ints d l j (v :: a :: w) = j :: ints d l j (a :: w)).
  { rewrite ints_cons. destruct (@PidModel.below (FOd d) l (j + v)%float) eqn:T; [|reflexivity]. destruct (add_bad _ _ Fj Bv). exact (inside_finite d _ _ T). }
  rewrite App, Skip in I1, Y1. rewrite App in I2, Y2. set (B := ints d l j (a :: w)) in *. assert (LB : length B = S (length w)) by (unfold B, ints; apply (@length_held (FOd d))).
  split.
  - rewrite I1, I2. destruct B as [|b0 B]; [discriminate|]. rewrite !last_app_cons, last_cons2. reflexivity.
  - rewrite app_length in *. cbn [length] in *. apply nth_ext with (d := 0%float) (d' := 0%float); [rewrite !skipn_length; lia|]. intros k Hk. rewrite skipn_length in Hk. rewrite !nth_skipn_add.
    rewrite Y1, Y2 by lia.
    set (n := (length u + 1 + k)%nat). replace (length u + 2 + k)%nat with (S n) by (unfold n; lia).
    assert (X : forall q, (length u <= q)%nat -> nth (S q) (u ++ v :: a :: w) 0%float = nth q (u ++ a :: w) 0%float).
    { intros q Hq. rewrite !app_nth2 by lia. replace (S q - length u)%nat with (S (q - length u)) by lia. reflexivity. }
    assert (Z : nth (S n) (A ++ j :: B) 0%float = nth n (A ++ B) 0%float).
    { rewrite !app_nth2 by (unfold n; lia). replace (S n - length A)%nat with (S (n - length A)) by (unfold n; lia). reflexivity. }
    assert (Pv : nth n (u ++ v :: a :: w) 0%float = nth (length u + k) (u ++ a :: w) 0%float) by (replace n with (S (length u + k)) by (unfold n; lia); apply X; lia).
    rewrite Z, X, Pv by (unfold n; lia). unfold n. rewrite Nat.add_1_r. reflexivity.
Qed.
(** Accuracy of one output, for the integral held. *)
Theorem C173_output d b p v : any_order d -> usedF d b p -> Forall finite b -> finite (integralF d p) -> finite (lastF d p) -> finite v ->
  exists p' y, filterF d p [v] = (p', Ok [y]) /\ finite (integralF d p') /\
    let b0 := val (nth 0 b 0%float) in let b1 := val (nth 1 b 0%float) in let b2 := val (nth 2 b 0%float) in
    let e := val v in let i := val (integralF d p') in let e' := val (lastF d p) in
    let S := Rabs (b0 * e) + Rabs (b1 * i) + Rabs b2 * (Rabs e + Rabs e') in
    Rabs e + Rabs e' <= bpow radix2 1000 -> S <= bpow radix2 1000 ->
    finite y /\ Rabs (val y - (b0 * e + b1 * i + b2 * (e - e'))) <= bpow radix2 (-50) * S + bpow radix2 (-1070).
Proof.
  intros Hd Hu Fb Fi Fl Fv. destruct (filter_view d b p [v] Hu ltac:(discriminate)) as (p' & y & E & Ly & _ & _ & Hi & Hy).
  destruct y as [|y [|]]; try discriminate. exists p', y. split; [exact E|]. specialize (Hy 0%nat ltac:(cbn; lia)). cbn [nth] in Hy.
  assert (Ei : nth 0 (ints d (limitF d p) (integralF d p) [v]) 0%float = integralF d p') by (rewrite Hi; reflexivity). rewrite Ei in Hy.
  assert (Fi' : finite (integralF d p')). { rewrite Hi, ints_cons. cbn zeta. cbn [ints held last]. destruct (@PidModel.below (FOd d) _ _) eqn:T; [exact (inside_finite d _ _ T)|exact Fi]. }
  split; [exact Fi'|]. intros b0 b1 b2 e i e' S H1 H2.
  assert (B3 : exists c0 c1 c2, b = [c0; c1; c2]). { destruct Hu as (ops & Hu). destruct (pid_used_inv _ _ _ Hu) as ((H3 & _) & _ & Hb). rewrite Hb in H3. cbn [els] in H3. destruct b as [|c0 [|c1 [|c2 [|]]]]; try discriminate. exists c0, c1, c2. reflexivity. }
  destruct B3 as (c0 & c1 & c2 & ->). cbn [nth] in b0, b1, b2. assert (F0 := Forall_inv Fb). assert (F1 := Forall_inv (Forall_inv_tail Fb)). assert (F2 := Forall_inv (Forall_inv_tail (Forall_inv_tail Fb))).
  assert (C : Rabs (nearest (e - e') - (e - e')) <= uro * Rabs (e - e')).
  { pose proof (add_close v (- lastF d p)%float) as K. assert (Vo : val (- lastF d p)%float = - e') by (unfold val; rewrite opp_equiv; apply B2R_Bopp). rewrite Vo in K. exact K. }
  assert (T : Rabs (e - e') <= Rabs e + Rabs e') by (unfold Rminus; eapply Rle_trans; [apply Rabs_triang|rewrite Rabs_Ropp; lra]).
  assert (U : uro <= / 16) by (unfold uro; pose proof (bpow_le radix2 (-52) (-3) ltac:(lia)); cbn in *; lra). pose proof uro_pos as Up.
  assert (Hh : 8 * bpow radix2 1000 < huge) by (replace 8 with (bpow radix2 3) by reflexivity; rewrite <- bpow_plus; apply bpow_lt; lia).
  pose proof (bpow_gt_0 radix2 1000) as P1000. pose proof (Rabs_pos (e - e')) as Pd.
  assert (N : Rabs (nearest (e - e')) <= (1 + uro) * Rabs (e - e')) by (pose proof (Rabs_triang (nearest (e - e') - (e - e')) (e - e')) as K; replace (nearest (e - e') - (e - e') + (e - e')) with (nearest (e - e')) in K by ring; lra).
  destruct (sub_fin v (lastF d p) Fv Fl) as [Fs Vs]. { eapply Rle_lt_trans; [exact N|]. assert ((1 + uro) * Rabs (e - e') <= 2 * bpow radix2 1000) by (apply Rmult_le_compat; lra). lra. }
  set (s2 := (v - lastF d p)%float) in *. assert (Vs2 : val s2 = nearest (e - e')) by exact Vs.
  pose proof (Hd [c0; c1; c2] [v; integralF d p'; s2] eq_refl) as D. rewrite <- Hy in D. cbn [combine] in D.
  set (l := [(c0, v); (c1, integralF d p'); (c2, s2)]) in *.
  assert (Mg : mags l <= (1 + uro) * S).
  { unfold mags, l. cbn [fold_right fst snd]. rewrite Vs2. fold b0 b1 b2 e i. unfold S. rewrite !Rabs_mult. pose proof (Rabs_pos b2) as Q2.
    assert (Rabs b2 * Rabs (nearest (e - e')) <= Rabs b2 * ((1 + uro) * (Rabs e + Rabs e'))) by (apply Rmult_le_compat_l; [lra|]; eapply Rle_trans; [exact N|]; apply Rmult_le_compat_l; lra).
    pose proof (Rmult_le_pos _ _ (Rabs_pos b0) (Rabs_pos e)). pose proof (Rmult_le_pos _ _ (Rabs_pos b1) (Rabs_pos i)).
    assert (0 <= uro * (Rabs b0 * Rabs e)) by (apply Rmult_le_pos; lra). assert (0 <= uro * (Rabs b1 * Rabs i)) by (apply Rmult_le_pos; lra). lra. }
  assert (Ps : 0 <= S). { unfold S. pose proof (Rabs_pos (b0 * e)). pose proof (Rabs_pos (b1 * i)). pose proof (Rmult_le_pos _ _ (Rabs_pos b2) (Rplus_le_le_0_compat _ _ (Rabs_pos e) (Rabs_pos e'))). lra. }
  assert (P2 : uro * uro <= / 16 * uro) by (apply Rmult_le_compat_r; lra). assert (P3 : 0 <= uro * (uro * uro) <= / 16 * (/ 16 * uro)) by (split; [apply Rmult_le_pos; [lra|apply Rmult_le_pos; lra]|apply Rmult_le_compat; try lra; apply Rmult_le_pos; lra]).
  assert (G3 : gam 3 <= 4 * uro) by (unfold gam; replace ((1 + uro) ^ 3 - 1) with (3 * uro + 3 * (uro * uro) + uro * (uro * uro)) by ring; lra).
  assert (Ud : und 3 <= bpow radix2 (-1070)).
  { unfold und. replace (INR (2 * 3 - 1)) with 5 by (cbn; lra). replace (bpow radix2 (-1070)) with (16 * bpow radix2 (-1074)) by (replace 16 with (bpow radix2 4) by reflexivity; rewrite <- bpow_plus; reflexivity).
    unfold eta0. pose proof (bpow_gt_0 radix2 (-1074)). unfold gam in G3. assert ((1 + uro) ^ 3 <= 2) by lra. assert (5 * (1 + uro) ^ 3 * (/ 2 * bpow radix2 (-1074)) <= 5 * 2 * (/ 2 * bpow radix2 (-1074))) by (apply Rmult_le_compat_r; lra). lra. }
  assert (M0 : 0 <= mags l) by apply mags_pos. assert (uS : 0 <= uro * S) by (apply Rmult_le_pos; lra). assert (uS2 : uro * S <= / 16 * S) by (apply Rmult_le_compat_r; lra).
  assert (GM : gam 3 * mags l <= 4 * uro * ((1 + uro) * S)) by (apply Rmult_le_compat; [apply gam_pos|lra|lra|lra]).
  assert (uS3 : uro * (uro * S) <= / 16 * (uro * S)) by (apply Rmult_le_compat_r; lra).
  destruct (dots_good l y D) as [Fy Ey].
  - unfold l. repeat apply Forall_cons; try apply Forall_nil; split; assumption.
  - change (length l) with 3%nat. assert (B1 : bpow radix2 (-1070) <= bpow radix2 1000) by (apply bpow_le; lia). lra.
  - split; [exact Fy|]. change (length l) with 3%nat in Ey.
    assert (Ex : exact l = b0 * e + b1 * i + b2 * nearest (e - e')) by (unfold exact, l; cbn [fold_right fst snd]; rewrite Vs2; fold b0 b1 b2 e i; ring).
    pose proof (Rabs_triang (val y - exact l) (b2 * (nearest (e - e') - (e - e')))) as K. rewrite Rabs_mult in K.
    replace (val y - exact l + b2 * (nearest (e - e') - (e - e'))) with (val y - (b0 * e + b1 * i + b2 * (e - e'))) in K by (rewrite Ex; ring).
    assert (Rabs b2 * Rabs (nearest (e - e') - (e - e')) <= Rabs b2 * (uro * (Rabs e + Rabs e'))) by (apply Rmult_le_compat_l; [apply Rabs_pos|]; eapply Rle_trans; [exact C|]; apply Rmult_le_compat_l; lra).
    assert (Rabs b2 * (Rabs e + Rabs e') <= S) by (unfold S; pose proof (Rabs_pos (b0 * e)); pose proof (Rabs_pos (b1 * i)); lra).
    assert (uro * (Rabs b2 * (Rabs e + Rabs e')) <= uro * S) by (apply Rmult_le_compat_l; lra).
    assert (E50 : bpow radix2 (-50) = 8 * uro) by (unfold uro; replace (bpow radix2 (-50)) with (bpow radix2 2 * bpow radix2 (-52)) by (rewrite <- bpow_plus; reflexivity); cbn; lra).
    rewrite E50. lra.
Qed.

(** ** Examples and the refutation *)
Definition dotL : list float -> list float -> float := dot_from PrimFloat.add PrimFloat.mul 0%float.
Definition pidL (l : option float) (s : list float) : pid (FOd dotL) := mkPid (O := FOd dotL) (mkFir (A := FOd dotL) DFloat [1; 0.5; 0.25]%float s) l.
Definition freshL : pid (FOd dotL) := pidL None [0; 0; 0]%float.
Lemma freshL_used : usedF dotL [1; 0.5; 0.25]%float freshL.
Proof. exists [], freshL. split; reflexivity. Qed.
Lemma freshL_filter p x : usedF dotL [1; 0.5; 0.25]%float p -> usedF dotL [1; 0.5; 0.25]%float (fst (filterF dotL p x)).
Proof. intros (ops & p0 & E & H). exists (ops ++ [PFilter (O := FOd dotL) x]), p0. split; [exact E|]. rewrite fold_left_app, <- H. reflexivity. Qed.
Definition largeL : pid (FOd dotL) := fst (filterF dotL freshL [0x1p54%float]).
Lemma largeL_used : usedF dotL [1; 0.5; 0.25]%float largeL. Proof. apply freshL_filter, freshL_used. Qed.
Lemma largeL_int : integralF dotL largeL = 0x1p54%float. Proof. reflexivity. Qed.
Lemma val_p54 : val 0x1p54%float = bpow radix2 54. Proof. unfold val, B2R. cbn. unfold F2R. cbn. lra. Qed.
Lemma val_quarter : val 0.25%float = / 4. Proof. unfold val, B2R. cbn. unfold F2R. cbn. lra. Qed.
Lemma stall_hyp n : Forall (fun v => finite v /\ Rabs (val v) < bpow radix2 (-54) * Rabs (val (integralF dotL largeL))) (repeat 0.25%float n).
Proof.
  apply Forall_forall. intros v Hv. apply repeat_spec in Hv. subst v. split; [reflexivity|]. rewrite largeL_int, val_p54, val_quarter, !Rabs_pos_eq by (try apply bpow_ge_0; lra). rewrite <- bpow_plus. cbn. lra.
Qed.
Example C173_stall_ex n : exists p' y, filterF dotL largeL (repeat 0.25%float (S n)) = (p', Ok y) /\ integralF dotL p' = 0x1p54%float.
Proof. destruct (C173_stall dotL _ largeL (repeat 0.25%float (S n)) largeL_used ltac:(discriminate) eq_refl (stall_hyp (S n))) as (p' & y & E & H & _). exists p', y. split; [exact E|exact H]. Qed.
(** It is not so that a constant error moves the integral in the end. *)
Theorem C173_action_refuted : ~ forall b p v, usedF dotL b p -> limitF dotL p = None -> finite v -> 0 < val v -> exists n p' y, filterF dotL p (repeat v (S n)) = (p', Ok y) /\ integralF dotL p' <> integralF dotL p.
Proof.
  intros H. destruct (H _ largeL 0.25%float largeL_used eq_refl eq_refl ltac:(rewrite val_quarter; lra)) as (n & p' & y & E & N).
  destruct (C173_stall_ex n) as (p2 & y2 & E2 & I2). rewrite E in E2. injection E2 as E2 _. apply N. rewrite E2, I2, largeL_int. reflexivity.
Qed.
Definition limitedL : pid (FOd dotL) := fst (@pid_set_limit (FOd dotL) freshL (Some 2%float)).
Lemma limitedL_used : usedF dotL [1; 0.5; 0.25]%float limitedL.
Proof. exists [PLimit (O := FOd dotL) (Some 2%float)], freshL. split; reflexivity. Qed.
Example C173_sum_ex : kept 2 0 [1.5; 1; -0.75; 1]%float = [1.5; -0.75; 1]%float /\ exists p' y, filterF dotL limitedL [1.5; 1; -0.75; 1]%float = (p', Ok y) /\ integralF dotL p' = 1.75%float /\ finite (integralF dotL p').
Proof.
  split; [reflexivity|]. destruct (C173_sum dotL _ limitedL [1.5; 1; -0.75; 1]%float 2%float limitedL_used ltac:(discriminate) eq_refl eq_refl eq_refl) as (p' & y & E & F & _); [repeat constructor|].
  exists p', y. split; [exact E|]. split; [|exact F]. apply (f_equal (fun r => integralF dotL (fst r))) in E. cbn [fst] in E. rewrite <- E. vm_compute. reflexivity.
Qed.
Example C173_exact_ex : exists p' y, filterF dotL freshL [0.25; 0.75]%float = (p', Ok y) /\ finite (integralF dotL p') /\ val (integralF dotL p') = IZR 4 * bpow radix2 (-2).
Proof.
  apply (C173_exact dotL _ freshL [0.25; 0.75]%float 0 [1; 3]%Z (-2) freshL_used ltac:(discriminate) eq_refl); [lia|reflexivity| |..].
  - cbn. change (val 0%float = 0 * / 4). rewrite val_zero. ring.
  - assert (V : val 0.75%float = 3 * / 4) by (unfold val, B2R; cbn; unfold F2R; cbn; lra). apply Forall2_cons; [split; [reflexivity|rewrite val_quarter; cbn; lra]|]. apply Forall2_cons; [split; [reflexivity|rewrite V; cbn; lra]|]. apply Forall2_nil.
  - cbn. lia.
Qed.
Example C173_nan_limit_ex : exists p1, @pid_set_limit (FOd dotL) largeL (Some PrimFloat.nan) = (p1, Ok tt) /\ integralF dotL (fst (filterF dotL p1 [1; -0x1p54]%float)) = 0x1p54%float.
Proof. destruct (C173_nan_limit dotL _ largeL PrimFloat.nan largeL_used eq_refl) as (p1 & E & H). exists p1. split; [exact E|]. exact (H [[1; -0x1p54]%float]). Qed.
Example C173_recovers_ex : snd (filterF dotL freshL [1; PrimFloat.nan; 2; 3]%float) = Ok [1.75; PrimFloat.nan; PrimFloat.nan; 6.25]%float /\ snd (filterF dotL freshL [1; 2; 3]%float) = Ok [1.75; 3.75; 6.25]%float /\
  exists p1 y1 p2 y2, filterF dotL freshL ([1] ++ PrimFloat.nan :: 2 :: [3])%float = (p1, Ok y1) /\ filterF dotL freshL ([1] ++ 2 :: [3])%float = (p2, Ok y2) /\ integralF dotL p1 = integralF dotL p2.
Proof.
  split; [vm_compute; reflexivity|]. split; [vm_compute; reflexivity|].
  destruct (C173_recovers dotL _ freshL [1]%float PrimFloat.nan 2%float [3]%float freshL_used eq_refl ltac:(intros B; vm_compute in B; discriminate)) as (p1 & y1 & p2 & y2 & A & B & C & _). exists p1, y1, p2, y2. auto.
Qed.
Example C173_output_ex : exists p' y, filterF dotL freshL [0.25%float] = (p', Ok [y]) /\ finite y.
Proof.
  destruct (C173_output dotL _ freshL 0.25%float left_any_order freshL_used) as (p' & y & E & Fi & H); [repeat constructor|reflexivity|reflexivity|reflexivity|]. exists p', y. split; [exact E|].
  apply (f_equal (fun r => match snd r with Ok (v :: _) => v | _ => 0%float end)) in E. cbn [snd] in E. rewrite <- E. vm_compute. reflexivity.
Qed.
Print Assumptions C173_stall.
Print Assumptions C173_sum.
Print Assumptions C173_exact.
Print Assumptions C173_nan_limit.
Print Assumptions C173_recovers.
Print Assumptions C173_output.
Print Assumptions C173_action_refuted.
