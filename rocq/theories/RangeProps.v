(** Property C184: what each constructor, setter and reset of the filters accepts, what it
    stores, and that a rejection leaves the object alone. *)
From Coq Require Import List Arith ZArith Lia Bool Reals Lra Floats.
From Coquelicot Require Import Complex.
From Verif Require Import HeapModel Base BaseLemmas Instances FirModel IirModel CalculusModel CExpModel CExpProps CBandModel CBandProps CFreqProps
  PidModel PolyphaseModel PolyphaseProps PolynomialModel GaussModel GmmModel.
Import ListNotations.
Set Asymmetric Patterns.
Open Scope R_scope.

(** ** Specification: a checked assignment *)
(** A value in the range is stored by [put]; any other raises ValueError and the object is
    what it was. *)
Definition checked {S V : Type} (range : V -> Prop) (put : S -> V -> S) (assign : S -> V -> S * res unit) : Prop :=
  forall s v, (range v -> assign s v = (put s v, Ok tt)) /\ (~ range v -> assign s v = (s, Err ValueError)).

Lemma phase_bad_iff p : @phase_bad RO p = false <-> -1 <= p <= 1.
Proof.
  unfold phase_bad. change (@oltb RO p (of_Z (-1))) with (Rltb p (-1)). change (@oltb RO (of_Z 1) p) with (Rltb 1 p).
  rewrite orb_false_iff, <- !not_true_iff_false, !Rltb_iff. lra.
Qed.

(** ComplexExponentialFilter.phase in [-1, 1]. *)
Theorem C184_exponential :
  checked (fun p => -1 <= p <= 1) (fun _ p => p) (@cexp_set_phase RO) /\
  (forall p : R, (-1 <= p <= 1 -> @cexp_make RO p = Ok p) /\ (~ -1 <= p <= 1 -> @cexp_make RO p = Err ValueError)).
Proof.
  split; [intros s p|intros p]; unfold cexp_set_phase, cexp_make; pose proof (phase_bad_iff p) as H;
    destruct (@phase_bad RO p); split; intros Hp; try reflexivity.
  - apply H in Hp. discriminate.
  - exfalso. apply Hp, H. reflexivity.
  - apply H in Hp. discriminate.
  - exfalso. apply Hp, H. reflexivity.
Qed.
Print Assumptions C184_exponential.

(** ComplexBandpassFilter: frequency in [-1, 1], rate in [0, 1]; a new filter has the
    coefficient 2^-52 and phase zero. *)
Theorem C184_bandpass (f r : R) :
  checked (fun f => -1 <= f <= 1) (fun g f => mkCband (bfir g) (bphase g) f (brate g)) cband_set_frequency /\
  checked (fun r => 0 <= r <= 1) (fun g r => mkCband (bfir g) (bphase g) (bfreq g) r) cband_set_rate /\
  (-1 <= f <= 1 -> 0 <= r <= 1 -> exists g, cband_make f r = Ok g /\
     fb (bfir g) = [RtoC (/ 4503599627370496)] /\ fs (bfir g) = [RtoC 0] /\ bphase g = 0 /\ bfreq g = f /\ brate g = r) /\
  (~ (-1 <= f <= 1 /\ 0 <= r <= 1) -> cband_make f r = Err ValueError).
Proof.
  split; [|split; [|split]].
  - intros g v. unfold cband_set_frequency. pose proof (frequency_bad_iff v) as H. destruct (frequency_bad v); split; intros Hv; try reflexivity.
    + apply H in Hv. discriminate.
    + exfalso. apply Hv, H. reflexivity.
  - intros g v. unfold cband_set_rate. pose proof (rate_bad_iff v) as H. destruct (rate_bad v); split; intros Hv; try reflexivity.
    + apply H in Hv. discriminate.
    + exfalso. apply Hv, H. reflexivity.
  - intros Hf Hr. unfold cband_make. apply frequency_bad_iff in Hf. apply rate_bad_iff in Hr. rewrite Hf, Hr.
    assert (Hz : @phase_bad RO 0 = false) by (apply phase_bad_iff; lra).
    unfold cexp_make. rewrite Hz. unfold fir_make. cbn -[pow eps]. eexists. split; [reflexivity|]. cbn -[pow eps].
    split; [|repeat split]. f_equal. f_equal. unfold eps. f_equal. lra.
  - intros H. unfold cband_make. pose proof (frequency_bad_iff f) as Hf. pose proof (rate_bad_iff r) as Hr.
    destruct (frequency_bad f); [reflexivity|]. destruct (rate_bad r); [reflexivity|]. exfalso. tauto.
Qed.
Print Assumptions C184_bandpass.

(** So the first sample of a new ComplexBandpassFilter leaves as 2^-52. *)
Theorem C184_bandpass_first h (f r : R) g d : keeps_length h -> d <> [] -> cband_make f r = Ok g ->
  exists g' out, cband_filter h g d = (g', Ok out) /\
    oy out 0 = RtoC (/ 4503599627370496) /\ ob out 0 = RtoC (/ 4503599627370496) /\
    oe out 0 = Cminus (nth 0 (analytic h d) (RtoC 0)) (RtoC (/ 4503599627370496)).
Proof.
  intros Hh Hd Hg.
  assert (Hr : -1 <= f <= 1 /\ 0 <= r <= 1).
  { unfold cband_make in Hg. destruct (frequency_bad f) eqn:E1; [discriminate|]. destruct (rate_bad r) eqn:E2; [discriminate|].
    apply frequency_bad_iff in E1. apply rate_bad_iff in E2. tauto. }
  destruct (proj1 (proj2 (proj2 (C184_bandpass f r))) (proj1 Hr) (proj2 Hr)) as (g0 & E & Hb & Hs & Hp & Hq & Ht).
  rewrite Hg in E. injection E as <-. unfold cband_filter.
  assert (Ld : length d <> 0%nat) by (destruct d; [congruence|discriminate]).
  assert (L : length (analytic h d) = length d) by (apply analytic_length, Hh).
  apply Nat.eqb_neq in Ld. rewrite Ld. apply Nat.eqb_neq in Ld.
  rewrite Hp, Hq. rewrite tone_call; [|tauto|rewrite L; exact Ld]. rewrite Hb.
  destruct (analytic h d) as [|x0 d']; [cbn in L; lia|]. cbn [length seq map cband_loop].
  assert (C0 : cis (PI * (0 + INR 0 * f)) = RtoC 1).
  { cbn [INR]. replace (PI * (0 + 0 * f)) with 0 by ring. unfold cis. rewrite cos_0, sin_0. reflexivity. }
  rewrite C0.
  match goal with |- context [cband_loop ?a ?b ?c ?e] => destruct (cband_loop a b c e) as [b2 out] end.
  eexists. eexists. split; [reflexivity|]. unfold oy, oe, ob. cbn [nth fst snd]. rewrite Cmult_1_l. repeat split.
Qed.
Print Assumptions C184_bandpass_first.

(** ComplexFrequencyFilter: the same ranges; the frequency setter also moves the
    coefficient, and reset stores the direction of its argument, or 1 within 1e-8 of 0. *)
Theorem C184_frequency (f r : R) (g : cfreq) (b s : C) : fb (ffir g) = [b] -> fs (ffir g) = [s] ->
  (forall v, -1 <= v <= 1 -> cfreq_set_frequency g v =
     (mkCfreq (@mkFir CA (fdt (ffir g)) [(cos (PI * v), sin (PI * v))] [s]) v (frate g), Ok tt)) /\
  (forall v, ~ -1 <= v <= 1 -> cfreq_set_frequency g v = (g, Err ValueError)) /\
  checked (fun r => 0 <= r <= 1) (fun g r => mkCfreq (ffir g) (ffreq g) r) cfreq_set_rate /\
  (forall x, Cmod x <= / 10 ^ 8 -> cfreq_reset g (Some x) = (mkCfreq (@mkFir CA (fdt (ffir g)) [b] [RtoC 1]) (ffreq g) (frate g), Ok tt)) /\
  (forall x, / 10 ^ 8 < Cmod x -> cfreq_reset g (Some x) =
     (mkCfreq (@mkFir CA (fdt (ffir g)) [b] [Cdiv x (RtoC (Cmod x))]) (ffreq g) (frate g), Ok tt)) /\
  cfreq_reset g None = (g, Err ValueError) /\
  (-1 <= f <= 1 -> 0 <= r <= 1 -> cfreq_make f r = Ok (mkCfreq (@mkFir CA DComplex [RtoC 1] [RtoC 1]) f r)) /\
  (~ (-1 <= f <= 1 /\ 0 <= r <= 1) -> cfreq_make f r = Err ValueError).
Proof.
  intros Hb Hs. destruct g as [[dt fb0 fs0] f0 r0]. cbn in Hb, Hs. subst fb0 fs0.
  assert (T : 1 / 100000000 = / 10 ^ 8) by lra.
  split; [|split; [|split; [|split; [|split; [|split; [|split]]]]]].
  - intros v Hv. unfold cfreq_set_frequency. apply frequency_bad_iff in Hv. rewrite Hv. reflexivity.
  - intros v Hv. unfold cfreq_set_frequency. pose proof (frequency_bad_iff v) as H. destruct (frequency_bad v); [reflexivity|]. tauto.
  - intros g v. unfold cfreq_set_rate. pose proof (rate_bad_iff v) as H. destruct (rate_bad v); split; intros Hv; try reflexivity.
    + apply H in Hv. discriminate.
    + exfalso. apply Hv, H. reflexivity.
  - intros x Hx. unfold cfreq_reset, near0. cbn [ffir fs fdt fb]. rewrite T. apply Rleb_iff in Hx. rewrite Hx. reflexivity.
  - intros x Hx. unfold cfreq_reset, near0. cbn [ffir fs fdt fb]. rewrite T. apply Rleb_false in Hx. rewrite Hx. reflexivity.
  - reflexivity.
  - intros Hf Hr. unfold cfreq_make. apply frequency_bad_iff in Hf. apply rate_bad_iff in Hr. rewrite Hf, Hr. unfold fir_make. cbn.
    reflexivity.
  - intros H. unfold cfreq_make. pose proof (frequency_bad_iff f) as Hf. pose proof (rate_bad_iff r) as Hr.
    destruct (frequency_bad f); [reflexivity|]. destruct (rate_bad r); [reflexivity|]. exfalso. tauto.
Qed.
Print Assumptions C184_frequency.

(** PolynomialRateFilter: rate >= 0 and order >= 1; PolyphaseRateFilter: rate in [0, rr]. *)
Theorem C184_rates (rr cc : nat) (isclose : R -> R -> bool) (rate : R) (order : Z) :
  checked (fun r => 0 <= r) (fun (f : @PolynomialModel.prate RO) r => mkPrate r (qorder f)) (@prate_set_rate RO) /\
  checked (fun n => (1 <= n)%Z) (fun (f : @PolynomialModel.prate RO) n => mkPrate (qrate f) n) (@prate_set_order RO) /\
  (0 <= rate -> (1 <= order)%Z -> @prate_make RO rate order = Ok (@mkPrate RO rate order)) /\
  (~ (0 <= rate /\ (1 <= order)%Z) -> @prate_make RO rate order = Err ValueError) /\
  checked (fun r => 0 <= r <= INR rr)
    (fun (f : @poly RO) r => mkPoly (if isclose (PolyphaseModel.prate f) r then pindex f else 0) r (ps f)) (@poly_set_rate RO isclose rr) /\
  (0 <= rate <= INR rr -> @poly_make RO rr cc rate = Ok (@mkPoly RO 0 rate (repeat 0 cc))) /\
  (~ (0 <= rate <= INR rr) -> @poly_make RO rr cc rate = Err ValueError).
Proof.
  assert (Z0 : forall r : R, @oltb RO r zero = false <-> 0 <= r).
  { intros r. change (@oltb RO r zero) with (Rltb r 0). rewrite <- not_true_iff_false, Rltb_iff. lra. }
  assert (Zr : forall r : R, @prate_bad RO rr r = false <-> 0 <= r <= INR rr).
  { intros r. unfold prate_bad. rewrite orb_false_iff, Z0. change (@oltb RO (of_nat rr) r) with (Rltb (@of_nat RO rr) r).
    rewrite of_nat_R, <- not_true_iff_false, Rltb_iff. lra. }
  split; [|split; [|split; [|split; [|split; [|split]]]]].
  - intros f v. unfold prate_set_rate. specialize (Z0 v). destruct (@oltb RO v zero); split; intros Hv; try reflexivity.
    + apply Z0 in Hv. discriminate.
    + exfalso. apply Hv, Z0. reflexivity.
  - intros f v. unfold prate_set_order. destruct (Z.leb_spec v 0); split; intros Hv; try reflexivity; lia.
  - intros Hr Ho. unfold prate_make. apply Z0 in Hr. rewrite Hr. destruct (Z.leb_spec order 0); [lia|reflexivity].
  - intros H. unfold prate_make. specialize (Z0 rate). destruct (@oltb RO rate zero); [reflexivity|].
    destruct (Z.leb_spec order 0); [reflexivity|]. exfalso. apply H. split; [apply Z0; reflexivity|lia].
  - intros f v. unfold poly_set_rate. specialize (Zr v). destruct (@prate_bad RO rr v); split; intros Hv; try reflexivity.
    + apply Zr in Hv. discriminate.
    + exfalso. apply Hv, Zr. reflexivity.
  - intros Hr. unfold poly_make. apply Zr in Hr. rewrite Hr. reflexivity.
  - intros H. unfold poly_make. specialize (Zr rate). destruct (@prate_bad RO rr rate); [reflexivity|]. exfalso. apply H, Zr. reflexivity.
Qed.
Print Assumptions C184_rates.

(** PidFilter: three gains, limit >= 0 (None is numpy.inf, the initial limit). *)
Theorem C184_pid (dt : dtype) (b : list R) :
  checked (fun l => match l with Some v => 0 <= v | None => True end)
    (fun (p : @pid RO) l => mkPid (pfir p) l) (@pid_set_limit RO) /\
  (length b = 3%nat -> exists p, @pid_make RO (mkArr dt b) = Ok p /\ fb (pfir p) = b /\ fs (pfir p) = map (@cast RA dt) [0; 0; 0] /\ plimit p = None) /\
  (length b <> 3%nat -> @pid_make RO (mkArr dt b) = Err ValueError).
Proof.
  split; [|split].
  - intros p [v|]; cbn [pid_set_limit].
    + change (@oltb RO v zero) with (Rltb v 0). pose proof (Rltb_iff v 0) as H. destruct (Rltb v 0); split; intros Hv; try reflexivity.
      * assert (v < 0) by (apply H; reflexivity). lra.
      * exfalso. apply Hv. apply Rnot_lt_le. intros Q. apply H in Q. discriminate.
    + split; [reflexivity|tauto].
  - intros H. destruct b as [|b0 [|b1 [|b2 [|b3 b]]]]; try discriminate H.
    eexists. split; [reflexivity|]. repeat split.
  - intros H. destruct b as [|b0 [|b1 [|b2 [|b3 b]]]]; try reflexivity. exfalso. apply H. reflexivity.
Qed.
Print Assumptions C184_pid.

(** IirFilter: the element type of a. *)
Theorem C184_iir_dtype (A : Arith) (a b : arr A) :
  (a_dtype a b = DComplex <-> adt a = DComplex \/ adt b = DComplex) /\
  (a_dtype a b = DInt <-> adt a = DInt /\ adt b <> DComplex /\ (length (els b) <= length (els a))%nat).
Proof.
  unfold a_dtype. destruct (Nat.ltb_spec (length (els a)) (length (els b))), (Nat.ltb_spec (length (els b)) (length (els a)));
    destruct (adt a), (adt b); cbn; (split; split; intros Q; [..|]); try discriminate; try lia;
    try (destruct Q as (Q1 & Q2 & Q3)); try (destruct Q as [Q|Q]); try discriminate; try congruence; try lia;
    try reflexivity; try tauto; try (repeat split; [discriminate|lia]); auto.
Qed.
Print Assumptions C184_iir_dtype.

(** ** The checks in doubles *)
Lemma nan_ltb x y : PrimFloat.is_nan x = true -> PrimFloat.ltb x y = false /\ PrimFloat.ltb y x = false.
Proof.
  intros H. assert (N : Prim2SF x = S754_nan).
  { unfold PrimFloat.is_nan in H. apply negb_true_iff in H. rewrite FloatAxioms.eqb_spec in H. unfold SFeqb in H.
    destruct (Prim2SF x) as [s|s| |s m e]; [destruct s; discriminate|destruct s; discriminate|reflexivity|].
    exfalso. unfold SFcompare in H. destruct s; rewrite Z.compare_refl, Pos.compare_cont_refl in H; discriminate. }
  rewrite !FloatAxioms.ltb_spec, N. split; [reflexivity|]. unfold SFltb. destruct (Prim2SF y); reflexivity.
Qed.

(** Every range check is a disjunction of comparisons, which a NaN passes: the constructors
    and setters above store it. *)
Theorem C184_nan_accepted (x : float) (rr cc : nat) (order : Z) (isclose : float -> float -> bool)
    (s : float) (f : @PolynomialModel.prate FO) (g : @poly FO) (p : @pid FO) (m : gauss FO) (k : gmm FO) :
  PrimFloat.is_nan x = true -> (1 <= order)%Z ->
  @cexp_make FO x = Ok x /\ @cexp_set_phase FO s x = (x, Ok tt) /\
  @prate_make FO x order = Ok (@mkPrate FO x order) /\ prate_set_rate f x = (@mkPrate FO x (qorder f), Ok tt) /\
  @poly_make FO rr cc x = Ok (@mkPoly FO 0%float x (repeat 0%float cc)) /\
  (exists i, poly_set_rate isclose rr g x = (@mkPoly FO i x (ps g), Ok tt)) /\
  pid_set_limit p (Some x) = (@mkPid FO (pfir p) (Some x), Ok tt) /\
  @gauss_make FO x = Ok (@mkGauss FO [] x None) /\ gauss_set_regularize m x = (@mkGauss FO (gmodel m) x (gshape m), Ok tt) /\
  @gmm_make FO order order x = Ok (@mkGmm FO [] order order x None) /\
  gmm_set_regularize k x = (@mkGmm FO (mmodel k) (morder k) (mindex k) x (mshape k), Ok tt).
Proof.
  intros N Ho.
  assert (L1 : forall y, @oltb FO x y = false) by (intros y; exact (proj1 (nan_ltb x y N))).
  assert (L2 : forall y, @oltb FO y x = false) by (intros y; exact (proj2 (nan_ltb x y N))).
  assert (Ez : (order <=? 0)%Z = false) by (apply Z.leb_gt; lia).
  unfold cexp_make, cexp_set_phase, phase_bad, prate_make, prate_set_rate, poly_make, poly_set_rate, prate_bad,
    pid_set_limit, gauss_make, gauss_set_regularize, gmm_make, gmm_set_regularize.
  rewrite !L1, ?L2, Ez. cbn [orb].
  repeat (split; [reflexivity|]). split; [eexists; reflexivity|]. repeat (split; [reflexivity|]). reflexivity.
Qed.
Print Assumptions C184_nan_accepted.

(** ** Rejected calls *)
(** GaussianMixtureModel.predict: one error kind for every refusal, and the object is kept. *)
Theorem C184_gmm_refusals (O : OArith) argsort expf (g : gmm O) (x : xarr O) :
  fst (gmm_predict argsort expf g x) = g /\
  (mmodel g = [] \/ (exists n, x = XRank n) \/ (exists cols rows, x = X2 cols rows /\ (cols = 0%nat \/ rows = [] \/ mshape g <> Some cols)) ->
     snd (gmm_predict argsort expf g x) = Err ValueError) /\
  (forall e, snd (gmm_predict argsort expf g x) = Err e -> e = ValueError).
Proof.
  unfold gmm_predict. split; [reflexivity|]. cbn [snd]. split.
  - intros [->|[[n ->]|(cols & rows & -> & H)]]; [reflexivity|destruct (_ =? _)%nat; reflexivity|].
    destruct (length (mmodel g) =? 0)%nat; [reflexivity|].
    destruct H as [->|[->|H]]; [rewrite orb_true_r; reflexivity|reflexivity|].
    destruct (_ || _)%bool; [reflexivity|]. destruct (mshape g) as [c|]; [|reflexivity].
    destruct (Nat.eqb_spec c cols) as [->|]; [congruence|reflexivity].
  - intros e. destruct (length (mmodel g) =? 0)%nat; [congruence|]. destruct x as [cols rows|]; [|congruence].
    destruct (_ || _)%bool; [congruence|]. destruct (mshape g) as [c|]; [|congruence]. destruct (c =? cols)%nat; [discriminate|congruence].
Qed.
Print Assumptions C184_gmm_refusals.

Example C184_example :
  (exists g, cband_make (1 / 4) (1 / 10) = Ok g /\ cband_set_rate g (3 / 2) = (g, Err ValueError)) /\
  @cexp_make RO (3 / 2) = Err ValueError /\ @cexp_make FO PrimFloat.nan = Ok PrimFloat.nan /\
  (exists g, cfreq_make (1 / 4) 1 = Ok g /\ fb (ffir g) = [RtoC 1] /\ fs (ffir g) = [RtoC 1]) /\
  (exists p, @pid_make RO (mkArr DFloat [1; 2; 3]) = Ok p) /\ @pid_make RO (mkArr DFloat [1; 2]) = Err ValueError /\
  @prate_make RO 0 0 = Err ValueError /\ @poly_make RO 256 15 257 = Err ValueError.
Proof.
  split; [|split; [|split; [|split; [|split; [|split; [|split]]]]]].
  - destruct (proj1 (proj2 (proj2 (C184_bandpass (1 / 4) (1 / 10))))) as (g & E & _); [lra|lra|]. exists g. split; [exact E|].
    apply (proj1 (proj2 (C184_bandpass 0 0))). lra.
  - apply (proj2 C184_exponential). lra.
  - reflexivity.
  - eexists. split; [|split].
    + assert (H : fb (mkFir DComplex [RtoC 1] [RtoC 1] : fir CA) = [RtoC 1]) by reflexivity.
      apply (C184_frequency (1 / 4) 1 (mkCfreq (@mkFir CA DComplex [RtoC 1] [RtoC 1]) 0 0) (RtoC 1) (RtoC 1) eq_refl eq_refl); lra.
    + reflexivity.
    + reflexivity.
  - destruct (proj1 (proj2 (C184_pid DFloat [1; 2; 3])) eq_refl) as (p & E & _). exists p. exact E.
  - apply C184_pid. discriminate.
  - apply (C184_rates 256 15 (fun _ _ => true) 0 0). intros [_ H]. lia.
  - apply (C184_rates 256 15 (fun _ _ => true) 257 1). change 256%nat with (Z.to_nat 256). rewrite INR_IZR_INZ, Z2Nat.id by lia. lra.
Qed.
