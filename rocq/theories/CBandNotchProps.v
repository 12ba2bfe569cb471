(** Properties C148-C150: ComplexBandpassFilter is an adaptive filter whose error is
    exactly a linear time invariant notch, so its response to every tone and to every
    disturbance is known. *)
From Coq Require Import List Arith ZArith Lia Bool Reals Lra.
From Coquelicot Require Import Complex.
From Verif Require Import Base BaseLemmas Instances FirModel FirSpec IirModel IirSpec IirProofs IirProps CExpModel CExpProps CBandModel CBandProps.
Import ListNotations.
Set Asymmetric Patterns.
Open Scope R_scope.
Open Scope C_scope.

(** The tone of the filter at sample n of a call, and its value one sample later. *)
Definition own (g : cband) (n : nat) : C := cis (PI * (bphase g + INR n * bfreq g)).
Lemma own_S g n : own g (S n) = cis (PI * bfreq g) * own g n.
Proof. unfold own. rewrite <- cis_add. f_equal. rewrite S_INR. ring. Qed.
Lemma own_conj g n : own g n * Cconj (own g n) = 1.
Proof. apply cis_conj_mul. Qed.
Lemma own_mod g n : Cmod (own g n) = 1%R.
Proof. apply Cmod_cis. Qed.

(** Error sequence of a call. *)
Lemma cband_error h g g' d out : keeps_length h -> cband_ok g -> d <> [] -> cband_filter h g d = (g', Ok out) ->
  length out = length d /\
  (forall n, (n < length d)%nat -> oy out n + oe out n = nth n (analytic h d) (RtoC 0)) /\
  oe out 0 = nth 0 (analytic h d) (RtoC 0) - own g 0 * cband_b g /\
  forall n, (S n < length d)%nat ->
    oe out (S n) = nth (S n) (analytic h d) (RtoC 0) - cis (PI * bfreq g) * nth n (analytic h d) (RtoC 0)
                   + RtoC (1 - brate g) * cis (PI * bfreq g) * oe out n.
Proof.
  intros Hh Hg Hd E. destruct (cband_filter_seq h g d Hh Hg Hd) as (g2 & out2 & E2 & _ & Hl & _ & _ & _ & B & H0 & H1 & H2).
  rewrite E in E2. injection E2 as E2 E3. subst g2 out2.
  assert (Hpos : (0 < length d)%nat) by (destruct d; [congruence|cbn; lia]).
  split; [exact Hl|]. split; [|split].
  - intros n Hn. destruct (H2 n Hn) as [H3 _]. cbv zeta in H3. unfold oy, oe. rewrite H3. cbn [fst snd]. ring.
  - destruct (H2 0%nat Hpos) as [H3 _]. cbv zeta in H3. unfold oe. rewrite H3. cbn [fst snd]. rewrite H0. reflexivity.
  - intros n Hn. destruct (H2 n ltac:(lia)) as [H3 H4]. destruct (H2 (S n) Hn) as [H5 _]. cbv zeta in H3, H4, H5.
    unfold oe. rewrite H3, H5. cbn [fst snd]. rewrite H4. fold (own g n). fold (own g (S n)). rewrite own_S.
    set (v := nth n (analytic h d) (RtoC 0)). set (w := cis (PI * bfreq g)). set (x := own g n).
    transitivity (nth (S n) (analytic h d) (RtoC 0) - w * x * B n - w * RtoC (brate g) * (v - x * B n) * (x * Cconj x)); [ring|].
    unfold x. rewrite own_conj. rewrite RtoC_minus. ring.
Qed.

(** C148.  The error output is the output of IirFilter with a = [0, (1-rate) w] and
    b = [1, -w], w the tone's phase step, up to the decaying contribution of the initial
    coefficient; the reference output is the rest of the primary signal. *)
Definition notch_a (f r : R) : arr CA := @mkArr CA DComplex [RtoC 0; RtoC (1 - r) * cis (PI * f)].
Definition notch_b (f : R) : arr CA := @mkArr CA DComplex [RtoC 1; - cis (PI * f)].

Lemma notch_make f r : @iir_make CA (notch_a f r) (notch_b f) (@mkArr CA DComplex []) =
  Ok (@mkIir CA DComplex (els (notch_a f r)) (els (notch_b f)) [RtoC 0; RtoC 0]).
Proof.
  unfold iir_make, notch_a, notch_b. cbn [els adt length Nat.max Nat.ltb Nat.leb pad app zeros repeat Nat.sub].
  assert (E : @eqb CA (RtoC 0) (@zero CA) = true) by (apply (law_eqb CA_laws); reflexivity).
  rewrite E. reflexivity.
Qed.

Lemma sig_past {A : Arith} (x : list A) k : (k < 0)%Z -> sig [] x k = zero.
Proof. intros H. unfold sig. apply Z.ltb_lt in H. rewrite H. destruct (Z.to_nat _); reflexivity. Qed.
Lemma sig_now {A : Arith} (x : list A) k n : k = Z.of_nat n -> sig [] x k = nth n x zero.
Proof. intros ->. unfold sig. replace (Z.of_nat n <? 0)%Z with false by (symmetry; apply Z.ltb_ge; lia). rewrite Nat2Z.id. reflexivity. Qed.

Lemma notch_rhs f r (y x : list C) n :
  @difference_rhs CA (els (notch_a f r)) (els (notch_b f)) y x n =
  match n with
  | 0%nat => nth 0 x (RtoC 0)
  | S m => RtoC (1 - r) * cis (PI * f) * nth m y (RtoC 0) + (nth (S m) x (RtoC 0) - cis (PI * f) * nth m x (RtoC 0))
  end.
Proof.
  unfold difference_rhs, notch_a, notch_b. cbn [els length Nat.sub bigsum nth].
  destruct n as [|m].
  - rewrite (@sig_past CA y) by lia. rewrite (@sig_now CA x _ 0%nat) by lia. rewrite (@sig_past CA x) by lia. cbn. ring.
  - rewrite (@sig_now CA y _ m) by lia. rewrite (@sig_now CA x _ (S m)) by lia. rewrite (@sig_now CA x (Z.of_nat (S m) - Z.of_nat 1) m) by lia.
    cbn [add mul zero CA]. set (u := nth m y (@zero CA)). change (nth m y (RtoC 0)) with u.
    set (v := nth m x (@zero CA)). change (nth m x (RtoC 0)) with v.
    set (t := nth (S m) x (@zero CA)). change (nth (S m) x (RtoC 0)) with t. cbn. ring.
Qed.

Theorem C148_cband_is_notch (h : list C -> list C) (g g' : cband) (d : list C) (out : list (C * C * C)) :
  keeps_length h -> cband_ok g -> d <> [] -> cband_filter h g d = (g', Ok out) ->
  exists f f' y,
    @iir_make CA (notch_a (bfreq g) (brate g)) (notch_b (bfreq g)) (@mkArr CA DComplex []) = Ok f /\
    @iir_filter CA f (analytic h d) = (f', Ok y) /\ length y = length d /\
    forall n, (n < length d)%nat ->
      let start := RtoC ((1 - brate g) ^ n) * cband_b g * cis (PI * (bphase g + INR n * bfreq g)) in
      oe out n = nth n y (RtoC 0) - start /\
      oy out n = nth n (analytic h d) (RtoC 0) - nth n y (RtoC 0) + start.
Proof.
  intros Hh Hg Hd E. destruct (cband_error h g g' d out Hh Hg Hd E) as (Hl & Hsum & He0 & HeS).
  set (a := analytic h d) in *.
  assert (La : length a = length d) by (apply analytic_length; exact Hh).
  assert (Ha : a <> []) by (intros C; rewrite C in La; destruct d; [congruence|discriminate]).
  set (f := @mkIir CA DComplex (els (notch_a (bfreq g) (brate g))) (els (notch_b (bfreq g))) [RtoC 0; RtoC 0]).
  assert (Fit : forall l : list C, Forall (@fits CA DComplex) l) by (intros l; apply Forall_forall; intros z _; apply (law_cast_complex CA_laws)).
  destruct (C10_iir_difference_from_rest CA CA_laws (notch_a (bfreq g) (brate g)) (notch_b (bfreq g)) (@mkArr CA DComplex []) [] f a)
    as (f' & y & Ey & [Ly Hy] & _).
  - repeat split; try apply Fit. discriminate.
  - split; [cbn; lia|]. exists f. split; [apply notch_make|reflexivity].
  - reflexivity.
  - exact Ha.
  - apply Fit.
  - exists f, f', y. split; [apply notch_make|]. split; [exact Ey|].
    assert (Ly' : length y = length d) by exact (eq_trans Ly La). split; [exact Ly'|].
    assert (Main : forall n, (n < length d)%nat -> oe out n = nth n y (RtoC 0) - RtoC ((1 - brate g) ^ n) * cband_b g * own g n).
    { assert (Hy' : forall n, (n < length d)%nat -> nth n y (RtoC 0) = @difference_rhs CA (els (notch_a (bfreq g) (brate g))) (els (notch_b (bfreq g))) y a n).
      { intros n Hn. apply Hy. rewrite <- La in Hn. exact Hn. }
      induction n as [|n IH]; intros Hn; rewrite (Hy' _ Hn), notch_rhs.
      - rewrite He0. cbn [pow]. ring.
      - rewrite HeS by exact Hn. rewrite IH by lia. rewrite own_S. cbn [pow]. rewrite RtoC_mult.
        match goal with |- @eq _ ?l ?r => change (@eq C l r) end.
        generalize (nth n a (RtoC 0)) (nth (S n) a (RtoC 0)). change (@nth (carrier CA) n y (RtoC 0)) with (@nth C n y (RtoC 0)). generalize (@nth C n y (RtoC 0)).
        intros. ring. }
    intros n Hn start. split; [apply Main; exact Hn|].
    specialize (Hsum n Hn). specialize (Main n Hn). fold (own g n) in start. change (RtoC ((1 - brate g) ^ n) * cband_b g * own g n) with start in Main.
    rewrite <- Hsum, Main. ring.
Qed.
Print Assumptions C148_cband_is_notch.
Example C148_example : exists g g' out, cband_make (1 / 10) (1 / 4) = Ok g /\ cband_ok g /\
  cband_filter (fun d => d) g [Ci; RtoC 2; RtoC 0] = (g', Ok out) /\ length out = 3%nat.
Proof.
  destruct cband_example_ok as (g & H & H1 & _). assert (Hk : keeps_length (fun d => d)) by (intros d; reflexivity).
  destruct (cband_filter_seq (fun d => d) g [Ci; RtoC 2; RtoC 0] Hk H1 ltac:(discriminate)) as (g' & out & E & _ & Hl & _).
  exists g, g', out. repeat split; assumption || apply H1.
Qed.

(** C149.  The primary signal is a tone of any frequency t. *)
Definition other_tone (h : list C -> list C) (A : C) (p t : R) (d : list C) : Prop :=
  d <> [] /\ forall n, (n < length d)%nat -> nth n (analytic h d) (RtoC 0) = A * cis (PI * (p + INR n * t)).
(** Gain of the reference output at frequency t. *)
Definition band_gain (f r t : R) : C := RtoC r * cis (PI * f) / (cis (PI * t) - RtoC (1 - r) * cis (PI * f)).
Definition detune (f t : R) : R := (sin (PI * (t - f) / 2) ^ 2)%R.

Lemma band_den f r t : (Cmod (cis (PI * t) - RtoC (1 - r) * cis (PI * f))%C ^ 2 = r ^ 2 + 4 * (1 - r) * detune f t)%R.
Proof.
  unfold Cmod. rewrite pow2_sqrt by (apply Rplus_le_le_0_compat; apply pow2_ge_0).
  unfold cis, Cminus, Copp, Cmult, Cplus, RtoC, fst, snd, detune.
  assert (H : cos (PI * t - PI * f) = (1 - 2 * sin (PI * (t - f) / 2) ^ 2)%R).
  { replace (PI * t - PI * f)%R with (2 * (PI * (t - f) / 2))%R by field. rewrite cos_2a_sin. ring. }
  rewrite cos_minus in H. pose proof (sin2_cos2 (PI * t)) as H1. pose proof (sin2_cos2 (PI * f)) as H2. unfold Rsqr in H1, H2.
  set (ct := cos (PI * t)) in *. set (st := sin (PI * t)) in *. set (cf := cos (PI * f)) in *. set (sf := sin (PI * f)) in *.
  set (q := (sin (PI * (t - f) / 2) ^ 2)%R) in *.
  replace ((ct + - ((1 - r) * cf - 0 * sf)) ^ 2 + (st + - ((1 - r) * sf + 0 * cf)) ^ 2)%R
    with ((st * st + ct * ct) + (1 - r) ^ 2 * (sf * sf + cf * cf) - 2 * (1 - r) * (ct * cf + st * sf))%R by ring.
  rewrite H, H1, H2. ring.
Qed.
Lemma band_den_pos f r t : (0 < r <= 1)%R -> (0 < r ^ 2 + 4 * (1 - r) * detune f t)%R.
Proof.
  intros H. assert (0 < r ^ 2)%R by (apply pow_lt; lra). assert (0 <= detune f t)%R by apply pow2_ge_0.
  assert (0 <= 4 * (1 - r) * detune f t)%R by (apply Rmult_le_pos; lra). lra.
Qed.
Lemma band_den_nz f r t : (0 < r <= 1)%R -> cis (PI * t) - RtoC (1 - r) * cis (PI * f) <> 0.
Proof.
  intros H C. pose proof (band_den_pos f r t H) as P. rewrite <- band_den, C, Cmod_0 in P. cbn in P. lra.
Qed.

Theorem C149_cband_response (h : list C -> list C) (g g' : cband) (A : C) (p t : R) (d : list C) out :
  keeps_length h -> cband_ok g -> (0 < brate g)%R -> other_tone h A p t d -> cband_filter h g d = (g', Ok out) ->
  let Y := band_gain (bfreq g) (brate g) t in
  let D := (brate g ^ 2 + 4 * (1 - brate g) * detune (bfreq g) t)%R in
  (forall n, (n < length d)%nat ->
    let x := A * cis (PI * (p + INR n * t)) in
    Cmod (oy out n - Y * x) = ((1 - brate g) ^ n * Cmod (cband_b g * cis (PI * bphase g) - Y * A * cis (PI * p))%C)%R /\
    oe out n - (1 - Y) * x = - (oy out n - Y * x)) /\
  (0 < D /\ Cmod Y ^ 2 = brate g ^ 2 / D /\ Cmod (1 - Y)%C ^ 2 = 4 * detune (bfreq g) t / D /\
   Cmod Y <= 1 /\ (brate g < 1 -> Cmod Y = 1 <-> detune (bfreq g) t = 0) /\
   (1 / 2 <= Cmod Y ^ 2 <-> 4 * (1 - brate g) * detune (bfreq g) t <= brate g ^ 2))%R.
Proof.
  intros Hh Hg Hr [Hd Ht] E Y D. destruct (cband_error h g g' d out Hh Hg Hd E) as (Hl & Hsum & He0 & HeS).
  destruct Hg as (_ & _ & _ & _ & Hr2). assert (Hr3 : (0 < brate g <= 1)%R) by lra.
  set (f := bfreq g) in *. set (r := brate g) in *.
  pose proof (band_den_nz f r t Hr3) as Nz. pose proof (band_den_pos f r t Hr3) as Dp. pose proof (band_den f r t) as Dm.
  set (w := cis (PI * f)) in *. set (v := cis (PI * t)) in *.
  split.
  - set (x := fun n : nat => A * cis (PI * (p + INR n * t))).
    assert (xS : forall n, x (S n) = v * x n).
    { intros n. unfold x, v. rewrite S_INR. replace (PI * (p + (INR n + 1) * t))%R with (PI * t + PI * (p + INR n * t))%R by ring.
      rewrite cis_add. ring. }
    assert (Key : forall n, (n < length d)%nat -> Cmod (oe out n - (1 - Y) * x n) = ((1 - r) ^ n * Cmod (oe out 0 - (1 - Y) * x 0%nat)%C)%R).
    { induction n as [|n IH]; intros Hn; [cbn [pow]; ring|].
      assert (Ex : oe out (S n) - (1 - Y) * x (S n) = RtoC (1 - r) * w * (oe out n - (1 - Y) * x n)).
      { rewrite HeS by exact Hn. rewrite !Ht by lia. fold (x (S n)). fold (x n). rewrite xS.
        unfold Y, band_gain. fold w v. field_simplify; [|exact Nz|exact Nz]. f_equal. rewrite RtoC_minus. ring. }
      rewrite Ex, !Cmod_mult, IH by lia. unfold w. rewrite Cmod_cis, Cmod_R, Rabs_pos_eq by lra. cbn [pow]. ring. }
    intros n Hn x0. change x0 with (x n).
    assert (Neg : forall m, (m < length d)%nat -> oe out m - (1 - Y) * x m = - (oy out m - Y * x m)).
    { intros m Hm. replace (oe out m) with (x m - oy out m); [ring|]. unfold x. rewrite <- Ht by exact Hm. rewrite <- Hsum by exact Hm. ring. }
    split; [|apply Neg; exact Hn].
    rewrite <- Cmod_opp, <- Neg by exact Hn. rewrite Key by exact Hn. f_equal. rewrite He0, Ht by (destruct d; [congruence|cbn; lia]).
    unfold x, own. cbn [INR]. fold f. replace (bphase g + 0 * f)%R with (bphase g) by ring. replace (p + 0 * t)%R with p by ring.
    rewrite <- Cmod_opp. f_equal. ring.
  - assert (HY : (Cmod Y ^ 2 = r ^ 2 / D)%R).
    { unfold Y, band_gain. fold w v. rewrite Cmod_div by exact Nz. rewrite Cmod_mult, Cmod_R, Rabs_pos_eq by lra. unfold w at 1. rewrite Cmod_cis.
      unfold Rdiv at 1. rewrite Rpow_mult_distr, pow_inv, Dm. unfold D, Rdiv. f_equal. ring. }
    assert (HE : (Cmod (1 - Y)%C ^ 2 = 4 * detune f t / D)%R).
    { replace (1 - Y) with ((v - RtoC (1 - 0) * w) / (v - RtoC (1 - r) * w)).
      - rewrite Cmod_div by exact Nz. unfold Rdiv at 1. rewrite Rpow_mult_distr, pow_inv, Dm. unfold v, w. rewrite (band_den f 0 t).
        unfold D, Rdiv. f_equal. ring.
      - unfold Y, band_gain. fold w v. rewrite !RtoC_minus in *. field. exact Nz. }
    assert (Qp : (0 <= detune f t)%R) by apply pow2_ge_0. pose proof (Cmod_ge_0 Y) as Yp.
    assert (Rq : (0 <= 4 * (1 - r) * detune f t)%R) by (apply Rmult_le_pos; lra).
    assert (HD : (D * Cmod Y ^ 2 = r ^ 2)%R) by (rewrite HY; field; unfold D; lra).
    split; [exact Dp|]. split; [exact HY|]. split; [exact HE|]. fold D in Dp. split; [|split].
    + apply Rnot_lt_le. intros C. assert (1 < Cmod Y ^ 2)%R by nra.
      assert (D * 1 < D * Cmod Y ^ 2)%R by (apply Rmult_lt_compat_l; assumption). unfold D in *. lra.
    + intros Hr1. split.
      * intros C. rewrite C in HD. unfold D in HD. assert (4 * (1 - r) * detune f t = 0)%R by (revert HD; cbn [pow]; lra).
        apply Rmult_integral in H. destruct H; [lra|assumption].
      * intros C. unfold D in HD. rewrite C in HD. rewrite Rmult_0_r, Rplus_0_r in HD.
        assert (Cmod Y ^ 2 = 1)%R. { apply Rmult_eq_reg_l with (r ^ 2)%R; [rewrite HD; ring|]. apply pow_nonzero. lra. }
        assert ((Cmod Y - 1) * (Cmod Y + 1) = 0)%R by (ring_simplify; lra). apply Rmult_integral in H0. destruct H0; lra.
    + split; intros C.
      * assert (D * (1 / 2) <= D * Cmod Y ^ 2)%R by (apply Rmult_le_compat_l; lra). unfold D in *. lra.
      * apply Rnot_lt_le. intros C2. assert (D * Cmod Y ^ 2 < D * (1 / 2))%R by (apply Rmult_lt_compat_l; lra). unfold D in *. lra.
Qed.
Print Assumptions C149_cband_response.
(** At twice Nyquist away from its frequency a filter of rate 1/4 passes a seventh. *)
Example C149_example : exists g d, cband_make (1 / 10) (1 / 4) = Ok g /\ cband_ok g /\ (0 < brate g)%R /\
  other_tone (fun d => d) 3 (1 / 2) (11 / 10) d /\ length d = 5%nat /\ (Cmod (band_gain (bfreq g) (brate g) (11 / 10)) ^ 2 = 1 / 49)%R.
Proof.
  destruct cband_example_ok as (g & H & H1 & _ & H2). exists g, (map (fun n => 3 * cis (PI * (1 / 2 + INR n * (11 / 10)))) (seq 0 5)).
  assert (Hf : bfreq g = (1 / 10)%R).
  { unfold cband_make in H. destruct (frequency_bad _); [discriminate|]. destruct (rate_bad _); [discriminate|].
    destruct (fir_make _ _); [|discriminate]. destruct (cexp_make _); [|discriminate]. injection H as H. subst g. reflexivity. }
  assert (Ot : other_tone (fun d => d) 3 (1 / 2) (11 / 10) (map (fun n => 3 * cis (PI * (1 / 2 + INR n * (11 / 10)))) (seq 0 5))).
  { split; [discriminate|]. intros n Hn. rewrite map_length, seq_length in Hn. unfold analytic.
    assert (E : forall (b : bool) (l : list C), (if b then l else l) = l) by (intros [|]; reflexivity). rewrite E.
    rewrite nth_map_seq by exact Hn. reflexivity. }
  split; [exact H|]. split; [exact H1|]. split; [rewrite H2; lra|]. split; [exact Ot|]. split; [reflexivity|].
  assert (Hk : keeps_length (fun d => d)) by (intros d; reflexivity).
  destruct (cband_filter_seq (fun d => d) g _ Hk H1 (proj1 Ot)) as (g' & out & E & _).
  destruct (C149_cband_response _ g g' _ _ _ _ out Hk H1 ltac:(rewrite H2; lra) Ot E) as (_ & _ & -> & _).
  rewrite H2, Hf. unfold detune. replace (PI * (11 / 10 - 1 / 10) / 2)%R with (PI / 2)%R by field. rewrite sin_PI2. field.
Qed.

(** C150.  A tone of the filter's frequency and a disturbance of at most dl per sample. *)
Definition near_tone (h : list C -> list C) (g : cband) (A : C) (dl : R) (d : list C) : Prop :=
  d <> [] /\ forall n, (n < length d)%nat ->
    (Cmod (nth n (analytic h d) (RtoC 0) - A * cis (PI * (bphase g + INR n * bfreq g)))%C <= dl)%R.

Theorem C150_cband_disturbance (h : list C -> list C) (g : cband) (A : C) (dl : R) :
  keeps_length h -> cband_ok g -> (0 <= dl)%R ->
  (forall d g' out, near_tone h g A dl d -> cband_filter h g d = (g', Ok out) ->
     forall n, (n < length d)%nat ->
       let q := ((1 - brate g) ^ n)%R in let m := Cmod (cband_b g - A) in
       (Cmod (ob out n - A)%C <= q * m + (1 - q) * dl /\
        Cmod (oy out n - A * cis (PI * (bphase g + INR n * bfreq g)))%C <= q * m + (1 - q) * dl /\
        Cmod (oe out n) <= q * m + (2 - q) * dl)%R) /\
  ((0 < brate g)%R -> forall ep, (0 < ep)%R -> exists N, forall d g' out,
     near_tone h g A dl d -> cband_filter h g d = (g', Ok out) ->
     forall n, (N <= n < length d)%nat -> (Cmod (ob out n - A)%C <= dl + ep /\ Cmod (oe out n) <= 2 * dl + ep)%R) /\
  (* the bound on the coefficient is best possible *)
  (forall N, exists d, near_tone (fun d => d) g A dl d /\ length d = S N /\ forall g' out, cband_filter (fun d => d) g d = (g', Ok out) ->
     (Cmod (ob out N - A)%C >= (1 - (1 - brate g) ^ N) * dl - (1 - brate g) ^ N * Cmod (cband_b g - A)%C)%R).
Proof.
  intros Hh Hg Hdl.
  assert (Main : forall d g' out, near_tone h g A dl d -> cband_filter h g d = (g', Ok out) ->
     forall n, (n < length d)%nat ->
       let q := ((1 - brate g) ^ n)%R in let m := Cmod (cband_b g - A) in
       (Cmod (ob out n - A)%C <= q * m + (1 - q) * dl /\
        Cmod (oy out n - A * cis (PI * (bphase g + INR n * bfreq g)))%C <= q * m + (1 - q) * dl /\
        Cmod (oe out n) <= q * m + (2 - q) * dl)%R).
  { intros d g' out [Hd Ht] E. destruct (cband_filter_seq h g d Hh Hg Hd) as (g2 & out2 & E2 & _ & _ & _ & _ & _ & B & H0 & H1 & H2).
    rewrite E in E2. injection E2 as E2 E3. subst g2 out2. destruct Hg as (_ & _ & _ & _ & Hr).
    assert (HB : forall n, (n < length d)%nat -> (Cmod (B n - A)%C <= (1 - brate g) ^ n * Cmod (cband_b g - A)%C + (1 - (1 - brate g) ^ n) * dl)%R).
    { induction n as [|n IH]; intros Hn; [rewrite H0; cbn [pow]; lra|].
      destruct (H2 n) as [_ H3]; [lia|]. cbv zeta in H3. rewrite H3. specialize (Ht n ltac:(lia)). specialize (IH ltac:(lia)).
      set (x := cis (PI * (bphase g + INR n * bfreq g))) in *. set (v := nth n (analytic h d) (RtoC 0)) in *.
      assert (Hx : x * Cconj x = 1) by apply cis_conj_mul.
      replace (B n + RtoC (brate g) * (v - x * B n) * Cconj x - A)
        with (RtoC (1 - brate g) * (B n - A) + RtoC (brate g) * ((v - A * x) * Cconj x) + RtoC (brate g) * (B n - A) * (1 - x * Cconj x))
        by (rewrite RtoC_minus; ring).
      rewrite Hx. replace (RtoC (brate g) * (B n - A) * (1 - 1)) with (RtoC 0) by ring. rewrite Cplus_0_r.
      eapply Rle_trans; [apply Cmod_triangle|]. rewrite !Cmod_mult, !Cmod_R, !Rabs_pos_eq by lra.
      replace (Cmod (Cconj x)) with 1%R by (unfold x; rewrite cis_conj, Cmod_cis; reflexivity). cbn [pow].
      set (q := ((1 - brate g) ^ n)%R) in *. set (m := Cmod (cband_b g - A)%C) in *.
      assert (M1 : ((1 - brate g) * Cmod (B n - A)%C <= (1 - brate g) * (q * m + (1 - q) * dl))%R) by (apply Rmult_le_compat_l; lra).
      assert (M2 : (brate g * (Cmod (v - A * x)%C * 1) <= brate g * dl)%R) by (apply Rmult_le_compat_l; lra).
      lra. }
    intros n Hn q m. specialize (HB n Hn). specialize (Ht n Hn). destruct (H2 n Hn) as [H3 _]. cbv zeta in H3. unfold ob, oy, oe. rewrite H3. cbn [fst snd].
    fold q m in HB. set (x := cis (PI * (bphase g + INR n * bfreq g))) in *.
    assert (Hy : Cmod (x * B n - A * x) = Cmod (B n - A)).
    { replace (x * B n - A * x) with (x * (B n - A)) by ring. rewrite Cmod_mult. unfold x. rewrite Cmod_cis. ring. }
    split; [exact HB|]. split; [rewrite Hy; exact HB|].
    set (v := nth n (analytic h d) (RtoC 0)) in *. replace (v - x * B n) with ((v - A * x) + - (x * B n - A * x)) by ring.
    eapply Rle_trans; [apply Cmod_triangle|]. rewrite Cmod_opp, Hy. lra. }
  split; [exact Main|]. split.
  - intros Hr ep Hep. pose proof Hg as (_ & _ & _ & _ & Hr2).
    destruct (pow_lt_1_zero (1 - brate g)) with (y := (ep / (Cmod (cband_b g - A)%C + 1))%R) as [N HN].
    + rewrite Rabs_pos_eq; lra.
    + pose proof (Cmod_ge_0 (cband_b g - A)). apply Rdiv_lt_0_compat; lra.
    + exists N. intros d g' out Ht E n [Hn1 Hn2]. destruct (Main d g' out Ht E n Hn2) as (M1 & _ & M3).
      specialize (HN n Hn1). rewrite Rabs_pos_eq in HN by (apply pow_le; lra).
      assert (Hq : (0 <= (1 - brate g) ^ n)%R) by (apply pow_le; lra).
      pose proof (Cmod_ge_0 (cband_b g - A)) as H0. set (m := Cmod (cband_b g - A)%C) in *. set (q := ((1 - brate g) ^ n)%R) in *.
      assert (q * m <= ep)%R.
      { apply Rle_trans with (ep / (m + 1) * (m + 1))%R; [|right; field; lra].
        apply Rle_trans with (ep / (m + 1) * m)%R; [apply Rmult_le_compat_r; lra|]. apply Rmult_le_compat_l; [|lra]. left. apply Rdiv_lt_0_compat; lra. }
      assert (0 <= q * dl)%R by (apply Rmult_le_pos; lra). lra.
  - intros N. set (d := map (fun n => (A + RtoC dl) * cis (PI * (bphase g + INR n * bfreq g))) (seq 0 (S N))).
    assert (Ld : length d = S N) by (unfold d; rewrite map_length, seq_length; reflexivity).
    assert (An : analytic (fun d => d) d = d) by (unfold analytic; destruct (existsb _ _); reflexivity).
    assert (Own : own_tone (fun d => d) g (A + RtoC dl) d).
    { split; [intros C; rewrite C in Ld; discriminate|]. intros n Hn. rewrite An. unfold d. rewrite Ld in Hn. rewrite nth_map_seq by exact Hn. reflexivity. }
    exists d. split; [split; [apply Own|]|split; [exact Ld|]].
    + intros n Hn. rewrite (proj2 Own n Hn). set (x := cis (PI * (bphase g + INR n * bfreq g))).
      replace ((A + RtoC dl) * x - A * x) with (RtoC dl * x) by ring. rewrite Cmod_mult, Cmod_R, Rabs_pos_eq by exact Hdl.
      unfold x. rewrite Cmod_cis. lra.
    + intros g' out E. destruct (C42_cband_converges (fun d => d) g (A + RtoC dl) ltac:(intros l; reflexivity) Hg) as [M _].
      destruct (M d g' out Own E) as [M1 _]. destruct (M1 N ltac:(lia)) as (M2 & _).
      assert (Hq : (0 <= (1 - brate g) ^ N <= 1)%R).
      { destruct Hg as (_ & _ & _ & _ & Hr). split; [apply pow_le; lra|]. apply Rle_trans with (1 ^ N)%R; [apply pow_incr; lra|rewrite pow1; lra]. }
      set (q := ((1 - brate g) ^ N)%R) in *.
      assert (Eq : RtoC ((1 - q) * dl) = (ob out N - A) + - (RtoC q * (cband_b g - A))).
      { replace (ob out N - A) with ((ob out N - (A + RtoC dl)) + RtoC dl) by ring. rewrite M2, RtoC_mult, RtoC_minus. ring. }
      assert (Hm : (Cmod (RtoC ((1 - q) * dl)) <= Cmod (ob out N - A)%C + q * Cmod (cband_b g - A)%C)%R).
      { rewrite Eq. eapply Rle_trans; [apply Cmod_triangle|]. rewrite Cmod_opp, Cmod_mult, Cmod_R, Rabs_pos_eq by lra. lra. }
      rewrite Cmod_R, Rabs_pos_eq in Hm by (apply Rmult_le_pos; lra). lra.
Qed.
Print Assumptions C150_cband_disturbance.
Example C150_example : exists g, cband_make (1 / 10) (1 / 4) = Ok g /\ cband_ok g /\ (0 < brate g)%R /\
  near_tone (fun d => d) g 3 2 [RtoC 5; RtoC 3 * cis (PI * (bphase g + INR 1 * bfreq g))].
Proof.
  destruct cband_example_ok as (g & H & H1 & _ & H2). exists g. split; [exact H|]. split; [exact H1|]. split; [rewrite H2; lra|].
  assert (Hp : bphase g = 0%R).
  { unfold cband_make in H. destruct (frequency_bad _); [discriminate|]. destruct (rate_bad _); [discriminate|].
    destruct (fir_make _ _); [|discriminate]. unfold cexp_make in H. rewrite phase_ok in H by lra. injection H as H. subst g. reflexivity. }
  split; [discriminate|]. intros n Hn. unfold analytic.
  assert (E : forall (b : bool) (l : list C), (if b then l else l) = l) by (intros [|]; reflexivity). rewrite E.
  destruct n as [|[|n]]; [| |cbn in Hn; lia]; cbn [nth].
  - rewrite Hp. cbn [INR]. replace (PI * (0 + 0 * bfreq g))%R with 0%R by ring. rewrite cis_0.
    replace (5 - 3 * RtoC 1) with (RtoC (5 - 3)) by (rewrite RtoC_minus; ring). rewrite Cmod_R, Rabs_pos_eq; lra.
  - replace (3 * cis (PI * (bphase g + INR 1 * bfreq g)) - 3 * cis (PI * (bphase g + INR 1 * bfreq g))) with (RtoC 0) by ring. rewrite Cmod_0. lra.
Qed.
