(** Properties C132-C134: the magnitude response of designed Butterworth and Chebyshev
    filters, and how close the corner is to the requested frequency. *)
From Coq Require Import String List Arith ZArith Bool Reals Lra Lia Permutation.
From Coquelicot Require Import Complex.
From Verif Require Import Base BaseLemmas PyString Instances FirModel FirSpec FirDesignProofs IirModel PolyC ZModel ZProofs ZProps IirDesignProofs IirDesignProps AnalysisModel AnalysisProofs AnalysisProps MagnitudeProofs.
Import ListNotations.
Set Asymmetric Patterns.
Open Scope R_scope.
Open Scope C_scope.

(** ** Specification *)
(** Magnitude of the response of coefficients a, b at the angular frequency theta. *)
Definition magnitude (a b : list R) (theta : R) : R := Cmod (num b (cis (- theta)) / den a (cis (- theta))).
(** [chebT n] is the n-th Chebyshev polynomial (MagnitudeProofs.v: 1, x, 2 x T - T'). *)

Lemma cis_inv t : cis (- t) = / cis t.
Proof. apply (Cmult_inj_l (cis t)); [apply cis_neq_0|]. rewrite Cinv_r by apply cis_neq_0. rewrite <- cis_add, Rplus_opp_r. apply cis_0. Qed.
Lemma pe_real_conj l w : pe (map RtoC l) (Cconj w) = Cconj (pe (map RtoC l) w).
Proof. induction l as [|x l IH]; cbn [map pe]; [symmetry; apply Cconj_R|]. rewrite IH, Cconj_add, Cconj_mul, Cconj_R. reflexivity. Qed.
Lemma Cinv_conj z : z <> RtoC 0 -> / Cconj z = Cconj (/ z).
Proof.
  intros H. apply (Cmult_inj_l (Cconj z)); [apply Cconj_nz; exact H|]. rewrite Cinv_r by (apply Cconj_nz; exact H).
  rewrite <- Cconj_mul, Cinv_r by exact H. symmetry. apply Cconj_R.
Qed.
Lemma magnitude_even a b t : magnitude a b (- t) = magnitude a b t.
Proof.
  unfold magnitude. rewrite <- (cis_conj (- t)). unfold num, den. rewrite !pe_real_conj.
  assert (E : forall z, Cmod (/ Cconj z) = Cmod (/ z)).
  { intros z. destruct (Ceq_dec z 0) as [->|N]; [rewrite Cconj_R; reflexivity|]. rewrite Cinv_conj by exact N. apply Cmod_conj. }
  unfold Cdiv. rewrite !Cmod_mult, Cmod_conj. f_equal.
  replace (1 - Cconj (pe (map RtoC a) (cis (- t)))) with (Cconj (1 - pe (map RtoC a) (cis (- t)))) by (rewrite Cconj_sub, Cconj_R; reflexivity). apply E.
Qed.

(** ** The bilinear map on the unit circle *)
Lemma half_angle t : (cos (t / 2) * cos (t / 2) + sin (t / 2) * sin (t / 2) = 1)%R.
Proof. pose proof (sin2_cos2 (t / 2)) as H. unfold Rsqr in H. lra. Qed.
Lemma one_plus_cis t : 1 + cis (- t) = RtoC (2 * cos (t / 2)) * cis (- (t / 2)).
Proof.
  replace t with (t / 2 + t / 2)%R at 1 by field. rewrite Ropp_plus_distr, cis_add. unfold cis. rewrite cos_neg, sin_neg.
  pose proof (half_angle t) as H. generalize dependent (cos (t / 2)). generalize (sin (t / 2)). intros s c H.
  apply injective_projections; cbn; lra.
Qed.
Lemma one_minus_cis t : 1 - cis (- t) = Ci * RtoC (2 * sin (t / 2)) * cis (- (t / 2)).
Proof.
  replace t with (t / 2 + t / 2)%R at 1 by field. rewrite Ropp_plus_distr, cis_add. unfold cis. rewrite cos_neg, sin_neg.
  pose proof (half_angle t) as H. generalize dependent (cos (t / 2)). generalize (sin (t / 2)). intros s c H.
  apply injective_projections; cbn; lra.
Qed.
Lemma bilinear_circle t : (cos (t / 2) <> 0)%R -> (1 - cis (- t)) / (1 + cis (- t)) = Ci * RtoC (tan (t / 2)).
Proof.
  intros H. rewrite one_plus_cis, one_minus_cis. unfold tan, Rdiv. rewrite !RtoC_mult, RtoC_inv by exact H.
  field. repeat split; first [apply cis_neq_0|intros Q; apply RtoC_inj in Q; first [lra|apply H; exact Q]].
Qed.
Lemma bilinear_response roots residue style order f u v : (0 < order)%nat -> (0 < f)%R -> poles_found roots residue style order ->
  String.eqb style "Bessel" = false -> iir_evaluate roots residue style f order = Ok (u, v) ->
  forall w, 1 + w <> RtoC 0 -> num v w * pv (prototype style order) (RtoC (2 / (PI * f)) * ((1 - w) / (1 + w))) = den u w * pv (prototype style order) (RtoC 0).
Proof.
  intros Ho Hf Hp Hs Ev. destruct (C18_iir_candidate _ _ _ _ _ Ho Hf Hp) as (u1 & v1 & E & D & Lp & Neg & Bv). rewrite Ev in E. injection E as <- <-.
  rewrite Hs in D. cbn [negb] in D. destruct Hp as [(k & Hk & Hr) _]. set (ps := proto_poles _ _ _ _) in *.
  assert (Np : forall p, In p ps -> p <> bil_pole f).
  { intros p Hin ->. specialize (Neg _ Hin). unfold bil_pole in Neg. cbn [fst RtoC] in Neg. pose proof PI_RGT_0. assert (0 < 2 / (PI * f))%R by (apply Rdiv_lt_0_compat; nra). lra. }
  pose proof PI_RGT_0 as Pp. assert (Hpf : (0 < PI * f)%R) by nra.
  assert (Sw : forall w, 1 + w <> RtoC 0 -> RtoC (PI * f) * (RtoC (2 / (PI * f)) * ((1 - w) / (1 + w)) * (1 + w)) = (1 + 1) * (1 - w)).
  { intros w Hw. transitivity (RtoC (PI * f * (2 / (PI * f))) * (1 - w)); [rewrite (RtoC_mult (PI * f) (2 / (PI * f))); field; exact Hw|].
    replace (PI * f * (2 / (PI * f)))%R with (1 + 1)%R by (field; lra). rewrite RtoC_plus. reflexivity. }
  assert (Dw : forall w, 1 + w <> RtoC 0 -> den u w = cpow (1 + w) order * cprod (map (fun p => RtoC (PI * f) / (2 - RtoC (PI * f) * p)) ps) * cprod (map (fun p => RtoC (2 / (PI * f)) * ((1 - w) / (1 + w)) - p) ps)).
  { intros w Hw. rewrite D, (fold_cprod (fun p => 1 - z_of true f p * w)), (bil_factors f _ w ps Hf Np (Sw w Hw)), Lp. reflexivity. }
  intros w Hw. rewrite (num_binomials _ _ _ w Bv). rewrite !Hr. rewrite (fold_cprod (fun p => RtoC (2 / (PI * f)) * ((1 - w) / (1 + w)) - p)), (fold_cprod (fun p => RtoC 0 - p)).
  assert (P2 : (2 ^ order <> 0)%R) by (apply pow_nonzero; lra).
  assert (T : RtoC ((1 - tot u) / 2 ^ order) = cprod (map (fun p => RtoC (PI * f) / (2 - RtoC (PI * f) * p)) ps) * cprod (map (fun p => RtoC 0 - p) ps)).
  { assert (H1 : 1 + 1 <> RtoC 0) by (rewrite <- RtoC_plus; intros Q; apply RtoC_inj in Q; lra).
    pose proof (Dw (RtoC 1) H1) as D1. rewrite den_one in D1.
    assert (Z : map (fun p => RtoC (2 / (PI * f)) * ((1 - 1) / (1 + 1)) - p) ps = map (fun p => RtoC 0 - p) ps).
    { apply map_ext. intros p. replace ((1 - 1) / (1 + 1)) with (RtoC 0) by (field; exact H1). ring. }
    rewrite Z, cpow_2 in D1. unfold Rdiv at 1. rewrite (RtoC_mult (1 - tot u)), RtoC_inv by exact P2. rewrite D1. field. intros Q. apply RtoC_inj in Q. auto. }
  rewrite T, (Dw w Hw). ring.
Qed.

(** |H|^2 for a candidate, from |P(jx)|^2. *)
Lemma candidate_magnitude roots residue style order f u v (G : R -> R) : (0 < order)%nat -> (0 < f)%R -> poles_found roots residue style order ->
  String.eqb style "Bessel" = false -> iir_evaluate roots residue style f order = Ok (u, v) ->
  (forall x, Cmod (pv (prototype style order) (Ci * RtoC x)%C) ^ 2 * G 0 = Cmod (pv (prototype style order) (RtoC 0)) ^ 2 * G x)%R ->
  (forall t, (magnitude u v t ^ 2 * G (2 / (PI * f) * tan (t / 2)) = G 0)%R \/ cos (t / 2) = 0%R) /\
  (forall t, den u (cis (- t)) <> RtoC 0) /\ (forall t, cos (t / 2) = 0%R -> magnitude u v t = 0%R).
Proof.
  intros Ho Hf Hp Hs Ev HG.
  assert (Dn : forall t, den u (cis (- t)) <> RtoC 0).
  { intros t Q. destruct (den_one_found _ _ _ _ _ _ _ Ho Hf Hp Ev) as [_ St].
    rewrite cis_inv in Q. specialize (St (cis t) (cis_neq_0 t) Q). rewrite Cmod_cis in St. lra. }
  assert (P0 : pv (prototype style order) (RtoC 0) <> RtoC 0).
  { intros Q. apply (prototype_hurwitz style order Ho) in Q. cbn in Q. lra. }
  split; [|split; [exact Dn|]].
  - intros t. destruct (Req_dec (cos (t / 2)) 0) as [Hc|Hc]; [right; exact Hc|left].
    assert (Hw : 1 + cis (- t) <> RtoC 0).
    { rewrite one_plus_cis. intros Q. apply Cmult_zero in Q. destruct Q as [Q|Q]; [apply RtoC_inj in Q; lra|exact (cis_neq_0 _ Q)]. }
    pose proof (bilinear_response _ _ _ _ _ _ _ Ho Hf Hp Hs Ev _ Hw) as B. rewrite (bilinear_circle t Hc) in B.
    specialize (HG (2 / (PI * f) * tan (t / 2))%R). rewrite RtoC_mult in HG.
    replace (Ci * (RtoC (2 / (PI * f)) * RtoC (tan (t / 2)))) with (RtoC (2 / (PI * f)) * (Ci * RtoC (tan (t / 2)))) in HG by ring.
    set (P := pv (prototype style order) (RtoC (2 / (PI * f)) * (Ci * RtoC (tan (t / 2))))) in *.
    unfold magnitude. rewrite Cmod_div by apply Dn. pose proof (f_equal Cmod B) as M. rewrite !Cmod_mult in M.
    set (N := Cmod (num v (cis (- t)))) in *. set (D := Cmod (den u (cis (- t)))) in *. set (Q := Cmod (pv (prototype style order) (RtoC 0))) in *.
    assert (Dp : (0 < D)%R) by (apply Cmod_gt_0, Dn). assert (Qp : (0 < Q)%R) by (apply Cmod_gt_0, P0).
    apply (Rmult_eq_reg_l (D ^ 2 * Q ^ 2)); [|apply Rmult_integral_contrapositive; split; apply pow_nonzero; lra].
    transitivity (N ^ 2 * (Q ^ 2 * G (2 / (PI * f) * tan (t / 2))))%R; [field; lra|]. rewrite <- HG.
    transitivity ((N * Cmod P) ^ 2 * G 0)%R; [ring|]. rewrite M. ring.
  - intros t Hc. unfold magnitude. rewrite Cmod_div by apply Dn. destruct (eval_binomials _ _ _ _ _ _ _ Ev) as [_ Bv]. rewrite (num_binomials _ _ _ _ Bv).
    rewrite one_plus_cis, Hc. destruct order as [|m]; [lia|]. cbn [cpow]. rewrite Rmult_0_r.
    replace (RtoC ((1 - tot u) / 2 ^ S m) * (RtoC 0 * cis (- (t / 2)) * cpow (RtoC 0 * cis (- (t / 2))) m)) with (RtoC 0) by ring. rewrite Cmod_0. unfold Rdiv. ring.
Qed.

(** ** From the candidate to the design *)
Lemma valid_design roots residue eps style frequency order count complement gain ab :
  iir_design roots residue eps style frequency order count complement gain = Ok ab -> ~ iir_invalid style frequency order count.
Proof. intros H C. rewrite (C18_iir_design_rejects _ _ _ _ _ _ _ _ _ C) in H. discriminate. Qed.
Definition step_rate (order count : Z) : R := (if ((8 <? order) || ((6 <? order) && (1 <? count)))%Z%bool then 15 / 1000 else 30 / 1000)%R.
Lemma design_candidate roots residue eps style frequency order count (complement : bool) gain a b : (0 < eps)%R ->
  iir_design roots residue eps style frequency order count complement gain = Ok (a, b) ->
  poles_found roots residue (py_title style) (Z.to_nat order) ->
  let f := if complement then (1 - frequency)%R else frequency in
  let cand := fun scale => match iir_evaluate roots residue (py_title style) (scale * f) (Z.to_nat order) with Ok uv => Some uv | Err _ => None end in
  let err := fun uv : list R * list R => (/ sqrt 2 - magnitude (fst uv) (snd uv) (PI * f) ^ Z.to_nat count)%R in
  (0 < f < 1)%R /\ (0 < Z.to_nat order)%nat /\ (0 < Z.to_nat count)%nat /\
  exists u v n i, best_of cand err eps (step_rate order count) 500 (10000 * eps) n i (u, v) /\
    (forall k, (0 < scale_at cand err eps (step_rate order count) k)%R) /\
    iir_evaluate roots residue (py_title style) (scale_at cand err eps (step_rate order count) i * f) (Z.to_nat order) = Ok (u, v) /\
    forall t, magnitude a b t = (Rabs gain * magnitude u v (if complement then PI - t else t))%R.
Proof.
  intros He H Hp f cand err. pose proof (valid_design _ _ _ _ _ _ _ _ _ _ H) as Hv.
  destruct (C18_iir_design_best roots residue eps style frequency order count complement gain He Hv Hp) as (u & v & n & i & a' & b' & E & B & Da & Nb).
  rewrite H in E. injection E as <- <-. destruct (design_ok _ _ _ _ _ _ _ _ _ _ _ He H) as (Hf & Ho & Hc & _).
  split; [unfold f; destruct complement; lra|]. split; [lia|]. split; [lia|]. exists u, v, n, i. split; [exact B|].
  assert (Sp : forall k, (0 < scale_at cand err eps (step_rate order count) k)%R).
  { intros [|k]; cbn [scale_at]; [lra|]. eapply Rlt_le_trans; [exact He|apply Rmax_r]. }
  split; [exact Sp|]. split.
  - destruct B as (_ & B & _). fold f in B. change (cand (scale_at cand err eps (step_rate order count) i) = Some (u, v)) in B. unfold cand in B at 1.
    destruct (iir_evaluate _ _ _ _ _) as [uv|]; [congruence|discriminate].
  - intros t. assert (Ew : (if complement then - cis (- t) else cis (- t)) = cis (- (if complement then t - PI else t))).
    { destruct complement; [|reflexivity]. rewrite cis_shift. f_equal. ring. }
    transitivity (Rabs gain * magnitude u v (if complement then t - PI else t))%R.
    + unfold magnitude. rewrite Da, Nb, Ew. unfold Cdiv. rewrite <- Cmult_assoc, Cmod_mult, Cmod_R. reflexivity.
    + destruct complement; [|reflexivity]. f_equal. rewrite <- magnitude_even. f_equal. ring.
Qed.
Lemma designed_den roots residue eps style frequency order count (complement : bool) gain a b t : (0 < eps)%R ->
  iir_design roots residue eps style frequency order count complement gain = Ok (a, b) ->
  poles_found roots residue (py_title style) (Z.to_nat order) -> den a (cis (- t)) <> RtoC 0.
Proof.
  intros He H Hp Q. destruct (C110_iir_design_stable _ _ _ _ _ _ _ _ _ _ _ He H Hp) as [St _].
  rewrite cis_inv in Q. specialize (St (cis t) (cis_neq_0 t) Q). rewrite Cmod_cis in St. lra.
Qed.

(** ** C132 *)
Lemma title_of style s t : py_lower style = s -> In t iir_STYLE -> py_lower t = s -> py_title style = t.
Proof.
  intros H Hin Ht. assert (E : py_title style = py_title t) by (apply py_title_eq_iff; congruence).
  rewrite E. cbn in Hin. destruct Hin as [<-|[<-|[<-|[]]]]; reflexivity.
Qed.

Lemma butterworth_title style : py_lower style = "butterworth"%string -> py_title style = "Butterworth"%string.
Proof. intros H. apply (title_of _ _ _ H); [right; left; reflexivity|reflexivity]. Qed.
Lemma chebyshev_title style : py_lower style = "chebyshev"%string -> py_title style = "Chebyshev"%string.
Proof. intros H. apply (title_of _ _ _ H); [right; right; left; reflexivity|reflexivity]. Qed.

Lemma butterworth_candidate roots residue order f u v : (0 < order)%nat -> (0 < f)%R -> poles_found roots residue "Butterworth" order ->
  iir_evaluate roots residue "Butterworth" f order = Ok (u, v) ->
  forall t, (magnitude u v t ^ 2 * (cos (t / 2) ^ (2 * order) + (2 / (PI * f) * sin (t / 2)) ^ (2 * order)) = cos (t / 2) ^ (2 * order))%R.
Proof.
  intros Ho Hf Hp Ev t. assert (E2 : (0 ^ (2 * order) = 0)%R) by (apply pow_i; lia).
  destruct (candidate_magnitude roots residue "Butterworth" order f u v (fun x => 1 + x ^ (2 * order))%R Ho Hf Hp eq_refl Ev) as (H & _ & Z).
  { intros x. rewrite E2. change (prototype "Butterworth" order) with (butterworth order). rewrite (butterworth_magnitude order x Ho). ring. }
  destruct (Req_dec (cos (t / 2)) 0) as [Hc|Hc]; [rewrite (Z t Hc), Hc, E2; ring|].
  destruct (H t) as [M|C]; [|contradiction]. rewrite E2 in M. unfold tan in M.
  replace (2 / (PI * f) * (sin (t / 2) / cos (t / 2)))%R with (2 / (PI * f) * sin (t / 2) * / cos (t / 2))%R in M by (unfold Rdiv; ring).
  rewrite Rpow_mult_distr, pow_inv in M. set (S := (2 / (PI * f) * sin (t / 2))%R) in *.
  transitivity (magnitude u v t ^ 2 * (1 + S ^ (2 * order) * / cos (t / 2) ^ (2 * order)) * cos (t / 2) ^ (2 * order))%R; [field; apply pow_nonzero; exact Hc|]. rewrite M. ring.
Qed.

Lemma pow_lt_strict (x y : R) m : (0 <= x < y)%R -> (0 < m)%nat -> (x ^ m < y ^ m)%R.
Proof.
  intros H. induction m as [|[|m] IH]; intros Hm; [lia|rewrite !pow_1; lra|]. specialize (IH ltac:(lia)).
  rewrite <- !(tech_pow_Rmult _ (S m)). assert (0 <= x ^ S m)%R by (apply pow_le; lra). nra.
Qed.
(** C132.  A designed Butterworth filter has exactly the Butterworth magnitude
    |H|^2 = gain^2 / (1 + (c tan (t / 2))^(2 order)), t the angular frequency (mirrored
    for a high-pass), for one positive c; written without division so that it also
    covers t = pi. *)
Theorem C132_butterworth_magnitude roots residue eps style frequency order count (complement : bool) gain a b : (0 < eps)%R ->
  iir_design roots residue eps style frequency order count complement gain = Ok (a, b) ->
  py_lower style = "butterworth"%string -> poles_found roots residue "Butterworth" (Z.to_nat order) ->
  exists c, (0 < c)%R /\ forall theta, let t := (if complement then PI - theta else theta)%R in
    den a (cis (- theta)) <> 0 /\
    (magnitude a b theta ^ 2 * (cos (t / 2) ^ (2 * Z.to_nat order) + (c * sin (t / 2)) ^ (2 * Z.to_nat order)) = gain ^ 2 * cos (t / 2) ^ (2 * Z.to_nat order))%R.
Proof.
  intros He H Hs Hp. pose proof (butterworth_title _ Hs) as Ht.
  assert (Hp' : poles_found roots residue (py_title style) (Z.to_nat order)) by (rewrite Ht; exact Hp).
  destruct (design_candidate _ _ _ _ _ _ _ _ _ _ _ He H Hp') as (Hf & Ho & Hc & u & v & n & i & B & Sp & Ev & M).
  set (f := (if complement then 1 - frequency else frequency)%R) in *. set (s := scale_at _ _ _ _ i) in *. rewrite Ht in Ev.
  assert (Hs0 : (0 < s)%R) by apply Sp. assert (Hsf : (0 < s * f)%R) by nra. pose proof PI_RGT_0 as Pp.
  exists (2 / (PI * (s * f)))%R. split; [apply Rdiv_lt_0_compat; nra|]. intros theta t. split; [exact (designed_den _ _ _ _ _ _ _ _ _ _ _ theta He H Hp')|].
  rewrite M. fold t. pose proof (butterworth_candidate _ _ _ _ _ _ Ho Hsf Hp Ev t) as Q. rewrite Rpow_mult_distr, pow2_abs, Rmult_assoc, Q. reflexivity.
Qed.

(** The response falls strictly from |gain| at the pass end to zero at the stop end:
    no ripple and no resonance, whatever the order, frequency and count. *)
Theorem C132_butterworth_monotone roots residue eps style frequency order count (complement : bool) gain a b : (0 < eps)%R ->
  iir_design roots residue eps style frequency order count complement gain = Ok (a, b) ->
  py_lower style = "butterworth"%string -> poles_found roots residue "Butterworth" (Z.to_nat order) -> gain <> 0%R ->
  let H t := magnitude a b (if complement then PI - t else t) in
  H 0%R = Rabs gain /\ H PI = 0%R /\ forall t1 t2, (0 <= t1 -> t1 < t2 -> t2 <= PI -> H t2 < H t1)%R.
Proof.
  intros He HD Hs Hp Hg H. destruct (design_ok _ _ _ _ _ _ _ _ _ _ _ He HD) as (_ & Ho & _).
  destruct (C132_butterworth_magnitude _ _ _ _ _ _ _ _ _ _ _ He HD Hs Hp) as (c & Hc & M). set (n := Z.to_nat order) in *. assert (Hn : (0 < n)%nat) by (unfold n; lia).
  assert (E2 : (0 ^ (2 * n) = 0)%R) by (apply pow_i; lia). pose proof PI_RGT_0 as Pp.
  assert (M' : forall t, (H t ^ 2 * (cos (t / 2) ^ (2 * n) + (c * sin (t / 2)) ^ (2 * n)) = gain ^ 2 * cos (t / 2) ^ (2 * n))%R).
  { intros t. destruct (M (if complement then PI - t else t)%R) as [_ Q]. cbv zeta in Q.
    replace (if complement then PI - (if complement then PI - t else t) else if complement then PI - t else t)%R with t in Q by (destruct complement; ring). exact Q. }
  assert (Hpos : forall t, (0 <= H t)%R) by (intros t; apply Cmod_ge_0).
  assert (HPI : H PI = 0%R).
  { specialize (M' PI). rewrite cos_PI2, sin_PI2, E2, Rmult_1_r in M'. assert (Kp : (0 < c ^ (2 * n))%R) by (apply pow_lt, Hc).
    assert (Sq : (H PI ^ 2 = 0)%R) by (apply (Rmult_eq_reg_r (c ^ (2 * n))); lra). apply Rsqr_0_uniq. rewrite Rsqr_pow2. exact Sq. }
  assert (T : forall t, (0 <= t < PI -> H t ^ 2 * (1 + (c * tan (t / 2)) ^ (2 * n)) = gain ^ 2)%R).
  { intros t Ht. assert (Cp : (0 < cos (t / 2))%R) by (apply cos_gt_0; lra). specialize (M' t).
    assert (Q : (0 < cos (t / 2) ^ (2 * n))%R) by (apply pow_lt, Cp).
    replace (c * tan (t / 2))%R with (c * sin (t / 2) * / cos (t / 2))%R by (unfold tan, Rdiv; ring). rewrite (Rpow_mult_distr (c * sin (t / 2))), pow_inv.
    apply (Rmult_eq_reg_r (cos (t / 2) ^ (2 * n))); [|lra]. rewrite <- M'. field. lra. }
  assert (X0 : forall t, (0 <= t < PI -> 0 <= tan (t / 2))%R).
  { intros t Ht. destruct (Req_dec t 0) as [->|N]; [replace (0 / 2)%R with 0%R by field; rewrite tan_0; lra|]. left. apply tan_gt_0; lra. }
  split; [|split; [exact HPI|]].
  - assert (Z0 : (0 <= 0 < PI)%R) by lra. specialize (T 0%R Z0). replace (0 / 2)%R with 0%R in T by field. rewrite tan_0, Rmult_0_r, E2, Rplus_0_r, Rmult_1_r in T.
    apply Rsqr_inj; [apply Hpos|apply Rabs_pos|]. rewrite !Rsqr_pow2, pow2_abs. exact T.
  - intros t1 t2 H1 H12 H2. assert (A1 : (0 <= t1 < PI)%R) by lra. pose proof (T t1 A1) as T1. pose proof (X0 t1 A1) as Y1.
    assert (G2 : (0 < gain ^ 2)%R) by (rewrite <- Rsqr_pow2; apply Rsqr_pos_lt; exact Hg).
    assert (P1 : (0 <= (c * tan (t1 / 2)) ^ (2 * n))%R) by (apply pow_le; nra).
    assert (Q1 : (0 < H t1 ^ 2)%R) by (destruct (Rle_lt_dec (H t1 ^ 2) 0); [nra|assumption]).
    assert (Q1' : (0 < H t1)%R) by (specialize (Hpos t1); destruct Hpos as [K|K]; [exact K|rewrite <- K in Q1; lra]).
    destruct H2 as [H2| ->]; [|rewrite HPI; exact Q1'].
    assert (A2 : (0 <= t2 < PI)%R) by lra. pose proof (T t2 A2) as T2.
    assert (Lt : (tan (t1 / 2) < tan (t2 / 2))%R) by (apply tan_increasing; lra).
    assert (Lp : ((c * tan (t1 / 2)) ^ (2 * n) < (c * tan (t2 / 2)) ^ (2 * n))%R) by (apply pow_lt_strict; [split; nra|lia]).
    apply Rnot_le_lt. intros C. assert (C2 : (H t1 ^ 2 <= H t2 ^ 2)%R) by (apply pow_incr; split; [apply Hpos|exact C]). nra.
Qed.

(** ** C133 *)
Lemma cheb_rec n x : chebT (S (S n)) x = (2 * x * chebT (S n) x - chebT n x)%R.
Proof. unfold chebT. cbn [cheb_pair]. destruct (cheb_pair _ _ _ _ n) as [a b]. reflexivity. Qed.
Lemma cheb_ind (P : nat -> R -> Prop) x : P 0%nat 1%R -> P 1%nat x ->
  (forall n a b, P n a -> P (S n) b -> P (S (S n)) (2 * x * b - a)%R) -> forall n, P n (chebT n x).
Proof.
  intros H0 H1 H n. assert (K : P n (chebT n x) /\ P (S n) (chebT (S n) x)).
  { induction n as [|n [A B]]; [split; assumption|]. split; [exact B|]. rewrite cheb_rec. apply H; assumption. }
  apply K.
Qed.
Lemma cheb_cos n y : chebT n (cos y) = cos (INR n * y).
Proof.
  apply (cheb_ind (fun n t => t = cos (INR n * y))); [cbn [INR]; rewrite Rmult_0_l, cos_0; reflexivity|cbn [INR]; rewrite Rmult_1_l; reflexivity|].
  intros m a b -> ->. rewrite !S_INR.
  replace ((INR m + 1 + 1) * y)%R with ((INR m + 1) * y + y)%R by ring. replace (INR m * y)%R with ((INR m + 1) * y - y)%R by ring. rewrite cos_plus, cos_minus. ring.
Qed.
Lemma cheb_inside n x : (-1 <= x <= 1)%R -> (chebT n x ^ 2 <= 1)%R.
Proof.
  intros H. rewrite <- (cos_acos x H), cheb_cos. pose proof (COS_bound (INR n * acos x)) as B. nra.
Qed.
Lemma cheb_outside n x y : (1 <= x < y)%R -> (0 < n)%nat -> (1 <= chebT n x < chebT n y)%R.
Proof.
  intros H. assert (K : (1 <= chebT n x /\ chebT n x <= chebT n y /\ 0 <= chebT (S n) x - chebT n x < chebT (S n) y - chebT n y)%R).
  { induction n as [|n IH]; [unfold chebT; cbn; lra|]. rewrite !cheb_rec. destruct IH as (A & B & D). repeat split; try lra.
    - assert (0 <= (x - 1) * chebT (S n) x)%R by (apply Rmult_le_pos; lra). lra.
    - assert ((x - 1) * chebT (S n) x <= (y - 1) * chebT (S n) y)%R by (apply Rmult_le_compat; lra). lra. }
  intros Hn. destruct n as [|n]; [lia|]. clear Hn. split; [apply K|].
  assert (K0 : (1 <= chebT n x /\ chebT n x <= chebT n y /\ 0 <= chebT (S n) x - chebT n x < chebT (S n) y - chebT n y)%R).
  { clear K. induction n as [|n IH]; [unfold chebT; cbn; lra|]. rewrite !cheb_rec. destruct IH as (A & B & D). repeat split; try lra.
    - assert (0 <= (x - 1) * chebT (S n) x)%R by (apply Rmult_le_pos; lra). lra.
    - assert ((x - 1) * chebT (S n) x <= (y - 1) * chebT (S n) y)%R by (apply Rmult_le_compat; lra). lra. }
  lra.
Qed.
Lemma cheb_ge1 n x : (1 <= x)%R -> (1 <= chebT n x)%R.
Proof.
  intros H. destruct n as [|n]; [unfold chebT; cbn; lra|]. apply (cheb_outside (S n) x (x + 1)); [lra|lia].
Qed.
Lemma cheb_zero n : (chebT n 0 ^ 2 = if Nat.even n then 1 else 0)%R.
Proof.
  assert (K : (chebT n 0 ^ 2 = if Nat.even n then 1 else 0)%R /\ (chebT (S n) 0 ^ 2 = if Nat.even (S n) then 1 else 0)%R); [|apply K].
  induction n as [|n [A B]]; [unfold chebT; cbn; lra|]. split; [exact B|]. rewrite cheb_rec. change (Nat.even (S (S n))) with (Nat.even n). rewrite <- A. ring.
Qed.
Lemma chebyshev_candidate roots residue order f u v : (0 < order)%nat -> (0 < f)%R -> poles_found roots residue "Chebyshev" order ->
  iir_evaluate roots residue "Chebyshev" f order = Ok (u, v) ->
  forall t, (cos (t / 2) <> 0 -> magnitude u v t ^ 2 * (1 + cheby_eps2 * chebT order (tan (t / 2) / (PI * PI * f)) ^ 2) = 1 + cheby_eps2 * chebT order 0 ^ 2)%R.
Proof.
  intros Ho Hf Hp Ev t Hc. pose proof PI_RGT_0 as Pp.
  destruct (candidate_magnitude roots residue "Chebyshev" order f u v (fun x => 1 + cheby_eps2 * chebT order (x / (2 * PI)) ^ 2)%R Ho Hf Hp eq_refl Ev) as (H & _ & _).
  { intros x. replace (0 / (2 * PI))%R with 0%R by (field; lra). change (prototype "Chebyshev" order) with (chebyshev order).
    rewrite <- (chebyshev_magnitude order (x / (2 * PI)) Ho). replace (2 * PI * (x / (2 * PI)))%R with x by (field; lra). ring. }
  destruct (H t) as [M|C]; [|contradiction]. replace (0 / (2 * PI))%R with 0%R in M by (field; lra).
  replace (2 / (PI * f) * tan (t / 2) / (2 * PI))%R with (tan (t / 2) / (PI * PI * f))%R in M by (field; lra). exact M.
Qed.

(** C133.  A designed Chebyshev filter has exactly the Chebyshev (type I) magnitude
    |H|^2 = gain^2 (1 + e^2 T_n(0)^2) / (1 + e^2 T_n(c tan (t / 2))^2) with e^2 = 10^0.0125 - 1,
    that is a ripple of 0.125 dB, for one positive c. *)
Theorem C133_chebyshev_magnitude roots residue eps style frequency order count (complement : bool) gain a b : (0 < eps)%R ->
  iir_design roots residue eps style frequency order count complement gain = Ok (a, b) ->
  py_lower style = "chebyshev"%string -> poles_found roots residue "Chebyshev" (Z.to_nat order) ->
  exists c, (0 < c)%R /\ forall theta, let t := (if complement then PI - theta else theta)%R in
    den a (cis (- theta)) <> 0 /\
    (cos (t / 2) <> 0 -> magnitude a b theta ^ 2 * (1 + (Rpower 10 (125 / 10000) - 1) * chebT (Z.to_nat order) (c * tan (t / 2)) ^ 2) =
      gain ^ 2 * (1 + (Rpower 10 (125 / 10000) - 1) * (if Z.even order then 1 else 0)))%R.
Proof.
  intros He H Hs Hp. pose proof (chebyshev_title _ Hs) as Ht.
  assert (Hp' : poles_found roots residue (py_title style) (Z.to_nat order)) by (rewrite Ht; exact Hp).
  destruct (design_candidate _ _ _ _ _ _ _ _ _ _ _ He H Hp') as (Hf & Ho & Hc & u & v & n & i & B & Sp & Ev & M).
  set (f := (if complement then 1 - frequency else frequency)%R) in *. set (s := scale_at _ _ _ _ i) in *. rewrite Ht in Ev.
  assert (Hs0 : (0 < s)%R) by apply Sp. assert (Hsf : (0 < s * f)%R) by nra. pose proof PI_RGT_0 as Pp.
  assert (Pf : (0 < PI * PI * (s * f))%R) by (apply Rmult_lt_0_compat; nra).
  exists (/ (PI * PI * (s * f)))%R. split; [apply Rinv_0_lt_compat; exact Pf|]. intros theta t. split; [exact (designed_den _ _ _ _ _ _ _ _ _ _ _ theta He H Hp')|].
  intros Hcos. rewrite M. fold t. pose proof (chebyshev_candidate _ _ _ _ _ _ Ho Hsf Hp Ev t Hcos) as Q. rewrite cheb_zero in Q.
  assert (Ee : Nat.even (Z.to_nat order) = Z.even order).
  { rewrite <- (Z2Nat.id order) at 2 by lia. destruct (Nat.even (Z.to_nat order)) eqn:E.
    - apply Nat.even_spec in E. destruct E as [k ->]. rewrite Nat2Z.inj_mul, Z.even_mul. reflexivity.
    - rewrite <- Nat.negb_odd in E. apply Bool.negb_false_iff, Nat.odd_spec in E. destruct E as [k ->]. rewrite Nat2Z.inj_add, Nat2Z.inj_mul, Z.even_add, Z.even_mul. reflexivity. }
  rewrite Ee in Q. unfold cheby_eps2 in Q. replace (1 / 10 * (125 / 1000))%R with (125 / 10000)%R in Q by field.
  replace (/ (PI * PI * (s * f)) * tan (t / 2))%R with (tan (t / 2) / (PI * PI * (s * f)))%R by (unfold Rdiv; ring).
  rewrite Rpow_mult_distr, pow2_abs, Rmult_assoc, Q. reflexivity.
Qed.

(** Consequences: the response is an equal-ripple one.  There is an edge frequency t0;
    up to it the response stays within 0.125 dB, and beyond it falls strictly to zero.  For
    an odd order the band is (gain 10^-0.00625, gain); for an even order it is
    (gain, gain 10^0.00625), so that the response exceeds the requested gain. *)
Theorem C133_chebyshev_ripple roots residue eps style frequency order count (complement : bool) gain a b : (0 < eps)%R ->
  iir_design roots residue eps style frequency order count complement gain = Ok (a, b) ->
  py_lower style = "chebyshev"%string -> poles_found roots residue "Chebyshev" (Z.to_nat order) -> gain <> 0%R ->
  let H t := magnitude a b (if complement then PI - t else t) in
  let r := Rpower 10 (125 / 10000) in
  let top := (gain ^ 2 * if Z.even order then r else 1)%R in
  exists t0, (0 < t0 < PI)%R /\
    (forall t, 0 <= t <= t0 -> top / r <= H t ^ 2 <= top)%R /\
    (H t0 ^ 2 = top / r)%R /\
    (forall t1 t2, t0 <= t1 -> t1 < t2 -> t2 < PI -> H t2 < H t1)%R.
Proof.
  intros He HD Hs Hp Hg H r top. destruct (design_ok _ _ _ _ _ _ _ _ _ _ _ He HD) as (_ & Ho & _).
  destruct (C133_chebyshev_magnitude _ _ _ _ _ _ _ _ _ _ _ He HD Hs Hp) as (c & Hc & M). fold r in M. set (n := Z.to_nat order) in *. assert (Hn : (0 < n)%nat) by (unfold n; lia).
  pose proof PI_RGT_0 as Pp. pose proof cheby_eps2_pos as Er. unfold cheby_eps2 in Er. replace (1 / 10 * (125 / 1000))%R with (125 / 10000)%R in Er by field. fold r in Er.
  assert (G2 : (0 < gain ^ 2)%R) by (rewrite <- Rsqr_pow2; apply Rsqr_pos_lt; exact Hg).
  assert (Tp : (0 < top)%R) by (unfold top; destruct (Z.even order); nra).
  assert (T : forall t, (0 <= t < PI -> H t ^ 2 * (1 + (r - 1) * chebT n (c * tan (t / 2)) ^ 2) = top)%R).
  { intros t Ht. assert (Cp : (0 < cos (t / 2))%R) by (apply cos_gt_0; lra).
    destruct (M (if complement then PI - t else t)%R) as [_ Q]. cbv zeta in Q.
    replace (if complement then PI - (if complement then PI - t else t) else if complement then PI - t else t)%R with t in Q by (destruct complement; ring).
    transitivity (gain ^ 2 * (1 + (r - 1) * (if Z.even order then 1 else 0)))%R; [apply Q; lra|]. unfold top. destruct (Z.even order); ring. }
  assert (Tm : forall x y, (0 <= x -> x < y -> y < PI -> tan (x / 2) < tan (y / 2))%R) by (intros x y Hx Hxy Hy; apply tan_increasing; lra).
  assert (Hpos : forall t, (0 <= H t)%R) by (intros t; apply Cmod_ge_0).
  set (t0 := (2 * atan (/ c))%R). assert (Ci0 : (0 < / c)%R) by (apply Rinv_0_lt_compat; exact Hc).
  assert (B0 : (0 < t0 < PI)%R).
  { pose proof (atan_bound (/ c)) as AB. pose proof (atan_increasing 0 (/ c) Ci0) as AI. rewrite atan_0 in AI. unfold t0. lra. }
  assert (X0 : (c * tan (t0 / 2) = 1)%R). { unfold t0. replace (2 * atan (/ c) / 2)%R with (atan (/ c)) by field. rewrite tan_atan. field. lra. }
  exists t0. split; [exact B0|]. split; [|split].
  - intros t Ht. assert (I : (-1 <= c * tan (t / 2) <= 1)%R).
    { assert (0 <= tan (t / 2))%R by (destruct (Req_dec t 0) as [->|N]; [replace (0 / 2)%R with 0%R by field; rewrite tan_0; lra|left; apply tan_gt_0; lra]).
      assert (tan (t / 2) <= tan (t0 / 2))%R by (destruct (Req_dec t t0) as [->|N]; [lra|left; apply Tm; lra]). split; [nra|]. rewrite <- X0. apply Rmult_le_compat_l; lra. }
    pose proof (cheb_inside n _ I) as J. assert (Hp0 : (0 <= t < PI)%R) by lra. specialize (T t Hp0). set (Y := (chebT n (c * tan (t / 2)) ^ 2)%R) in *.
    assert (Y0 : (0 <= Y)%R) by (unfold Y; apply pow2_ge_0). assert (H2 : (0 <= H t ^ 2)%R) by apply pow2_ge_0.
    assert (K : (0 <= H t ^ 2 * ((r - 1) * Y))%R) by (apply Rmult_le_pos; [exact H2|apply Rmult_le_pos; lra]).
    split; [|lra]. apply (Rmult_le_reg_r r); [lra|]. replace (top / r * r)%R with top by (field; lra). rewrite <- T. apply Rmult_le_compat_l; [exact H2|nra].
  - assert (Hp0 : (0 <= t0 < PI)%R) by lra. specialize (T t0 Hp0). rewrite X0 in T.
    assert (C1 : chebT n 1 = 1%R) by (rewrite <- cos_0, cheb_cos, Rmult_0_r; reflexivity). rewrite C1 in T. rewrite <- T. field. lra.
  - intros t1 t2 H1 H12 H2. assert (A1 : (0 <= t1 < PI)%R) by lra. assert (A2 : (0 <= t2 < PI)%R) by lra. pose proof (T t1 A1) as T1. pose proof (T t2 A2) as T2.
    assert (I1 : (1 <= c * tan (t1 / 2))%R). { rewrite <- X0. apply Rmult_le_compat_l; [lra|]. destruct (Req_dec t0 t1) as [->|N]; [lra|left; apply Tm; lra]. }
    assert (I2 : (c * tan (t1 / 2) < c * tan (t2 / 2))%R) by (apply Rmult_lt_compat_l; [lra|apply Tm; lra]).
    destruct (cheb_outside n _ _ (conj I1 I2) Hn) as [J1 J2].
    set (y1 := chebT n (c * tan (t1 / 2))) in *. set (y2 := chebT n (c * tan (t2 / 2))) in *. assert (Y : (y1 ^ 2 < y2 ^ 2)%R) by nra.
    assert (Y1 : (0 <= y1 ^ 2)%R) by apply pow2_ge_0.
    apply Rnot_le_lt. intros C. assert (C2 : (H t1 ^ 2 <= H t2 ^ 2)%R) by (apply pow_incr; split; [apply Hpos|exact C]).
    assert (Z1 : (0 < H t1 ^ 2)%R).
    { pose proof (pow2_ge_0 (H t1)) as Z0. destruct (Rle_lt_dec (H t1 ^ 2) 0) as [Z2|Z2]; [|exact Z2]. replace (H t1 ^ 2)%R with 0%R in T1 by lra. lra. }
    assert (E1 : (1 + (r - 1) * y1 ^ 2 < 1 + (r - 1) * y2 ^ 2)%R) by nra.
    assert (E0 : (0 < 1 + (r - 1) * y1 ^ 2)%R) by nra.
    assert (F : (H t1 ^ 2 * (1 + (r - 1) * y1 ^ 2) < H t2 ^ 2 * (1 + (r - 1) * y2 ^ 2))%R) by (apply Rle_lt_trans with (H t2 ^ 2 * (1 + (r - 1) * y1 ^ 2))%R; [apply Rmult_le_compat_r; lra|apply Rmult_lt_compat_l; lra]). lra.
Qed.

(** The requested gain is not the largest gain of an even-order Chebyshev filter: some
    frequency is passed 0.125 dB (a factor 10^0.00625) above it. *)
Theorem C133_chebyshev_gain_refuted roots residue eps style frequency order count (complement : bool) gain a b : (0 < eps)%R ->
  iir_design roots residue eps style frequency order count complement gain = Ok (a, b) ->
  py_lower style = "chebyshev"%string -> poles_found roots residue "Chebyshev" (Z.to_nat order) -> gain <> 0%R -> Z.even order = true ->
  exists theta, (0 < theta < PI)%R /\ (magnitude a b theta ^ 2 = gain ^ 2 * Rpower 10 (125 / 10000))%R /\ (Rabs gain < magnitude a b theta)%R.
Proof.
  intros He HD Hs Hp Hg Ev. destruct (design_ok _ _ _ _ _ _ _ _ _ _ _ He HD) as (_ & Ho & _).
  destruct (C133_chebyshev_magnitude _ _ _ _ _ _ _ _ _ _ _ He HD Hs Hp) as (c & Hc & M). rewrite Ev in M. set (r := Rpower 10 (125 / 10000)) in *. set (n := Z.to_nat order) in *. assert (Hn : (0 < n)%nat) by (unfold n; lia).
  pose proof PI_RGT_0 as Pp. pose proof cheby_eps2_pos as Er. unfold cheby_eps2 in Er. replace (1 / 10 * (125 / 1000))%R with (125 / 10000)%R in Er by field. fold r in Er.
  assert (N2 : (2 <= INR n)%R).
  { assert (2 <= n)%nat; [|apply (le_INR 2); assumption]. unfold n. destruct (Z.eq_dec order 1) as [->|N]; [discriminate|lia]. }
  set (y := (PI / (2 * INR n))%R). assert (Y : (0 < y < PI / 2)%R).
  { unfold y. split; [apply Rdiv_lt_0_compat; lra|]. apply (Rmult_lt_reg_r (2 * INR n)); [lra|]. replace (PI / (2 * INR n) * (2 * INR n))%R with PI by (field; lra). nra. }
  assert (Cy : (0 < cos y)%R) by (apply cos_gt_0; lra). assert (X : (0 < cos y / c)%R) by (apply Rdiv_lt_0_compat; assumption).
  set (t := (2 * atan (cos y / c))%R). assert (B : (0 < t < PI)%R).
  { pose proof (atan_bound (cos y / c)) as AB. pose proof (atan_increasing 0 (cos y / c) X) as AI. rewrite atan_0 in AI. unfold t. lra. }
  assert (Et : (c * tan (t / 2) = cos y)%R). { unfold t. replace (2 * atan (cos y / c) / 2)%R with (atan (cos y / c)) by field. rewrite tan_atan. field. lra. }
  exists (if complement then PI - t else t)%R. split; [destruct complement; lra|]. destruct (M (if complement then PI - t else t)%R) as [_ Q]. cbv zeta in Q.
  replace (if complement then PI - (if complement then PI - t else t) else if complement then PI - t else t)%R with t in Q by (destruct complement; ring).
  assert (Cp : (0 < cos (t / 2))%R) by (apply cos_gt_0; lra).
  rewrite Et, cheb_cos in Q. replace (INR n * y)%R with (PI / 2)%R in Q by (unfold y; field; lra). rewrite cos_PI2 in Q.
  match type of Q with _ -> (?m ^ 2 * _ = _)%R => set (h := m) in * end. assert (E : (h ^ 2 = gain ^ 2 * r)%R) by (transitivity (h ^ 2 * (1 + (r - 1) * 0 ^ 2))%R; [ring|rewrite Q by lra; ring]).
  split; [exact E|]. assert (G2 : (0 < gain ^ 2)%R) by (rewrite <- Rsqr_pow2; apply Rsqr_pos_lt; exact Hg).
  apply Rsqr_incrst_0; [|apply Rabs_pos|apply Cmod_ge_0]. rewrite <- Rsqr_abs, !Rsqr_pow2, E. nra.
Qed.

(** ** C134 *)
(** The search, seen from outside: every step adds rate times the error. *)
Section Search.
  Variables (V : Type) (cand : R -> option V) (err : V -> R) (eps rate top tol : R).
  Hypotheses (Heps : (0 < eps <= 1)%R) (Hrate : (0 < rate)%R) (Htop : (1 <= top)%R).
  Hypothesis Hsafe : forall s, (1 <= s <= top)%R -> (0 <= cand_err cand err s /\ rate * cand_err cand err s <= top - s)%R.
  Lemma scale_steps k : (1 <= scale_at cand err eps rate k <= top)%R /\
    scale_at cand err eps rate (S k) = (scale_at cand err eps rate k + rate * cand_err cand err (scale_at cand err eps rate k))%R.
  Proof.
    assert (St : forall s, (1 <= s <= top)%R -> Rmax (s + rate * cand_err cand err s) eps = (s + rate * cand_err cand err s)%R).
    { intros s Hs. destruct (Hsafe s Hs) as [A B]. apply Rmax_left. assert (0 <= rate * cand_err cand err s)%R by (apply Rmult_le_pos; lra). lra. }
    assert (Bd : (1 <= scale_at cand err eps rate k <= top)%R).
    { induction k as [|k IH]; [cbn; lra|]. cbn [scale_at]. rewrite (St _ IH). destruct (Hsafe _ IH) as [A B]. assert (0 <= rate * cand_err cand err (scale_at cand err eps rate k))%R by (apply Rmult_le_pos; lra). lra. }
    split; [exact Bd|]. cbn [scale_at]. apply St, Bd.
  Qed.
  Lemma search_error limit n i v : (0 < limit)%nat -> best_of cand err eps rate limit tol n i v ->
    (0 <= err v <= Rmax tol ((top - 1) / (INR limit * rate)))%R.
  Proof.
    intros Hl (Hin & Hc & Hmin & _ & Hstop & _).
    assert (Ei : err v = cand_err cand err (scale_at cand err eps rate i)) by (unfold cand_err; rewrite Hc; reflexivity).
    assert (Pe : forall k, (0 <= cand_err cand err (scale_at cand err eps rate k))%R) by (intros k; apply Hsafe, scale_steps).
    assert (Mk : forall k, mag_at cand err eps rate k = cand_err cand err (scale_at cand err eps rate k)) by (intros k; apply Rabs_pos_eq, Pe).
    rewrite Ei. split; [apply Pe|]. destruct Hstop as [->|Hs].
    - eapply Rle_trans; [|apply Rmax_r].
      assert (K : forall m, (m <= limit)%nat -> (1 + INR m * rate * cand_err cand err (scale_at cand err eps rate i) <= scale_at cand err eps rate m)%R).
      { induction m as [|m IH]; intros Hm; [cbn; lra|]. rewrite (proj2 (scale_steps m)), S_INR. specialize (IH ltac:(lia)). specialize (Hmin m ltac:(lia)). rewrite !Mk in Hmin.
        assert (rate * cand_err cand err (scale_at cand err eps rate i) <= rate * cand_err cand err (scale_at cand err eps rate m))%R by (apply Rmult_le_compat_l; lra). lra. }
      specialize (K limit (Nat.le_refl _)). destruct (scale_steps limit) as [[_ B] _]. assert (0 < INR limit)%R by (apply lt_0_INR; exact Hl).
      apply (Rmult_le_reg_r (INR limit * rate)); [nra|]. unfold Rdiv. rewrite Rmult_assoc, Rinv_l by nra. lra.
    - eapply Rle_trans; [|apply Rmax_l]. specialize (Hmin (n - 1)%nat ltac:(lia)). rewrite Mk in Hmin. lra.
  Qed.
End Search.
Lemma bernoulli y m : (0 <= y <= 1)%R -> (1 - INR m * (1 - y) <= y ^ m)%R.
Proof.
  intros H. induction m as [|m IH]; [cbn; lra|]. rewrite S_INR, <- tech_pow_Rmult.
  assert (y * (1 - INR m * (1 - y)) <= y * y ^ m)%R by (apply Rmult_le_compat_l; lra). assert (0 <= INR m)%R by apply pos_INR.
  assert (0 <= INR m * (1 - y) * (1 - y))%R by (apply Rmult_le_pos; [apply Rmult_le_pos; lra|lra]). lra.
Qed.
Lemma sqrt2_facts : (0 < sqrt 2)%R /\ (sqrt 2 * sqrt 2 = 2)%R.
Proof. split; [apply sqrt_lt_R0; lra|apply sqrt_sqrt; lra]. Qed.
Lemma pow_sq_le (x y : R) : (0 <= y -> x ^ 2 <= y ^ 2 -> x <= y)%R.
Proof. intros H K. apply Rnot_lt_le. intros C. nra. Qed.

(** Gain of a Butterworth candidate, as a function of scale, against its target. *)
Lemma corner_bounds (n cnt : nat) (A x s h rate : R) : (0 < n)%nat -> (0 < x)%R -> (x <= A)%R -> ((1 + x ^ (2 * n)) ^ cnt = 2)%R -> (1 <= s <= A / x)%R -> (0 <= h)%R ->
  (h ^ 2 * (1 + (A / s) ^ (2 * n)) = 1)%R -> (0 < rate)%R -> (rate * INR n * INR cnt <= sqrt 2)%R ->
  (0 <= / sqrt 2 - h ^ cnt /\ rate * (/ sqrt 2 - h ^ cnt) <= A / x - s)%R.
Proof.
  intros Hn Hx HA Ht Hs Hh Hm Hr Hb. destruct sqrt2_facts as [S0 S2]. set (S := (A / x)%R) in *.
  assert (ES : A = (S * x)%R) by (unfold S; field; lra). assert (S1 : (1 <= S)%R) by lra.
  set (r := (S / s)%R). assert (Er : (A / s = x * r)%R) by (unfold r; rewrite ES; field; lra).
  assert (R1 : (1 <= r)%R). { unfold r. apply (Rmult_le_reg_r s); [lra|]. replace (S / s * s)%R with S by (field; lra). lra. }
  set (U := (x ^ (2 * n))%R) in *. assert (U0 : (0 < U)%R) by (apply pow_lt, Hx).
  assert (EU : ((A / s) ^ (2 * n) = U * r ^ (2 * n))%R) by (rewrite Er, Rpow_mult_distr; reflexivity).
  set (W := (r ^ (2 * n))%R) in *. assert (W1 : (1 <= W)%R) by (apply pow_R1_Rle; exact R1). rewrite EU in Hm.
  assert (Hc : ((h ^ cnt) ^ 2 * (1 + U * W) ^ cnt = 1)%R).
  { rewrite <- pow_mult, Nat.mul_comm, pow_mult, <- Rpow_mult_distr, Hm. apply pow1. }
  assert (L1 : (2 <= (1 + U * W) ^ cnt)%R) by (rewrite <- Ht; apply pow_incr; nra).
  assert (L2 : ((1 + U * W) ^ cnt <= 2 * W ^ cnt)%R) by (rewrite <- Ht, <- Rpow_mult_distr; apply pow_incr; split; nra).
  set (g := (h ^ cnt)%R) in *. assert (G0 : (0 <= g)%R) by (apply pow_le, Hh). set (Z := ((1 + U * W) ^ cnt)%R) in *.
  assert (Si : (/ sqrt 2 * / sqrt 2 = / 2)%R) by (rewrite <- Rinv_mult, S2; reflexivity).
  assert (I0 : (0 < / sqrt 2)%R) by (apply Rinv_0_lt_compat; exact S0).
  assert (Up : (g <= / sqrt 2)%R). { apply pow_sq_le; [lra|]. replace ((/ sqrt 2) ^ 2)%R with (/ 2)%R by (rewrite <- Si; ring). nra. }
  split; [lra|]. set (q := ((s / S) ^ (n * cnt))%R).
  assert (Y : (0 <= s / S <= 1)%R). { split; [apply Rlt_le, Rdiv_lt_0_compat; lra|]. apply (Rmult_le_reg_r S); [lra|]. replace (s / S * S)%R with s by (field; lra). lra. }
  assert (Q0 : (0 <= q)%R) by (apply pow_le, Y).
  assert (EW : (W ^ cnt * q ^ 2 = 1)%R).
  { unfold W, q. rewrite <- !pow_mult. replace (n * cnt * 2)%nat with (2 * n * cnt)%nat by lia. rewrite <- Rpow_mult_distr. unfold r. replace (S / s * (s / S))%R with 1%R by (field; lra). apply pow1. }
  assert (Wp : (1 <= W ^ cnt)%R) by (apply pow_R1_Rle; exact W1).
  assert (Lo : (/ sqrt 2 * q <= g)%R).
  { apply pow_sq_le; [exact G0|]. replace ((/ sqrt 2 * q) ^ 2)%R with (/ 2 * q ^ 2)%R by (rewrite <- Si; ring).
    apply (Rmult_le_reg_r (2 * W ^ cnt)); [lra|]. replace (/ 2 * q ^ 2 * (2 * W ^ cnt))%R with (W ^ cnt * q ^ 2)%R by field. rewrite EW, <- Hc. apply Rmult_le_compat_l; [apply pow2_ge_0|exact L2]. }
  pose proof (bernoulli (s / S) (n * cnt) Y) as Be. fold q in Be. rewrite mult_INR in Be.
  assert (D : (/ sqrt 2 - g <= / sqrt 2 * (INR n * INR cnt * (1 - s / S)))%R) by nra.
  assert (D2 : (rate * (/ sqrt 2 - g) <= 1 - s / S)%R).
  { apply Rle_trans with (rate * (/ sqrt 2 * (INR n * INR cnt * (1 - s / S))))%R; [apply Rmult_le_compat_l; lra|].
    replace (rate * (/ sqrt 2 * (INR n * INR cnt * (1 - s / S))))%R with (rate * INR n * INR cnt * / sqrt 2 * (1 - s / S))%R by ring.
    assert (rate * INR n * INR cnt * / sqrt 2 <= 1)%R; [|nra]. apply (Rmult_le_reg_r (sqrt 2)); [exact S0|]. rewrite Rmult_assoc, Rinv_l by lra. lra. }
  replace (S - s)%R with (S * (1 - s / S))%R by (field; lra). nra.
Qed.

Lemma tan_ge t : (0 < t < PI / 2)%R -> (t <= tan t)%R.
Proof.
  intros H. rewrite <- (atan_tan t) at 1 by lra. assert (T : (0 < tan t)%R) by (apply tan_gt_0; lra).
  destruct (MVT_cor2 atan (fun x => / (1 + x ^ 2))%R 0 (tan t) T) as (c & E & Hc).
  { intros x _. apply derivable_pt_lim_atan. }
  rewrite atan_0 in E. assert (/ (1 + c ^ 2) <= 1)%R by (rewrite <- Rinv_1; apply Rinv_le_contravar; [lra|pose proof (pow2_ge_0 c); lra]). nra.
Qed.
Definition warp (f : R) : R := (tan (PI * f / 2) / (PI * f / 2))%R.
Lemma warp_ge f : (0 < f < 1)%R -> (1 <= warp f)%R.
Proof.
  intros Hf. pose proof PI_RGT_0 as Pp. unfold warp. assert (H : (0 < PI * f / 2 < PI / 2)%R) by (split; nra). pose proof (tan_ge _ H) as T.
  apply (Rmult_le_reg_r (PI * f / 2)); [lra|]. unfold Rdiv at 2. rewrite Rmult_assoc, Rinv_l by lra. lra.
Qed.
Lemma butterworth_corner_gain roots residue order f s u v : (0 < order)%nat -> (0 < f < 1)%R -> (0 < s)%R -> poles_found roots residue "Butterworth" order ->
  iir_evaluate roots residue "Butterworth" (s * f) order = Ok (u, v) ->
  (magnitude u v (PI * f) ^ 2 * (1 + (warp f / s) ^ (2 * order)) = 1)%R.
Proof.
  intros Ho Hf Hs Hp Ev. pose proof PI_RGT_0 as Pp. assert (Hsf : (0 < s * f)%R) by nra. pose proof (butterworth_candidate _ _ _ _ _ _ Ho Hsf Hp Ev (PI * f)) as Q.
  assert (Cp : (0 < cos (PI * f / 2))%R) by (apply cos_gt_0; nra). assert (Cn : (0 < cos (PI * f / 2) ^ (2 * order))%R) by (apply pow_lt, Cp).
  apply (Rmult_eq_reg_r (cos (PI * f / 2) ^ (2 * order))); [|lra]. rewrite Rmult_1_l. rewrite <- Q at 2. rewrite Rmult_assoc. f_equal.
  rewrite Rmult_plus_distr_r, Rmult_1_l, <- Rpow_mult_distr. do 2 f_equal. unfold warp, tan. field. repeat split; lra.
Qed.

(** C134.  How close the corner is.  The requested gain at [frequency] after [count]
    passes is 1 / sqrt 2.  The obtained gain rho^count is never above it and is short of
    it by at most (S - 1) / (500 rate), S being the scale factor that would be exact (or by
    the tolerance 10^4 eps of the search). *)
Theorem C134_butterworth_corner roots residue eps style frequency order count (complement : bool) gain a b (x : R) : (0 < eps <= 1)%R ->
  iir_design roots residue eps style frequency order count complement gain = Ok (a, b) ->
  py_lower style = "butterworth"%string -> poles_found roots residue "Butterworth" (Z.to_nat order) ->
  (0 < x)%R -> ((1 + x ^ (2 * Z.to_nat order)) ^ Z.to_nat count = 2)%R ->
  (step_rate order count * IZR order * IZR count <= sqrt 2)%R ->
  let f := (if complement then 1 - frequency else frequency)%R in
  exists rho, (0 <= rho)%R /\ magnitude a b (PI * frequency) = (Rabs gain * rho)%R /\
    (0 <= / sqrt 2 - rho ^ Z.to_nat count <= Rmax (10000 * eps) ((tan (PI * f / 2) / (PI * f / 2) / x - 1) / (500 * step_rate order count)))%R.
Proof.
  intros He H Hs Hp Hx Ht Hr f. pose proof (butterworth_title _ Hs) as Tt.
  assert (Hp' : poles_found roots residue (py_title style) (Z.to_nat order)) by (rewrite Tt; exact Hp).
  destruct (design_candidate _ _ _ _ _ _ _ _ _ _ _ (proj1 He) H Hp') as (Hf & Ho & Hc & u & v & n & i & B & Sp & Ev & M). fold f in Hf, B, Sp, Ev. cbv zeta in B, Sp, Ev.
  set (cand := fun scale => match iir_evaluate roots residue (py_title style) (scale * f) (Z.to_nat order) with Ok uv => Some uv | Err _ => None end) in *.
  set (err := fun uv : list R * list R => (/ sqrt 2 - magnitude (fst uv) (snd uv) (PI * f) ^ Z.to_nat count)%R) in *.
  exists (magnitude u v (PI * f)). split; [apply Cmod_ge_0|]. split.
  { rewrite M. do 2 f_equal. unfold f. destruct complement; ring. }
  change (/ sqrt 2 - magnitude u v (PI * f) ^ Z.to_nat count)%R with (err (u, v)). change 500%R with (IZR (Z.of_nat 500)). rewrite <- INR_IZR_INZ.
  assert (Rp : (0 < step_rate order count)%R) by (unfold step_rate; destruct (_ || _)%bool; lra).
  pose proof (warp_ge f Hf) as W. fold (warp f).
  assert (X1 : (x <= 1)%R).
  { apply Rnot_lt_le. intros C. assert (P1 : (1 < x ^ (2 * Z.to_nat order))%R) by (apply Rlt_pow_R1; [exact C|lia]).
    assert (P2 : (2 ^ Z.to_nat count < (1 + x ^ (2 * Z.to_nat order)) ^ Z.to_nat count)%R) by (apply pow_lt_strict; [lra|exact Hc]).
    assert (P3 : (2 ^ 1 <= 2 ^ Z.to_nat count)%R) by (apply Rle_pow; [lra|lia]). rewrite pow_1 in P3. lra. }
  assert (T1 : (1 <= warp f / x)%R). { apply (Rmult_le_reg_r x); [exact Hx|]. replace (warp f / x * x)%R with (warp f) by (field; lra). lra. }
  apply (search_error _ cand err eps (step_rate order count) (warp f / x) (10000 * eps) He Rp T1) with (n := n) (i := i); [|lia|exact B].
  intros s Hsr. assert (Hsf : (0 < s * f)%R) by nra. destruct (C18_iir_candidate roots residue (py_title style) (Z.to_nat order) (s * f) Ho Hsf Hp') as (u1 & v1 & E & _).
  unfold cand_err, cand. rewrite E. unfold err. cbn [fst snd]. rewrite Tt in E.
  apply (corner_bounds (Z.to_nat order) (Z.to_nat count) (warp f) x s _ _ Ho Hx); [lra|exact Ht|exact Hsr|apply Cmod_ge_0| |exact Rp|].
  - apply (butterworth_corner_gain roots residue _ f s); [exact Ho|exact Hf|lra|exact Hp|exact E].
  - rewrite !INR_IZR_INZ, !Z2Nat.id by lia. exact Hr.
Qed.

(** A readable instance: orders up to 8 and one pass; the corner is missed by less than
    2.3 % of the gain when the frequency is half of Nyquist. *)
Theorem C134_half_band roots residue eps order (complement : bool) gain a b : (0 < eps <= 1 / 1000000)%R -> (order <= 8)%Z ->
  iir_design roots residue eps "Butterworth" (1 / 2) order 1 complement gain = Ok (a, b) ->
  poles_found roots residue "Butterworth" (Z.to_nat order) ->
  (Rabs gain * (/ sqrt 2 - 23 / 1000) <= magnitude a b (PI / 2) <= Rabs gain * / sqrt 2)%R.
Proof.
  intros He Ho H Hp. destruct (design_ok _ _ _ _ _ _ _ _ _ _ _ (proj1 He) H) as (_ & Ho0 & _). destruct sqrt2_facts as [S0 S2].
  assert (Er : step_rate order 1 = (30 / 1000)%R). { unfold step_rate. rewrite Bool.andb_false_r, Bool.orb_false_r. destruct (Z.ltb_spec 8 order) as [C|C]; [lia|reflexivity]. }
  assert (He' : (0 < eps <= 1)%R) by lra. assert (H01 : (0 < 1)%R) by lra.
  destruct (C134_butterworth_corner _ _ _ _ _ _ _ _ _ _ _ 1 He' H eq_refl Hp H01) as (rho & R0 & Em & Lo & Hi).
  - rewrite pow1. change (Z.to_nat 1) with 1%nat. lra.
  - rewrite Er. assert (IZR order <= 8)%R by (apply IZR_le; exact Ho). assert (1 <= sqrt 2)%R by nra. lra.
  - replace (PI * (1 / 2))%R with (PI / 2)%R in Em by field. rewrite Em. change (Z.to_nat 1) with 1%nat in *. rewrite pow_1, Er in *.
    replace (if complement then 1 - 1 / 2 else 1 / 2)%R with (1 / 2)%R in Hi by (destruct complement; field).
    replace (PI * (1 / 2) / 2)%R with (PI / 4)%R in Hi by field. rewrite tan_PI4 in Hi. pose proof PI2_3_2 as P3.
    assert (B : (1 / (PI / 4) / 1 - 1 <= 1 / 3)%R).
    { assert (1 / (PI / 4) <= 4 / 3)%R; [|lra]. unfold Rdiv at 1. rewrite Rmult_1_l, Rinv_div. unfold Rdiv. apply Rmult_le_compat_l; [lra|]. apply Rinv_le_contravar; lra. }
    assert (Mx : (Rmax (10000 * eps) ((1 / (PI / 4) / 1 - 1) / (500 * (30 / 1000))) <= 23 / 1000)%R) by (apply Rmax_lub; lra).
    pose proof (Rabs_pos gain) as G0. split; apply Rmult_le_compat_l; lra.
Qed.

(** Near Nyquist the 500 steps of the search are not enough: with [frequency] at least 0.98
    (at most 0.02 for a high-pass), every Butterworth filter has less than half the gain at
    the frequency where 1 / sqrt 2 (to the power 1 / count) was requested. *)
Theorem C134_corner_refuted roots residue eps style frequency order count (complement : bool) gain a b : (0 < eps <= 1)%R ->
  iir_design roots residue eps style frequency order count complement gain = Ok (a, b) ->
  py_lower style = "butterworth"%string -> poles_found roots residue "Butterworth" (Z.to_nat order) -> gain <> 0%R ->
  (98 / 100 <= if complement then 1 - frequency else frequency)%R ->
  (magnitude a b (PI * frequency) < Rabs gain * (1 / 2))%R.
Proof.
  intros He H Hs Hp Hg Hf98. pose proof (butterworth_title _ Hs) as Tt.
  assert (Hp' : poles_found roots residue (py_title style) (Z.to_nat order)) by (rewrite Tt; exact Hp).
  destruct (design_candidate _ _ _ _ _ _ _ _ _ _ _ (proj1 He) H Hp') as (Hf & Ho & Hc & u & v & n & i & B & Sp & Ev & M).
  set (f := (if complement then 1 - frequency else frequency)%R) in *. cbv zeta in B, Sp, Ev.
  set (cand := fun scale => match iir_evaluate roots residue (py_title style) (scale * f) (Z.to_nat order) with Ok uv => Some uv | Err _ => None end) in *.
  set (err := fun uv : list R * list R => (/ sqrt 2 - magnitude (fst uv) (snd uv) (PI * f) ^ Z.to_nat count)%R) in *.
  rewrite M. replace (if complement then PI - PI * frequency else PI * frequency)%R with (PI * f)%R by (unfold f; destruct complement; ring).
  apply Rmult_lt_compat_l; [apply Rabs_pos_lt; exact Hg|]. destruct sqrt2_facts as [S0 S2].
  assert (I2 : (0 < / sqrt 2 < 7072 / 10000)%R).
  { split; [apply Rinv_0_lt_compat; exact S0|]. apply (Rmult_lt_reg_r (sqrt 2)); [exact S0|]. rewrite Rinv_l by lra. nra. }
  assert (Rp : (0 < step_rate order count <= 30 / 1000)%R) by (unfold step_rate; destruct (_ || _)%bool; lra).
  assert (Ks : forall k, (scale_at cand err eps (step_rate order count) k <= 1 + INR k * (30 / 1000 * (7072 / 10000)))%R).
  { induction k as [|k IH]; [cbn; lra|]. cbn [scale_at]. rewrite S_INR. assert (0 <= INR k)%R by apply pos_INR. apply Rmax_lub; [|nra].
    assert (E : (cand_err cand err (scale_at cand err eps (step_rate order count) k) <= 7072 / 10000)%R).
    { unfold cand_err. destruct (cand _) as [uv|]; [|lra]. unfold err. assert (0 <= magnitude (fst uv) (snd uv) (PI * f) ^ Z.to_nat count)%R by (apply pow_le, Cmod_ge_0). lra. }
    assert (step_rate order count * cand_err cand err (scale_at cand err eps (step_rate order count) k) <= 30 / 1000 * (7072 / 10000))%R by nra. lra. }
  set (s := scale_at cand err eps (step_rate order count) i) in *. assert (Hs0 : (0 < s)%R) by apply Sp.
  assert (Sb : (s <= 116 / 10)%R).
  { specialize (Ks i). fold s in Ks. assert (INR i <= 499)%R; [|lra]. destruct B as [Bi _]. replace 499%R with (INR 499) by (rewrite INR_IZR_INZ; reflexivity). apply le_INR. lia. }
  rewrite Tt in Ev. pose proof (butterworth_corner_gain roots residue _ f s u v Ho Hf Hs0 Hp Ev) as G.
  assert (Pu : (PI < 315 / 100)%R).
  { pose proof (PI_2_3_7_ineq 2) as [_ PH]. cbn in PH. unfold PI_2_3_7_tg in PH. unfold Ratan_seq, tg_alt in PH. cbn in PH. lra. }
  pose proof PI2_3_2 as Pl. set (y := (PI / 2 - PI * f / 2)%R). assert (Y : (0 < y <= PI / 100)%R) by (unfold y; split; nra).
  assert (Y' : (y < 315 / 10000)%R) by lra.
  assert (Tn : tan (PI * f / 2) = (cos y / sin y)%R).
  { unfold tan. replace (PI * f / 2)%R with (PI / 2 - y)%R by (unfold y; ring). rewrite sin_shift, cos_shift. reflexivity. }
  assert (Sy : (0 < sin y < y)%R) by (split; [apply sin_gt_0; lra|apply sin_lt_x; lra]).
  assert (Cy : (1 - y * y / 2 <= cos y)%R).
  { replace y with (2 * (y / 2))%R at 3 by field. rewrite cos_2a_sin. assert (0 < sin (y / 2) < y / 2)%R by (split; [apply sin_gt_0; lra|apply sin_lt_x; lra]). nra. }
  assert (Wl : (2011 / 100 < warp f)%R).
  { unfold warp. rewrite Tn. assert (Tl : (3172 / 100 < cos y / sin y)%R).
    { apply (Rmult_lt_reg_r (sin y)); [lra|]. replace (cos y / sin y * sin y)%R with (cos y) by (field; lra). nra. }
    assert (Pf : (0 < PI * f / 2 < 1575 / 1000)%R) by (split; nra).
    apply (Rmult_lt_reg_r (PI * f / 2)); [lra|]. replace (cos y / sin y / (PI * f / 2) * (PI * f / 2))%R with (cos y / sin y)%R by (field; lra). lra. }
  assert (Q : (1733 / 1000 < warp f / s)%R).
  { apply (Rmult_lt_reg_r s); [exact Hs0|]. replace (warp f / s * s)%R with (warp f) by (field; lra). nra. }
  assert (Q3 : (3 < (warp f / s) ^ (2 * Z.to_nat order))%R).
  { apply Rlt_le_trans with ((warp f / s) ^ 2)%R; [nra|]. apply Rle_pow; [lra|lia]. }
  assert (M0 : (0 <= magnitude u v (PI * f))%R) by apply Cmod_ge_0. apply Rnot_le_lt. intros C. assert (1 / 4 <= magnitude u v (PI * f) ^ 2)%R by nra. nra.
Qed.

(** ** Examples *)
Lemma design_exists roots residue eps style frequency order count complement gain : (0 < eps)%R ->
  ~ iir_invalid style frequency order count -> poles_found roots residue (py_title style) (Z.to_nat order) ->
  exists a b, iir_design roots residue eps style frequency order count complement gain = Ok (a, b).
Proof. intros He Hv Hp. destruct (C18_iir_design_best roots residue eps style frequency order count complement gain He Hv Hp) as (_ & _ & _ & _ & a & b & E & _). exists a, b. exact E. Qed.
Definition bpoles (n : nat) (_ : list R) : list C := butter_poles n.
Definition cpoles (n : nat) (_ : list R) : list C := map (cheby_pole n) (seq 0 n).
Definition nores (_ _ : list R) : list C * list C := ([], []).

(** C132: a third-order high-pass design meets the hypotheses. *)
Example C132_example : (0 < / 4503599627370496)%R /\ py_lower "bUTTERworth" = "butterworth"%string /\ poles_found (bpoles 3) nores "Butterworth" (Z.to_nat 3) /\
  exists a b, iir_design (bpoles 3) nores (/ 4503599627370496) "bUTTERworth" (1 / 10) 3 2 true 2 = Ok (a, b).
Proof.
  assert (Hp : poles_found (bpoles 3) nores "Butterworth" (Z.to_nat 3)) by (split; [exact (butter_is_roots 3)|discriminate]).
  split; [lra|]. split; [reflexivity|]. split; [exact Hp|]. apply design_exists; [lra| |exact Hp].
  intros [H|H]; [apply H; exists "butterworth"%string; split; [cbn; tauto|reflexivity]|]. destruct H as [H|[H|[H|H]]]; try lia; lra.
Qed.
(** C133: an even-order Chebyshev design, and the first polynomials. *)
Example C133_example : py_lower "Chebyshev" = "chebyshev"%string /\ poles_found (cpoles 4) nores "Chebyshev" (Z.to_nat 4) /\ Z.even 4 = true /\
  (exists a b, iir_design (cpoles 4) nores (/ 4503599627370496) "Chebyshev" (1 / 4) 4 1 false (-3) = Ok (a, b)) /\
  (forall x : R, chebT 0 x = 1 /\ chebT 1 x = x /\ chebT 2 x = 2 * x ^ 2 - 1 /\ chebT 3 x = 4 * x ^ 3 - 3 * x)%R /\ (Rpower 10 (125 / 10000) > 1)%R.
Proof.
  assert (Hp : poles_found (cpoles 4) nores "Chebyshev" (Z.to_nat 4)) by (split; [exact (cheby_is_roots 4)|discriminate]).
  split; [reflexivity|]. split; [exact Hp|]. split; [reflexivity|]. split; [|split].
  - apply design_exists; [lra| |exact Hp].
    intros [H|H]; [apply H; exists "chebyshev"%string; split; [cbn; tauto|reflexivity]|]. destruct H as [H|[H|[H|H]]]; try lia; lra.
  - intros x. unfold chebT. cbn. repeat split; ring.
  - pose proof cheby_eps2_pos as Er. unfold cheby_eps2 in Er. replace (1 / 10 * (125 / 1000))%R with (125 / 10000)%R in Er by field. lra.
Qed.
(** C134: two passes of order 2 at a quarter of Nyquist, and a frequency the search cannot reach. *)
Example C134_example : let x := sqrt (sqrt (sqrt 2 - 1)) in
  (0 < x)%R /\ ((1 + x ^ (2 * Z.to_nat 2)) ^ Z.to_nat 2 = 2)%R /\ (step_rate 2 2 * IZR 2 * IZR 2 <= sqrt 2)%R /\
  (exists a b, iir_design (bpoles 2) nores (/ 4503599627370496) "Butterworth" (1 / 4) 2 2 false 1 = Ok (a, b)) /\
  (exists a b, iir_design (bpoles 2) nores (/ 4503599627370496) "Butterworth" (1 / 2) 2 1 true 1 = Ok (a, b)) /\
  (exists a b, iir_design (bpoles 2) nores (/ 4503599627370496) "Butterworth" (99 / 100) 2 1 false 1 = Ok (a, b)) /\
  poles_found (bpoles 2) nores "Butterworth" (Z.to_nat 2).
Proof.
  destruct sqrt2_facts as [S0 S2]. assert (S1 : (1 < sqrt 2)%R) by nra. intros x.
  assert (Hp : poles_found (bpoles 2) nores "Butterworth" (Z.to_nat 2)) by (split; [exact (butter_is_roots 2)|discriminate]).
  assert (V : forall f c, (0 < f < 1)%R -> (0 < c)%Z -> ~ iir_invalid "Butterworth" f 2 c).
  { intros f c Hf Hc [H|H]; [apply H; exists "butterworth"%string; split; [cbn; tauto|reflexivity]|]. destruct H as [H|[H|[H|H]]]; try lia; lra. }
  split; [unfold x; repeat apply sqrt_lt_R0; lra|]. split.
  { change (2 * Z.to_nat 2)%nat with (2 * 2)%nat. rewrite pow_mult. change (Z.to_nat 2) with 2%nat. unfold x.
    rewrite pow2_sqrt by apply sqrt_pos. rewrite pow2_sqrt by lra. replace (1 + (sqrt 2 - 1))%R with (sqrt 2) by ring. apply pow2_sqrt. lra. }
  split; [unfold step_rate; cbn; lra|]. repeat split; try (apply design_exists; [lra|apply V; [lra|lia]|exact Hp]); apply Hp.
Qed.

Print Assumptions C132_butterworth_magnitude.
Print Assumptions C132_butterworth_monotone.
Print Assumptions C133_chebyshev_magnitude.
Print Assumptions C133_chebyshev_ripple.
Print Assumptions C133_chebyshev_gain_refuted.
Print Assumptions C134_butterworth_corner.
Print Assumptions C134_half_band.
Print Assumptions C134_corner_refuted.
