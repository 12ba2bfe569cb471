(** Properties C125-C128: response, group delay and roots of FirFilter and IirFilter. *)
From Coq Require Import String List Arith ZArith Bool Reals Lra Lia Permutation.
From Coquelicot Require Import Complex.
From Verif Require Import Base BaseLemmas PyString Instances FirModel FirDesignProofs IirModel PolyC ZModel ZProofs ZProps IirDesignProofs IirDesignProps RankModel AnalysisModel AnalysisProofs.
Import ListNotations.
Set Asymmetric Patterns.
Open Scope R_scope.
Open Scope C_scope.

(** ** Specification *)
(** sum_i c[i] u(n-i) *)
Fixpoint lagged (c : list C) (u : Z -> C) (n : Z) : C :=
  match c with [] => 0 | x :: r => x * u n + lagged r u (n - 1)%Z end.
(** The complex exponential of frequency F (Nyquist = 1). *)
Definition wave (F : R) (n : Z) : C := cis (PI * F * IZR n).
(** The frequency the k-th of L values belongs to: the axis value for even L, half a bin
    below it for odd L. *)
Definition sampled_at (L : Z) (f : R) : R := (f - IZR (L mod 2) / IZR L)%R.
(** t is the group delay -d(arg H)/dw of H at w (in samples). *)
Definition phase_slope (H : R -> C) (w t : R) : Prop :=
  exists dr di, derivable_pt_lim (fun u => fst (H u)) w dr /\ derivable_pt_lim (fun u => snd (H u)) w di /\
    (t * (fst (H w) ^ 2 + snd (H w) ^ 2) = snd (H w) * dr - fst (H w) * di)%R.
(** The responses of a FIR and of an IIR filter at angle w. *)
Definition fir_at (b : list C) (w : R) : C := pe b (cis (- w)).
Definition iir_at (a b : list C) (w : R) : C := pe b (cis (- w)) / (1 - cis (- w) * pe (tl a) (cis (- w))).
Definition iir_den (a : list C) (w : R) : C := 1 - cis (- w) * pe (tl a) (cis (- w)).
(** scipy replaces only values whose denominator is below some tolerance. *)
Definition only_small (singular : C -> bool) (tol : R) : Prop :=
  (0 < tol)%R /\ forall v, singular v = true -> (Cmod v < tol)%R.

(** ** Lemmas *)
Lemma pe_opp c z : pe (map Copp c) z = - pe c z.
Proof. induction c as [|x c IH]; cbn [map pe]; [ring|]. rewrite IH. ring. Qed.
Lemma pe_denominator a w : pe (denominator a) (cis (- w)) = iir_den a w.
Proof. unfold denominator, iir_den. cbn [pe]. rewrite pe_opp. ring. Qed.
Lemma length_linspace a b n : length (linspace a b n) = n.
Proof. unfold linspace. rewrite map_length, seq_length. reflexivity. Qed.

Lemma axis_bin (L : Z) k : (0 < L)%Z -> (k < Z.to_nat L)%nat ->
  nth k (linspace (-1) (1 - 2 / INR (Z.to_nat L)) (Z.to_nat L)) 0%R = (-1 + 2 * INR k / IZR L)%R /\
  bin (Z.to_nat L) k = sampled_at L (-1 + 2 * INR k / IZR L).
Proof.
  intros HL Hk. assert (E : INR (Z.to_nat L) = IZR L) by (rewrite INR_IZR_INZ, Z2Nat.id by lia; reflexivity).
  split; [rewrite axis_value by exact Hk; rewrite E; reflexivity|].
  unfold bin, sampled_at. rewrite E. f_equal. f_equal. rewrite INR_IZR_INZ, Nat2Z.inj_mod, Z2Nat.id by lia. reflexivity.
Qed.

Lemma lagged_wave c F n : lagged c (wave F) n = wave F n * pe c (cis (- (PI * F))).
Proof.
  revert n. induction c as [|x c IH]; intros n; cbn [lagged pe]; [ring|]. rewrite IH.
  assert (E : wave F (n - 1) = wave F n * cis (- (PI * F))).
  { unfold wave. rewrite <- cis_add. f_equal. rewrite minus_IZR. ring. }
  rewrite E. ring.
Qed.
Lemma lagged_scale c h u n : lagged c (fun m => h * u m) n = h * lagged c u n.
Proof. revert n. induction c as [|x c IH]; intros n; cbn [lagged]; [ring|]. rewrite IH. ring. Qed.

(** C125.  The k-th value of IirFilter.response is h^count where h is the factor by which
    the filter multiplies the complex exponential of the paired frequency (for an odd
    length, of the frequency half a bin lower). *)
Theorem C125_iir_response (f : iir CA) (L c : Z) y ax : iir_response f L c = Ok (y, ax) ->
  nth 0 (ia f) (RtoC 0) = RtoC 0 ->
  (0 < c)%Z /\ length y = Z.to_nat L /\ length ax = Z.to_nat L /\
  forall k, (k < Z.to_nat L)%nat ->
    nth k ax 0%R = (-1 + 2 * INR k / IZR L)%R /\
    let F := sampled_at L (nth k ax 0%R) in
    iir_den (ia f) (PI * F) <> 0 ->
    exists h : C, nth k y (RtoC 0) = Cpow h (Z.to_nat c) /\
      forall n, h * wave F n = lagged (ia f) (fun m => h * wave F m) n + lagged (ib f) (wave F) n.
Proof.
  unfold iir_response. destruct (Z.leb_spec L 0) as [|HL]; [discriminate|]. destruct (Z.leb_spec c 0) as [|Hc]; [discriminate|].
  intros E H0. injection E as <- <-. split; [exact Hc|].
  rewrite map_length, length_rotate_half. unfold freqz_ratio. rewrite map_length, length_unit_points, length_linspace.
  split; [reflexivity|]. split; [reflexivity|]. intros k Hk. destruct (axis_bin L k HL Hk) as [Ea Eb]. rewrite Ea. split; [reflexivity|].
  cbv zeta. set (F := sampled_at L _) in *. intros HA. exists (iir_at (ia f) (ib f) (PI * F)). split.
  - rewrite nth_map_Cpow by (rewrite length_rotate_half, map_length, length_unit_points; exact Hk). f_equal.
    rewrite nth_rotated by exact Hk. rewrite Eb. rewrite pe_denominator. reflexivity.
  - intros n. rewrite lagged_scale, !lagged_wave. unfold iir_at. fold (iir_den (ia f) (PI * F)).
    assert (EA : pe (ia f) (cis (- (PI * F))) = 1 - iir_den (ia f) (PI * F)).
    { unfold iir_den. destruct (ia f) as [|a0 a]; cbn [pe tl]; [ring|]. cbn [nth] in H0. rewrite H0. ring. }
    rewrite EA. field. exact HA.
Qed.
Print Assumptions C125_iir_response.

Theorem C125_iir_response_rejects (f : iir CA) (L c : Z) :
  ((0 < L)%Z /\ (0 < c)%Z -> exists y ax, iir_response f L c = Ok (y, ax)) /\
  (~ ((0 < L)%Z /\ (0 < c)%Z) -> iir_response f L c = Err ValueError).
Proof.
  unfold iir_response. destruct (Z.leb_spec L 0); [split; [lia|reflexivity]|]. destruct (Z.leb_spec c 0); [split; [lia|reflexivity]|].
  split; [|lia]. intros _. do 2 eexists. reflexivity.
Qed.
Print Assumptions C125_iir_response_rejects.

Definition demo_iir : iir CA := mkIir DComplex [RtoC 0; RtoC (1 / 2)] [RtoC (1 / 4); RtoC (1 / 4)] [RtoC 0; RtoC 0].
Lemma demo_den w : iir_den (ia demo_iir) w <> 0.
Proof.
  unfold iir_den, demo_iir. cbn [ia tl pe]. intros H. apply (f_equal fst) in H. revert H.
  unfold cis, Cminus, Cplus, Copp, Cmult, RtoC. cbn [fst snd]. rewrite cos_neg. pose proof (COS_bound w). intros H2. lra.
Qed.
Example C125_example : exists y ax, iir_response demo_iir 8 2 = Ok (y, ax) /\ nth 0 (ia demo_iir) (RtoC 0) = RtoC 0 /\ (3 < Z.to_nat 8)%nat /\
  iir_den (ia demo_iir) (PI * sampled_at 8 (nth 3 ax 0%R)) <> 0.
Proof. do 2 eexists. split; [reflexivity|]. split; [reflexivity|]. split; [cbn; lia|apply demo_den]. Qed.

(** ** Group delay *)
Lemma Cconj_nz (z : C) : z <> 0 -> Cconj z <> 0.
Proof. intros H Q. apply H. destruct z as [x y]. unfold Cconj, RtoC in *. cbn [fst snd] in Q. injection Q as -> Q. f_equal. lra. Qed.
Lemma Cmod_conj (z : C) : Cmod (Cconj z) = Cmod z.
Proof. destruct z as [x y]. unfold Cmod, Cconj. cbn [fst snd]. f_equal. ring. Qed.
Lemma circle w : cis (- w) * Cconj (cis (- w)) = 1.
Proof. apply cis_conj_mul. Qed.

(** The two logarithmic derivatives. *)
Lemma slope_value (F : R -> C) w X t : F w <> 0 -> der F w (- Ci * (X * F w)) -> fst X = t -> phase_slope F w t.
Proof.
  intros Hn [H1 H2] Ht. exists (fst (- Ci * (X * F w))), (snd (- Ci * (X * F w))). split; [exact H1|]. split; [exact H2|].
  destruct (F w) as [p q]. destruct X as [x x']. cbn [fst snd Cmult Copp Ci] in *. subst t. ring.
Qed.

Lemma gd_core (b a : list C) w : pe b (cis (- w)) <> 0 -> pe a (cis (- w)) <> 0 ->
  let c := convC b (map Cconj (rev a)) in let z := cis (- w) in
  pe c z <> 0 /\ Cmod (pe c z) = (Cmod (pe b z) * Cmod (pe a z))%R /\
  phase_slope (fun u => pe b (cis (- u)) / pe a (cis (- u))) w (fst (Cdiv (pe (ramp c) z) (pe c z)) - INR (length a) + 1)%R.
Proof.
  intros HB HA c z. set (B := pe b z). set (A := pe a z). change (B <> 0) in HB. change (A <> 0) in HA. pose proof (circle w : z * Cconj z = 1) as U.
  assert (Nz : z <> 0) by apply cis_neq_0.
  set (G := pe (map Cconj (rev a)) z).
  assert (EG : z * G = cpow z (length a) * Cconj A) by (apply pe_flip; exact U).
  set (DG := dp (map Cconj (rev a)) z).
  assert (EDG : z * DG = cpow z (length a) * ((RtoC (INR (length a)) - 1) * Cconj A - Cconj (dp a z))) by (apply dp_flip; exact U).
  assert (Np : forall n, cpow z n <> 0).
  { induction n as [|n IH]; cbn [cpow]; [intros Q; apply RtoC_inj in Q; lra|]. intros Q. apply Cmult_zero in Q. tauto. }
  assert (NA' : Cconj A <> 0) by (apply Cconj_nz; exact HA).
  assert (NG : G <> 0). { intros Q. rewrite Q in EG. assert (Q2 : cpow z (length a) * Cconj A = 0) by (rewrite <- EG; ring). apply Cmult_zero in Q2. destruct Q2 as [Q2|Q2]; [apply (Np _ Q2)|apply (NA' Q2)]. }
  assert (Ec : pe c z = B * G) by apply pe_conv.
  assert (Nc : pe c z <> 0) by (rewrite Ec; intros Q; apply Cmult_zero in Q; tauto).
  split; [exact Nc|]. split.
  { assert (M : Cmod (z * G) = Cmod (cpow z (length a) * Cconj A)) by (rewrite EG; reflexivity).
    rewrite !Cmod_mult in M. assert (Mz : Cmod z = 1%R) by apply Cmod_cis. rewrite Mz in M.
    assert (P : forall n, Cmod (cpow z n) = 1%R) by (induction n as [|n IH]; cbn [cpow]; [apply Cmod_1|rewrite Cmod_mult, Mz, IH; ring]).
    rewrite P, Cmod_conj in M. rewrite Ec, Cmod_mult. replace (Cmod G) with (Cmod A) by lra. reflexivity. }
  assert (Q : DG / G = RtoC (INR (length a)) - 1 - Cconj (dp a z / A)).
  { assert (Q1 : Cconj (dp a z / A) = Cconj (dp a z) / Cconj A).
    { apply (Cmult_inj_l (Cconj A)); [exact NA'|]. rewrite <- Cconj_mul. replace (A * (dp a z / A)) with (dp a z) by (field; exact HA). field. exact NA'. }
    rewrite Q1. apply (Cmult_inj_l (z * G)); [intros Q2; apply Cmult_zero in Q2; tauto|].
    transitivity (z * DG); [field; exact NG|]. rewrite EDG, EG. field. exact NA'. }
  apply (slope_value _ w (dp b z / B - dp a z / A)).
  - fold z A B. intros C0. apply HB. transitivity (B / A * A); [field; exact HA|rewrite C0; ring].
  - apply (der_ext (fun u => pe b (cis (- u)) * / pe a (cis (- u)))); [reflexivity|].
    replace (- Ci * ((dp b z / B - dp a z / A) * (pe b (cis (- w)) / pe a (cis (- w)))))
      with ((- Ci * dp b z) * / pe a (cis (- w)) + pe b (cis (- w)) * (- (- Ci * dp a z) / (pe a (cis (- w)) * pe a (cis (- w))))).
    + apply (der_mult (fun u => pe b (cis (- u))) (fun u => / pe a (cis (- u)))); [apply der_pe|].
      apply (der_inv (fun u => pe a (cis (- u)))); [exact HA|apply der_pe].
    + fold z A B. field. split; assumption.
  - rewrite pe_ramp. unfold c. rewrite dp_conv. fold B G DG. fold c. rewrite Ec.
    replace ((dp b z * G + B * DG) / (B * G)) with (dp b z / B + DG / G) by (field; split; assumption).
    rewrite Q. generalize (dp b z / B) (dp a z / A). intros X Y. destruct X, Y. cbn [fst snd Cplus Cminus Copp Cconj RtoC]. ring.
Qed.

Lemma gd_bin singular tol b a L c k : only_small singular tol -> (k < L)%nat ->
  let w := (PI * bin L k)%R in
  pe a (cis (- w)) <> 0 -> (tol <= Cmod (pe b (cis (- w))) * Cmod (pe a (cis (- w))))%R ->
  exists t, phase_slope (fun u => pe b (cis (- u)) / pe a (cis (- u))) w t /\
    nth k (map (fun v => v * IZR c)%R (rotate_half (group_delay singular b a L))) 0%R = (IZR c * t)%R.
Proof.
  intros [Ht Hs] Hk w HA Hm.
  assert (HB : pe b (cis (- w)) <> 0). { intros Q. rewrite Q, Cmod_0 in Hm. lra. }
  destruct (gd_core b a w HB HA) as (N & M & P). eexists. split; [exact P|].
  rewrite (nth_indep _ 0%R (0 * IZR c)%R) by (rewrite map_length, length_rotate_half; unfold group_delay; rewrite map_length, length_unit_points; exact Hk).
  rewrite (map_nth (fun v => v * IZR c)%R). unfold group_delay. rewrite nth_rotated by exact Hk. fold w.
  destruct (singular _) eqn:Es; [apply Hs in Es; rewrite M in Es; lra|]. ring.
Qed.

Lemma nth_extrapolate y k : (0 < k)%nat -> nth k (extrapolate y) 0%R = nth k y 0%R.
Proof. destruct y as [|y0 [|y1 [|y2 y]]]; try reflexivity. destruct k; [lia|reflexivity]. Qed.
Lemma length_extrapolate y : length (extrapolate y) = length y.
Proof. destruct y as [|y0 [|y1 [|y2 y]]]; reflexivity. Qed.
Lemma fir_ratio b : forall u, pe b (cis (- u)) / pe [RtoC 1] (cis (- u)) = fir_at b u.
Proof.
  intros u. cbn [pe]. unfold fir_at. assert (E : RtoC 1 + cis (- u) * 0 = RtoC 1) by ring. rewrite E. field. intros Q; apply RtoC_inj in Q; lra.
Qed.
Lemma phase_slope_ext F G w t : (forall u, F u = G u) -> phase_slope F w t -> phase_slope G w t.
Proof.
  intros E (dr & di & H1 & H2 & H3). exists dr, di. destruct (der_ext F G w (dr, di) E (conj H1 H2)) as [K1 K2]. rewrite <- !E. auto.
Qed.
Lemma one_mod w : Cmod (pe [RtoC 1] (cis w)) = 1%R.
Proof. cbn [pe]. replace (RtoC 1 + cis w * 0) with (RtoC 1) by ring. apply Cmod_1. Qed.
Lemma one_nz w : pe [RtoC 1] (cis w) <> 0.
Proof. intros Q. pose proof (one_mod w) as M. rewrite Q, Cmod_0 in M. lra. Qed.

(** C126.  FirFilter.delay: count times the negative slope of the phase of the response, at
    the paired frequency (half a bin below it for odd lengths) -- except in the first bin,
    which is extrapolated from the next two when length > 2. *)
Theorem C126_fir_delay singular tol (f : fir CA) (L c : Z) y ax : only_small singular tol ->
  fir_delay singular f L c = Ok (y, ax) ->
  (0 < c)%Z /\ length y = Z.to_nat L /\ length ax = Z.to_nat L /\
  (forall k, (k < Z.to_nat L)%nat -> (k <> 0%nat \/ (L <= 2)%Z) ->
    nth k ax 0%R = (-1 + 2 * INR k / IZR L)%R /\
    let w := (PI * sampled_at L (nth k ax 0))%R in
    (tol <= Cmod (fir_at (fb f) w))%R ->
    exists t, phase_slope (fir_at (fb f)) w t /\ nth k y 0%R = (IZR c * t)%R) /\
  ((2 < L)%Z -> nth 0 y 0%R = (2 * nth 1 y 0 - nth 2 y 0)%R).
Proof.
  intros Hs. unfold fir_delay. destruct (Z.leb_spec L 0) as [|HL]; [discriminate|]. destruct (Z.leb_spec c 0) as [|Hc]; [discriminate|].
  intros E. injection E as <- <-. split; [exact Hc|].
  set (raw := map _ _).
  assert (Lr : length raw = Z.to_nat L) by (unfold raw, group_delay; rewrite map_length, length_rotate_half, map_length, length_unit_points; reflexivity).
  split; [destruct (Z.ltb_spec 2 L); [rewrite length_extrapolate|]; exact Lr|]. rewrite length_linspace. split; [reflexivity|]. split.
  - intros k Hk Hk0. destruct (axis_bin L k HL Hk) as [Ea Eb]. rewrite Ea. split; [reflexivity|]. cbv zeta. intros Hm.
    destruct (gd_bin singular tol (fb f) [RtoC 1] (Z.to_nat L) c k Hs Hk) as (t & P & V).
    + apply one_nz.
    + rewrite one_mod, Rmult_1_r, Eb. exact Hm.
    + exists t. split.
      * rewrite Eb in P. apply (phase_slope_ext _ _ _ _ (fir_ratio (fb f)) P).
      * fold raw in V. rewrite <- V. destruct (Z.ltb_spec 2 L); [|reflexivity]. apply nth_extrapolate. destruct Hk0; lia.
  - intros H2. rewrite (proj2 (Z.ltb_lt 2 L) H2). destruct raw as [|r0 [|r1 [|r2 r]]]; cbn [length] in Lr; try lia. cbn [extrapolate nth tl]. ring.
Qed.
Print Assumptions C126_fir_delay.

Theorem C126_fir_delay_rejects singular (f : fir CA) (L c : Z) :
  ((0 < L)%Z /\ (0 < c)%Z -> exists y ax, fir_delay singular f L c = Ok (y, ax)) /\
  (~ ((0 < L)%Z /\ (0 < c)%Z) -> fir_delay singular f L c = Err ValueError).
Proof.
  unfold fir_delay. destruct (Z.leb_spec L 0); [split; [lia|reflexivity]|]. destruct (Z.leb_spec c 0); [split; [lia|reflexivity]|].
  split; [|lia]. intros _. do 2 eexists. reflexivity.
Qed.
Print Assumptions C126_fir_delay_rejects.

(** The slope is determined by the function. *)
Lemma phase_slope_unique (F : R -> C) w t t' : F w <> 0 -> phase_slope F w t -> phase_slope F w t' -> t = t'.
Proof.
  intros Hn (dr & di & H1 & H2 & H3) (dr' & di' & K1 & K2 & K3).
  rewrite <- (uniqueness_limite _ _ _ _ H1 K1), <- (uniqueness_limite _ _ _ _ H2 K2) in K3.
  pose proof (norm2_pos _ Hn) as P. apply Rmult_eq_reg_r with (fst (F w) ^ 2 + snd (F w) ^ 2)%R; [lra|]. lra.
Qed.

(** Coefficients with b[N-i] = u conj(b[i]), |u| = 1: real symmetric and antisymmetric
    ones among them. *)
Definition linear_phase (b : list C) : Prop :=
  exists u, Cmod u = 1%R /\ forall i, (i < length b)%nat -> nth (length b - 1 - i) b (RtoC 0) = u * Cconj (nth i b (RtoC 0)).

Lemma linear_phase_flip b : linear_phase b -> exists u, Cmod u = 1%R /\ b = map (Cmult u) (map Cconj (rev b)).
Proof.
  intros (u & Hu & H). exists u. split; [exact Hu|]. rewrite map_map.
  apply nth_ext with (d := RtoC 0) (d' := RtoC 0); [rewrite map_length, rev_length; reflexivity|]. intros i Hi.
  rewrite (nth_indep (map _ (rev b)) (RtoC 0) (u * Cconj (RtoC 0))) by (rewrite map_length, rev_length; exact Hi).
  rewrite (map_nth (fun x => u * Cconj x)). rewrite rev_nth by exact Hi.
  replace (length b - S i)%nat with (length b - 1 - i)%nat by lia.
  rewrite <- H by lia. f_equal. lia.
Qed.
Lemma linear_phase_slope b w t : linear_phase b -> fir_at b w <> 0 -> phase_slope (fir_at b) w t -> t = ((INR (length b) - 1) / 2)%R.
Proof.
  intros Hb Hn Ht. apply (phase_slope_unique _ _ _ _ Hn Ht). clear Ht t.
  destruct (linear_phase_flip b Hb) as (u & Hu & E). set (z := cis (- w)).
  pose proof (circle w : z * Cconj z = 1) as U. assert (Nz : z <> 0) by apply cis_neq_0.
  set (B := pe b z). assert (HB : B <> 0) by exact Hn.
  assert (E1 : z * B = u * cpow z (length b) * Cconj B).
  { unfold B at 1. rewrite E at 1. rewrite pe_scale. transitivity (u * (z * pe (map Cconj (rev b)) z)); [ring|]. rewrite (pe_flip b z U). fold B. ring. }
  assert (E2 : z * dp b z = u * cpow z (length b) * ((RtoC (INR (length b)) - 1) * Cconj B - Cconj (dp b z))).
  { rewrite E at 1. rewrite dp_scale. transitivity (u * (z * dp (map Cconj (rev b)) z)); [ring|]. rewrite (dp_flip b z U). fold B. ring. }
  apply (slope_value _ w (dp b z / B)); [exact Hn| |].
  - change (der (fun u => pe b (cis (- u))) w (- Ci * (dp b z / B * fir_at b w))).
    replace (dp b z / B * fir_at b w) with (dp b z) by (change (fir_at b w) with B; field; exact HB). apply der_pe.
  - assert (NB' : Cconj B <> 0) by (apply Cconj_nz; exact HB).
    assert (Q1 : Cconj (dp b z / B) = Cconj (dp b z) / Cconj B).
    { apply (Cmult_inj_l (Cconj B)); [exact NB'|]. rewrite <- Cconj_mul. replace (B * (dp b z / B)) with (dp b z) by (field; exact HB). field. exact NB'. }
    assert (Q : dp b z / B = RtoC (INR (length b)) - 1 - Cconj (dp b z / B)).
    { rewrite Q1. apply (Cmult_inj_l (z * B)); [intros Q2; apply Cmult_zero in Q2; tauto|].
      transitivity (z * dp b z); [field; exact HB|]. rewrite E2, E1. field. exact NB'. }
    apply (f_equal fst) in Q. revert Q. generalize (dp b z / B). intros [x x']. cbn [fst snd Cminus Cplus Copp Cconj RtoC]. lra.
Qed.

(** Linear phase: the delay is count * N / 2 in every bin, the first one included. *)
Theorem C126_fir_delay_linear_phase singular tol (f : fir CA) (L c : Z) y ax : only_small singular tol ->
  linear_phase (fb f) -> fir_delay singular f L c = Ok (y, ax) ->
  (forall k, (k < Z.to_nat L)%nat -> (k <> 0%nat \/ (L <= 2)%Z) -> (tol <= Cmod (fir_at (fb f) (PI * sampled_at L (nth k ax 0%R))))%R) ->
  forall k, (k < Z.to_nat L)%nat -> nth k y 0%R = (IZR c * ((INR (length (fb f)) - 1) / 2))%R.
Proof.
  intros Hs Hp Hd Hm. destruct (C126_fir_delay singular tol f L c y ax Hs Hd) as (_ & _ & _ & V & V0).
  assert (G : forall k, (k < Z.to_nat L)%nat -> (k <> 0%nat \/ (L <= 2)%Z) -> nth k y 0%R = (IZR c * ((INR (length (fb f)) - 1) / 2))%R).
  { intros k Hk Hk0. destruct (V k Hk Hk0) as [_ W]. specialize (Hm k Hk Hk0). destruct (W Hm) as (t & P & ->). f_equal.
    apply (linear_phase_slope (fb f) (PI * sampled_at L (nth k ax 0)) t Hp); [|exact P]. intros Q. rewrite Q, Cmod_0 in Hm. destruct Hs. lra. }
  intros k Hk. destruct k as [|k]; [|apply G; [exact Hk|left; discriminate]].
  destruct (Z_le_gt_dec L 2) as [Q|Q]; [apply G; [exact Hk|right; exact Q]|].
  rewrite V0 by lia. rewrite !G by lia. ring.
Qed.
Print Assumptions C126_fir_delay_linear_phase.

(** Witnesses. *)
Definition zero_test (v : C) : bool := if Rltb 0 (Cmod v) then false else true.
Lemma zero_test_small tol : (0 < tol)%R -> only_small zero_test tol.
Proof.
  intros H. split; [exact H|]. intros v. unfold zero_test. destruct (Rltb 0 (Cmod v)) eqn:E; [discriminate|].
  intros _. destruct (Rlt_dec 0 (Cmod v)) as [Q|Q]; [apply Rltb_iff in Q; congruence|lra].
Qed.
Definition fir_of (b : list C) : fir CA := mkFir DComplex b (map (fun _ => RtoC 0) b).

Lemma one_three_one w : (1 <= Cmod (fir_at [RtoC 1; RtoC 3; RtoC 1] w))%R.
Proof.
  assert (E : fir_at [RtoC 1; RtoC 3; RtoC 1] w = cis (- w) * RtoC (3 + 2 * cos w)).
  { unfold fir_at. cbn [pe]. pose proof (cis_conj_mul (- w)) as U. revert U. unfold cis, Cconj. rewrite cos_neg, sin_neg.
    generalize (cos w) (sin w). intros x y U. apply (f_equal fst) in U. cbn [fst snd Cmult RtoC] in U.
    assert (U' : (x * x + y * y = 1)%R) by lra. apply injective_projections; cbn [fst snd Cmult Cplus RtoC]; nra. }
  rewrite E, Cmod_mult, Cmod_cis, Cmod_R. pose proof (COS_bound w). rewrite Rabs_pos_eq by lra. lra.
Qed.
Example C126_example : exists y ax, only_small zero_test 1 /\ linear_phase (fb (fir_of [RtoC 1; RtoC 3; RtoC 1])) /\
  fir_delay zero_test (fir_of [RtoC 1; RtoC 3; RtoC 1]) 5 2 = Ok (y, ax) /\
  (forall k, (k < Z.to_nat 5)%nat -> (k <> 0%nat \/ (5 <= 2)%Z) ->
    (1 <= Cmod (fir_at (fb (fir_of [RtoC 1; RtoC 3; RtoC 1])) (PI * sampled_at 5 (nth k ax 0%R))))%R) /\
  nth 4 y 0%R = 2%R.
Proof.
  assert (S : only_small zero_test 1) by (apply zero_test_small; lra).
  assert (P : linear_phase (fb (fir_of [RtoC 1; RtoC 3; RtoC 1]))).
  { exists (RtoC 1). split; [apply Cmod_1|]. unfold fir_of. cbn [fb length]. intros i Hi.
    destruct i as [|[|[|i]]]; [..|lia]; cbn [nth Nat.sub]; unfold Cconj, RtoC, Cmult; cbn [fst snd]; f_equal; lra. }
  do 2 eexists. split; [exact S|]. split; [exact P|]. split; [reflexivity|]. split; [intros; apply one_three_one|].
  rewrite (C126_fir_delay_linear_phase zero_test 1 (fir_of [RtoC 1; RtoC 3; RtoC 1]) 5 2 _ _ S P eq_refl ltac:(intros; apply one_three_one)) by (cbn; lia).
  unfold fir_of. cbn [fb length INR]. lra.
Qed.

(** The filter [2, 1]: group delay (1 + 2 cos w) / (5 + 4 cos w). *)
Lemma two_one_mod w : (1 <= Cmod (fir_at [RtoC 2; RtoC 1] w))%R.
Proof.
  unfold fir_at. cbn [pe]. unfold Cmod. rewrite <- sqrt_1 at 1. apply sqrt_le_1_alt.
  unfold cis. rewrite cos_neg, sin_neg. cbn [fst snd Cplus Cmult RtoC].
  pose proof (COS_bound w). pose proof (sin2_cos2 w). unfold Rsqr in *. nra.
Qed.
Lemma two_one_slope w : phase_slope (fir_at [RtoC 2; RtoC 1]) w ((1 + 2 * cos w) / (5 + 4 * cos w))%R.
Proof.
  assert (N : fir_at [RtoC 2; RtoC 1] w <> 0) by (intros Q; pose proof (two_one_mod w) as M; rewrite Q, Cmod_0 in M; lra).
  set (z := cis (- w)). apply (slope_value _ w (z / fir_at [RtoC 2; RtoC 1] w)); [exact N| |].
  - replace (z / fir_at [RtoC 2; RtoC 1] w * fir_at [RtoC 2; RtoC 1] w) with (dp [RtoC 2; RtoC 1] z).
    + apply der_pe.
    + cbn [dp pe]. fold z. replace (z / fir_at [RtoC 2; RtoC 1] w * fir_at [RtoC 2; RtoC 1] w) with z by (field; exact N). ring.
  - assert (E : (fst (fir_at [RtoC 2; RtoC 1] w) = 2 + cos w /\ snd (fir_at [RtoC 2; RtoC 1] w) = - sin w)%R).
    { unfold fir_at. cbn [pe]. unfold cis. rewrite cos_neg, sin_neg. cbn [fst snd Cplus Cmult RtoC]. split; ring. }
    destruct E as [E1 E2]. unfold Cdiv. rewrite Cinv_norm2 by exact N. rewrite E1, E2. unfold z, cis, Cconj. rewrite cos_neg, sin_neg. rewrite E1, E2.
    cbn [fst snd Cmult RtoC]. pose proof (COS_bound w). pose proof (sin2_cos2 w) as S. unfold Rsqr in S.
    replace ((2 + cos w) * (2 + cos w) + - sin w * - sin w)%R with (5 + 4 * cos w)%R by nra.
    unfold Rdiv. rewrite Rmult_0_r. replace (1 + 2 * cos w)%R with (cos w * (2 + cos w) + - - (sin w * sin w))%R by nra. ring_simplify. ring.
Qed.

(** The claim that every bin holds the group delay fails in the first one. *)
Theorem C126_fir_delay_first_bin_refuted : exists b y ax,
  fir_delay zero_test (fir_of b) 4 1 = Ok (y, ax) /\ (1 <= Cmod (fir_at b (PI * sampled_at 4 (nth 0 ax 0%R))))%R /\
  phase_slope (fir_at b) (PI * sampled_at 4 (nth 0 ax 0%R)) (-1) /\ nth 0 y 0%R = (1 / 15)%R.
Proof.
  exists [RtoC 2; RtoC 1]. do 2 eexists. split; [reflexivity|]. set (y := if (2 <? 4)%Z then _ else _). set (ax := linspace _ _ _).
  assert (S : only_small zero_test 1) by (apply zero_test_small; lra).
  destruct (C126_fir_delay zero_test 1 (fir_of [RtoC 2; RtoC 1]) 4 1 y ax S eq_refl) as (_ & _ & _ & V & V0).
  split; [apply two_one_mod|].
  assert (A0 : nth 0 ax 0%R = (-1)%R) by (destruct (axis_bin 4 0 ltac:(lia) ltac:(cbn; lia)) as [E _]; unfold ax; rewrite E; cbn [INR]; lra). rewrite A0. split.
  - replace (-1)%R with ((1 + 2 * cos (PI * sampled_at 4 (-1))) / (5 + 4 * cos (PI * sampled_at 4 (-1))))%R at 2; [apply two_one_slope|].
    unfold sampled_at. change (4 mod 2)%Z with 0%Z. replace (PI * (-1 - 0 / 4))%R with (- PI)%R by field. rewrite cos_neg, cos_PI. lra.
  - rewrite V0 by lia.
    assert (G : forall k, (0 < k < 4)%nat -> nth k y 0%R = ((1 + 2 * cos (PI * (-1 + 2 * INR k / 4))) / (5 + 4 * cos (PI * (-1 + 2 * INR k / 4))))%R).
    { intros k Hk. destruct (V k ltac:(cbn; lia) ltac:(lia)) as [Ea W]. cbv zeta in W. destruct (W ltac:(apply two_one_mod)) as (t & P & ->).
      rewrite Ea in P. unfold sampled_at in P. change (4 mod 2)%Z with 0%Z in P. replace (-1 + 2 * INR k / 4 - 0 / 4)%R with (-1 + 2 * INR k / 4)%R in P by lra.
      rewrite Rmult_1_l. apply (phase_slope_unique _ _ _ _ ltac:(intros Q; pose proof (two_one_mod (PI * (-1 + 2 * INR k / 4))) as M; rewrite Q, Cmod_0 in M; lra) P), two_one_slope. }
    rewrite !G by lia. cbn [INR].
    replace (PI * (-1 + 2 * 1 / 4))%R with (- (PI / 2))%R by field. replace (PI * (-1 + 2 * (1 + 1) / 4))%R with 0%R by field.
    rewrite cos_neg, cos_PI2, cos_0. field.
Qed.
Print Assumptions C126_fir_delay_first_bin_refuted.
