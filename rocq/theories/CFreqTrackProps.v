(** Property C152: the estimate of ComplexFrequencyFilter lies between the smallest and the
    largest phase step of the signal. *)
From Coq Require Import List Arith ZArith Lia Bool Reals Lra.
From Coquelicot Require Import Rcomplements Complex.
From Verif Require Import Base BaseLemmas Instances FirModel CExpModel CExpProps CBandModel CBandProps CFreqProps.
Import ListNotations.
Set Asymmetric Patterns.
Open Scope R_scope.

(** ** Cones of directions *)
(** Component of z along the direction p. *)
Definition along (p : R) (z : C) : R := fst z * cos p + snd z * sin p.
Lemma along_polar p m t : along p (Cmult (RtoC m) (cis t)) = m * cos (t - p).
Proof. unfold along, cis, Cmult, RtoC. cbn [fst snd]. rewrite cos_minus. ring. Qed.
Lemma along_lin p a b z w : along p (Cplus (Cmult (RtoC a) z) (Cmult (RtoC b) w)) = a * along p z + b * along p w.
Proof. unfold along, Cplus, Cmult, RtoC. cbn [fst snd]. ring. Qed.
Lemma along_bound p z : - Cmod z <= along p z.
Proof.
  rewrite (angle_polar z). rewrite along_polar, Cmod_mult, Cmod_cis, Cmod_R, Rabs_pos_eq by apply Cmod_ge_0.
  pose proof (COS_bound (angle z - p)) as [H _]. pose proof (Cmod_ge_0 z).
  pose proof (Rmult_le_compat_l (Cmod z) (-1) (cos (angle z - p)) H0 H). lra.
Qed.

(** Between the directions lo and hi, the ends included. *)
Definition in_cone (lo hi : R) (z : C) : Prop :=
  0 <= along (lo + PI / 2) z /\ 0 <= along (hi - PI / 2) z /\ 0 < along ((lo + hi) / 2) z.

Lemma cos_quarter_r t : cos (t - PI / 2) = sin t.
Proof. replace (t - PI / 2) with (- (PI / 2 - t)) by ring. rewrite cos_neg. apply cos_shift. Qed.

Lemma in_cone_angle lo hi z : - PI < lo -> lo <= hi -> hi <= PI -> in_cone lo hi z -> lo <= angle z <= hi.
Proof.
  intros H1 H2 H3 (Hl & Hh & Hm). pose proof (angle_range z) as Ha. pose proof PI_RGT_0 as P.
  rewrite (angle_polar z), along_polar in Hl, Hh, Hm. set (t := angle z) in *. set (m := Cmod z) in *.
  assert (Hm0 : 0 < m). { pose proof (Cmod_ge_0 z) as [C|C]; [exact C|]. unfold m in Hm. rewrite <- C in Hm. lra. }
  replace (t - (lo + PI / 2)) with ((t - lo) - PI / 2) in Hl by ring. rewrite cos_quarter_r in Hl.
  replace (t - (hi - PI / 2)) with (- ((hi - t) - PI / 2)) in Hh by ring. rewrite cos_neg, cos_quarter_r in Hh.
  assert (Sl : 0 <= sin (t - lo)) by (apply Rnot_lt_le; intros C; pose proof (mul_pos_neg _ _ Hm0 C); lra).
  assert (Sh : 0 <= sin (hi - t)) by (apply Rnot_lt_le; intros C; pose proof (mul_pos_neg _ _ Hm0 C); lra).
  assert (Sm : 0 < cos (t - (lo + hi) / 2)) by (apply Rnot_le_lt; intros C; pose proof (Rmult_le_pos m (- cos (t - (lo + hi) / 2)) ltac:(lra) ltac:(lra)); lra).
  assert (Neg : forall x, - PI < x < 0 -> sin x < 0) by (intros x Hx; apply sin_lt_0_var; lra).
  assert (Neg2 : forall x, PI < x < 2 * PI -> sin x < 0) by (intros x Hx; apply sin_lt_0; lra).
  split; apply Rnot_lt_le; intros C.
  - destruct (Rle_or_lt (t - lo) (- PI)) as [D|D]; [|specialize (Neg (t - lo) ltac:(lra)); lra].
    destruct (Rle_or_lt (hi - t) PI) as [D2|D2]; [|specialize (Neg2 (hi - t) ltac:(lra)); lra].
    assert (E : t - (lo + hi) / 2 = - PI) by lra. rewrite E, cos_neg, cos_PI in Sm. lra.
  - destruct (Rle_or_lt (hi - t) (- PI)) as [D|D]; [|specialize (Neg (hi - t) ltac:(lra)); lra].
    destruct (Rle_or_lt (t - lo) PI) as [D2|D2]; [|specialize (Neg2 (t - lo) ltac:(lra)); lra].
    assert (E : t - (lo + hi) / 2 = PI) by lra. rewrite E, cos_PI in Sm. lra.
Qed.

Lemma cis_in_cone lo hi m t : 0 < m -> hi - lo < PI -> lo <= t <= hi -> in_cone lo hi (Cmult (RtoC m) (cis t)).
Proof.
  intros Hm H Ht. pose proof PI_RGT_0 as P. unfold in_cone. rewrite !along_polar.
  replace (t - (lo + PI / 2)) with ((t - lo) - PI / 2) by ring. replace (t - (hi - PI / 2)) with (- ((hi - t) - PI / 2)) by ring.
  rewrite cos_neg, !cos_quarter_r. repeat split.
  - apply Rmult_le_pos; [lra|]. apply sin_ge_0; lra.
  - apply Rmult_le_pos; [lra|]. apply sin_ge_0; lra.
  - apply Rmult_lt_0_compat; [lra|]. apply cos_gt_0; lra.
Qed.

(** The margin by which every direction between lo and hi lies inside the cone widened by e. *)
Definition margin (lo hi e : R) : R := Rmin (sin e) (Rmin (sin (hi - lo + e)) (cos ((hi - lo) / 2))).
Lemma margin_pos lo hi e : lo <= hi -> 0 < e -> hi - lo + 2 * e < PI -> 0 < margin lo hi e.
Proof.
  intros H1 H2 H3. pose proof PI_RGT_0 as P. unfold margin. repeat apply Rmin_pos.
  - apply sin_gt_0; lra.
  - apply sin_gt_0; lra.
  - apply cos_gt_0; lra.
Qed.
Lemma sin_concave_min a b x : 0 <= a -> b <= PI -> a <= x <= b -> Rmin (sin a) (sin b) <= sin x.
Proof.
  intros H1 H2 H3. destruct (Rle_or_lt x (PI / 2)) as [D|D].
  - apply Rle_trans with (sin a); [apply Rmin_l|]. apply sin_incr_1; lra.
  - apply Rle_trans with (sin b); [apply Rmin_r|]. apply sin_decr_1; lra.
Qed.
Lemma margin_cone lo hi e t : lo <= t <= hi -> 0 < e -> hi - lo + 2 * e < PI ->
  margin lo hi e <= along (lo - e + PI / 2) (cis t) /\ margin lo hi e <= along (hi + e - PI / 2) (cis t) /\
  margin lo hi e <= along ((lo - e + (hi + e)) / 2) (cis t).
Proof.
  intros Ht He H. pose proof PI_RGT_0 as P.
  assert (E : forall p, along p (cis t) = cos (t - p)) by (intros p; replace (cis t) with (Cmult (RtoC 1) (cis t)) by ring; rewrite along_polar; ring).
  rewrite !E. replace (t - (lo - e + PI / 2)) with ((t - lo + e) - PI / 2) by ring. replace (t - (hi + e - PI / 2)) with (- ((hi - t + e) - PI / 2)) by ring.
  rewrite cos_neg, !cos_quarter_r. replace ((lo - e + (hi + e)) / 2) with ((lo + hi) / 2) by field.
  assert (M1 : margin lo hi e <= Rmin (sin e) (sin (hi - lo + e))).
  { unfold margin. apply Rmin_glb; [apply Rmin_l|]. eapply Rle_trans; [apply Rmin_r|apply Rmin_l]. }
  split; [|split].
  - eapply Rle_trans; [exact M1|]. apply sin_concave_min; lra.
  - eapply Rle_trans; [exact M1|]. apply sin_concave_min; lra.
  - apply Rle_trans with (cos ((hi - lo) / 2)).
    { unfold margin. eapply Rle_trans; [apply Rmin_r|apply Rmin_r]. }
    destruct (Rle_or_lt 0 (t - (lo + hi) / 2)) as [D|D].
    + apply cos_decr_1; lra.
    + rewrite <- (cos_neg (t - (lo + hi) / 2)). apply cos_decr_1; lra.
Qed.

(** ** The signal *)
(** No sample is near zero, and from each sample to the next the phase advances by at least
    lo and at most hi. *)
Definition steps_within (h : list C -> list C) (lo hi : R) (d : list C) : Prop :=
  d <> [] /\ (forall n, (n < length d)%nat -> 1 / 100000000 < Cmod (nth n (analytic h d) (RtoC 0))) /\
  forall n, (S n < length d)%nat -> exists m t, 0 < m /\ lo <= t <= hi /\
    nth (S n) (analytic h d) (RtoC 0) = Cmult (RtoC m) (Cmult (cis t) (nth n (analytic h d) (RtoC 0))).

Lemma unit_step z w m t : 1 / 100000000 < Cmod z -> 1 / 100000000 < Cmod w -> 0 < m -> w = Cmult (RtoC m) (Cmult (cis t) z) ->
  Cmult (normalise w) (Cconj (normalise z)) = cis t.
Proof.
  intros Hz Hw Hm E.
  destruct (normalise_cases z) as [[C _]|(_ & Ez & Mz)]; [lra|]. destruct (normalise_cases w) as [[C _]|(_ & Ew & Mw)]; [lra|].
  assert (Mod : Cmod w = m * Cmod z) by (rewrite E, !Cmod_mult, Cmod_R, Cmod_cis, Rabs_pos_eq by lra; ring).
  assert (Nw : normalise w = Cmult (cis t) (normalise z)).
  { rewrite Ew, Ez, Mod, E, RtoC_mult. field. split; intros C; apply RtoC_inj in C; lra. }
  rewrite Nw. rewrite (angle_polar (normalise z)), Mz.
  replace (Cmult (cis t) (Cmult (RtoC 1) (cis (angle (normalise z))))) with (Cmult (cis t) (cis (angle (normalise z)))) by ring.
  replace (Cmult (RtoC 1) (cis (angle (normalise z)))) with (cis (angle (normalise z))) by ring.
  rewrite <- Cmult_assoc, cis_conj_mul. ring.
Qed.

(** The coefficient is an exponential average of the steps. *)
Lemma cfreq_average h g g' d out : keeps_length h -> cfreq_ok g -> d <> [] -> cfreq_filter h g d = (g', Ok out) ->
  (forall n, (n < length d)%nat -> 1 / 100000000 < Cmod (nth n (analytic h d) (RtoC 0))) ->
  fbo out 0 = cfreq_b g /\
  (forall n, (n < length d)%nat -> fy out n = angle (fbo out n) / PI) /\
  (Cmod (cfreq_s g) = 1 -> (1 < length d)%nat ->
    fbo out 1 = Cplus (Cmult (RtoC (1 - frate g)) (fbo out 0)) (Cmult (RtoC (frate g)) (Cmult (normalise (nth 0 (analytic h d) (RtoC 0))) (Cconj (cfreq_s g))))) /\
  forall n, (S (S n) < length d)%nat ->
    fbo out (S (S n)) = Cplus (Cmult (RtoC (1 - frate g)) (fbo out (S n)))
      (Cmult (RtoC (frate g)) (Cmult (normalise (nth (S n) (analytic h d) (RtoC 0))) (Cconj (normalise (nth n (analytic h d) (RtoC 0)))))).
Proof.
  intros Hh Hg Hd E Hbig. destruct (cfreq_filter_seq h g d Hh Hg Hd) as (g2 & out2 & E2 & _ & _ & _ & _ & B & S_ & H0 & H1 & _ & _ & H4).
  rewrite E in E2. injection E2 as E2 E3. subst g2 out2.
  assert (Hb : forall n, (n < length d)%nat -> fbo out n = B n) by (intros n Hn; destruct (H4 n Hn) as [H5 _]; unfold fbo; rewrite H5; reflexivity).
  assert (Hu : forall z, Cmod z = 1 -> Cmult z (Cconj z) = RtoC 1).
  { intros z Hz. rewrite (angle_polar z), Hz. replace (Cmult (RtoC 1) (cis (angle z))) with (cis (angle z)) by ring. apply cis_conj_mul. }
  assert (Step : forall b s x, Cmod s = 1 -> Cplus b (Cmult (Cmult (RtoC (frate g)) (Cminus x (Cmult b s))) (Cconj s)) =
    Cplus (Cmult (RtoC (1 - frate g)) b) (Cmult (RtoC (frate g)) (Cmult x (Cconj s)))).
  { intros b s x Hs. specialize (Hu s Hs). replace (Cmult (Cmult (RtoC (frate g)) (Cminus x (Cmult b s))) (Cconj s))
      with (Cminus (Cmult (RtoC (frate g)) (Cmult x (Cconj s))) (Cmult (Cmult (RtoC (frate g)) b) (Cmult s (Cconj s)))) by ring.
    rewrite Hu, RtoC_minus. ring. }
  assert (Hpos : (0 < length d)%nat) by (destruct d; [congruence|cbn; lia]).
  split; [rewrite Hb by exact Hpos; exact H0|]. split; [|split].
  - intros n Hn. rewrite Hb by exact Hn. destruct (H4 n Hn) as [H5 _]. unfold fy. rewrite H5. reflexivity.
  - intros Hs Hl. rewrite !Hb by lia. destruct (H4 0%nat ltac:(lia)) as (_ & H5 & _). rewrite H5, H1. apply Step. exact Hs.
  - intros n Hn. rewrite !Hb by lia. destruct (H4 n ltac:(lia)) as (_ & _ & H6). destruct (H4 (S n) ltac:(lia)) as (_ & H5 & _). rewrite H5, H6. apply Step.
    destruct (normalise_cases (nth n (analytic h d) (RtoC 0))) as [[C _]|(_ & _ & M)]; [|exact M]. specialize (Hbig n ltac:(lia)). lra.
Qed.

(** C152.  Started inside the range, the estimate never leaves it. *)
Theorem C152_cfreq_between (h : list C -> list C) (g g' : cfreq) (d : list C) out (lo hi : R) :
  keeps_length h -> cfreq_ok g -> - PI < lo -> lo <= hi -> hi <= PI -> hi - lo < PI ->
  steps_within h lo hi d -> cfreq_filter h g d = (g', Ok out) ->
  Cmod (cfreq_s g) = 1 ->
  (exists m t, 0 < m /\ lo <= t <= hi /\ nth 0 (analytic h d) (RtoC 0) = Cmult (RtoC m) (Cmult (cis t) (cfreq_s g))) ->
  (exists m t, 0 < m /\ lo <= t <= hi /\ cfreq_b g = Cmult (RtoC m) (cis t)) ->
  forall n, (n < length d)%nat -> lo / PI <= fy out n <= hi / PI.
Proof.
  intros Hh Hg L1 L2 L3 L4 (Hd & Hbig & Hst) E Hs (m1 & t1 & Hm1 & Ht1 & E1) (m0 & t0 & Hm0 & Ht0 & E0).
  destruct (cfreq_average h g g' d out Hh Hg Hd E Hbig) as (A0 & Ay & A1 & AS). pose proof PI_RGT_0 as P.
  destruct Hg as (_ & _ & _ & Hr).
  assert (Conv : forall z t, in_cone lo hi z -> lo <= t <= hi -> in_cone lo hi (Cplus (Cmult (RtoC (1 - frate g)) z) (Cmult (RtoC (frate g)) (cis t)))).
  { intros z t (Z1 & Z2 & Z3) Ht. destruct (cis_in_cone lo hi 1 t ltac:(lra) L4 Ht) as (W1 & W2 & W3).
    replace (Cmult (RtoC 1) (cis t)) with (cis t) in * by ring. unfold in_cone. rewrite !along_lin. repeat split.
    - apply Rplus_le_le_0_compat; apply Rmult_le_pos; lra.
    - apply Rplus_le_le_0_compat; apply Rmult_le_pos; lra.
    - destruct (Rle_or_lt (frate g) (1 / 2)) as [D|D].
      + apply Rplus_lt_le_0_compat; [apply Rmult_lt_0_compat; lra|apply Rmult_le_pos; lra].
      + apply Rplus_le_lt_0_compat; [apply Rmult_le_pos; lra|apply Rmult_lt_0_compat; lra]. }
  assert (Main : forall n, (n < length d)%nat -> in_cone lo hi (fbo out n)).
  { induction n as [|n IH]; intros Hn; [rewrite A0, E0; apply cis_in_cone; assumption|]. destruct n as [|n].
    - rewrite A1 by (assumption || lia).
      replace (Cmult (normalise (nth 0 (analytic h d) (RtoC 0))) (Cconj (cfreq_s g))) with (cis t1); [apply Conv; [apply IH; lia|exact Ht1]|].
      specialize (Hbig 0%nat ltac:(lia)). symmetry.
      destruct (normalise_cases (nth 0 (analytic h d) (RtoC 0))) as [[C _]|(_ & En & _)]; [lra|].
      assert (Mod : Cmod (nth 0 (analytic h d) (RtoC 0)) = m1) by (rewrite E1, !Cmod_mult, Cmod_R, Cmod_cis, Hs, Rabs_pos_eq by lra; ring).
      rewrite En, Mod, E1. rewrite (angle_polar (cfreq_s g)), Hs. replace (Cmult (RtoC 1) (cis (angle (cfreq_s g)))) with (cis (angle (cfreq_s g))) by ring.
      transitivity (Cmult (cis t1) (Cmult (cis (angle (cfreq_s g))) (Cconj (cis (angle (cfreq_s g)))))).
      + field. intros C. apply RtoC_inj in C. lra.
      + rewrite cis_conj_mul. ring.
    - rewrite AS by exact Hn. destruct (Hst n ltac:(lia)) as (m & t & Hm & Ht & Et).
      rewrite (unit_step _ _ m t (Hbig n ltac:(lia)) (Hbig (S n) ltac:(lia)) Hm Et). apply Conv; [apply IH; lia|exact Ht]. }
  intros n Hn. rewrite Ay by exact Hn. destruct (in_cone_angle lo hi _ L1 L2 L3 (Main n Hn)) as [H1 H2].
  split; apply Rmult_le_compat_r; try (left; apply Rinv_0_lt_compat; exact P); assumption.
Qed.
Print Assumptions C152_cfreq_between.

(** Whatever the coefficient and the previous sample were, the estimate comes into the range
    up to any tolerance, after a number of samples that depends on the filter only. *)
Theorem C152_cfreq_eventually (h : list C -> list C) (g : cfreq) (lo hi ep : R) :
  keeps_length h -> cfreq_ok g -> 0 < frate g -> - PI < lo -> lo <= hi -> hi < PI -> hi - lo < PI -> 0 < ep ->
  exists N, forall d g' out, steps_within h lo hi d -> cfreq_filter h g d = (g', Ok out) ->
    forall n, (N <= n < length d)%nat -> lo / PI - ep <= fy out n <= hi / PI + ep.
Proof.
  intros Hh Hg Hr0 L1 L2 L3 L4 Hep. pose proof PI_RGT_0 as P. pose proof Hg as (_ & [s [Hs Hs1]] & _ & Hr).
  set (e := Rmin (Rmin (ep * PI) ((lo + PI) / 2)) (Rmin ((PI - hi) / 2) ((PI - (hi - lo)) / 4))).
  assert (He : 0 < e /\ e <= ep * PI /\ e <= (lo + PI) / 2 /\ e <= (PI - hi) / 2 /\ e <= (PI - (hi - lo)) / 4).
  { unfold e. repeat split.
    - repeat apply Rmin_pos; try lra. apply Rmult_lt_0_compat; lra.
    - eapply Rle_trans; [apply Rmin_l|apply Rmin_l].
    - eapply Rle_trans; [apply Rmin_l|apply Rmin_r].
    - eapply Rle_trans; [apply Rmin_r|apply Rmin_l].
    - eapply Rle_trans; [apply Rmin_r|apply Rmin_r]. }
  destruct He as (He & He1 & He2 & He3 & He4).
  pose proof (margin_pos lo hi e L2 He ltac:(lra)) as Mp. set (sg := margin lo hi e) in *.
  set (M := Rmax (Cmod (cfreq_b g)) 1 + frate g / 2).
  assert (HM : 0 < M) by (unfold M; pose proof (Rmax_r (Cmod (cfreq_b g)) 1); lra).
  destruct (pow_lt_1_zero (1 - frate g)) with (y := sg / (sg + M)) as [N HN].
  { rewrite Rabs_pos_eq; lra. } { apply Rdiv_lt_0_compat; lra. }
  exists (S N). intros d g' out (Hd & Hbig & Hst) E n [Hn1 Hn2].
  destruct (cfreq_average h g g' d out Hh Hg Hd E Hbig) as (A0 & Ay & A1 & AS).
  assert (HB1 : forall k, (k < length d)%nat -> Cmod (fbo out k) <= M).
  { intros k Hk. destruct (C47_cfreq_bounds h g g' d out Hh Hg Hd E) as (_ & _ & H & _). apply H. exact Hk. }
  assert (Main : forall p, (forall t, lo <= t <= hi -> sg <= along p (cis t)) -> forall k, (S k < length d)%nat ->
    (1 - (1 - frate g) ^ k) * sg - (1 - frate g) ^ k * M <= along p (fbo out (S k))).
  { intros p Hp. induction k as [|k IH]; intros Hk.
    - cbn [pow]. pose proof (along_bound p (fbo out 1)). specialize (HB1 1%nat Hk). lra.
    - rewrite AS by exact Hk. destruct (Hst k ltac:(lia)) as (m & t & Hm & Ht & Et).
      rewrite (unit_step _ _ m t (Hbig k ltac:(lia)) (Hbig (S k) ltac:(lia)) Hm Et). rewrite along_lin. cbn [pow].
      specialize (IH ltac:(lia)). specialize (Hp t Ht). set (q := (1 - frate g) ^ k) in *.
      pose proof (Rmult_le_compat_l (1 - frate g) _ _ ltac:(lra) IH). pose proof (Rmult_le_compat_l (frate g) _ _ ltac:(lra) Hp). lra. }
  destruct n as [|n]; [lia|]. specialize (HN n ltac:(lia)). rewrite Rabs_pos_eq in HN by (apply pow_le; lra).
  assert (Hpos : 0 < (1 - (1 - frate g) ^ n) * sg - (1 - frate g) ^ n * M).
  { set (q := (1 - frate g) ^ n) in *. assert (q * (sg + M) < sg).
    { apply Rlt_le_trans with (sg / (sg + M) * (sg + M)); [apply Rmult_lt_compat_r; lra|]. right. field. lra. } lra. }
  assert (Cone : in_cone (lo - e) (hi + e) (fbo out (S n))).
  { unfold in_cone. assert (Mc := fun t Ht => margin_cone lo hi e t Ht He ltac:(lra)). fold sg in Mc.
    pose proof (Main (lo - e + PI / 2) (fun t Ht => proj1 (Mc t Ht)) n Hn2).
    pose proof (Main (hi + e - PI / 2) (fun t Ht => proj1 (proj2 (Mc t Ht))) n Hn2).
    pose proof (Main ((lo - e + (hi + e)) / 2) (fun t Ht => proj2 (proj2 (Mc t Ht))) n Hn2). lra. }
  rewrite Ay by exact Hn2. destruct (in_cone_angle (lo - e) (hi + e) _ ltac:(lra) ltac:(lra) ltac:(lra) Cone) as [H1 H2].
  assert (Hi : 0 < / PI) by (apply Rinv_0_lt_compat; exact P).
  assert (He5 : e / PI <= ep) by (apply Rmult_le_reg_r with PI; [exact P|]; unfold Rdiv; rewrite Rmult_assoc, Rinv_l by lra; lra).
  assert (K1 : (lo - e) / PI <= angle (fbo out (S n)) / PI) by (apply Rmult_le_compat_r; lra).
  assert (K2 : angle (fbo out (S n)) / PI <= (hi + e) / PI) by (apply Rmult_le_compat_r; lra).
  unfold Rdiv in *. lra.
Qed.
Print Assumptions C152_cfreq_eventually.

(** A tone of amplitude a disturbed by less than a per sample. *)
Definition disturbed_tone (h : list C -> list C) (a f p dl : R) (d : list C) : Prop :=
  d <> [] /\ forall n, (n < length d)%nat ->
    Cmod (Cminus (nth n (analytic h d) (RtoC 0)) (Cmult (RtoC a) (cis (PI * (f * INR n + p))))) <= dl.

Lemma near_direction a dl t z : 0 <= dl < a -> Cmod (Cminus z (Cmult (RtoC a) (cis t))) <= dl ->
  exists m u, 0 < m /\ Rabs u <= asin (dl / a) /\ z = Cmult (RtoC m) (cis (t + u)) /\ m = Cmod z.
Proof.
  intros Ha Hz. pose proof PI_RGT_0 as P. set (w := Cmult z (cis (- t))).
  assert (Ew : z = Cmult w (cis t)).
  { unfold w. rewrite <- Cmult_assoc, <- cis_add. replace (- t + t) with 0 by ring. rewrite cis_0. ring. }
  assert (Hw : Cmod (Cminus w (RtoC a)) <= dl).
  { replace (Cminus w (RtoC a)) with (Cmult (Cminus z (Cmult (RtoC a) (cis t))) (cis (- t))).
    - rewrite Cmod_mult, Cmod_cis. lra.
    - rewrite Ew. replace (Cmult (Cminus (Cmult w (cis t)) (Cmult (RtoC a) (cis t))) (cis (- t)))
        with (Cmult (Cminus w (RtoC a)) (Cmult (cis t) (cis (- t)))) by ring.
      rewrite <- cis_add. replace (t + - t) with 0 by ring. rewrite cis_0. ring. }
  set (u := angle w) in *. set (m := Cmod w) in *. assert (Hp : w = Cmult (RtoC m) (cis u)) by apply angle_polar.
  assert (Hm : 0 < m).
  { assert (H : Cmod (Cplus w (Copp (Cminus w (RtoC a)))) <= m + Cmod (Cminus w (RtoC a))).
    { eapply Rle_trans; [apply Cmod_triangle|]. rewrite Cmod_opp. unfold m. lra. }
    replace (Cplus w (Copp (Cminus w (RtoC a)))) with (RtoC a) in H by ring. rewrite Cmod_R, Rabs_pos_eq in H by lra. lra. }
  assert (Hre : 0 < m * cos u).
  { assert (Hf : m * cos u = fst w) by (rewrite Hp; unfold Cmult, RtoC, cis; cbn [fst snd]; ring). rewrite Hf.
    pose proof (Rle_trans _ _ _ (Rmax_l _ _) (Rmax_Cmod (Cminus w (RtoC a)))) as H. cbn [fst Cminus Cplus Copp RtoC] in H.
    assert (H2 : Rabs (fst w + - a) <= dl) by (eapply Rle_trans; [exact H|exact Hw]). apply Rabs_le_between in H2. lra. }
  assert (Hc : 0 < cos u) by (apply Rnot_le_lt; intros C; pose proof (Rmult_le_pos m (- cos u) ltac:(lra) ltac:(lra)); lra).
  assert (Hsin : a * Rabs (sin u) <= dl).
  { set (v := Cmult (Cminus w (RtoC a)) (cis (- u))).
    assert (Hv : snd v = a * sin u).
    { unfold v. rewrite Hp. unfold Cmult, Cminus, Cplus, Copp, RtoC, cis. cbn [fst snd]. rewrite cos_neg, sin_neg. pose proof (sin2_cos2 u) as Q. unfold Rsqr in Q. ring. }
    pose proof (Rle_trans _ _ _ (Rmax_r _ _) (Rmax_Cmod v)) as H. rewrite Hv in H. unfold v in H. rewrite Cmod_mult, Cmod_cis, Rmult_1_r in H.
    rewrite Rabs_mult, (Rabs_pos_eq a) in H by lra. lra. }
  assert (Hs : Rabs (sin u) <= dl / a).
  { apply Rmult_le_reg_l with a; [lra|]. replace (a * (dl / a)) with dl by (field; lra). exact Hsin. }
  assert (Hk : 0 <= dl / a < 1).
  { split; [apply Rmult_le_pos; [lra|left; apply Rinv_0_lt_compat; lra]|]. apply Rmult_lt_reg_l with a; [lra|]. replace (a * (dl / a)) with dl by (field; lra). lra. }
  pose proof (angle_range w) as Hr. fold u in Hr.
  assert (Hu : - (PI / 2) < u < PI / 2).
  { split; apply Rnot_le_lt; intros C.
    - assert (cos (- u) <= 0) by (apply cos_le_0; lra). rewrite cos_neg in H. lra.
    - assert (cos u <= 0) by (apply cos_le_0; lra). lra. }
  exists m, u. split; [exact Hm|]. split; [|split].
  - pose proof (asin_bound (dl / a)) as Hb. apply Rabs_le_between in Hs. apply Rabs_le_between. split.
    + apply Rnot_lt_le. intros C. assert (sin u < sin (- asin (dl / a))) by (apply sin_increasing_1; lra).
      rewrite sin_neg, sin_asin in H by lra. lra.
    + apply Rnot_lt_le. intros C. assert (sin (asin (dl / a)) < sin u) by (apply sin_increasing_1; lra). rewrite sin_asin in H by lra. lra.
  - rewrite Ew, Hp, cis_add. ring.
  - unfold m. rewrite Ew, Cmod_mult, Cmod_cis. ring.
Qed.

Theorem C152_cfreq_disturbance (h : list C -> list C) (g : cfreq) (a f p dl ep : R) :
  keeps_length h -> cfreq_ok g -> 0 < frate g -> 0 <= dl -> 1 / 100000000 < a - dl ->
  4 * asin (dl / a) < PI -> 2 * asin (dl / a) < PI * (1 - Rabs f) -> 0 < ep ->
  exists N, forall d g' out, disturbed_tone h a f p dl d -> cfreq_filter h g d = (g', Ok out) ->
    forall n, (N <= n < length d)%nat -> Rabs (fy out n - f) <= 2 / PI * asin (dl / a) + ep.
Proof.
  intros Hh Hg Hr Hdl Ha H4 Hf Hep. pose proof PI_RGT_0 as P. set (w := asin (dl / a)) in *.
  assert (Hw : 0 <= w). { unfold w. rewrite <- asin_0. unfold w in *.
    assert (Hk : 0 <= dl / a <= 1).
    { split; [apply Rmult_le_pos; [lra|left; apply Rinv_0_lt_compat; lra]|]. apply Rmult_le_reg_l with a; [lra|]. replace (a * (dl / a)) with dl by (field; lra). lra. }
    apply Rnot_lt_le. intros C. pose proof (asin_bound (dl / a)) as B1. pose proof (asin_bound 0) as B2.
    assert (sin (asin (dl / a)) < sin (asin 0)) by (apply sin_increasing_1; lra). rewrite !sin_asin in H by lra. lra. }
  assert (Hf2 : - (PI * Rabs f) <= PI * f <= PI * Rabs f).
  { pose proof (Rle_abs f). pose proof (Rle_abs (- f)). rewrite Rabs_Ropp in H0. split.
    - replace (- (PI * Rabs f)) with (PI * - Rabs f) by ring. apply Rmult_le_compat_l; lra.
    - apply Rmult_le_compat_l; lra. }
  destruct (C152_cfreq_eventually h g (PI * f - 2 * w) (PI * f + 2 * w) ep Hh Hg Hr ltac:(lra) ltac:(lra) ltac:(lra) ltac:(lra) Hep) as [N HN].
  exists N. intros d g' out [Hd Ht] E n Hn.
  assert (Big : forall k, (k < length d)%nat -> 1 / 100000000 < Cmod (nth k (analytic h d) (RtoC 0))).
  { intros k Hk. specialize (Ht k Hk). set (z := nth k (analytic h d) (RtoC 0)) in *. set (y := Cmult (RtoC a) (cis (PI * (f * INR k + p)))) in *.
    assert (Hy : Cmod y = a) by (unfold y; rewrite Cmod_mult, Cmod_R, Cmod_cis, Rabs_pos_eq by lra; ring).
    assert (Cmod y <= Cmod z + Cmod (Cminus z y)).
    { replace y with (Cplus z (Copp (Cminus z y))) at 1 by ring. eapply Rle_trans; [apply Cmod_triangle|]. rewrite Cmod_opp. lra. } lra. }
  assert (St : steps_within h (PI * f - 2 * w) (PI * f + 2 * w) d).
  { split; [exact Hd|]. split; [exact Big|]. intros k Hk.
    destruct (near_direction a dl _ _ ltac:(lra) (Ht k ltac:(lia))) as (m1 & u1 & M1 & U1 & E1 & _).
    destruct (near_direction a dl _ _ ltac:(lra) (Ht (S k) Hk)) as (m2 & u2 & M2 & U2 & E2 & _).
    fold w in U1, U2. apply Rabs_le_between in U1, U2.
    exists (m2 / m1), (PI * f + (u2 - u1)). split; [apply Rdiv_lt_0_compat; assumption|]. split; [lra|]. rewrite E1, E2.
    replace (PI * (f * INR (S k) + p) + u2) with ((PI * f + (u2 - u1)) + (PI * (f * INR k + p) + u1)) by (rewrite S_INR; ring).
    rewrite (cis_add (PI * f + (u2 - u1))). unfold Rdiv. rewrite RtoC_mult, RtoC_inv by lra. field. intros C. apply RtoC_inj in C. lra. }
  specialize (HN d g' out St E n Hn). apply Rabs_le_between.
  replace ((PI * f - 2 * w) / PI) with (f - 2 / PI * w) in HN by (field; lra). replace ((PI * f + 2 * w) / PI) with (f + 2 / PI * w) in HN by (field; lra). lra.
Qed.
Print Assumptions C152_cfreq_disturbance.
Lemma id_analytic d : analytic (fun d => d) d = d.
Proof. unfold analytic. destruct (existsb _ _); reflexivity. Qed.
(** A filter of rate 1/4 set to frequency 1/4 follows steps of pi/5 and pi/3. *)
Example C152_example : exists g0 g, cfreq_make 0 (1 / 4) = Ok g0 /\ cfreq_set_frequency g0 (1 / 4) = (g, Ok tt) /\
  cfreq_ok g /\ 0 < frate g /\ Cmod (cfreq_s g) = 1 /\ cfreq_b g = Cmult (RtoC 1) (cis (PI / 4)) /\
  let d := [cis (PI / 4); Cmult (RtoC 3) (cis (PI / 4 + PI / 5)); cis (PI / 4 + PI / 5 + PI / 3)] in
  steps_within (fun d => d) (PI / 5) (PI / 3) d /\
  nth 0 (analytic (fun d => d) d) (RtoC 0) = Cmult (RtoC 1) (Cmult (cis (PI / 4)) (cfreq_s g)).
Proof.
  pose proof PI_RGT_0 as P. eexists _, _. split; [apply cfreq_make_eq; lra|]. split.
  { unfold cfreq_set_frequency. replace (frequency_bad (1 / 4)) with false by (symmetry; apply frequency_bad_iff; lra). reflexivity. }
  unfold cfreq_ok, cfreq_s, cfreq_b. cbn [ffir fb fs fdt frate ffreq nth].
  split; [|split; [lra|split; [rewrite Cmod_R, Rabs_pos_eq; lra|split]]].
  - split; [eexists; reflexivity|]. split; [|lra]. eexists; split; [reflexivity|]. rewrite Cmod_R, Rabs_pos_eq; lra.
  - unfold expjR. replace (PI * (1 / 4)) with (PI / 4) by field. ring.
  - cbv zeta. split; [|rewrite id_analytic; cbn [nth]; ring].
    split; [discriminate|]. rewrite id_analytic. split.
    + intros n Hn. destruct n as [|[|[|n]]]; [| | |cbn in Hn; lia]; cbn [nth]; rewrite ?Cmod_mult, ?Cmod_R, ?Cmod_cis, ?Rabs_pos_eq; lra.
    + intros n Hn. destruct n as [|[|n]]; [| |cbn in Hn; lia]; cbn [nth].
      * exists 3, (PI / 5). split; [lra|]. split; [lra|]. rewrite <- cis_add. f_equal. f_equal. ring.
      * exists (1 / 3), (PI / 3). split; [lra|]. split; [lra|].
        replace (PI / 4 + PI / 5 + PI / 3) with (PI / 3 + (PI / 4 + PI / 5)) by ring. rewrite cis_add.
        replace (RtoC (1 / 3)) with (Cinv (RtoC 3)) by (rewrite <- RtoC_inv by lra; f_equal; field). field. intros C. apply RtoC_inj in C. lra.
Qed.
Example C152_disturbance_example : 4 * asin (1 / 2) < PI /\ 2 * asin (1 / 2) < PI * (1 - Rabs (1 / 4)) /\ 1 / 100000000 < 2 - 1 /\
  disturbed_tone (fun d => d) 2 (1 / 4) 0 1 [RtoC 3; Cmult (RtoC (3 / 2)) (cis (PI / 4))].
Proof.
  pose proof PI_RGT_0 as P. replace (1 / 2) with (sin (PI / 6)) by apply sin_PI6. rewrite asin_sin by lra. rewrite Rabs_pos_eq by lra.
  split; [lra|]. split; [lra|]. split; [lra|]. split; [discriminate|]. rewrite id_analytic. intros n Hn.
  destruct n as [|[|n]]; [| |cbn in Hn; lia]; cbn [nth INR].
  - replace (PI * (1 / 4 * 0 + 0)) with 0 by ring. rewrite cis_0. replace (Cminus (RtoC 3) (Cmult (RtoC 2) (RtoC 1))) with (RtoC 1).
    + rewrite Cmod_R, Rabs_pos_eq; lra.
    + unfold Cminus, Cplus, Copp, Cmult, RtoC. cbn [fst snd]. f_equal; ring.
  - replace (PI * (1 / 4 * 1 + 0)) with (PI / 4) by field.
    replace (Cminus (Cmult (RtoC (3 / 2)) (cis (PI / 4))) (Cmult (RtoC 2) (cis (PI / 4)))) with (Cmult (RtoC (3 / 2 - 2)) (cis (PI / 4))) by (rewrite RtoC_minus; ring).
    rewrite Cmod_mult, Cmod_R, Cmod_cis, Rabs_left1 by lra. lra.
Qed.
