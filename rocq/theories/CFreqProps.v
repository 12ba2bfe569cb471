(** Properties C45-C47: ComplexFrequencyFilter. *)
From Coq Require Import List Arith ZArith Lia Bool Reals Lra.
From Coquelicot Require Import Complex.
From Verif Require Import Base BaseLemmas Instances FirModel CExpModel CExpProps CBandModel CBandProps.
Import ListNotations.
Set Asymmetric Patterns.
Open Scope R_scope.

(** ** The principal angle *)
Lemma Rltb_false a b : Rltb a b = false <-> b <= a.
Proof. rewrite <- not_true_iff_false, Rltb_iff. lra. Qed.
Lemma Rleb_false a b : Rleb a b = false <-> b < a.
Proof. rewrite <- not_true_iff_false, Rleb_iff. lra. Qed.

Lemma atan_lt0 x : x < 0 -> atan x < 0.
Proof. intros H. rewrite <- atan_0. apply atan_increasing, H. Qed.
Lemma atan_ge0 x : 0 <= x -> 0 <= atan x.
Proof. intros [H|H]; [left; rewrite <- atan_0; apply atan_increasing, H|subst; rewrite atan_0; lra]. Qed.

Lemma mul_pos_neg a b : 0 < a -> b < 0 -> a * b < 0.
Proof. intros H1 H2. pose proof (Rmult_lt_0_compat a (- b) H1 ltac:(lra)). lra. Qed.
Lemma mul_neg_neg a b : a < 0 -> b < 0 -> 0 < a * b.
Proof. intros H1 H2. pose proof (Rmult_lt_0_compat (- a) (- b) ltac:(lra) ltac:(lra)). lra. Qed.

Lemma angle_range z : - PI < angle z <= PI.
Proof.
  pose proof PI_RGT_0 as P. unfold angle. destruct z as [x y]. cbn [fst snd].
  pose proof (atan_bound (y / x)) as B.
  destruct (Rltb 0 x) eqn:E1; [lra|]. destruct (Rltb x 0) eqn:E2.
  - apply Rltb_iff in E2. destruct (Rleb 0 y) eqn:E3.
    + apply Rleb_iff in E3. destruct E3 as [E3|E3].
      * assert (y / x < 0). { unfold Rdiv. apply mul_pos_neg; [exact E3|apply Rinv_lt_0_compat, E2]. }
        pose proof (atan_lt0 _ H). lra.
      * subst y. unfold Rdiv. rewrite Rmult_0_l, atan_0. lra.
    + apply Rleb_false in E3. assert (0 <= y / x).
      { left. unfold Rdiv. apply mul_neg_neg; [exact E3|apply Rinv_lt_0_compat, E2]. }
      assert (0 < y / x) by (unfold Rdiv; apply mul_neg_neg; [exact E3|apply Rinv_lt_0_compat, E2]).
      assert (0 < atan (y / x)) by (rewrite <- atan_0; apply atan_increasing; assumption). lra.
  - destruct (Rltb 0 y); [lra|]. destruct (Rltb y 0); lra.
Qed.

Lemma Cmod_sq x y : Cmod (x, y) * Cmod (x, y) = x * x + y * y.
Proof. unfold Cmod. cbn [fst snd]. rewrite sqrt_sqrt; [ring|]. pose proof (pow2_ge_0 x). pose proof (pow2_ge_0 y). lra. Qed.

Lemma atan_polar x y : 0 < x -> Cmod (x, y) * cos (atan (y / x)) = x /\ Cmod (x, y) * sin (atan (y / x)) = y.
Proof.
  intros Hx. pose proof (atan_bound (y / x)) as B. set (t := atan (y / x)) in *.
  assert (Hc : 0 < cos t) by (apply cos_gt_0; lra).
  assert (Ht : sin t / cos t = y / x) by (change (tan t = y / x); apply tan_atan).
  assert (Hs : sin t = cos t * (y / x)) by (rewrite <- Ht; field; lra).
  assert (Hm : Cmod (x, y) * cos t = x).
  { pose proof (sin2_cos2 t) as H1. unfold Rsqr in H1. rewrite Hs in H1.
    assert (H2 : cos t * cos t * (x * x + y * y) = x * x).
    { replace (cos t * cos t * (x * x + y * y)) with (x * x * (cos t * (y / x) * (cos t * (y / x)) + cos t * cos t)) by (field; lra).
      rewrite H1. ring. }
    rewrite <- Cmod_sq in H2. pose proof (Cmod_ge_0 (x, y)) as H3.
    apply Rsqr_inj; [apply Rmult_le_pos; lra|lra|]. unfold Rsqr.
    replace (Cmod (x, y) * cos t * (Cmod (x, y) * cos t)) with (cos t * cos t * (Cmod (x, y) * Cmod (x, y))) by ring. exact H2. }
  split; [exact Hm|]. rewrite Hs. replace (Cmod (x, y) * (cos t * (y / x))) with (Cmod (x, y) * cos t * (y / x)) by ring. rewrite Hm. field. lra.
Qed.

Lemma Cmod_neg x y : Cmod (- x, - y) = Cmod (x, y).
Proof. change (- x, - y) with (Copp (x, y)). apply Cmod_opp. Qed.

Lemma angle_polar z : z = Cmult (RtoC (Cmod z)) (cis (angle z)).
Proof.
  assert (G : forall x y t, Cmod (x, y) * cos t = x -> Cmod (x, y) * sin t = y -> (x, y) = Cmult (RtoC (Cmod (x, y))) (cis t)).
  { intros x y t H1 H2. unfold cis, RtoC, Cmult. cbn [fst snd]. rewrite !Rmult_0_l, Rminus_0_r, Rplus_0_r. congruence. }
  destruct z as [x y]. unfold angle. cbn [fst snd].
  destruct (Rltb 0 x) eqn:E1; [apply Rltb_iff in E1; destruct (atan_polar x y E1); apply G; assumption|].
  destruct (Rltb x 0) eqn:E2.
  - apply Rltb_iff in E2. destruct (atan_polar (- x) (- y)) as [H1 H2]; [lra|]. rewrite Cmod_neg in H1, H2.
    replace (- y / - x) with (y / x) in H1, H2 by (field; lra).
    destruct (Rleb 0 y); apply G.
    + rewrite neg_cos. lra.
    + rewrite neg_sin. lra.
    + replace (cos (atan (y / x) - PI)) with (- cos (atan (y / x))); [lra|]. rewrite cos_minus, cos_PI, sin_PI. ring.
    + replace (sin (atan (y / x) - PI)) with (- sin (atan (y / x))); [lra|]. rewrite sin_minus, cos_PI, sin_PI. ring.
  - apply Rltb_false in E1, E2. assert (x = 0) by lra. subst x.
    destruct (Rltb 0 y) eqn:E3.
    + apply Rltb_iff in E3. apply G; rewrite ?cos_PI2, ?sin_PI2; [ring|]. unfold Cmod; cbn [fst snd].
      replace (0 ^ 2 + y ^ 2) with (y * y) by ring. rewrite sqrt_square by lra. ring.
    + destruct (Rltb y 0) eqn:E4.
      * apply Rltb_iff in E4. apply G; rewrite ?cos_neg, ?sin_neg, ?cos_PI2, ?sin_PI2; [ring|]. unfold Cmod; cbn [fst snd].
        replace (0 ^ 2 + y ^ 2) with (- y * - y) by ring. rewrite sqrt_square by lra. ring.
      * apply Rltb_false in E3, E4. assert (y = 0) by lra. subst y. change (0, 0) with (RtoC 0). rewrite Cmod_0. ring.
Qed.

Lemma cis_inj a b : - PI < a <= PI -> - PI < b <= PI -> cis a = cis b -> a = b.
Proof.
  intros Ha Hb E. pose proof PI_RGT_0 as P.
  assert (E1 : cis (a - b) = RtoC 1).
  { replace (a - b) with (a + - b) by ring. rewrite cis_add, E, <- cis_add. replace (b + - b) with 0 by ring. apply cis_0. }
  set (t := a - b) in *. assert (Ht : - (2 * PI) < t < 2 * PI) by (unfold t; lra).
  assert (Ec : cos t = 1) by exact (f_equal fst E1). assert (Es : sin t = 0) by exact (f_equal snd E1).
  assert (H0 : t = 0); [|unfold t in H0; lra].
  destruct (Rtotal_order t 0) as [H|[H|H]]; [|exact H|].
  - destruct (Rlt_le_dec (- t) PI) as [H1|H1].
    + assert (0 < sin (- t)) by (apply sin_gt_0; lra). rewrite sin_neg in H0. lra.
    + destruct H1 as [H1|H1].
      * assert (sin (- t) < 0) by (apply sin_lt_0; lra). rewrite sin_neg in H0. lra.
      * assert (H2 : cos (- t) = -1) by (rewrite <- H1; apply cos_PI). rewrite cos_neg in H2. lra.
  - destruct (Rlt_le_dec t PI) as [H1|H1].
    + assert (0 < sin t) by (apply sin_gt_0; lra). lra.
    + destruct H1 as [H1|H1].
      * assert (sin t < 0) by (apply sin_lt_0; lra). lra.
      * assert (H2 : cos t = -1) by (rewrite <- H1; apply cos_PI). lra.
Qed.

(** A polar form with an angle in range determines [angle]. *)
Lemma angle_unique m t : 0 < m -> - PI < t <= PI -> angle (Cmult (RtoC m) (cis t)) = t.
Proof.
  intros Hm Ht. set (z := Cmult (RtoC m) (cis t)). apply cis_inj; [apply angle_range|exact Ht|].
  assert (Hz : Cmod z = m) by (unfold z; rewrite Cmod_mult, Cmod_cis, Cmod_R, Rabs_pos_eq by lra; ring).
  pose proof (angle_polar z) as H. rewrite Hz in H. unfold z in H at 1.
  assert (Hm0 : RtoC m <> RtoC 0) by (intros C; apply RtoC_inj in C; lra).
  assert (H2 : Cmult (Cinv (RtoC m)) (Cmult (RtoC m) (cis t)) = Cmult (Cinv (RtoC m)) (Cmult (RtoC m) (cis (angle z)))) by (rewrite H at 1; reflexivity).
  rewrite !Cmult_assoc, !Cinv_l, !Cmult_1_l in H2 by exact Hm0. symmetry; exact H2.
Qed.
Lemma angle_cis t : - PI < t <= PI -> angle (cis t) = t.
Proof. intros H. rewrite <- (Cmult_1_l (cis t)). apply (angle_unique 1); [lra|exact H]. Qed.

Lemma atan_le x : 0 <= x -> atan x <= x.
Proof.
  intros [H|H]; [|subst; rewrite atan_0; lra]. pose proof (atan_bound x) as B.
  assert (0 < atan x) by (rewrite <- atan_0; apply atan_increasing, H).
  left.
  destruct (MVT_cor2 atan (fun x => / (1 + x ^ 2)) 0 x H) as (c & Hc & Hc2).
  { intros c Hc. apply derivable_pt_lim_atan. }
  rewrite atan_0, !Rminus_0_r in Hc. rewrite Hc.
  assert (1 < 1 + c ^ 2) by (assert (0 < c ^ 2) by (apply pow_lt; lra); lra).
  assert (/ (1 + c ^ 2) < 1) by (rewrite <- Rinv_1; apply Rinv_lt_contravar; lra).
  rewrite <- (Rmult_1_l x) at 2. apply Rmult_lt_compat_r; lra.
Qed.

Lemma atan_abs x : Rabs (atan x) <= Rabs x.
Proof.
  destruct (Rle_dec 0 x) as [H|H].
  - rewrite !Rabs_pos_eq; [apply atan_le, H|exact H|apply atan_ge0, H].
  - rewrite (Rabs_left x) by lra. rewrite Rabs_left by (apply atan_lt0; lra). rewrite <- atan_opp. apply atan_le. lra.
Qed.

(** The principal angle is continuous off the negative real axis, with a modulus. *)
Lemma angle_near t z : - PI < t < PI -> Cmod (Cminus z (cis t)) <= 1 / 2 ->
  2 * Cmod (Cminus z (cis t)) < PI - t -> 2 * Cmod (Cminus z (cis t)) < PI + t ->
  Rabs (angle z - t) <= 2 * Cmod (Cminus z (cis t)).
Proof.
  intros Ht Hd H1 H2. set (dd := Cmod (Cminus z (cis t))) in *.
  set (w := Cmult z (cis (- t))).
  assert (Ew : Cmod (Cminus w (RtoC 1)) = dd).
  { unfold w, dd. assert (E : Cminus (Cmult z (cis (- t))) (RtoC 1) = Cmult (Cminus z (cis t)) (cis (- t))).
    { rewrite <- cis_0. replace 0 with (t + - t) by ring. rewrite cis_add. ring. }
    rewrite E, Cmod_mult, Cmod_cis. ring. }
  destruct w as [u v] eqn:Huv. assert (Hu : Rabs (u - 1) <= dd /\ Rabs v <= dd).
  { rewrite <- Ew. pose proof (Rmax_Cmod (Cminus (u, v) (RtoC 1))) as M. cbn [fst snd Cminus Cplus Copp RtoC] in M.
    replace (v + - 0) with v in M by ring. split; eapply Rle_trans; [|exact M| |exact M]; [apply Rmax_l|apply Rmax_r]. }
  destruct Hu as [Hu Hv]. assert (Hu2 : 1 / 2 <= u) by (unfold Rabs in Hu; destruct (Rcase_abs _) in Hu; lra).
  destruct (atan_polar u v) as [P1 P2]; [lra|]. set (ph := atan (v / u)) in *.
  assert (Hph : Rabs ph <= 2 * dd).
  { eapply Rle_trans; [apply atan_abs|]. unfold Rdiv. rewrite Rabs_mult, Rabs_inv, (Rabs_pos_eq u) by lra.
    apply Rle_trans with (dd * 2); [|lra]. apply Rmult_le_compat; [apply Rabs_pos|left; apply Rinv_0_lt_compat; lra|exact Hv|].
    replace 2 with (/ (1 / 2)) by field. apply Rinv_le_contravar; lra. }
  assert (Ez : z = Cmult (RtoC (Cmod (u, v))) (cis (t + ph))).
  { assert (Ez : z = Cmult (u, v) (cis t)).
    { rewrite <- Huv. unfold w. rewrite <- Cmult_assoc, <- cis_add. replace (- t + t) with 0 by ring. rewrite cis_0. ring. }
    rewrite Ez. assert (Eu : (u, v) = Cmult (RtoC (Cmod (u, v))) (cis ph)).
    { unfold cis, RtoC, Cmult. cbn [fst snd]. rewrite !Rmult_0_l, Rminus_0_r, Rplus_0_r. congruence. }
    rewrite Eu at 1. rewrite cis_add. ring. }
  rewrite Ez, angle_unique.
  - replace (t + ph - t) with ph by ring. exact Hph.
  - apply Cmod_gt_0. intros C. injection C as C1 C2. lra.
  - unfold Rabs in Hph. destruct (Rcase_abs _) in Hph; lra.
Qed.

(** ** The filter *)
Open Scope C_scope.
Definition cfreq_ok (g : cfreq) : Prop :=
  (exists b, fb (ffir g) = [b]) /\ (exists s, fs (ffir g) = [s] /\ (Cmod s <= 1)%R) /\
  (-1 <= ffreq g <= 1 /\ 0 <= frate g <= 1)%R.
Definition cfreq_b (g : cfreq) : C := nth 0 (fb (ffir g)) (RtoC 0).
Definition cfreq_s (g : cfreq) : C := nth 0 (fs (ffir g)) (RtoC 0).
Definition fy (out : list (R * C * C)) (n : nat) : R := fst (fst (nth n out (0%R, RtoC 0, RtoC 0))).
Definition fe (out : list (R * C * C)) (n : nat) : C := snd (fst (nth n out (0%R, RtoC 0, RtoC 0))).
Definition fbo (out : list (R * C * C)) (n : nat) : C := snd (nth n out (0%R, RtoC 0, RtoC 0)).

Lemma near0_iff z : near0 z = true <-> (Cmod z <= 1 / 100000000)%R.
Proof. unfold near0. apply Rleb_iff. Qed.

Lemma normalise_cases d : (Cmod d <= 1 / 100000000)%R /\ normalise d = d \/
  (1 / 100000000 < Cmod d)%R /\ normalise d = d / RtoC (Cmod d) /\ Cmod (normalise d) = 1%R.
Proof.
  unfold normalise. destruct (near0 (RtoC (Cmod d))) eqn:E.
  - left. apply near0_iff in E. rewrite Cmod_R, Rabs_pos_eq in E by apply Cmod_ge_0. split; [exact E|]. unfold Cdiv. replace (/ RtoC 1) with (RtoC 1) by (rewrite <- RtoC_inv by lra; f_equal; field). ring.
  - right. assert (H : (1 / 100000000 < Cmod d)%R).
    { unfold near0 in E. apply Rleb_false in E. rewrite Cmod_R, Rabs_pos_eq in E by apply Cmod_ge_0. exact E. }
    split; [exact H|]. split; [reflexivity|]. assert (RtoC (Cmod d) <> 0) by (intros C; apply RtoC_inj in C; lra).
    rewrite Cmod_div by assumption. rewrite Cmod_R, Rabs_pos_eq by apply Cmod_ge_0. field. lra.
Qed.
Lemma normalise_le1 d : (Cmod (normalise d) <= 1)%R.
Proof. destruct (normalise_cases d) as [[H E]|(H & _ & E)]; rewrite E; lra. Qed.

(** The loop as sequences of coefficients and states. *)
Lemma cfreq_loop_seq r : forall (xs : list C) (b s : C),
  exists B S_ : nat -> C, B 0%nat = b /\ S_ 0%nat = s /\
    fst (fst (cfreq_loop r b s xs)) = B (length xs) /\ snd (fst (cfreq_loop r b s xs)) = S_ (length xs) /\
    length (snd (cfreq_loop r b s xs)) = length xs /\
    forall n, (n < length xs)%nat ->
      nth n (snd (cfreq_loop r b s xs)) (0%R, RtoC 0, RtoC 0) =
        ((angle (B n) / PI)%R, nth n xs (RtoC 0) - B n * S_ n, B n) /\
      B (S n) = B n + RtoC r * (nth n xs (RtoC 0) - B n * S_ n) * Cconj (S_ n) /\
      S_ (S n) = nth n xs (RtoC 0).
Proof.
  induction xs as [|x xs IH]; intros b s.
  - exists (fun _ => b), (fun _ => s). cbn. repeat split; intros; lia.
  - cbn [cfreq_loop]. destruct (IH (b + RtoC r * (x - b * s) * Cconj s) x) as (B & S_ & H0 & H1 & H2 & H3 & H4 & H5).
    destruct (cfreq_loop r (b + RtoC r * (x - b * s) * Cconj s) x xs) as [[b2 s2] out]. cbn [fst snd] in *.
    exists (fun n => match n with 0%nat => b | S m => B m end), (fun n => match n with 0%nat => s | S m => S_ m end).
    repeat split; [exact H2|exact H3|cbn [length]; lia| | |].
    + destruct n as [|n]; [reflexivity|]. cbn [nth]. apply H5. cbn [length] in H. lia.
    + destruct n as [|n]; [exact H0|]. cbn [nth]. apply H5. cbn [length] in H. lia.
    + destruct n as [|n]; [exact H1|]. cbn [nth]. apply H5. cbn [length] in H. lia.
Qed.

Lemma cfreq_filter_seq h g d : keeps_length h -> cfreq_ok g -> d <> [] ->
  exists g' out, cfreq_filter h g d = (g', Ok out) /\ cfreq_ok g' /\ length out = length d /\
    ffreq g' = ffreq g /\ frate g' = frate g /\
    exists B S_ : nat -> C, B 0%nat = cfreq_b g /\ S_ 0%nat = cfreq_s g /\
    B (length d) = cfreq_b g' /\ S_ (length d) = cfreq_s g' /\
    forall n, (n < length d)%nat ->
      nth n out (0%R, RtoC 0, RtoC 0) =
        ((angle (B n) / PI)%R, normalise (nth n (analytic h d) (RtoC 0)) - B n * S_ n, B n) /\
      B (S n) = B n + RtoC (frate g) * (normalise (nth n (analytic h d) (RtoC 0)) - B n * S_ n) * Cconj (S_ n) /\
      S_ (S n) = normalise (nth n (analytic h d) (RtoC 0)).
Proof.
  intros Hh ([b Hb] & [s [Hs Hs1]] & Hf & Hr) Hd. unfold cfreq_filter.
  destruct (Nat.eqb_spec (length d) 0) as [E|E]; [destruct d; [congruence|discriminate]|]. rewrite Hb, Hs.
  destruct (cfreq_loop_seq (frate g) (map normalise (analytic h d)) b s) as (B & S_ & H0 & H1 & H2 & H3 & H4 & H5).
  rewrite map_length, analytic_length in * by exact Hh.
  assert (Hn : forall n, (n < length d)%nat -> nth n (map normalise (analytic h d)) (RtoC 0) = normalise (nth n (analytic h d) (RtoC 0))).
  { intros n Hn. rewrite (nth_indep _ (RtoC 0) (normalise (RtoC 0))) by (rewrite map_length, analytic_length by exact Hh; exact Hn). apply map_nth. }
  destruct (cfreq_loop _ _ _ _) as [[b2 s2] out]. cbn [fst snd] in *.
  eexists _, _. split; [reflexivity|]. split; [|split; [exact H4|split; [reflexivity|split; [reflexivity|]]]].
  - split; [|split]; cbn [ffir ffreq frate fb fs].
    + eexists; reflexivity.
    + eexists; split; [reflexivity|]. rewrite H3. destruct (length d) as [|m] eqn:El; [lia|].
      destruct (H5 m) as (_ & _ & H6); [lia|]. rewrite H6, Hn by lia. apply normalise_le1.
    + lra.
  - exists B, S_. unfold cfreq_b, cfreq_s. cbn [ffir fb fs]. rewrite Hb, Hs. cbn [nth].
    split; [exact H0|]. split; [exact H1|]. split; [symmetry; exact H2|]. split; [symmetry; exact H3|].
    intros n Hlt. rewrite <- Hn by exact Hlt. apply H5, Hlt.
Qed.

Lemma cfreq_make_eq f r : (-1 <= f <= 1)%R -> (0 <= r <= 1)%R ->
  cfreq_make f r = Ok (mkCfreq (@mkFir CA DComplex [RtoC 1] [RtoC 1]) f r).
Proof.
  intros Hf Hr. unfold cfreq_make. apply frequency_bad_iff in Hf. apply rate_bad_iff in Hr. rewrite Hf, Hr. reflexivity.
Qed.

(** Histories of public calls. *)
Inductive cfreq_op : Type := FFilter (d : list C) | FFreq (f : R) | FRate (r : R) | FReset (x : option C).
Inductive cfreq_out : Type := FSig (o : res (list (R * C * C))) | FUnit (o : res unit).
Definition cfreq_exec (h : list C -> list C) (g : cfreq) (o : cfreq_op) : cfreq * cfreq_out :=
  match o with
  | FFilter d => let '(g', y) := cfreq_filter h g d in (g', FSig y)
  | FFreq f => let '(g', y) := cfreq_set_frequency g f in (g', FUnit y)
  | FRate r => let '(g', y) := cfreq_set_rate g r in (g', FUnit y)
  | FReset x => let '(g', y) := cfreq_reset g x in (g', FUnit y)
  end.
Fixpoint cfreq_run (h : list C -> list C) (g : cfreq) (ops : list cfreq_op) : cfreq * list cfreq_out :=
  match ops with
  | [] => (g, [])
  | o :: t => let '(g', y) := cfreq_exec h g o in let '(g2, ys) := cfreq_run h g' t in (g2, y :: ys)
  end.

(** C45. *)
Theorem C45_cfreq_constructor_frequency (h : list C -> list C) (f1 f2 r : R) (g1 g2 : cfreq) :
  keeps_length h -> cfreq_make f1 r = Ok g1 -> cfreq_make f2 r = Ok g2 ->
  cfreq_ok g1 /\ ffreq g1 = f1 /\
  (forall ops, snd (cfreq_run h g1 ops) = snd (cfreq_run h g2 ops)) /\
  (forall d, d <> [] -> exists g' out, cfreq_filter h g1 d = (g', Ok out) /\ fy out 0 = 0%R /\ fbo out 0 = 1) /\
  (forall f d, (-1 < f <= 1)%R -> d <> [] -> exists g3 g' out, cfreq_set_frequency g1 f = (g3, Ok tt) /\
     cfreq_filter h g3 d = (g', Ok out) /\ fy out 0 = f /\ fbo out 0 = cis (PI * f)).
Proof.
  intros Hh E1 E2. pose proof PI_RGT_0 as P.
  assert (R1 : (-1 <= f1 <= 1 /\ 0 <= r <= 1)%R).
  { unfold cfreq_make in E1. destruct (frequency_bad f1) eqn:Ef; [discriminate|]. destruct (rate_bad r) eqn:Er; [discriminate|].
    apply frequency_bad_iff in Ef. apply rate_bad_iff in Er. lra. }
  assert (R2 : (-1 <= f2 <= 1)%R).
  { unfold cfreq_make in E2. destruct (frequency_bad f2) eqn:Ef; [discriminate|]. apply frequency_bad_iff in Ef. lra. }
  rewrite cfreq_make_eq in E1 by lra. rewrite cfreq_make_eq in E2 by lra. injection E1 as E1. injection E2 as E2.
  assert (Hok : cfreq_ok g1).
  { subst g1. unfold cfreq_ok. cbn. split; [eexists; reflexivity|]. split; [eexists; split; [reflexivity|rewrite Cmod_1; lra]|lra]. }
  split; [exact Hok|]. split; [subst g1; reflexivity|]. split; [|split].
  - intros ops.
    assert (G : forall ops g g', ffir g = ffir g' -> frate g = frate g' -> snd (cfreq_run h g ops) = snd (cfreq_run h g' ops)).
    { induction ops0 as [|o ops0 IH]; intros [a fa ra] [b fb' rb] Hg1 Hg2; [reflexivity|]. cbn in Hg1, Hg2. subst b rb.
      assert (Hs : snd (cfreq_exec h (mkCfreq a fa ra) o) = snd (cfreq_exec h (mkCfreq a fb' ra) o) /\
        ffir (fst (cfreq_exec h (mkCfreq a fa ra) o)) = ffir (fst (cfreq_exec h (mkCfreq a fb' ra) o)) /\
        frate (fst (cfreq_exec h (mkCfreq a fa ra) o)) = frate (fst (cfreq_exec h (mkCfreq a fb' ra) o))).
      { destruct o as [d|f|q|x]; cbn [cfreq_exec].
        - unfold cfreq_filter. cbn [ffir frate ffreq]. destruct (Nat.eqb _ _); [repeat split|]. destruct (fb a); [repeat split|].
          destruct (fs a); [repeat split|]. destruct (cfreq_loop _ _ _ _) as [[? ?] ?]. repeat split.
        - unfold cfreq_set_frequency. cbn [ffir frate ffreq]. destruct (frequency_bad f); [repeat split|]. destruct (fb a); repeat split.
        - unfold cfreq_set_rate. destruct (rate_bad q); repeat split.
        - unfold cfreq_reset. cbn [ffir frate ffreq]. destruct x; [|repeat split]. destruct (fs a); repeat split. }
      destruct Hs as (Hs1 & Hs2 & Hs3). cbn [cfreq_run].
      destruct (cfreq_exec h (mkCfreq a fa ra) o) as [ga ya], (cfreq_exec h (mkCfreq a fb' ra) o) as [gb yb]. cbn [fst snd] in *.
      specialize (IH ga gb Hs2 Hs3). destruct (cfreq_run h ga ops0), (cfreq_run h gb ops0). cbn [snd] in *. congruence. }
    subst g1 g2. apply G; reflexivity.
  - intros d Hd. destruct (cfreq_filter_seq h g1 d Hh Hok Hd) as (g' & out & E & _ & _ & _ & _ & B & S_ & H0 & _ & _ & _ & H1).
    exists g', out. split; [exact E|]. assert (Hpos : (0 < length d)%nat) by (destruct d; [congruence|cbn; lia]).
    destruct (H1 0%nat Hpos) as [H2 _]. unfold fy, fbo. rewrite H2. cbn [fst snd]. rewrite H0. subst g1. cbn [cfreq_b ffir fb nth].
    split; [|reflexivity]. change (angle (RtoC 1) / PI = 0)%R. rewrite <- cis_0, angle_cis by lra. field. lra.
  - intros f d Hf Hd. assert (Ef : frequency_bad f = false) by (apply frequency_bad_iff; lra).
    assert (E3 : exists g3, cfreq_set_frequency g1 f = (g3, Ok tt) /\ cfreq_ok g3 /\ cfreq_b g3 = cis (PI * f)).
    { subst g1. unfold cfreq_set_frequency. rewrite Ef. cbn. eexists. split; [reflexivity|]. unfold cfreq_ok. cbn.
      split; [|reflexivity]. split; [eexists; reflexivity|]. split; [eexists; split; [reflexivity|rewrite Cmod_1; lra]|lra]. }
    destruct E3 as (g3 & E3 & Hok3 & Hb3).
    destruct (cfreq_filter_seq h g3 d Hh Hok3 Hd) as (g' & out & E & _ & _ & _ & _ & B & S_ & H0 & _ & _ & _ & H1).
    exists g3, g', out. split; [exact E3|]. split; [exact E|]. assert (Hpos : (0 < length d)%nat) by (destruct d; [congruence|cbn; lia]).
    destruct (H1 0%nat Hpos) as [H2 _]. unfold fy, fbo. rewrite H2. cbn [fst snd]. rewrite H0, Hb3. split; [|reflexivity].
    rewrite angle_cis by nra. field. lra.
Qed.
Print Assumptions C45_cfreq_constructor_frequency.
Example C45_example : exists g1 g2, cfreq_make (1 / 2) (1 / 10) = Ok g1 /\ cfreq_make (-1 / 4) (1 / 10) = Ok g2 /\ g1 <> g2.
Proof.
  eexists _, _. split; [apply cfreq_make_eq; lra|]. split; [apply cfreq_make_eq; lra|]. intros C. injection C as C. lra.
Qed.

(** C46. A tone of amplitude A with its preceding sample. *)
Definition tone_at (A f p : R) (t : R) : C := RtoC A * cis (PI * (f * t + p)).
Definition is_tone (h : list C -> list C) (A f p : R) (d : list C) : Prop :=
  d <> [] /\ forall n, (n < length d)%nat -> nth n (analytic h d) (RtoC 0) = tone_at A f p (INR n).

Lemma tone_mod A f p t : (0 < A)%R -> Cmod (tone_at A f p t) = A.
Proof. intros H. unfold tone_at. rewrite Cmod_mult, Cmod_cis, Cmod_R, Rabs_pos_eq by lra. ring. Qed.
Lemma tone_unit A f p t : (0 < A)%R -> tone_at A f p t / RtoC A = cis (PI * (f * t + p)).
Proof. intros H. unfold tone_at. field. intros C. apply RtoC_inj in C. lra. Qed.

Theorem C46_cfreq_converges (h : list C -> list C) (g : cfreq) (A f p : R) :
  keeps_length h -> cfreq_ok g -> (1 / 100000000 < A)%R ->
  exists g1, cfreq_reset g (Some (tone_at A f p (-1))) = (g1, Ok tt) /\ cfreq_b g1 = cfreq_b g /\
  (forall d g' out, is_tone h A f p d -> cfreq_filter h g1 d = (g', Ok out) ->
     (forall n, (n < length d)%nat ->
       fbo out n - cis (PI * f) = RtoC ((1 - frate g) ^ n) * (cfreq_b g - cis (PI * f)) /\
       (frate g = 1%R -> (-1 < f <= 1)%R -> (1 <= n)%nat -> fy out n = f)) /\
     cfreq_b g' - cis (PI * f) = RtoC ((1 - frate g) ^ length d) * (cfreq_b g - cis (PI * f))) /\
  ((0 < frate g)%R -> forall ep, (0 < ep)%R -> exists N, forall d g' out,
     is_tone h A f p d -> cfreq_filter h g1 d = (g', Ok out) ->
     forall n, (N <= n < length d)%nat ->
       (Cmod (fbo out n - cis (PI * f))%C <= ep)%R /\ ((-1 < f < 1)%R -> (Rabs (fy out n - f) <= ep)%R)).
Proof.
  intros Hh Hg HA. pose proof PI_RGT_0 as P. pose proof Hg as ([b Hb] & [s [Hs Hs1]] & Hf & Hr).
  unfold cfreq_reset. rewrite Hs.
  assert (En : near0 (tone_at A f p (-1)) = false).
  { unfold near0. apply Rleb_false. rewrite tone_mod by lra. exact HA. }
  rewrite En. rewrite tone_mod by lra. rewrite tone_unit by lra.
  eexists. split; [reflexivity|]. split; [reflexivity|].
  set (g1 := mkCfreq _ (ffreq g) (frate g)).
  assert (Hg1 : cfreq_ok g1).
  { unfold cfreq_ok, g1. cbn [ffir fb fs ffreq frate]. split; [eexists; exact Hb|].
    split; [eexists; split; [reflexivity|rewrite Cmod_cis; lra]|lra]. }
  assert (Main : forall d g' out, is_tone h A f p d -> cfreq_filter h g1 d = (g', Ok out) ->
     (forall n, (n < length d)%nat ->
       fy out n = (angle (fbo out n) / PI)%R /\
       fbo out n - cis (PI * f) = RtoC ((1 - frate g) ^ n) * (cfreq_b g - cis (PI * f))) /\
     cfreq_b g' - cis (PI * f) = RtoC ((1 - frate g) ^ length d) * (cfreq_b g - cis (PI * f))).
  { intros d g' out [Hd Ht] E. destruct (cfreq_filter_seq h g1 d Hh Hg1 Hd) as (g2 & out2 & E2 & _ & _ & _ & _ & B & S_ & H0 & H1 & H2 & H3 & H4).
    rewrite E in E2. injection E2 as E2 E3. subst g2 out2.
    assert (HN : forall n, (n < length d)%nat -> normalise (nth n (analytic h d) (RtoC 0)) = cis (PI * (f * INR n + p))).
    { intros n Hn. rewrite Ht by exact Hn. destruct (normalise_cases (tone_at A f p (INR n))) as [[C _]|(_ & E1 & _)].
      - rewrite tone_mod in C by lra. lra.
      - rewrite E1, tone_mod by lra. apply tone_unit. lra. }
    assert (HS : forall n, (n <= length d)%nat -> S_ n = cis (PI * (f * (INR n - 1) + p))).
    { intros [|n] Hn.
      - rewrite H1. unfold cfreq_s, g1. cbn [ffir fs nth INR]. f_equal. ring.
      - destruct (H4 n) as (_ & _ & H5); [lia|]. rewrite H5, HN by lia. rewrite S_INR. f_equal. ring. }
    assert (HB : forall n, (n <= length d)%nat -> B n - cis (PI * f) = RtoC ((1 - frate g) ^ n) * (cfreq_b g - cis (PI * f))).
    { induction n as [|n IH]; intros Hn.
      - rewrite H0. cbn [pow]. change (cfreq_b g1) with (cfreq_b g). ring.
      - destruct (H4 n) as (_ & H5 & _); [lia|]. rewrite H5, HN, HS by lia. change (frate g1) with (frate g).
        set (t := (PI * (f * (INR n - 1) + p))%R).
        replace (PI * (f * INR n + p))%R with (PI * f + t)%R by (unfold t; ring). rewrite cis_add.
        replace (B n + RtoC (frate g) * (cis (PI * f) * cis t - B n * cis t) * Cconj (cis t) - cis (PI * f))
          with ((B n - cis (PI * f)) * (1 - RtoC (frate g) * (cis t * Cconj (cis t)))) by ring.
        rewrite Cconj_cis_r, IH by lia. cbn [pow]. rewrite RtoC_mult, RtoC_minus. ring. }
    split; [|rewrite <- H2; apply HB; lia]. intros n Hn. destruct (H4 n Hn) as [H5 _]. unfold fy, fbo. rewrite H5. cbn [fst snd].
    split; [reflexivity|]. apply HB. lia. }
  split.
  - intros d g' out Ht E. destruct (Main d g' out Ht E) as [M1 M2]. split; [|exact M2]. intros n Hn.
    destruct (M1 n Hn) as [M3 M4]. split; [exact M4|]. intros Hr1 Hf1 Hn1. rewrite M3.
    rewrite Hr1 in M4. replace (1 - 1)%R with 0%R in M4 by ring. rewrite pow_ne_zero in M4 by lia.
    replace (fbo out n) with (cis (PI * f)).
    + rewrite angle_cis by nra. field. lra.
    + replace (fbo out n) with (fbo out n - cis (PI * f) + cis (PI * f)) by ring. rewrite M4. ring.
  - intros Hr0 ep Hep. set (m := Cmod (cfreq_b g - cis (PI * f))).
    assert (Hm : (0 <= m)%R) by apply Cmod_ge_0.
    (* a radius for both conclusions *)
    assert (Hdel : exists de, (0 < de /\ de <= ep /\ de <= 1 / 2 /\ 2 * de <= ep * PI /\
      ((-1 < f < 1)%R -> 2 * de < PI - PI * f /\ 2 * de < PI + PI * f))%R).
    { set (q := if Rlt_dec (-1) f then if Rlt_dec f 1 then Rmin (PI - PI * f) (PI + PI * f) else 1%R else 1%R).
      assert (Hq : (0 < q)%R).
      { unfold q. destruct (Rlt_dec (-1) f); [|lra]. destruct (Rlt_dec f 1); [|lra]. apply Rmin_glb_lt; nra. }
      exists (Rmin (Rmin ep (1 / 2)) (Rmin (ep * PI / 2) (q / 4))).
      pose proof (Rmin_l (Rmin ep (1 / 2)) (Rmin (ep * PI / 2) (q / 4))) as A1.
      pose proof (Rmin_r (Rmin ep (1 / 2)) (Rmin (ep * PI / 2) (q / 4))) as A2.
      pose proof (Rmin_l ep (1 / 2)) as A3. pose proof (Rmin_r ep (1 / 2)) as A4.
      pose proof (Rmin_l (ep * PI / 2) (q / 4)) as A5. pose proof (Rmin_r (ep * PI / 2) (q / 4)) as A6.
      assert (0 < ep * PI)%R by (apply Rmult_lt_0_compat; lra).
      split; [repeat apply Rmin_glb_lt; lra|]. repeat split; try lra.
      - assert (q <= PI - PI * f)%R; [|lra]. unfold q. destruct (Rlt_dec (-1) f); [|lra]. destruct (Rlt_dec f 1); [|lra]. apply Rmin_l.
      - assert (q <= PI + PI * f)%R; [|lra]. unfold q. destruct (Rlt_dec (-1) f); [|lra]. destruct (Rlt_dec f 1); [|lra]. apply Rmin_r. }
    destruct Hdel as (de & D1 & D2 & D3 & D4 & D5).
    destruct (pow_lt_1_zero (1 - frate g)) with (y := (de / (m + 1))%R) as [N HN].
    + rewrite Rabs_pos_eq; lra.
    + apply Rdiv_lt_0_compat; lra.
    + exists N. intros d g' out Ht E n [Hn1 Hn2]. destruct (Main d g' out Ht E) as [M _]. destruct (M n Hn2) as (M1 & M2).
      assert (Hle : (Cmod (fbo out n - cis (PI * f))%C <= de)%R).
      { rewrite M2, Cmod_mult, Cmod_R. specialize (HN n Hn1). fold m.
        apply Rle_trans with (de / (m + 1) * (m + 1))%R; [|right; field; lra].
        apply Rle_trans with (de / (m + 1) * m)%R.
        - apply Rmult_le_compat_r; [exact Hm|left; exact HN].
        - apply Rmult_le_compat_l; [|lra]. left. apply Rdiv_lt_0_compat; lra. }
      split; [lra|]. intros Hf1. destruct (D5 Hf1) as [D6 D7]. rewrite M1.
      assert (Ha : (Rabs (angle (fbo out n) - PI * f) <= 2 * Cmod (fbo out n - cis (PI * f))%C)%R).
      { apply angle_near; [nra|lra|lra|lra]. }
      replace (angle (fbo out n) / PI - f)%R with ((angle (fbo out n) - PI * f) * / PI)%R by (field; lra).
      rewrite Rabs_mult, Rabs_inv, (Rabs_pos_eq PI) by lra.
      apply Rmult_le_reg_r with PI; [lra|]. rewrite Rmult_assoc, Rinv_l by lra. lra.
Qed.
Print Assumptions C46_cfreq_converges.
Example C46_example : exists g, cfreq_make (1 / 2) (1 / 10) = Ok g /\ cfreq_ok g /\ (0 < frate g)%R /\
  is_tone (fun d => d) 2 (1 / 5) 0 (map (fun n => tone_at 2 (1 / 5) 0 (INR n)) (seq 0 4)).
Proof.
  eexists. split; [apply cfreq_make_eq; lra|]. split; [|split; [cbn; lra|]].
  - unfold cfreq_ok. cbn. split; [eexists; reflexivity|]. split; [eexists; split; [reflexivity|rewrite Cmod_1; lra]|lra].
  - split; [discriminate|]. intros n Hn. rewrite map_length, seq_length in Hn. unfold analytic.
    assert (E : forall (b : bool) (l : list C), (if b then l else l) = l) by (intros [|]; reflexivity). rewrite E.
    rewrite nth_map_seq by exact Hn. reflexivity.
Qed.

(** C47. *)
Lemma Cconj_mul_mod z : z * Cconj z = RtoC (Cmod z * Cmod z).
Proof.
  destruct z as [x y]. unfold Cmult, Cconj, RtoC. cbn [fst snd]. rewrite Cmod_sq. f_equal; ring.
Qed.

Lemma Cmod_Cconj z : Cmod (Cconj z) = Cmod z.
Proof. unfold Cmod, Cconj. cbn [fst snd]. f_equal. ring. Qed.

Lemma cfreq_step_bound r b s x :
  (0 <= r <= 1)%R -> (Cmod s <= 1)%R ->
  (Cmod (b + RtoC r * (x - b * s) * Cconj s)%C <= (1 - r * (Cmod s * Cmod s)) * Cmod b + r * Cmod x * Cmod s)%R.
Proof.
  intros Hr Hs. pose proof (Cmod_ge_0 s) as H0.
  replace (b + RtoC r * (x - b * s) * Cconj s) with ((1 - RtoC r * (s * Cconj s)) * b + RtoC r * x * Cconj s) by ring.
  rewrite Cconj_mul_mod. replace (1 - RtoC r * RtoC (Cmod s * Cmod s)) with (RtoC (1 - r * (Cmod s * Cmod s)))
    by (rewrite RtoC_minus, RtoC_mult; ring).
  eapply Rle_trans; [apply Cmod_triangle|]. rewrite !Cmod_mult, Cmod_Cconj, !Cmod_R.
  assert (Cmod s * Cmod s <= 1)%R by (rewrite <- (Rmult_1_l 1); apply Rmult_le_compat; lra).
  assert (0 <= Cmod s * Cmod s)%R by (apply Rmult_le_pos; lra).
  assert (r * (Cmod s * Cmod s) <= 1 * 1)%R by (apply Rmult_le_compat; lra).
  rewrite !Rabs_pos_eq by lra. lra.
Qed.

Theorem C47_cfreq_bounds (h : list C -> list C) (g g' : cfreq) (d : list C) (out : list (R * C * C)) :
  keeps_length h -> cfreq_ok g -> d <> [] -> cfreq_filter h g d = (g', Ok out) ->
  (Cmod (cfreq_s g') <= 1)%R /\
  (forall n, (n < length d)%nat -> (-1 < fy out n <= 1)%R) /\
  (* in general the coefficient stays within rate/2 of the claimed bound *)
  (forall n, (n < length d)%nat -> (Cmod (fbo out n) <= Rmax (Cmod (cfreq_b g)) 1 + frate g / 2)%R) /\
  (Cmod (cfreq_b g') <= Rmax (Cmod (cfreq_b g)) 1 + frate g / 2)%R /\
  (* and within the claimed bound when no sample is near zero *)
  (Cmod (cfreq_s g) = 1%R ->
   (forall n, (n < length d)%nat -> (1 / 100000000 < Cmod (nth n (analytic h d) (RtoC 0)))%R) ->
   (forall n, (n < length d)%nat -> (Cmod (fbo out n) <= Rmax (Cmod (cfreq_b g)) 1)%R) /\
   (Cmod (cfreq_b g') <= Rmax (Cmod (cfreq_b g)) 1)%R).
Proof.
  intros Hh Hg Hd E. pose proof PI_RGT_0 as P.
  destruct (cfreq_filter_seq h g d Hh Hg Hd) as (g2 & out2 & E2 & Hg' & _ & _ & _ & B & S_ & H0 & H1 & H2 & H3 & H4).
  rewrite E in E2. injection E2 as E2 E3. subst g2 out2.
  pose proof Hg as ([b Hb] & [s [Hs Hs1]] & Hf & Hr).
  assert (HS : forall n, (n <= length d)%nat -> (Cmod (S_ n) <= 1)%R).
  { intros [|n] Hn; [rewrite H1; unfold cfreq_s; rewrite Hs; exact Hs1|].
    destruct (H4 n) as (_ & _ & H5); [lia|]. rewrite H5. apply normalise_le1. }
  set (M := Rmax (Cmod (cfreq_b g)) 1). assert (HM : (1 <= M)%R) by apply Rmax_r. assert (HM2 : (Cmod (cfreq_b g) <= M)%R) by apply Rmax_l.
  split; [rewrite <- H3; apply HS; lia|]. split.
  - intros n Hn. destruct (H4 n Hn) as [H5 _]. unfold fy. rewrite H5. cbn [fst snd]. pose proof (angle_range (B n)) as A.
    assert (EA : (angle (B n) / PI * PI = angle (B n))%R) by (field; lra).
    split.
    + apply Rmult_lt_reg_r with PI; [lra|]. rewrite EA. lra.
    + apply Rmult_le_reg_r with PI; [lra|]. rewrite EA. lra.
  - assert (HB : forall n, (n <= length d)%nat -> (Cmod (B n) - frate g * (Cmod (S_ n) * Cmod (S_ n)) / 2 <= M)%R).
    { induction n as [|n IH]; intros Hn.
      - rewrite H0. pose proof (Cmod_ge_0 (S_ 0%nat)). assert (0 <= frate g * (Cmod (S_ 0%nat) * Cmod (S_ 0%nat)))%R by (repeat apply Rmult_le_pos; lra). lra.
      - destruct (H4 n) as (_ & H5 & H6); [lia|]. rewrite H5, <- H6. specialize (IH ltac:(lia)).
        pose proof (cfreq_step_bound (frate g) (B n) (S_ n) (S_ (S n)) Hr (HS n ltac:(lia))) as Q.
        pose proof (HS n ltac:(lia)) as HS1. pose proof (Cmod_ge_0 (S_ n)) as HS0. pose proof (Cmod_ge_0 (S_ (S n))) as HS2.
        set (u := Cmod (S_ n)) in *. set (v := Cmod (S_ (S n))) in *. set (c := Cmod (B n)) in *.
        pose proof (Cmod_ge_0 (B n)) as Hc0. fold c in Hc0.
        assert (K : (frate g * v * u <= frate g * (u * u + v * v) / 2)%R).
        { assert (0 <= frate g * ((u - v) * (u - v)))%R by (apply Rmult_le_pos; [lra|]; pose proof (Rle_0_sqr (u - v)) as SQ; exact SQ). lra. }
        assert (Huu : (0 <= frate g * (u * u) <= 1)%R).
        { assert (0 <= u * u <= 1)%R by (split; [apply Rmult_le_pos; lra|rewrite <- (Rmult_1_l 1); apply Rmult_le_compat; lra]).
          split; [apply Rmult_le_pos; lra|]. rewrite <- (Rmult_1_l 1). apply Rmult_le_compat; lra. }
        set (k := (frate g * (u * u))%R) in *.
        assert (Q2 : ((1 - k) * c <= M - k / 2)%R).
        { destruct (Rle_dec 1 c) as [Hc|Hc].
          - assert (k * 1 <= k * c)%R by (apply Rmult_le_compat_l; lra). lra.
          - assert ((1 - k) * c <= (1 - k) * 1)%R by (apply Rmult_le_compat_l; lra). lra. }
        unfold k in *. lra. }
    assert (HB2 : forall n, (n <= length d)%nat -> (Cmod (B n) <= M + frate g / 2)%R).
    { intros n Hn. specialize (HB n Hn). specialize (HS n Hn). pose proof (Cmod_ge_0 (S_ n)).
      assert (Cmod (S_ n) * Cmod (S_ n) <= 1)%R by (rewrite <- (Rmult_1_l 1); apply Rmult_le_compat; lra).
      assert (frate g * (Cmod (S_ n) * Cmod (S_ n)) <= frate g * 1)%R by (apply Rmult_le_compat_l; lra). lra. }
    split; [|split].
    + intros n Hn. destruct (H4 n Hn) as [H5 _]. unfold fbo. rewrite H5. cbn [snd]. apply HB2. lia.
    + rewrite <- H2. apply HB2. lia.
    + intros Hs0 Hbig.
      assert (HS3 : forall n, (n <= length d)%nat -> Cmod (S_ n) = 1%R).
      { intros [|n] Hn; [rewrite H1; exact Hs0|]. destruct (H4 n) as (_ & _ & H5); [lia|]. rewrite H5.
        destruct (normalise_cases (nth n (analytic h d) (RtoC 0))) as [[C _]|(_ & _ & E1)]; [|exact E1].
        specialize (Hbig n ltac:(lia)). lra. }
      assert (HB3 : forall n, (n <= length d)%nat -> (Cmod (B n) <= M)%R).
      { induction n as [|n IH]; intros Hn; [rewrite H0; exact HM2|].
        destruct (H4 n) as (_ & H5 & H6); [lia|]. rewrite H5, <- H6. specialize (IH ltac:(lia)).
        pose proof (cfreq_step_bound (frate g) (B n) (S_ n) (S_ (S n)) Hr (HS n ltac:(lia))) as Q.
        rewrite (HS3 n ltac:(lia)), (HS3 (S n) Hn) in Q.
        assert ((1 - frate g) * Cmod (B n) <= (1 - frate g) * M)%R by (apply Rmult_le_compat_l; lra).
        assert (frate g * 1 <= frate g * M)%R by (apply Rmult_le_compat_l; lra). lra. }
      split.
      * intros n Hn. destruct (H4 n Hn) as [H5 _]. unfold fbo. rewrite H5. cbn [snd]. apply HB3. lia.
      * rewrite <- H2. apply HB3. lia.
Qed.
Print Assumptions C47_cfreq_bounds.
Example C47_example : exists g, cfreq_make (1 / 2) (1 / 10) = Ok g /\ cfreq_ok g /\ Cmod (cfreq_s g) = 1%R.
Proof.
  eexists. split; [apply cfreq_make_eq; lra|]. unfold cfreq_ok, cfreq_s. cbn. rewrite Cmod_1.
  split; [|reflexivity]. split; [eexists; reflexivity|]. split; [eexists; split; [reflexivity|rewrite Cmod_1; lra]|lra].
Qed.

(** Without the condition on near-zero samples the bound max(|b[0]|, 1) fails: one sample of
    magnitude at most 1e-8, an assignment of frequency 0, then the sample 1. *)
Theorem C47_cfreq_magnitude_refuted :
  exists g0 g1 g2 g3 out, cfreq_make 0 (1 / 2) = Ok g0 /\
    fst (cfreq_filter (fun d => d) g0 [RtoC (1 / 1000000000)]) = g1 /\
    cfreq_set_frequency g1 0 = (g2, Ok tt) /\
    cfreq_filter (fun d => d) g2 [RtoC 1] = (g3, Ok out) /\
    cfreq_b g2 = 1 /\ (1 < Cmod (cfreq_b g3))%R.
Proof.
  assert (An : forall d, analytic (fun d => d) d = d) by (intros d; unfold analytic; destruct (existsb _ _); reflexivity).
  eexists _, _, _, _, _. split; [apply cfreq_make_eq; lra|]. split; [reflexivity|].
  unfold cfreq_filter at 1. cbn [length Nat.eqb ffir fb fs frate]. rewrite An. cbn [map cfreq_loop fst ffir fb fs frate ffreq].
  assert (N1 : normalise (RtoC (1 / 1000000000)) = RtoC (1 / 1000000000)).
  { destruct (normalise_cases (RtoC (1 / 1000000000))) as [[_ E]|(C & _)]; [exact E|]. rewrite Cmod_R, Rabs_pos_eq in C by lra. lra. }
  assert (N2 : normalise (RtoC 1) = RtoC 1).
  { destruct (normalise_cases (RtoC 1)) as [[C _]|(_ & E & _)]; [rewrite Cmod_R, Rabs_pos_eq in C by lra; lra|].
    rewrite E, Cmod_R, Rabs_pos_eq by lra. field. intros C. apply RtoC_inj in C. lra. }
  rewrite N1. unfold cfreq_set_frequency. replace (frequency_bad 0) with false by (symmetry; apply frequency_bad_iff; lra).
  cbn [ffir fb fs fdt frate]. split; [reflexivity|]. unfold cfreq_filter at 1. cbn [length Nat.eqb ffir fb fs frate]. rewrite An.
  cbn [map cfreq_loop]. rewrite N2. split; [reflexivity|]. unfold cfreq_b. cbn [ffir fb nth].
  assert (E0 : expjR 0 = 1) by (unfold expjR; rewrite Rmult_0_r; apply cis_0). rewrite E0. split; [reflexivity|].
  replace (1 + RtoC (1 / 2) * (RtoC 1 - 1 * RtoC (1 / 1000000000)) * Cconj (RtoC (1 / 1000000000)))
    with (RtoC (1 + 1 / 2 * (1 - 1 / 1000000000) * (1 / 1000000000))).
  - rewrite Cmod_R, Rabs_pos_eq by lra. lra.
  - unfold Cconj, RtoC, Cplus, Cminus, Cmult, Cplus, Copp. cbn [fst snd]. f_equal; field.
Qed.
Print Assumptions C47_cfreq_magnitude_refuted.
