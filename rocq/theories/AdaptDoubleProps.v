(** A NaN or infinite sample in ComplexFrequencyFilter and ComplexBandpassFilter, in doubles. *)
From Flocq Require Import Core BinarySingleNaN PrimFloat.
From Coq Require Import List Arith ZArith Lia Bool Reals Lra Floats.
From Verif Require Import Base Instances DoubleSpec DoubleProofs CExpModel AdaptDoubleModel.
Import ListNotations.
Set Asymmetric Patterns.
Close Scope R_scope. Open Scope nat_scope.

(** ** Specification *)
Definition badc (v : cf) : Prop := ~ finite (fst v) \/ ~ finite (snd v).
Definition nanc (v : cf) : Prop := nonnumber (fst v) /\ nonnumber (snd v).
(** abs of a number with a bad part is NaN or infinite, isclose(v, 0) fails for it,
    and the angle of NaN is NaN. *)
Definition magnitude_ok (cabs : cf -> float) : Prop := forall v, badc v -> ~ finite (cabs v).
Definition close_ok (close0 : cf -> bool) : Prop := forall v, close0 v = true -> ~ badc v.
Definition angle_ok (ang : cf -> float) : Prop := forall v, nanc v -> nonnumber (ang v).

(** ** Floats *)
Lemma nonfinite_cases v : ~ finite v -> nonnumber v \/ v = infinity \/ v = neg_infinity.
Proof.
  intros H. unfold nonnumber. rewrite is_nan_equiv. destruct (Prim2B v) as [s|s| |s m e p] eqn:E; cbn.
  - exfalso. apply H. unfold finite. rewrite is_finite_equiv, E. reflexivity.
  - right. destruct s; [right|left]; apply Prim2B_inj; rewrite E; reflexivity.
  - left. reflexivity.
  - exfalso. apply H. unfold finite. rewrite is_finite_equiv, E. reflexivity.
Qed.
Lemma nan_nonfinite v : nonnumber v -> ~ finite v.
Proof. unfold nonnumber, finite. rewrite is_nan_equiv, is_finite_equiv. destruct (Prim2B v); cbn; congruence. Qed.
Lemma sub_nans x y : nonnumber x \/ nonnumber y -> nonnumber (x - y)%float.
Proof.
  unfold nonnumber. rewrite !is_nan_equiv, sub_equiv. intros [H|H].
  - destruct (Prim2B x); try discriminate. reflexivity.
  - destruct (Prim2B y); try discriminate. destruct (Prim2B x); reflexivity.
Qed.
Lemma div_nans x y : nonnumber x \/ nonnumber y -> nonnumber (x / y)%float.
Proof.
  unfold nonnumber. rewrite !is_nan_equiv, div_equiv. intros [H|H].
  - destruct (Prim2B x); try discriminate. reflexivity.
  - destruct (Prim2B y); try discriminate. destruct (Prim2B x); reflexivity.
Qed.
Lemma add_bad x y : ~ finite x -> ~ finite (x + y)%float.
Proof.
  unfold finite. rewrite !is_finite_equiv, add_equiv. destruct (Prim2B x) as [s|s| |s m e p]; cbn [is_finite]; intros H; try (exfalso; apply H; reflexivity).
  - destruct (Prim2B y) as [t|t| |t m e p]; cbn; try discriminate. destruct (Bool.eqb s t); discriminate.
  - destruct (Prim2B y); cbn; discriminate.
Qed.
Lemma sub_bad x y : ~ finite x -> ~ finite (x - y)%float.
Proof.
  unfold finite. rewrite !is_finite_equiv, sub_equiv. destruct (Prim2B x) as [s|s| |s m e p]; cbn [is_finite]; intros H; try (exfalso; apply H; reflexivity).
  - destruct (Prim2B y) as [t|t| |t m e p]; cbn; try discriminate. destruct (Bool.eqb s (negb t)); discriminate.
  - destruct (Prim2B y); cbn; discriminate.
Qed.
Lemma zero_bad_l v : ~ finite v -> nonnumber (0 * v)%float.
Proof. intros H. apply mul_poison. right. right. right. cbn [fst snd]. split; [exact H|]. split; [exact val_zero|reflexivity]. Qed.
Lemma zero_bad_r v : ~ finite v -> nonnumber (v * 0)%float.
Proof. intros H. apply mul_poison. right. right. left. cbn [fst snd]. split; [exact H|]. split; [exact val_zero|reflexivity]. Qed.

(** ** Complex doubles *)
Definition part_nan (v : cf) : Prop := nonnumber (fst v) \/ nonnumber (snd v).
Lemma nanc_part v : nanc v -> part_nan v. Proof. intros [H _]. left. exact H. Qed.
Lemma cmul_nan x y : part_nan x \/ part_nan y -> nanc (cmulF x y).
Proof.
  intros H. unfold cmulF, nanc. cbn [fst snd].
  destruct H as [[H|H]|[H|H]]; (split; [apply sub_nans|apply add_nan]); first [left; apply mul_nan; tauto|right; apply mul_nan; tauto].
Qed.
Lemma csub_nan_r x y : nanc y -> nanc (csubF x y).
Proof. intros [H1 H2]. split; apply sub_nans; right; assumption. Qed.
Lemma csub_nan_l x y : nanc x -> nanc (csubF x y).
Proof. intros [H1 H2]. split; apply sub_nans; left; assumption. Qed.
Lemma cadd_nan x y : nanc x \/ nanc y -> nanc (caddF x y).
Proof. intros [[H1 H2]|[H1 H2]]; split; apply add_nan; tauto. Qed.
Lemma csub_bad x y : badc x -> badc (csubF x y).
Proof. intros [H|H]; [left|right]; apply sub_bad; exact H. Qed.
(** The factor r + 0j turns an infinite part into NaN, whatever r, zero included. *)
Lemma creal_mul_bad r v : badc v -> part_nan (cmulF (creal r) v).
Proof. intros [H|H]; [right|left]; cbn [cmulF creal fst snd]; [apply add_nan; right|apply sub_nans; right]; apply zero_bad_l; exact H. Qed.
Lemma update_bad r b e c : badc e -> nanc (caddF b (cmulF (cmulF (creal r) e) c)).
Proof. intros H. apply cadd_nan. right. apply cmul_nan. left. apply creal_mul_bad, H. Qed.
Lemma nanc_bad v : nanc v -> badc v.
Proof. intros [H _]. left. apply nan_nonfinite, H. Qed.
Lemma cdiv_bad d m : badc d -> ~ finite m -> nanc (cdivF d (creal m)).
Proof.
  destruct d as [a b]. intros Hd Hm. unfold cdivF, creal. destruct (nonfinite_cases m Hm) as [N|HI].
  - assert (C : PrimFloat.leb (abs 0) (abs m) = false).
    { rewrite leb_equiv. unfold nonnumber in N. rewrite is_nan_equiv in N. rewrite (abs_equiv m). destruct (Prim2B m); try discriminate. vm_compute. reflexivity. }
    rewrite C. cbv zeta. assert (R : nonnumber (m / 0)%float) by (apply div_nans; left; exact N).
    split; cbn [fst snd]; apply mul_nan; left; [apply add_nan; left|apply sub_nans; left]; apply mul_nan; right; exact R.
  - assert (E : forall k, k = infinity \/ k = neg_infinity -> (PrimFloat.leb (abs 0) (abs k) = true) /\ PrimFloat.eqb (abs k) 0 = false /\
      (exists r, (0 / k)%float = r /\ finite r /\ val r = 0%R) /\ (exists s, (1 / (k + 0 * (0 / k)))%float = s /\ finite s /\ val s = 0%R)).
    { intros k [-> | ->]; (split; [vm_compute; reflexivity|]); (split; [vm_compute; reflexivity|]); split; eexists;
        (split; [reflexivity|]); (split; [vm_compute; reflexivity|]); unfold val; vm_compute Prim2B; reflexivity. }
    destruct (E m HI) as (E1 & E2 & (r & Er & Fr & Vr) & (s & Es & Fs & Vs)). rewrite E1, E2. cbn [andb]. cbv zeta. rewrite Es, Er.
    assert (Z : forall u w, ~ finite u \/ ~ finite w -> nonnumber ((u + w * r) * s)%float /\ nonnumber ((u - w * r) * s)%float).
    { intros u w [H|H].
      - split; apply mul_poison; right; right; left; cbn [fst snd]; (split; [|split; [exact Vs|exact Fs]]); [apply add_bad|apply sub_bad]; exact H.
      - assert (N : nonnumber (w * r)%float) by (apply mul_poison; right; right; left; cbn [fst snd]; split; [exact H|split; [exact Vr|exact Fr]]).
        split; apply mul_nan; left; [apply add_nan; right|apply sub_nans; right]; exact N. }
    split; cbn [fst snd]; [apply (Z a b)|apply (Z b a)]; [exact Hd|]. destruct Hd as [Hd|Hd]; [right|left]; exact Hd.
Qed.

(** ** ComplexFrequencyFilter *)
Section Freq.
  Variable hilbert : list cf -> list cf.
  Variables (expj : float -> cf) (cabs : cf -> float) (close0 : cf -> bool) (ang : cf -> float).

  (** Calls on the object between two looks at it. *)
  Inductive freq_op : Type := FFilter (d : list cf) | FFrequency (f : float) | FRate (r : float) | FReset (x : cf).
  Definition freq_exec (g : freqF) (o : freq_op) : freqF :=
    match o with
    | FFilter d => fst (freqF_filter hilbert cabs close0 ang g d)
    | FFrequency f => fst (freqF_set_frequency expj g f)
    | FRate r => fst (freqF_set_rate g r)
    | FReset x => fst (freqF_reset cabs close0 g x)
    end.

  Definition triple0 : float * cf * cf := (0%float, (0%float, 0%float), (0%float, 0%float)).
  Definition all_nan (t : float * cf * cf) : Prop := let '(y, e, b) := t in nonnumber y /\ nanc e /\ nanc b.

  Lemma normalise_bad d : magnitude_ok cabs -> close_ok close0 -> badc d -> nanc (normaliseF cabs close0 d).
  Proof.
    intros Hm Hc Hd. unfold normaliseF. cbv zeta. pose proof (Hm d Hd) as M. destruct (close0 (creal (cabs d))) eqn:E.
    - exfalso. apply (Hc _ E). left. exact M.
    - apply cdiv_bad; assumption.
  Qed.
  Lemma freq_loop_length r b s xs : length (snd (freqF_loop ang r b s xs)) = length xs.
  Proof. revert b s. induction xs as [|x xs IH]; intros b s; [reflexivity|]. cbn [freqF_loop]. cbv zeta. pose proof (IH (caddF b (cmulF (cmulF (creal r) (csubF x (cmulF b s))) (cconjF s))) x) as H. destruct (freqF_loop ang r _ x xs) as [[b2 s2] out]. cbn [snd length] in *. lia. Qed.
  (** A NaN coefficient stays NaN and makes every output NaN. *)
  Lemma freq_loop_nan r b s xs : angle_ok ang -> nanc b -> nanc (fst (fst (freqF_loop ang r b s xs))) /\ Forall all_nan (snd (freqF_loop ang r b s xs)).
  Proof.
    intros Ha. revert b s. induction xs as [|x xs IH]; intros b s Hb; [split; [exact Hb|constructor]|]. cbn [freqF_loop]. cbv zeta.
    set (e := csubF x (cmulF b s)). assert (He : nanc e) by (apply csub_nan_r, cmul_nan; left; apply nanc_part, Hb).
    specialize (IH (caddF b (cmulF (cmulF (creal r) e) (cconjF s))) x (update_bad r b e _ (nanc_bad _ He))).
    destruct (freqF_loop ang r _ x xs) as [[b2 s2] out]. cbn [fst snd] in *. destruct IH as [I1 I2]. split; [exact I1|]. constructor; [|exact I2]. split; [apply Ha, Hb|]. split; assumption.
  Qed.
  (** From a bad sample on. *)
  Lemma freq_loop_bad r xs : angle_ok ang -> forall k b s, (k < length xs) -> nanc (nth k xs (0%float, 0%float)) ->
    nanc (fst (fst (freqF_loop ang r b s xs))) /\ nanc (snd (fst (nth k (snd (freqF_loop ang r b s xs)) triple0))) /\
    forall j, k < j < length xs -> all_nan (nth j (snd (freqF_loop ang r b s xs)) triple0).
  Proof.
    intros Ha. induction xs as [|x xs IH]; intros k b s Hk Hn; [cbn in Hk; lia|]. cbn [freqF_loop]. cbv zeta. set (e := csubF x (cmulF b s)). set (b' := caddF b (cmulF (cmulF (creal r) e) (cconjF s))).
    destruct k as [|k].
    - cbn [nth] in Hn. assert (He : nanc e) by (apply csub_nan_l, Hn). destruct (freq_loop_nan r b' x xs Ha (update_bad r b e _ (nanc_bad _ He))) as [N1 N2].
      pose proof (freq_loop_length r b' x xs) as L. destruct (freqF_loop ang r b' x xs) as [[b2 s2] out]. cbn [fst snd nth] in *. split; [exact N1|]. split; [exact He|].
      intros j [J1 J2]. destruct j as [|j]; [lia|]. cbn [nth length] in *. apply (proj1 (Forall_forall _ _) N2), nth_In. unfold cf in *. lia.
    - cbn [nth length] in Hk, Hn. specialize (IH k b' x ltac:(lia) Hn). destruct (freqF_loop ang r b' x xs) as [[b2 s2] out]. cbn [fst snd nth length] in *. destruct IH as (I1 & I2 & I3).
      split; [exact I1|]. split; [exact I2|]. intros j [J1 J2]. destruct j as [|j]; [lia|]. cbn [nth]. apply I3. lia.
  Qed.
  Lemma freq_run g d : d <> [] -> freqF_filter hilbert cabs close0 ang g d =
    let r := freqF_loop ang (qr g) (qb g) (qs_ g) (map (normaliseF cabs close0) (analyticF hilbert d)) in
    (mkFreqF (fst (fst r)) (snd (fst r)) (qf g) (qr g), Ok (snd r)).
  Proof. intros H. unfold freqF_filter. destruct d; [congruence|]. cbn [length Nat.eqb]. cbv zeta. destruct (freqF_loop ang _ _ _ _) as [[b2 s2] out]. reflexivity. Qed.

  (** The call with the bad sample. *)
  Theorem C182_frequency_call g d k : magnitude_ok cabs -> close_ok close0 -> angle_ok ang -> d <> [] ->
    k < length (analyticF hilbert d) -> badc (nth k (analyticF hilbert d) (0%float, 0%float)) ->
    exists g' out, freqF_filter hilbert cabs close0 ang g d = (g', Ok out) /\ length out = length (analyticF hilbert d) /\ nanc (qb g') /\
      nanc (snd (fst (nth k out triple0))) /\ forall j, k < j < length out -> all_nan (nth j out triple0).
  Proof.
    intros Hm Hc Ha Hd Hk Hb. rewrite freq_run by exact Hd. cbv zeta. eexists _, _. split; [reflexivity|]. rewrite freq_loop_length, map_length. split; [reflexivity|]. cbn [qb].
    destruct (freq_loop_bad (qr g) (map (normaliseF cabs close0) (analyticF hilbert d)) Ha k (qb g) (qs_ g)) as (B1 & B2 & B3).
    - rewrite map_length. exact Hk.
    - rewrite nth_indep with (d' := normaliseF cabs close0 (0%float, 0%float)) by (rewrite map_length; exact Hk). rewrite map_nth. apply normalise_bad; assumption.
    - rewrite map_length in B3. split; [exact B1|]. split; [exact B2|exact B3].
  Qed.

  Definition no_frequency (o : freq_op) : Prop := match o with FFrequency f => freq_badF f = true | _ => True end.
  (** Afterwards nothing but an accepted assignment of frequency helps: not reset, not rate, not time. *)
  Theorem C182_frequency_lost g d k ops z : magnitude_ok cabs -> close_ok close0 -> angle_ok ang -> d <> [] ->
    k < length (analyticF hilbert d) -> badc (nth k (analyticF hilbert d) (0%float, 0%float)) -> Forall no_frequency ops -> z <> [] ->
    exists g' out, freqF_filter hilbert cabs close0 ang (fold_left freq_exec ops (freq_exec g (FFilter d))) z = (g', Ok out) /\
      length out = length (analyticF hilbert z) /\ Forall all_nan out.
  Proof.
    intros Hm Hc Ha Hd Hk Hb Ho Hz. destruct (C182_frequency_call g d k Hm Hc Ha Hd Hk Hb) as (g1 & o1 & E & _ & N & _). cbn [freq_exec]. rewrite E. cbn [fst]. clear E o1.
    assert (K : nanc (qb (fold_left freq_exec ops g1))).
    { revert g1 N. induction ops as [|o ops IH]; intros g1 N; [exact N|]. inversion Ho as [|? ? O1 O2]; subst. cbn [fold_left]. apply IH; [exact O2|]. destruct o as [e|f|r|x]; cbn [freq_exec].
      - destruct e as [|v e]; [exact N|]. rewrite freq_run by discriminate. cbn [fst qb]. apply freq_loop_nan; assumption.
      - unfold freqF_set_frequency. cbn [no_frequency] in O1. rewrite O1. exact N.
      - unfold freqF_set_rate. destruct (rate_badF r); exact N.
      - exact N. }
    rewrite freq_run by exact Hz. eexists _, _. split; [reflexivity|]. rewrite freq_loop_length, map_length. split; [reflexivity|]. apply freq_loop_nan; assumption.
  Qed.

  (** An assignment of frequency and a reset, in either order, bring back a new filter. *)
  Theorem C182_frequency_recovered g h f f0 x : freqF_make f0 (qr g) = Ok h -> freq_badF f = false ->
    fold_left freq_exec [FFrequency f; FReset x] g = fold_left freq_exec [FFrequency f; FReset x] h /\
    fold_left freq_exec [FReset x; FFrequency f] g = fold_left freq_exec [FFrequency f; FReset x] h.
  Proof.
    intros Hh Hf. unfold freqF_make in Hh. destruct (freq_badF f0); [discriminate|]. destruct (rate_badF (qr g)); [discriminate|]. injection Hh as <-.
    cbn [fold_left freq_exec]. unfold freqF_set_frequency. rewrite Hf. split; reflexivity.
  Qed.
  Lemma last_map (F : cf -> cf) (l : list cf) (a : cf) : l <> [] -> last (map F l) (F a) = F (last l a).
  Proof. induction l as [|x l IH]; intros Hl; [congruence|]. destruct l as [|y l]; [reflexivity|]. exact (IH ltac:(discriminate)). Qed.
  Lemma freq_loop_state r xs : forall b s x0, xs <> [] -> snd (fst (freqF_loop ang r b s xs)) = last xs x0.
  Proof.
    induction xs as [|x xs IH]; intros b s x0 Hx; [congruence|]. cbn [freqF_loop]. cbv zeta. destruct xs as [|x1 xs]; [reflexivity|].
    specialize (IH (caddF b (cmulF (cmulF (creal r) (csubF x (cmulF b s))) (cconjF s))) x x0 ltac:(discriminate)). destruct (freqF_loop ang r _ x (x1 :: xs)) as [[b2 s2] out]. exact IH.
  Qed.
  Lemma freq_loop_last r b s d : d <> [] -> snd (fst (freqF_loop ang r b s (map (normaliseF cabs close0) d))) = normaliseF cabs close0 (last d (0%float, 0%float)).
  Proof.
    intros H. rewrite (freq_loop_state r _ b s (normaliseF cabs close0 (0%float, 0%float))) by (destruct d; [congruence|discriminate]). apply last_map, H.
  Qed.
  (** Without the reset the last sample of the last call decides. *)
  Theorem C182_frequency_last g h d1 d2 f : d1 <> [] -> d2 <> [] -> qr g = qr h -> freq_badF f = false ->
    analyticF hilbert d1 <> [] -> analyticF hilbert d2 <> [] ->
    last (analyticF hilbert d1) (0%float, 0%float) = last (analyticF hilbert d2) (0%float, 0%float) ->
    fold_left freq_exec [FFilter d1; FFrequency f] g = fold_left freq_exec [FFilter d2; FFrequency f] h.
  Proof.
    intros H1 H2 Hr Hf A1 A2 HL. cbn [fold_left freq_exec]. rewrite !freq_run by assumption. unfold freqF_set_frequency. rewrite Hf. cbn [fst qs_ qr qf]. rewrite Hr. f_equal.
    rewrite !freq_loop_last by assumption. rewrite HL. reflexivity.
  Qed.
  (** If that last sample was bad, an assignment of frequency alone is lost with the next sample. *)
  Theorem C182_frequency_alone g d f z : magnitude_ok cabs -> close_ok close0 -> angle_ok ang -> d <> [] -> freq_badF f = false ->
    analyticF hilbert d <> [] -> badc (last (analyticF hilbert d) (0%float, 0%float)) -> z <> [] -> analyticF hilbert z <> [] ->
    exists g' out, freqF_filter hilbert cabs close0 ang (fold_left freq_exec [FFilter d; FFrequency f] g) z = (g', Ok out) /\ nanc (qb g') /\
      nanc (snd (fst (nth 0 out triple0))) /\ forall j, 0 < j < length out -> all_nan (nth j out triple0).
  Proof.
    intros Hm Hc Ha Hd Hf HA HB Hz HZ.
    set (g0 := fold_left freq_exec [FFilter d; FFrequency f] g).
    assert (S : nanc (qs_ g0)).
    { unfold g0. cbn [fold_left freq_exec]. rewrite freq_run by exact Hd. unfold freqF_set_frequency. rewrite Hf. cbn [fst qs_].
      rewrite freq_loop_last by exact HA. apply normalise_bad; assumption. }
    rewrite freq_run by exact Hz. cbv zeta. eexists _, _. split; [reflexivity|]. cbn [qb]. destruct (analyticF hilbert z) as [|z0 zs]; [congruence|]. cbn [map freqF_loop]. cbv zeta.
    set (x := normaliseF cabs close0 z0). set (e := csubF x (cmulF (qb g0) (qs_ g0))). assert (He : nanc e) by (apply csub_nan_r, cmul_nan; right; apply nanc_part, S).
    set (b' := caddF _ _). destruct (freq_loop_nan (qr g0) b' x (map (normaliseF cabs close0) zs) Ha (update_bad _ _ e _ (nanc_bad _ He))) as [N1 N2].
    destruct (freqF_loop ang (qr g0) b' x (map (normaliseF cabs close0) zs)) as [[b2 s2] out]. cbn [fst snd nth length] in *. split; [exact N1|]. split; [exact He|].
    intros [|j] Hj; [lia|]. cbn [nth]. apply (proj1 (Forall_forall _ _) N2), nth_In. lia.
  Qed.
  (** Complex signals: a sample has no effect on the outputs before it. *)
  Theorem C182_frequency_causal g d1 d2 k g1 g2 o1 o2 : any_complexF d1 = true -> any_complexF d2 = true ->
    firstn k d1 = firstn k d2 -> freqF_filter hilbert cabs close0 ang g d1 = (g1, Ok o1) -> freqF_filter hilbert cabs close0 ang g d2 = (g2, Ok o2) ->
    firstn k o1 = firstn k o2 /\ length o1 = length d1 /\ length o2 = length d2.
  Proof.
    intros C1 C2 HK E1 E2. assert (N1 : d1 <> []) by (destruct d1; [discriminate|discriminate]). assert (N2 : d2 <> []) by (destruct d2; [discriminate|discriminate]).
    rewrite freq_run in E1 by exact N1. rewrite freq_run in E2 by exact N2. unfold analyticF in E1, E2. rewrite C1 in E1. rewrite C2 in E2. injection E1 as <- <-. injection E2 as <- <-.
    rewrite !freq_loop_length, !map_length. split; [|split; reflexivity].
    assert (G : forall r xs ys k b s, firstn k xs = firstn k ys -> firstn k (snd (freqF_loop ang r b s xs)) = firstn k (snd (freqF_loop ang r b s ys))).
    { intros r. clear. induction xs as [|x xs IH]; intros ys k b s H; destruct k as [|k]; try reflexivity; destruct ys as [|y ys]; cbn [firstn] in H; try congruence.
      injection H as Hx Hxs. subst y. cbn [freqF_loop]. cbv zeta. set (b' := caddF b _). specialize (IH ys k b' x Hxs).
      destruct (freqF_loop ang r b' x xs) as [[b2 s2] u1], (freqF_loop ang r b' x ys) as [[b3 s3] u2]. cbn [snd firstn] in *. rewrite IH. reflexivity. }
    apply G. rewrite !firstn_map, HK. reflexivity.
  Qed.
End Freq.
Print Assumptions C182_frequency_call. Print Assumptions C182_frequency_lost. Print Assumptions C182_frequency_recovered.
Print Assumptions C182_frequency_last. Print Assumptions C182_frequency_alone. Print Assumptions C182_frequency_causal.

(** ** ComplexBandpassFilter *)
Section Band.
  Variable hilbert : list cf -> list cf.
  Variables (fmod2 sgn : float -> float) (expj : float -> cf).

  Inductive band_op : Type := BFilter (d : list cf) | BFrequency (f : float) | BRate (r : float) | BReset (x : cf).
  Definition band_exec (g : bandF) (o : band_op) : bandF :=
    match o with
    | BFilter d => fst (bandF_filter hilbert fmod2 sgn expj g d)
    | BFrequency f => fst (bandF_set_frequency g f)
    | BRate r => fst (bandF_set_rate g r)
    | BReset x => fst (bandF_reset g x)
    end.
  Definition triple1 : cf * cf * cf := ((0%float, 0%float), (0%float, 0%float), (0%float, 0%float)).
  Definition all_nanb (t : cf * cf * cf) : Prop := let '(y, e, b) := t in nanc y /\ nanc e /\ nanc b.

  Lemma band_loop_length r b xs ds : length xs = length ds -> length (snd (bandF_loop r b xs ds)) = length ds.
  Proof. revert b ds. induction xs as [|x xs IH]; intros b [|d ds] H; try discriminate; [reflexivity|]. cbn [bandF_loop]. cbv zeta. specialize (IH (caddF b (cmulF (cmulF (creal r) (csubF d (cmulF x b))) (cconjF x))) ds ltac:(cbn in H; lia)). destruct (bandF_loop r _ xs ds) as [b2 out]. cbn [snd length] in *. lia. Qed.
  Lemma band_loop_nan r b xs ds : nanc b -> nanc (fst (bandF_loop r b xs ds)) /\ Forall all_nanb (snd (bandF_loop r b xs ds)).
  Proof.
    revert b ds. induction xs as [|x xs IH]; intros b [|d ds] Hb; try (split; [exact Hb|constructor]). cbn [bandF_loop]. cbv zeta.
    set (y := cmulF x b). assert (Hy : nanc y) by (apply cmul_nan; right; apply nanc_part, Hb). set (e := csubF d y). assert (He : nanc e) by (apply csub_nan_r, Hy).
    specialize (IH (caddF b (cmulF (cmulF (creal r) e) (cconjF x))) ds (update_bad r b e _ (nanc_bad _ He))). destruct (bandF_loop r _ xs ds) as [b2 out]. cbn [fst snd] in *. destruct IH as [I1 I2].
    split; [exact I1|]. constructor; [|exact I2]. split; [exact Hy|]. split; assumption.
  Qed.
  Lemma band_loop_bad r xs : forall ds k b, length xs = length ds -> k < length ds -> badc (nth k ds (0%float, 0%float)) ->
    nanc (fst (bandF_loop r b xs ds)) /\ badc (snd (fst (nth k (snd (bandF_loop r b xs ds)) triple1))) /\
    forall j, k < j < length ds -> all_nanb (nth j (snd (bandF_loop r b xs ds)) triple1).
  Proof.
    induction xs as [|x xs IH]; intros [|d ds] k b HL Hk Hb; try discriminate; [cbn in Hk; lia|]. cbn [bandF_loop]. cbv zeta. set (e := csubF d (cmulF x b)). set (b' := caddF b (cmulF (cmulF (creal r) e) (cconjF x))).
    cbn [length] in HL. destruct k as [|k].
    - cbn [nth] in Hb. assert (He : badc e) by (apply csub_bad, Hb). destruct (band_loop_nan r b' xs ds (update_bad r b e _ He)) as [N1 N2].
      pose proof (band_loop_length r b' xs ds (eq_add_S _ _ HL)) as L. destruct (bandF_loop r b' xs ds) as [b2 out]. cbn [fst snd nth] in *. split; [exact N1|]. split; [exact He|].
      intros j [J1 J2]. destruct j as [|j]; [lia|]. cbn [nth length] in *. apply (proj1 (Forall_forall _ _) N2), nth_In. unfold cf in *. lia.
    - cbn [nth length] in Hk, Hb. specialize (IH ds k b' (eq_add_S _ _ HL) ltac:(lia) Hb). destruct (bandF_loop r b' xs ds) as [b2 out]. cbn [fst snd nth length] in *. destruct IH as (I1 & I2 & I3).
      split; [exact I1|]. split; [exact I2|]. intros j [J1 J2]. destruct j as [|j]; [lia|]. cbn [nth]. apply I3. lia.
  Qed.
  Lemma cexp_length (O : OArith) (Y : Type) f2 sg (ej : O -> Y) s x p ys : @cexp_filter O Y f2 sg ej s x = (p, Ok ys) -> length ys = length (fre x).
  Proof.
    unfold cexp_filter. destruct (_ || _)%bool; [discriminate|].
    assert (G : forall l q, length (snd (@cexp_loop O Y ej q l)) = length l) by (induction l as [|v l IH]; intros q; [reflexivity|]; cbn [cexp_loop]; specialize (IH (add q v)); destruct (cexp_loop ej (add q v) l); cbn [snd length] in *; lia).
    specialize (G (fre x) s). destruct (cexp_loop ej s (fre x)) as [q l]. destruct (fcomplex x); [discriminate|]. destruct (cexp_set_phase s (cexp_wrap f2 sg q)) as [s' [u|e]]; [|discriminate]. intros H. injection H as _ E. subst ys. exact G.
  Qed.
  Lemma band_run g d : d <> [] ->
    (exists p e, bandF_filter hilbert fmod2 sgn expj g d = (mkBandF (bb g) p (bfr g) (brt g), Err e)) \/
    (exists p x, length x = length (analyticF hilbert d) /\ bandF_filter hilbert fmod2 sgn expj g d =
       (mkBandF (fst (bandF_loop (brt g) (bb g) x (analyticF hilbert d))) p (bfr g) (brt g), Ok (snd (bandF_loop (brt g) (bb g) x (analyticF hilbert d))))).
  Proof.
    intros H. unfold bandF_filter. destruct d; [congruence|]. cbn [length Nat.eqb]. cbv zeta. set (a := analyticF hilbert _).
    destruct (cexp_filter fmod2 sgn expj (bph g) _) as [p [x|e]] eqn:E.
    - right. exists p, x. apply cexp_length in E. cbn [fre] in E. rewrite repeat_length in E. split; [exact E|]. destruct (bandF_loop _ _ _ _); reflexivity.
    - left. exists p, e. reflexivity.
  Qed.

  Theorem C182_band_call g d k g' out : k < length (analyticF hilbert d) -> badc (nth k (analyticF hilbert d) (0%float, 0%float)) ->
    bandF_filter hilbert fmod2 sgn expj g d = (g', Ok out) ->
    length out = length (analyticF hilbert d) /\ nanc (bb g') /\ badc (snd (fst (nth k out triple1))) /\ forall j, k < j < length out -> all_nanb (nth j out triple1).
  Proof.
    intros Hk Hb E. assert (Hd : d <> []) by (intros ->; discriminate E). destruct (band_run g d Hd) as [(p & e & R)|(p & x & L & R)]; rewrite R in E; [discriminate|]. injection E as <- <-.
    rewrite band_loop_length by exact L. split; [reflexivity|]. cbn [bb]. exact (band_loop_bad _ x _ k _ L Hk Hb).
  Qed.
  (** Afterwards frequency, rate, reset and time change nothing. *)
  Theorem C182_band_lost g d k g1 o1 ops z g2 out : k < length (analyticF hilbert d) -> badc (nth k (analyticF hilbert d) (0%float, 0%float)) ->
    bandF_filter hilbert fmod2 sgn expj g d = (g1, Ok o1) -> bandF_filter hilbert fmod2 sgn expj (fold_left band_exec ops g1) z = (g2, Ok out) ->
    Forall all_nanb out /\ length out = length (analyticF hilbert z).
  Proof.
    intros Hk Hb E1 E2. destruct (C182_band_call g d k g1 o1 Hk Hb E1) as (_ & N & _).
    assert (K : nanc (bb (fold_left band_exec ops g1))).
    { clear E1 E2. revert g1 N. induction ops as [|o ops IH]; intros g1 N; [exact N|]. cbn [fold_left]. apply IH. destruct o as [e|f|r|x]; cbn [band_exec].
      - destruct e as [|v e]; [exact N|]. destruct (band_run g1 (v :: e) ltac:(discriminate)) as [(p & er & R)|(p & x & L & R)]; rewrite R; cbn [fst bb]; [exact N|apply band_loop_nan, N].
      - unfold bandF_set_frequency. destruct (freq_badF f); exact N.
      - unfold bandF_set_rate. destruct (rate_badF r); exact N.
      - exact N. }
    assert (Hz : z <> []) by (intros ->; discriminate E2). destruct (band_run (fold_left band_exec ops g1) z Hz) as [(p & e & R)|(p & x & L & R)]; rewrite R in E2; [discriminate|]. injection E2 as <- <-.
    split; [apply band_loop_nan, K|apply band_loop_length, L].
  Qed.
  (** Assigning b repairs the filter: the state is then that of a filter that was given good
      samples instead. *)
  Theorem C182_band_repaired g d1 d2 g1 g2 o1 o2 b0 : length (analyticF hilbert d1) = length (analyticF hilbert d2) ->
    bandF_filter hilbert fmod2 sgn expj g d1 = (g1, Ok o1) -> bandF_filter hilbert fmod2 sgn expj g d2 = (g2, Ok o2) ->
    bandF_set_b g1 b0 = bandF_set_b g2 b0.
  Proof.
    intros L E1 E2. unfold bandF_filter in E1, E2. destruct (length d1 =? 0); [discriminate|]. destruct (length d2 =? 0); [discriminate|]. cbv zeta in E1, E2. rewrite L in E1.
    destruct (cexp_filter fmod2 sgn expj (bph g) _) as [p [x|e]]; [|discriminate]. destruct (bandF_loop _ _ x (analyticF hilbert d1)). destruct (bandF_loop _ _ x (analyticF hilbert d2)).
    injection E1 as <- _. injection E2 as <- _. reflexivity.
  Qed.
  (** Complex signals of one length: a sample has no effect on the outputs before it. *)
  Theorem C182_band_causal g d1 d2 k g1 g2 o1 o2 : any_complexF d1 = true -> any_complexF d2 = true -> length d1 = length d2 ->
    firstn k d1 = firstn k d2 -> bandF_filter hilbert fmod2 sgn expj g d1 = (g1, Ok o1) -> bandF_filter hilbert fmod2 sgn expj g d2 = (g2, Ok o2) ->
    firstn k o1 = firstn k o2.
  Proof.
    intros C1 C2 L HK E1 E2. unfold bandF_filter, analyticF in E1, E2. rewrite C1 in E1. rewrite C2 in E2. destruct (length d1 =? 0); [discriminate|]. destruct (length d2 =? 0); [discriminate|]. cbv zeta in E1, E2. rewrite L in E1.
    destruct (cexp_filter fmod2 sgn expj (bph g) _) as [p [x|e]]; [|discriminate].
    assert (G : forall r xs ds es k b, firstn k ds = firstn k es -> firstn k (snd (bandF_loop r b xs ds)) = firstn k (snd (bandF_loop r b xs es))).
    { intros r. clear. induction xs as [|x xs IH]; intros ds es k b H; destruct k as [|k]; try reflexivity; destruct ds as [|y ds], es as [|z es]; cbn [firstn] in H; try congruence; try reflexivity.
      injection H as Hx Hxs. subst z. cbn [bandF_loop]. cbv zeta. set (b' := caddF b _). specialize (IH ds es k b' Hxs).
      destruct (bandF_loop r b' xs ds) as [b2 u1], (bandF_loop r b' xs es) as [b3 u2]. cbn [snd firstn] in *. rewrite IH. reflexivity. }
    specialize (G (brt g) x d1 d2 k (bb g) HK). destruct (bandF_loop _ _ x d1) as [? u1]. destruct (bandF_loop _ _ x d2) as [? u2]. injection E1 as _ <-. injection E2 as _ <-. exact G.
  Qed.
End Band.
Print Assumptions C182_band_call. Print Assumptions C182_band_lost. Print Assumptions C182_band_repaired. Print Assumptions C182_band_causal.

(** ** Examples: functions that meet the contracts *)
Definition cabs182 (v : cf) : float := PrimFloat.sqrt (fst v * fst v + snd v * snd v)%float.
Definition close182 (v : cf) : bool := PrimFloat.is_finite (fst v) && PrimFloat.is_finite (snd v) && PrimFloat.leb (cabs182 v) 0x1.5798ee2308c3ap-27%float.
Definition ang182 (v : cf) : float := (snd v / fst v)%float.
Definition exp182 (f : float) : cf := (1 - 4.75 * f * f, 3.125 * f)%float.
Definition nanb (v : cf) : bool := PrimFloat.is_nan (fst v) && PrimFloat.is_nan (snd v).
Lemma square_bad a : ~ finite a -> ~ finite (a * a)%float.
Proof. intros H. destruct (nonfinite_cases a H) as [N|[-> | ->]]; [apply nan_nonfinite, mul_nan; left; exact N|vm_compute; discriminate..]. Qed.
Lemma add_bad_r x y : ~ finite y -> ~ finite (x + y)%float.
Proof.
  unfold finite. rewrite !is_finite_equiv, add_equiv. destruct (Prim2B y) as [s|s| |s m e p]; cbn [is_finite]; intros H; try (exfalso; apply H; reflexivity).
  - destruct (Prim2B x) as [t|t| |t m e p]; cbn; try discriminate. destruct (Bool.eqb t s); discriminate.
  - destruct (Prim2B x); cbn; discriminate.
Qed.
Lemma cabs182_ok : magnitude_ok cabs182.
Proof.
  intros v Hv. unfold cabs182. assert (B : ~ finite (fst v * fst v + snd v * snd v)%float) by (destruct Hv as [H|H]; [apply add_bad|apply add_bad_r]; apply square_bad, H).
  revert B. generalize (fst v * fst v + snd v * snd v)%float. intros w B. destruct (nonfinite_cases w B) as [N|[-> | ->]]; [|vm_compute; discriminate..].
  apply nan_nonfinite. unfold nonnumber in *. rewrite is_nan_equiv in *. rewrite sqrt_equiv. destruct (Prim2B w); try discriminate. reflexivity.
Qed.
Lemma close182_ok : close_ok close182.
Proof. intros v H [B|B]; apply B; unfold close182 in H; apply andb_prop in H; destruct H as [H _]; apply andb_prop in H; [exact (proj1 H)|exact (proj2 H)]. Qed.
Lemma ang182_ok : angle_ok ang182.
Proof. intros v [H1 H2]. apply div_nans. left. exact H2. Qed.

Definition d182 : list cf := [(1, 1); (infinity, 0); (1, -1); (2, 1)]%float.
Definition nant (t : float * cf * cf) : bool := let '(y, e, b) := t in PrimFloat.is_nan y && nanb e && nanb b.
(** Third call: every output is NaN although its samples and those of the second call are good
    and the filter was reset; the frequency brings it back. *)
Example C182_frequency_example : magnitude_ok cabs182 /\ close_ok close182 /\ angle_ok ang182 /\
  exists g, freqF_make 0.25 0.5 = Ok g /\ badc (nth 1 (analyticF (fun d => d) d182) (0%float, 0%float)) /\
  let run := freq_exec (fun d => d) exp182 cabs182 close182 ang182 in
  let call h z := match freqF_filter (fun d => d) cabs182 close182 ang182 h z with (_, Ok o) => map nant o | _ => [] end in
  call g d182 = [false; false; true; true] /\
  call (fold_left run [FReset (1, 1)%float; FRate 0.25; FFilter [(1, 2)%float]] (run g (FFilter d182))) [(1, 1); (2, 1)]%float = [true; true] /\
  call (fold_left run [FFrequency 0.25] (run g (FFilter d182))) [(1, 1); (2, 1)]%float = [false; false] /\
  call (fold_left run [FFilter [(nan, 2)%float]; FFrequency 0.25] g) [(1, 1); (2, 1)]%float = [false; true] /\
  call (fold_left run [FFilter [(nan, 2)%float]; FFrequency 0.25; FReset (1, 1)%float] g) [(1, 1); (2, 1)]%float = [false; false].
Proof.
  split; [exact cabs182_ok|]. split; [exact close182_ok|]. split; [exact ang182_ok|]. eexists. split; [reflexivity|]. split; [left; vm_compute; discriminate|]. cbv zeta.
  repeat split; vm_compute; reflexivity.
Qed.
Definition nantb (t : cf * cf * cf) : bool := let '(y, e, b) := t in nanb y && nanb e && nanb b.
(** The same for ComplexBandpassFilter: only an assignment of b helps. *)
Example C182_band_example : exists g, bandF_make 0.25 0.5 = Ok g /\ badc (nth 1 (analyticF (fun d => d) d182) (0%float, 0%float)) /\
  let fm p := p in
  let run := band_exec (fun d => d) fm fm exp182 in
  let call h z := match bandF_filter (fun d => d) fm fm exp182 h z with (_, Ok o) => map nantb o | _ => [] end in
  call g d182 = [false; false; true; true] /\
  call (fold_left run [BReset (1, 1)%float; BRate 0; BFrequency 0] (run (mkBandF (bb g) 0 0 0) (BFilter d182))) [(1, 1); (2, 1)]%float = [true; true] /\
  call (bandF_set_b (run (mkBandF (bb g) 0 0 0) (BFilter d182)) (1, 0)%float) [(1, 1); (2, 1)]%float = [false; false].
Proof. eexists. split; [reflexivity|]. split; [left; vm_compute; discriminate|]. cbv zeta. repeat split; vm_compute; reflexivity. Qed.
