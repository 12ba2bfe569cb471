(** IntegralFilter in IEEE doubles: lemmas. *)
From Flocq Require Import Core BinarySingleNaN PrimFloat.
From Coq Require Import List Arith ZArith Lia Bool Reals Lra Floats Permutation.
From Verif Require Import Base BaseLemmas Instances FirModel FirSpec FirProofs IirModel IirProofs IirProps CalculusModel CalculusSpec CalculusProps.
From Verif Require Import DoubleSpec DoubleProofs DoubleOps DoubleProps WaveletDoubleProofs FixedPointProps.
Import ListNotations.
Set Asymmetric Patterns.
Local Open Scope R_scope.

(** Products with the feedback coefficients 0, 1, 0, ... *)
Lemma zero_pairs u (t : list float) : Forall finite t -> Forall (unit_pair u) (combine (repeat 0%float (length t)) t) /\
  posm (combine (repeat 0%float (length t)) t) = 0 /\ negm (combine (repeat 0%float (length t)) t) = 0.
Proof.
  unfold posm, negm. induction 1 as [|v t Fv _ (I1 & I2 & I3)]; [repeat split; constructor|]. cbn [length repeat combine fold_right].
  assert (E : prod (0%float, v) = 0) by (unfold prod; cbn [fst snd]; rewrite val_zero; ring). split; [|].
  - constructor; [|exact I1]. split; [exact fin_zero|]. split; [exact Fv|]. exists 0%Z. rewrite E. ring.
  - rewrite I2, I3, E, Ropp_0. rewrite Rmax_left by lra. split; ring.
Qed.
Lemma dot_pick d (p w : float) (t : list float) : any_order d -> Forall finite (p :: w :: t) -> Rabs (val w) <= bpow radix2 1000 ->
  finite (d (0%float :: 1%float :: repeat 0%float (length t)) (p :: w :: t)) /\ val (d (0%float :: 1%float :: repeat 0%float (length t)) (p :: w :: t)) = val w.
Proof.
  intros Hd F Bw. inversion F as [|? ? Fp F1]; subst. inversion F1 as [|? ? Fw Ft]; subst. set (u := Rabs (val w)).
  pose proof (Rabs_pos (val w)) as u0. fold u in u0, Bw.
  assert (V1 : val 1%float = 1) by litval.
  assert (hb : 2 * bpow radix2 1000 < huge) by (change 2 with (bpow radix2 1); rewrite <- bpow_plus; apply bpow_lt; lia).
  assert (U : u = val w \/ u = - val w) by (unfold u, Rabs; destruct (Rcase_abs (val w)); [right|left]; reflexivity).
  assert (N1 : nearest u = u) by (destruct U as [->| ->]; [|rewrite nearest_opp; f_equal]; apply nearest_val).
  assert (S2 : generic_format radix2 (FLT_exp (-1074) 53) (2 * val w)).
  { pose proof (val_format w) as G. apply (FLT_format_generic radix2) in G; [|reflexivity]. destruct G as [[m e] E Hm He]. cbn [Fnum Fexp] in *. unfold F2R in E. cbn [Fnum Fexp] in E.
    replace (2 * val w) with (IZR m * bpow radix2 (1 + e)); [apply grid_format; [lia|change (Zpower radix2 53) with (2 ^ 53)%Z in Hm; lia]|]. rewrite E, bpow_plus. change (bpow radix2 1) with 2. ring. }
  assert (N2 : nearest (2 * u) = 2 * u).
  { destruct U as [->| ->]; [|replace (2 * - val w) with (- (2 * val w)) by ring; rewrite nearest_opp; f_equal]; apply round_generic; try apply valid_rnd_N; exact S2. }
  destruct (zero_pairs u t Ft) as (Z1 & Z2 & Z3).
  set (L := combine (0%float :: 1%float :: repeat 0%float (length t)) (p :: w :: t)).
  assert (E0 : prod (0%float, p) = 0) by (unfold prod; cbn [fst snd]; rewrite val_zero; ring).
  assert (E1 : prod (1%float, w) = val w) by (unfold prod; cbn [fst snd]; rewrite V1; ring).
  assert (Q1 : Forall (unit_pair u) L).
  { constructor; [split; [exact fin_zero|split; [exact Fp|exists 0%Z; rewrite E0; ring]]|]. constructor; [|exact Z1]. split; [reflexivity|]. split; [exact Fw|]. rewrite E1.
    destruct U as [U|U]; [exists 1%Z|exists (-1)%Z]; lra. }
  assert (QP : posm L = Rmax (val w) 0) by (unfold L, posm in *; cbn [combine fold_right]; rewrite Z2, E0, E1, (Rmax_left 0 0) by lra; ring).
  assert (QN : negm L = Rmax (- val w) 0) by (unfold L, negm in *; cbn [combine fold_right]; rewrite Z3, E0, E1, Ropp_0, (Rmax_left 0 0) by lra; ring).
  assert (L1 : u < huge) by lra. assert (L2 : 2 * u < huge) by lra.
  assert (M1 : Rmax (val w) 0 <= 2 * u) by (apply Rmax_lub; [|lra]; pose proof (Rle_abs (val w)) as K; fold u in K; lra).
  assert (M2 : Rmax (- val w) 0 <= 2 * u) by (apply Rmax_lub; [|lra]; pose proof (Rle_abs (- val w)) as K; rewrite Rabs_Ropp in K; fold u in K; lra).
  destruct (dots_units u u0 (conj N1 L1) (conj N2 L2) L (d (0%float :: 1%float :: repeat 0%float (length t)) (p :: w :: t))) as [Fv Vv].
  - apply Hd. cbn [length]. rewrite repeat_length. reflexivity.
  - exact Q1.
  - rewrite QP. exact M1.
  - rewrite QN. exact M2.
  - split; [exact Fv|]. rewrite Vv, exact_parts, QP, QN. unfold Rmax. destruct (Rle_dec (val w) 0), (Rle_dec (- val w) 0); lra.
Qed.

(** ** The states, with a rounding [rho] of the sum *)
Section Machine.
  Variable rho : R -> R.
  Definition mstep (s : list R) (x : R) : list R :=
    x :: match s with p :: w :: t => rho (p + w) :: firstn (length t) (w :: t) | _ => [] end.
  Fixpoint mstates (s : list R) (x : list R) : list (list R) :=
    match x with [] => [] | v :: x' => mstep s v :: mstates (mstep s v) x' end.
  (** Running sums from [a], rounded at every step. *)
  Fixpoint sums (a : R) (x : list R) : list R :=
    match x with [] => [] | v :: x' => rho (a + v) :: sums (rho (a + v)) x' end.
  Lemma length_sums a x : length (sums a x) = length x.
  Proof. revert a. induction x as [|v x IH]; intros a; [reflexivity|]. cbn. f_equal. apply IH. Qed.
  Lemma length_mstep s v : (2 <= length s)%nat -> length (mstep s v) = length s.
  Proof. destruct s as [|p [|w t]]; cbn [length]; try lia. intros _. cbn [mstep length]. rewrite firstn_length. cbn [length]. lia. Qed.
  Lemma firstn_past {X} m (l t : list X) n : (m <= length l + n)%nat -> firstn m (l ++ firstn n t) = firstn m (l ++ t).
  Proof. intros H. rewrite !firstn_app. f_equal. rewrite firstn_firstn. f_equal. lia. Qed.
  (** After sample n the state is that sample, the sums before it, and the rest of the old state. *)
  Lemma mstates_view x : forall p w t n, (n < length x)%nat ->
    nth n (mstates (p :: w :: t) x) [] =
    nth n x 0 :: firstn (S (length t)) (rev (firstn n (sums (rho (p + w)) x)) ++ rho (p + w) :: w :: t).
  Proof.
    induction x as [|v x IH]; intros p w t n Hn; [cbn in Hn; lia|]. destruct n as [|n].
    - cbn [mstates nth mstep firstn rev app]. reflexivity.
    - cbn [mstates nth]. cbn in Hn. cbn [mstep]. set (A := rho (p + w)). set (t' := firstn (length t) (w :: t)).
      assert (Lt : length t' = length t) by (unfold t'; rewrite firstn_length; cbn [length]; lia).
      etransitivity; [exact (IH v A t' n ltac:(lia))|]. rewrite Lt. f_equal. rewrite (Rplus_comm v A). set (B := rho (A + v)).
      change (rev (firstn (S n) (sums A (v :: x)))) with (rev (firstn n (sums B x)) ++ [B]). rewrite <- app_assoc. change ([B] ++ A :: w :: t) with (B :: A :: w :: t). set (l := rev (firstn n (sums B x))).
      replace (l ++ B :: A :: t') with ((l ++ [B; A]) ++ t') by (rewrite <- app_assoc; reflexivity).
      replace (l ++ B :: A :: w :: t) with ((l ++ [B; A]) ++ w :: t) by (rewrite <- app_assoc; reflexivity).
      unfold t'. apply firstn_past. rewrite app_length. cbn [length]. lia.
  Qed.
End Machine.

(** The same sums where the rounding does nothing. *)
Lemma sums_ext rho rho' x : forall a, (forall v, In v (sums rho' a x) -> rho v = v) -> (forall z, rho' z = z) -> sums rho a x = sums rho' a x.
Proof.
  induction x as [|v x IH]; intros a H I; [reflexivity|]. cbn [sums] in *.
  assert (E : rho (a + v) = rho' (a + v)) by (pose proof (H _ (or_introl eq_refl)) as K; rewrite I in *; exact K).
  rewrite E. f_equal. apply IH; [|exact I]. intros u Hu. apply H. right. exact Hu.
Qed.
Lemma sums_exact x : forall a n, (n < length x)%nat -> nth n (sums (fun z => z) a x) 0 = a + fold_right Rplus 0 (firstn (S n) x).
Proof.
  induction x as [|v x IH]; intros a n Hn; [cbn in Hn; lia|]. destruct n as [|n]; [cbn; ring|].
  change (nth (S n) (sums (fun z => z) a (v :: x)) 0) with (nth n (sums (fun z => z) (a + v) x) 0). rewrite IH by (cbn in Hn; lia).
  change (firstn (S (S n)) (v :: x)) with (v :: firstn (S n) x). cbn [fold_right]. ring.
Qed.

(** A dot product of at most two ones with doubles is one rounded addition. *)
Definition ones_pair (p : float * float) : Prop := fst p = 1%float /\ finite (snd p) /\ Rabs (val (snd p)) <= bpow radix2 1000.
Lemma nearest_idem x : nearest (nearest x) = nearest x.
Proof. apply round_generic; [apply valid_rnd_N|]. apply generic_format_round; [apply FLT_exp_valid; reflexivity|apply valid_rnd_N]. Qed.
Lemma nearest_0 : nearest 0 = 0.
Proof. apply round_0. apply valid_rnd_N. Qed.
Lemma small_ones l : (length l <= 1)%nat -> Forall ones_pair l -> nearest (DoubleProofs.exact l) = DoubleProofs.exact l.
Proof.
  destruct l as [|[a y] [|? ?]]; cbn [length]; intros H F; try lia; unfold DoubleProofs.exact; cbn [fold_right fst snd]; [apply nearest_0|].
  inversion F as [|? ? (E & _ & _) _]; subst. cbn [fst snd] in E. subst a. assert (V1 : val 1%float = 1) by litval. rewrite V1, Rmult_1_l, Rplus_0_r. apply nearest_val.
Qed.
Lemma exact_ones_bound l : Forall ones_pair l -> Rabs (DoubleProofs.exact l) <= INR (length l) * bpow radix2 1000.
Proof.
  assert (V1 : val 1%float = 1) by litval. induction 1 as [|[a y] l (E & _ & B) _ IH]; [unfold DoubleProofs.exact; cbn [fold_right length]; rewrite Rabs_R0; cbn; lra|].
  cbn [fst snd] in *. subst a. change (DoubleProofs.exact ((1%float, y) :: l)) with (val 1%float * val y + DoubleProofs.exact l). rewrite V1, Rmult_1_l. cbn [length]. rewrite S_INR.
  pose proof (Rabs_triang (val y) (DoubleProofs.exact l)). lra.
Qed.
Lemma exact_app' l m : DoubleProofs.exact (l ++ m) = DoubleProofs.exact l + DoubleProofs.exact m.
Proof. unfold DoubleProofs.exact. induction l as [|p l IH]; cbn [app fold_right]; [ring|]. rewrite IH. ring. Qed.
Lemma exact_perm' l m : Permutation l m -> DoubleProofs.exact l = DoubleProofs.exact m.
Proof. unfold DoubleProofs.exact. induction 1; cbn [fold_right]; lra. Qed.
Lemma dots_ones l v : dots l v -> (length l <= 2)%nat -> Forall ones_pair l -> finite v /\ val v = nearest (DoubleProofs.exact l).
Proof.
  assert (V1 : val 1%float = 1) by litval.
  assert (HB : forall l, (length l <= 2)%nat -> Forall ones_pair l -> Rabs (nearest (DoubleProofs.exact l)) < huge).
  { intros l0 Hl F. pose proof (exact_ones_bound l0 F) as B. pose proof (nearest_bound (DoubleProofs.exact l0)) as N. pose proof uro_pos as U. pose proof eta0_pos as T.
    assert (Us : uro <= / 1000) by (unfold uro; cbn; lra). pose proof eta_uro as Te. assert (INR (length l0) <= 2) by (change 2 with (INR 2); apply le_INR, Hl).
    assert (1 <= bpow radix2 1000) by (change 1 with (bpow radix2 0); apply bpow_le; lia).
    assert (8 * bpow radix2 1000 < huge) by (change 8 with (bpow radix2 3); rewrite <- bpow_plus; apply bpow_lt; lia).
    assert (INR (length l0) * bpow radix2 1000 <= 2 * bpow radix2 1000) by (apply Rmult_le_compat_r; lra).
    assert ((1 + uro) * Rabs (DoubleProofs.exact l0) <= 2 * Rabs (DoubleProofs.exact l0)) by (apply Rmult_le_compat_r; [apply Rabs_pos|lra]). lra. }
  induction 1 as [|x y|x y l v w D IH Hf|l m v w D1 IH1 D2 IH2|l m v P D IH]; intros Hl F.
  - split; [exact fin_zero|]. unfold DoubleProofs.exact. cbn [fold_right]. rewrite nearest_0. apply val_zero.
  - pose proof (HB _ Hl F) as H. pose proof (Forall_inv F) as (E & Fy & By). cbn [fst snd] in *. subst x. unfold DoubleProofs.exact in *. cbn [fold_right fst snd] in *. rewrite Rplus_0_r in *.
    apply mul_fin; [reflexivity|exact Fy|exact H].
  - pose proof (HB _ Hl F) as H. pose proof (Forall_inv F) as (E & Fy & By). pose proof (Forall_inv_tail F) as Fl. cbn [fst snd length] in *. subst x.
    destruct (IH ltac:(lia) Fl) as [Fv Ev]. rewrite (small_ones l ltac:(lia) Fl) in Ev.
    change (DoubleProofs.exact ((1%float, y) :: l)) with (val 1%float * val y + DoubleProofs.exact l) in *. rewrite <- Ev in *. apply (proj1 Hf); [reflexivity|exact Fy|exact Fv|exact H].
  - pose proof (HB _ Hl F) as H. apply Forall_app in F. destruct F as [Fl Fm]. rewrite app_length in Hl.
    destruct (IH1 ltac:(lia) Fl) as [Fv Ev]. destruct (IH2 ltac:(lia) Fm) as [Fw Ew]. rewrite exact_app' in *.
    assert (E : nearest (val v + val w) = nearest (DoubleProofs.exact l + DoubleProofs.exact m)).
    { rewrite Ev, Ew. destruct l as [|p l]; [|destruct m as [|p' m]].
      - unfold DoubleProofs.exact at 1 3. cbn [fold_right]. rewrite nearest_0, !Rplus_0_l. apply nearest_idem.
      - unfold DoubleProofs.exact at 2 4. cbn [fold_right]. rewrite nearest_0, !Rplus_0_r. apply nearest_idem.
      - cbn [length] in Hl. rewrite (small_ones (p :: l)), (small_ones (p' :: m)); cbn [length]; try lia; try assumption. reflexivity. }
    rewrite <- E in *. apply add_fin; assumption.
  - rewrite <- (exact_perm' _ _ P). apply IH; [rewrite (Permutation_length P); exact Hl|]. apply Forall_forall. intros z Hz. apply (proj1 (Forall_forall _ _) F). apply (Permutation_in z P), Hz.
Qed.

(** ** The run *)
Lemma hist_integral d (p w : float) t : @hist (FAd d) DFloat (0%float :: 1%float :: repeat 0%float (length t)) (p :: w :: t) =
  (p + d (0%float :: 1%float :: repeat 0%float (length t)) (p :: w :: t))%float :: firstn (length t) (w :: t).
Proof. reflexivity. Qed.
Definition cap (v : R) : Prop := Rabs v <= bpow radix2 1000.
Lemma cap_huge v : cap v -> Rabs v < huge.
Proof. intros H. apply Rle_lt_trans with (1 := H). apply bpow_lt. lia. Qed.
Lemma Forall_firstn' {X} (P : X -> Prop) n l : Forall P l -> Forall P (firstn n l).
Proof. intros H. apply Forall_forall. intros z Hz. apply (proj1 (Forall_forall _ _) H). revert Hz. clear. revert n. induction l as [|y l IH]; intros [|n]; cbn; try tauto. intros [->|H]; [tauto|right; eauto]. Qed.

Lemma last_cons' {X} (l : list X) y z : last (y :: l) z = last l y.
Proof. revert y z. induction l as [|u l IH]; intros y z; [reflexivity|]. change (last (u :: l) z = last (u :: l) y). rewrite !IH. reflexivity. Qed.
Lemma integral_run d (t0 : nat) (b : list float) : any_order d -> length b = S (S t0) -> forall x p w t, length t = t0 ->
  Forall finite (p :: w :: t) -> cap (val w) -> cap (nearest (val p + val w)) -> Forall finite x -> Forall cap (sums nearest (nearest (val p + val w)) (map val x)) ->
  exists s' y ss, run (@iir_step (FAd d) DFloat (0%float :: 1%float :: repeat 0%float t0) b) (p :: w :: t) x = (s', Ok y) /\
    map (map val) ss = mstates nearest (map val (p :: w :: t)) (map val x) /\ Forall (Forall finite) ss /\
    y = map (d (@cvec (FAd d) (0%float :: 1%float :: repeat 0%float t0) b)) ss /\ s' = last ss (p :: w :: t).
Proof.
  intros Hd Lb. induction x as [|v x IH]; intros p w t Ht Fs Cw CA Fx CS.
  - exists (p :: w :: t), [], []. repeat split; constructor.
  - set (a := 0%float :: 1%float :: repeat 0%float t0) in *. set (A := nearest (val p + val w)) in *.
    assert (Ha : a = 0%float :: 1%float :: repeat 0%float (length t)) by (rewrite Ht; reflexivity).
    destruct (dot_pick d p w t Hd Fs Cw) as [Fd Vd]. rewrite <- Ha in Fd, Vd.
    pose proof (Forall_inv Fs) as Fp. pose proof (Forall_inv Fx) as Fv.
    destruct (add_fin p (d a (p :: w :: t)) Fp Fd) as [FW VW]; [rewrite Vd; apply cap_huge, CA|]. rewrite Vd in VW. fold A in VW.
    set (W := (p + d a (p :: w :: t))%float) in *. set (t1 := firstn (length t) (w :: t)).
    assert (L1 : length t1 = t0) by (unfold t1; rewrite firstn_length; cbn [length]; lia).
    assert (F1 : Forall finite (v :: W :: t1)) by (constructor; [exact Fv|]; constructor; [exact FW|]; apply Forall_firstn', (Forall_inv_tail Fs)).
    assert (EA : nearest (val v + val W) = nearest (A + val v)) by (rewrite VW; f_equal; ring).
    cbn [map sums] in CS. pose proof (Forall_inv CS) as CA1. pose proof (Forall_inv_tail CS) as CS1.
    destruct (IH v W t1 L1 F1) as (s' & y & ss & E & Es & Ff & Ey & El).
    { rewrite VW. exact CA. } { rewrite EA. exact CA1. } { exact (Forall_inv_tail Fx). } { rewrite EA. exact CS1. }
    exists s', (d (@cvec (FAd d) a b) (v :: W :: t1) :: y), ((v :: W :: t1) :: ss).
    assert (Est : @iir_step (FAd d) DFloat a b (p :: w :: t) v = (v :: W :: t1, Ok (d (@cvec (FAd d) a b) (v :: W :: t1)))).
    { etransitivity; [apply (@iir_step_eq (FAd d))|].
      - intros C. rewrite C in Lb. discriminate.
      - unfold a. cbn [length]. rewrite repeat_length. symmetry. exact Lb.
      - refine (eq_trans _ (eq_sym Lb)). exact (f_equal (fun k => S (S k)) Ht).
      - reflexivity. }
    split; [|split; [|split; [|split]]].
    + cbn [run]. rewrite Est. rewrite E. reflexivity.
    + assert (Em : mstep nearest (map val (p :: w :: t)) (val v) = map val (v :: W :: t1)).
      { change (val v :: A :: firstn (length (map val t)) (map val (w :: t)) = val v :: val W :: map val t1). rewrite VW, map_length, firstn_map. reflexivity. }
      cbn [mstates]. change (map val (v :: x)) with (val v :: map val x). cbn [mstates]. rewrite Em, <- Es. reflexivity.
    + constructor; assumption.
    + cbn [map]. rewrite <- Ey. reflexivity.
    + rewrite El. symmetry. apply last_cons'.
Qed.
