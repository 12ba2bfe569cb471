(** Property C193: what each row of PsdTransform depends on, how much it changes with the
    signal, and what it shows for a tone of any frequency. *)
From Coq Require Import List Arith ZArith Bool Reals Lra Lia.
From Coquelicot Require Import Complex.
From Verif Require Import Base BaseLemmas Instances FirModel FirDesignProofs Sums PolyC DftModel DftProofs DftProps PsdProps FourierLawsProps.
Import ListNotations.
Set Asymmetric Patterns.
Open Scope R_scope.

Lemma row_length x b index y f : usable x b -> (0 < index)%nat -> psd_transform x b (Z.of_nat index) true = Ok (Spectrogram y, f) ->
  forall i, (i < length y)%nat -> length (nth i y []) = (length b / 2)%nat.
Proof.
  intros U Hi E i Hin. destruct (C73_psd_spectrogram x b index U Hi) as (y' & f' & E' & Ly & _ & Hy). rewrite E in E'. injection E' as <- <-.
  apply (proj1 (Hy i Hin)).
Qed.

(** A row depends on nothing but the samples of its frame under non-zero coefficients: not on
    the hop, not on the rest of the signal, not on the number of the row. *)
Theorem C193_local x x' b index index' y y' f f' : usable x b -> usable x' b -> (0 < index)%nat -> (0 < index')%nat ->
  psd_transform x b (Z.of_nat index) true = Ok (Spectrogram y, f) -> psd_transform x' b (Z.of_nat index') true = Ok (Spectrogram y', f') ->
  f' = f /\ forall i i', (i < length y)%nat -> (i' < length y')%nat ->
    (forall n, (n < length b)%nat -> at_ b n <> RtoC 0 -> at_ x (i * index + n) = at_ x' (i' * index' + n)) ->
    nth i y [] = nth i' y' [].
Proof.
  intros U U' Hi Hi' E E'. split.
  - rewrite psd_eval in E by assumption. rewrite psd_eval in E' by assumption. congruence.
  - intros i i' H1 H2 H. pose proof (row_length _ _ _ _ _ U Hi E i H1) as R1. pose proof (row_length _ _ _ _ _ U' Hi' E' i' H2) as R2.
    apply (nth_ext _ _ 0 0); [congruence|]. intros k Hk. rewrite R1 in Hk.
    rewrite (proj2 (rows _ _ _ _ _ U Hi E)), (proj2 (rows _ _ _ _ _ U' Hi' E')) by assumption.
    unfold power. do 3 f_equal. apply csumn_ext. intros n Hn. destruct (Ceq_dec (at_ b n) (RtoC 0)) as [Z|Z]; [rewrite Z; ring|].
    rewrite H by assumption. reflexivity.
Qed.
Print Assumptions C193_local.

Lemma usable_app x t b : usable x b -> usable (x ++ t) b.
Proof. intros [H1 H2]. split; [rewrite app_length; lia|exact H2]. Qed.
Lemma at_app x t n : (n < length x)%nat -> at_ (x ++ t) n = at_ x n.
Proof. intros H. unfold at_. apply app_nth1, H. Qed.

(** Samples after the last full frame are ignored, and more samples only append rows. *)
Theorem C193_trailing x t b index : usable x b -> (0 < index)%nat ->
  ((length x - length b) mod index + length t < index)%nat ->
  forall s, psd_transform (x ++ t) b (Z.of_nat index) s = psd_transform x b (Z.of_nat index) s.
Proof.
  intros U Hi Ht s. assert (U' : usable (x ++ t) b) by (apply usable_app, U).
  rewrite !psd_eval by assumption.
  assert (Hf : frames (x ++ t) b index = frames x b index).
  { unfold frames. rewrite app_length. destruct U as [U _]. f_equal. pose proof (Nat.div_mod (length x - length b) index ltac:(lia)) as D.
    symmetry. apply (Nat.div_unique _ _ _ ((length x - length b) mod index + length t)); lia. }
  assert (Hy : psd_y (x ++ t) b index = psd_y x b index).
  { unfold psd_y. rewrite Hf. apply map_ext_in. intros i Hin. apply in_seq in Hin. unfold psd_frame.
    pose proof (frame_fits x b index i (proj1 U) Hi ltac:(lia)) as Ff.
    do 4 f_equal. rewrite skipn_app, firstn_app, skipn_length. replace (length b - (length x - i * index))%nat with 0%nat by lia.
    cbn [firstn]. apply app_nil_r. }
  rewrite Hy, Hf. reflexivity.
Qed.
Print Assumptions C193_trailing.
Theorem C193_append x t b index y f : usable x b -> (0 < index)%nat -> psd_transform x b (Z.of_nat index) true = Ok (Spectrogram y, f) ->
  exists z, psd_transform (x ++ t) b (Z.of_nat index) true = Ok (Spectrogram (y ++ z), f) /\
    (length y + length z = (length x + length t - length b) / index + 1)%nat.
Proof.
  intros U Hi E. assert (U' : usable (x ++ t) b) by (apply usable_app, U).
  rewrite psd_eval in E by assumption. injection E as <- <-. rewrite psd_eval by assumption.
  assert (Hf : (frames x b index <= frames (x ++ t) b index)%nat).
  { unfold frames. rewrite app_length. apply Nat.add_le_mono_r, Nat.div_le_mono; lia. }
  exists (map (fun i => psd_frame (x ++ t) b (i * index)) (seq (frames x b index) (frames (x ++ t) b index - frames x b index))). split.
  - do 3 f_equal. unfold psd_y. replace (frames (x ++ t) b index) with (frames x b index + (frames (x ++ t) b index - frames x b index))%nat at 1 by lia.
    rewrite seq_app, map_app. cbn [Nat.add]. f_equal. apply map_ext_in. intros i Hin. apply in_seq in Hin. unfold psd_frame.
    pose proof (frame_fits x b index i (proj1 U) Hi ltac:(lia)) as Ff.
    do 4 f_equal. rewrite skipn_app, firstn_app, skipn_length. replace (length b - (length x - i * index))%nat with 0%nat by lia.
    cbn [firstn]. apply app_nil_r.
  - unfold psd_y. rewrite !map_length, !seq_length. rewrite <- app_length. fold (frames (x ++ t) b index). lia.
Qed.
Print Assumptions C193_append.

(** Changing every sample by at most E changes the root of every power by at most E times the
    mean magnitude of the coefficients. *)
Lemma csumn_bound n f g : (forall i, (i < n)%nat -> Cmod (f i) <= g i) -> Cmod (csumn n f) <= rsum n g.
Proof.
  induction n as [|n IH]; intros H; [cbn; rewrite Cmod_0; lra|]. cbn [csumn rsum].
  eapply Rle_trans; [apply Cmod_triangle|]. apply Rplus_le_compat; [apply IH; intros; apply H; lia|apply H; lia].
Qed.
Lemma csumn_sub n f g : csumn n (fun i => f i - g i)%C = (csumn n f - csumn n g)%C.
Proof. induction n as [|n IH]; cbn [csumn]; [ring|]. rewrite IH. ring. Qed.
Theorem C193_perturb x x' b index y y' f f' E : usable x b -> (0 < index)%nat -> length x' = length x ->
  psd_transform x b (Z.of_nat index) true = Ok (Spectrogram y, f) -> psd_transform x' b (Z.of_nat index) true = Ok (Spectrogram y', f') ->
  (forall n, (n < length x)%nat -> Cmod (at_ x n - at_ x' n)%C <= E) ->
  forall i k, (i < length y)%nat -> (k < length b / 2)%nat ->
    Rabs (sqrt (nth k (nth i y []) 0) - sqrt (nth k (nth i y' []) 0)) <= E * (rsum (length b) (fun n => Cmod (at_ b n)) / INR (length b)).
Proof.
  intros U Hi Hl Ey Ey' H i k H1 Hk. assert (U' : usable x' b) by (destruct U as [U1 U2]; split; [lia|exact U2]).
  destruct (rows _ _ _ _ _ U Hi Ey) as [L R]. destruct (rows _ _ _ _ _ U' Hi Ey') as [L' R'].
  assert (H2 : (i < length y')%nat) by (rewrite L'; unfold frames; rewrite Hl; rewrite L in H1; exact H1).
  rewrite R, R' by assumption. unfold power. set (N := length b) in *. assert (P : 0 < INR N) by (apply lt_0_INR; destruct N; cbn in Hk; lia).
  pose proof (frame_fits x b index i (proj1 U) Hi ltac:(rewrite <- L; exact H1)) as Ff. fold N in Ff.
  rewrite !sqrt_pow2 by (apply Rmult_le_pos; [apply Cmod_ge_0|apply Rlt_le, Rinv_0_lt_compat, P]).
  set (S1 := csumn N _). set (S2 := csumn N _).
  assert (T : Rabs (Cmod S1 - Cmod S2) <= Cmod (S1 - S2)%C).
  { apply Rabs_le. pose proof (Cmod_triangle (S1 - S2)%C S2) as T1. pose proof (Cmod_triangle (S2 - S1)%C S1) as T2.
    replace (S1 - S2 + S2)%C with S1 in T1 by ring. replace (S2 - S1 + S1)%C with S2 in T2 by ring.
    replace (S2 - S1)%C with (- (S1 - S2))%C in T2 by ring. rewrite Cmod_opp in T2. lra. }
  assert (B : Cmod (S1 - S2)%C <= E * rsum N (fun n => Cmod (at_ b n))).
  { rewrite <- rsum_scal. replace (S1 - S2)%C with (csumn N (fun n => (at_ x (i * index + n) - at_ x' (i * index + n)) * at_ b n * cis (- (2 * PI * INR k * INR n / INR N)))%C).
    - apply csumn_bound. intros n Hn. rewrite !Cmod_mult, Cmod_cis, Rmult_1_r. apply Rmult_le_compat_r; [apply Cmod_ge_0|]. apply H. lia.
    - unfold S1, S2. rewrite <- csumn_sub. apply csumn_ext. intros n Hn. ring. }
  replace (Cmod S1 / INR N - Cmod S2 / INR N) with ((Cmod S1 - Cmod S2) / INR N) by (field; lra).
  unfold Rdiv. rewrite Rabs_mult, (Rabs_pos_eq (/ INR N)) by (apply Rlt_le, Rinv_0_lt_compat, P). rewrite <- Rmult_assoc.
  apply Rmult_le_compat_r; [apply Rlt_le, Rinv_0_lt_compat, P|]. lra.
Qed.
Print Assumptions C193_perturb.

(** A tone of any angular frequency w: every row, hence the mean, is the same window
    spectrum, centred on the tone. *)
Definition wave_at (A : C) (w : R) (L : nat) : list C := map (fun n => Cmult A (cis (w * INR n))) (seq 0 L).
Definition leak (b : list C) (u : R) : R := Cmod (csumn (length b) (fun n => at_ b n * cis (u * INR n))%C) / INR (length b).
Theorem C193_tone A w L b index : usable (wave_at A w L) b -> (0 < index)%nat ->
  exists y m f, psd_transform (wave_at A w L) b (Z.of_nat index) true = Ok (Spectrogram y, f) /\
    psd_transform (wave_at A w L) b (Z.of_nat index) false = Ok (Mean m, f) /\
    length m = (length b / 2)%nat /\ (forall row, In row y -> row = m) /\
    forall k, (k < length b / 2)%nat -> nth k m 0 = (Cmod A * leak b (w - 2 * PI * INR k / INR (length b))) ^ 2.
Proof.
  intros U Hi. set (x := wave_at A w L) in *.
  destruct (C73_psd_spectrogram _ _ index U Hi) as (y & f & E & Ly & _ & Hy). destruct (C73_psd_mean _ _ index U Hi) as (y' & m & f' & E' & Em & Lm & Hm).
  rewrite E in E'. assert (y' = y /\ f' = f) as [-> ->] by (split; congruence). clear E'.
  assert (LL : length x = L) by (unfold x, wave_at; rewrite map_length, seq_length; reflexivity).
  assert (V : forall i k, (i < length y)%nat -> (k < length b / 2)%nat -> nth k (nth i y []) 0 = (Cmod A * leak b (w - 2 * PI * INR k / INR (length b))) ^ 2).
  { intros i k Hin Hk. rewrite (proj2 (proj2 (Hy i Hin) k Hk)). unfold power, leak. set (N := length b) in *.
    assert (P : 0 < INR N) by (apply lt_0_INR; destruct N; cbn in Hk; lia).
    rewrite Ly in Hin. pose proof (frame_fits x b index i (proj1 U) Hi Hin) as Ff. fold N in Ff.
    rewrite (csumn_ext N _ (fun n => (A * cis (w * INR (i * index))) * (at_ b n * cis ((w - 2 * PI * INR k / INR N) * INR n)))%C).
    - rewrite csumn_scal, !Cmod_mult, Cmod_cis. f_equal. field. lra.
    - intros n Hn. unfold at_ at 1. unfold x, wave_at. rewrite nth_map_lt with (d := 0%nat) by (rewrite seq_length; lia). rewrite seq_nth by lia. cbn [Nat.add].
      transitivity (A * at_ b n * (cis (w * INR (i * index + n)) * cis (- (2 * PI * INR k * INR n / INR N))))%C; [ring|].
      transitivity (A * at_ b n * (cis (w * INR (i * index)) * cis ((w - 2 * PI * INR k / INR N) * INR n)))%C; [|ring].
      f_equal. rewrite <- !cis_add. f_equal. rewrite plus_INR. field. lra. }
  assert (M : forall k, (k < length b / 2)%nat -> nth k m 0 = (Cmod A * leak b (w - 2 * PI * INR k / INR (length b))) ^ 2).
  { intros k Hk. rewrite (proj2 (Hm k Hk)). rewrite (rsum_ext _ _ (fun _ => (Cmod A * leak b (w - 2 * PI * INR k / INR (length b))) ^ 2)) by (intros i Hin; apply V; assumption).
    rewrite rsum_const. field. apply not_0_INR. rewrite Ly. lia. }
  exists y, m, f. split; [exact E|]. split; [exact Em|]. split; [exact Lm|]. split; [|exact M].
  intros row Hr. apply (In_nth _ _ []) in Hr. destruct Hr as (i & Hin & <-). apply (nth_ext _ _ 0 0); [rewrite (proj1 (Hy i Hin)); auto|].
  intros k Hk. rewrite (proj1 (Hy i Hin)) in Hk. rewrite V, M by assumption. reflexivity.
Qed.
Print Assumptions C193_tone.
Example C193_example : usable (wave_at (RtoC 3) (7 / 10) 20) (ones 8) /\ usable (wave_at (RtoC 3) (7 / 10) 20 ++ [RtoC 5]) (ones 8) /\
  ((20 - 8) mod 5 + 1 < 5)%nat /\ ((21 - 8) / 5 = (20 - 8) / 5)%nat /\
  leak (ones 2) PI = 0 /\ leak (ones 2) 0 = 1.
Proof.
  assert (U : usable (wave_at (RtoC 3) (7 / 10) 20) (ones 8)).
  { split; [cbn; lia|]. exists 0%nat. split; [cbn; lia|]. unfold at_. cbn [nth ones repeat]. rewrite Cmod_1. lra. }
  split; [exact U|]. split; [apply usable_app, U|]. split; [cbn; lia|]. split; [reflexivity|].
  unfold leak. cbn [length ones repeat csumn at_ nth INR]. split.
  - replace (RtoC 0 + RtoC 1 * cis (PI * 0) + RtoC 1 * cis (PI * 1))%C with (RtoC 0); [rewrite Cmod_0; lra|].
    unfold cis. rewrite Rmult_0_r, Rmult_1_r, cos_0, sin_0, cos_PI, sin_PI. apply injective_projections; cbn; lra.
  - replace (RtoC 0 + RtoC 1 * cis (0 * 0) + RtoC 1 * cis (0 * 1))%C with (RtoC 2); [rewrite Cmod_R, Rabs_pos_eq; lra|].
    unfold cis. rewrite !Rmult_0_l, cos_0, sin_0. apply injective_projections; cbn; lra.
Qed.
