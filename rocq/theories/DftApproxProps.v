(** Property C199: PsdTransform and FourierTransform with an inexact FFT. *)
From Coq Require Import List Arith ZArith Bool Reals Lra Lia.
From Coquelicot Require Import Complex.
From Verif Require Import Base BaseLemmas Instances FirModel FirDesignProofs Sums PolyC DftModel DftProofs DftProps PsdProps PsdLocalProps DftApproxModel.
Import ListNotations.
Set Asymmetric Patterns.
Open Scope R_scope.
Open Scope C_scope.
Local Arguments Cmod _%C_scope.

(** ** Specification *)
(** sum of the magnitudes *)
Definition mass (x : list C) : R := rsum (length x) (fun n => Cmod (at_ x n)).
(** An implementation whose error, in every element, is at most [e] times the largest value the
    transform can take for elements of these magnitudes *)
Definition fft_close (e : R) (F : list C -> list C) : Prop :=
  forall x, length (F x) = length x /\ forall k, (k < length x)%nat -> (Cmod (at_ (F x) k - at_ (fft x) k) <= e * mass x)%R.
Definition ifft_close (e : R) (I : list C -> list C) : Prop :=
  forall x, length (I x) = length x /\ forall n, (n < length x)%nat -> (Cmod (at_ (I x) n - at_ (ifft x) n) <= e * (mass x / INR (length x)))%R.
(** mean magnitude of the windowed samples from [i] on *)
Definition loudness (x b : list C) (i : nat) : R := (rsum (length b) (fun n => Cmod (at_ b n * at_ x (i + n))) / INR (length b))%R.

Definition part_of (N : nat) (z : C) : C := z / RtoC (INR N).
Definition times (N : nat) (z : C) : C := z * RtoC (INR N).
Lemma mass_nonneg x : (0 <= mass x)%R.
Proof. apply rsum_nonneg. intros. apply Cmod_ge_0. Qed.
Lemma fft_mass x k : (k < length x)%nat -> (Cmod (at_ (fft x) k) <= mass x)%R.
Proof.
  intros Hk. unfold at_. rewrite nth_fft by exact Hk. apply csumn_bound. intros n _. rewrite Cmod_mult, Cmod_root. unfold at_. lra.
Qed.
Lemma Cmod_split (a b : C) : (Cmod a <= Cmod b + Cmod (a - b))%R.
Proof. replace a with (b + (a - b)) at 1 by ring. apply Cmod_triangle. Qed.
Lemma Cmod_div_R (z : C) N : (0 < N)%nat -> Cmod (z / RtoC (INR N)) = (Cmod z / INR N)%R.
Proof.
  intros H. assert (P : (0 < INR N)%R) by (apply lt_0_INR; exact H). rewrite Cmod_div by (intros F; apply RtoC_inj in F; lra). rewrite Cmod_R, Rabs_right by lra. reflexivity.
Qed.

(** ** FourierTransform *)
Section Fourier.
  Variables (e : R) (F I : list C -> list C).
  Hypothesis e0 : (0 <= e)%R.
  Hypothesis HF : fft_close e F.
  Hypothesis HI : ifft_close e I.
  Variables x b : list C.
  Hypothesis U : usable x b.
  Let N := length b.
  Let w := map2 Cmult b (firstn N x).
  Lemma N_pos : (0 < N)%nat.
  Proof. destruct U as [_ (i & Hi & _)]. unfold N. lia. Qed.
  Lemma w_length : length w = N.
  Proof. unfold w. rewrite length_map2, firstn_length_le by apply U. fold N. lia. Qed.
  Lemma w_mass : mass w = (INR N * loudness x b 0)%R.
  Proof.
    assert (P : (0 < INR N)%R) by (apply lt_0_INR, N_pos). unfold mass, loudness. fold N. rewrite w_length.
    replace (INR N * (rsum N (fun n => Cmod (at_ b n * at_ x (0 + n))) / INR N))%R with (rsum N (fun n => Cmod (at_ b n * at_ x (0 + n)))) by (field; lra).
    apply rsum_ext. intros n Hn. unfold at_, w. rewrite nth_map2 with (dx := RtoC 0) (dy := RtoC 0) by (rewrite ?firstn_length_le; try exact Hn; apply U).
    rewrite nth_firstn by exact Hn. reflexivity.
  Qed.
  Lemma run_forward G J : fourier_with G J x b false = Ok (rotate_half (map (part_of N) (G w)), linspace (-1) (1 - 2 / INR N) N).
  Proof.
    assert (V := proj1 (usable_ok x b) U). destruct V as [V1 V2]. unfold fourier_with. rewrite V1, V2, firstn_length_le by apply U. reflexivity.
  Qed.
  Lemma forward_at G k : length (G w) = N -> (k < N)%nat ->
    at_ (rotate_half (map (part_of N) (G w))) k = at_ (G w) ((k + N / 2) mod N) / RtoC (INR N).
  Proof.
    intros L Hk. assert (Hm : ((k + N / 2) mod N < N)%nat) by (apply Nat.mod_upper_bound; lia). unfold at_.
    rewrite nth_rotate_half by (rewrite map_length, L; exact Hk). rewrite map_length, L. rewrite nth_map_lt with (d := RtoC 0) by (rewrite L; exact Hm). reflexivity.
  Qed.
  Lemma forward_error k : (k < N)%nat ->
    (Cmod (at_ (rotate_half (map (part_of N) (F w))) k - at_ (rotate_half (map (part_of N) (fft w))) k) <= e * loudness x b 0)%R.
  Proof.
    intros Hk. assert (P : (0 < INR N)%R) by (apply lt_0_INR, N_pos). assert (Hm : ((k + N / 2) mod N < N)%nat) by (apply Nat.mod_upper_bound; lia).
    destruct (HF w) as [L H]. rewrite w_length in L, H. rewrite !forward_at by (rewrite ?length_fft, ?w_length; auto). specialize (H _ Hm).
    replace (at_ (F w) ((k + N / 2) mod N) / RtoC (INR N) - at_ (fft w) ((k + N / 2) mod N) / RtoC (INR N)) with ((at_ (F w) ((k + N / 2) mod N) - at_ (fft w) ((k + N / 2) mod N)) / RtoC (INR N)) by (field; intros E; apply RtoC_inj in E; lra).
    rewrite Cmod_div_R by apply N_pos. rewrite w_mass in H. apply (Rmult_le_reg_r (INR N)); [exact P|]. unfold Rdiv. rewrite Rmult_assoc, Rinv_l, Rmult_1_r by lra. lra.
  Qed.
  Lemma forward_size k : (k < N)%nat -> (Cmod (at_ (rotate_half (map (part_of N) (fft w))) k) <= loudness x b 0)%R.
  Proof.
    intros Hk. assert (P : (0 < INR N)%R) by (apply lt_0_INR, N_pos). assert (Hm : ((k + N / 2) mod N < N)%nat) by (apply Nat.mod_upper_bound; lia).
    rewrite forward_at by (rewrite ?length_fft, ?w_length; auto). rewrite Cmod_div_R by apply N_pos.
    assert (H := fft_mass w ((k + N / 2) mod N)). rewrite w_length in H. specialize (H Hm). rewrite w_mass in H.
    apply (Rmult_le_reg_r (INR N)); [exact P|]. unfold Rdiv. rewrite Rmult_assoc, Rinv_l, Rmult_1_r by lra. lra.
  Qed.
End Fourier.

(** the inverse: an error of the spectrum passes at most unchanged, up to the window *)
Section Inverse.
  Variables (e : R) (F I : list C -> list C).
  Hypothesis HI : ifft_close e I.
  Variables b y y' : list C.
  Let N := length b.
  Hypothesis U : usable y b.
  Hypothesis Ly : length y = N.
  Hypothesis Ly' : length y' = N.
  Lemma run_inverse G J (v : list C) : length v = N -> fourier_with G J v b true = Ok (map2 Cdiv (map (times N) (J (rotate_half v))) (mended b), linspace 0 (INR N - 1) N).
  Proof.
    intros L. assert (U' : usable v b) by (destruct U as [_ U']; split; [fold N; lia|exact U']). destruct (proj1 (usable_ok v b) U') as [V1 V2].
    unfold fourier_with. rewrite V1, V2. replace (firstn (length b) v) with v by (symmetry; fold N; rewrite <- L; apply firstn_all). rewrite L. reflexivity.
  Qed.
  Lemma inverse_at J (v : list C) n : length v = N -> length (J (rotate_half v)) = N -> (n < N)%nat ->
    at_ (map2 Cdiv (map (times N) (J (rotate_half v))) (mended b)) n = at_ (J (rotate_half v)) n * RtoC (INR N) / at_ (mended b) n.
  Proof.
    intros L L' Hn. unfold at_. rewrite nth_map2 with (dx := RtoC 0) (dy := RtoC 0) by (rewrite ?map_length, ?mended_length, ?L'; fold N; exact Hn).
    rewrite nth_map_lt with (d := RtoC 0) by (rewrite L'; exact Hn). reflexivity.
  Qed.
  Lemma inverse_error (d m : R) n : (n < N)%nat -> (forall k, (k < N)%nat -> Cmod (at_ y' k - at_ y k) <= d)%R -> (forall k, (k < N)%nat -> Cmod (at_ y' k) <= m)%R -> (0 <= e)%R -> at_ (mended b) n <> 0 ->
    (Cmod (at_ (map2 Cdiv (map (times N) (I (rotate_half y'))) (mended b)) n - at_ (map2 Cdiv (map (times N) (ifft (rotate_half y))) (mended b)) n)
      <= (d + e * m) * INR N / Cmod (at_ (mended b) n))%R.
  Proof.
    intros Hn Hd Hm e0 NZ. assert (P : (0 < INR N)%R) by (apply lt_0_INR; lia).
    destruct (HI (rotate_half y')) as [L H]. rewrite length_rotate_half, Ly' in L, H. specialize (H n Hn).
    assert (M : (mass (rotate_half y') / INR N <= m)%R).
    { unfold mass. rewrite length_rotate_half, Ly'. apply (Rmult_le_reg_r (INR N)); [exact P|]. unfold Rdiv. rewrite Rmult_assoc, Rinv_l, Rmult_1_r by lra.
      rewrite (Rmult_comm m), <- rsum_const. apply rsum_le. intros k Hk. unfold at_. rewrite nth_rotate_half by (rewrite Ly'; exact Hk). apply Hm. rewrite Ly'. apply Nat.mod_upper_bound. lia. }
    assert (D : (Cmod (at_ (ifft (rotate_half y')) n - at_ (ifft (rotate_half y)) n) <= d)%R).
    { unfold at_. rewrite !nth_ifft by (rewrite length_rotate_half, ?Ly, ?Ly'; exact Hn). rewrite !length_rotate_half, Ly, Ly'.
      match goal with |- (Cmod (?a / ?c - ?a' / ?c)%C <= _)%R => replace (a / c - a' / c) with ((a - a') / c) by (field; intros E; apply RtoC_inj in E; lra) end.
      rewrite Cmod_div_R by lia. apply (Rmult_le_reg_r (INR N)); [exact P|]. unfold Rdiv. rewrite Rmult_assoc, Rinv_l, Rmult_1_r by lra.
      match goal with |- (Cmod (csumn N ?f - csumn N ?g)%C <= _)%R => replace (csumn N f - csumn N g) with (csumn N (fun k => f k + (RtoC (-1)) * g k)) end.
      2:{ rewrite csumn_add, csumn_scal. replace (RtoC (-1)) with (- (1)) by (rewrite <- RtoC_opp; reflexivity). ring. }
      rewrite (Rmult_comm d), <- rsum_const. apply csumn_bound. intros k Hk. cbn beta.
      match goal with |- (Cmod (?p * ?r + RtoC (-1) * (?q * ?r))%C <= _)%R => replace (p * r + RtoC (-1) * (q * r)) with ((p - q) * r) by (replace (RtoC (-1)) with (- (1)) by (rewrite <- RtoC_opp; reflexivity); ring) end.
      rewrite Cmod_mult, Cmod_root, Rmult_1_r. rewrite !nth_rotate_half by (rewrite ?Ly, ?Ly'; exact Hk). rewrite Ly, Ly'. apply Hd. apply Nat.mod_upper_bound. lia. }
    rewrite !inverse_at by (rewrite ?length_ifft, ?length_rotate_half; auto).
    match goal with |- (Cmod (?p * ?c / ?v - ?q * ?c / ?v)%C <= _)%R => replace (p * c / v - q * c / v) with ((p - q) * c / v) by (field; exact NZ) end.
    rewrite Cmod_div by exact NZ. rewrite Cmod_mult, Cmod_R, (Rabs_right (INR N)) by lra. unfold Rdiv. apply Rmult_le_compat_r; [left; apply Rinv_0_lt_compat, Cmod_gt_0, NZ|].
    apply Rmult_le_compat_r; [lra|].
    replace (at_ (I (rotate_half y')) n - at_ (ifft (rotate_half y)) n) with ((at_ (ifft (rotate_half y')) n - at_ (ifft (rotate_half y)) n) + (at_ (I (rotate_half y')) n - at_ (ifft (rotate_half y')) n)) by ring.
    eapply Rle_trans; [apply Cmod_triangle|]. apply Rplus_le_compat; [exact D|]. eapply Rle_trans; [exact H|]. apply Rmult_le_compat_l; [exact e0|exact M].
  Qed.
End Inverse.

(** C199.  FourierTransform with an FFT of relative error e: which arguments are rejected, the
    shapes and the frequencies do not depend on it, and each bin is off by at most e times the
    mean magnitude of the windowed samples. *)
Theorem C199_forward e F I x b : fft_close e F ->
  (~ usable x b -> fourier_with F I x b false = Err ValueError /\ fourier_with F I x b true = Err ValueError) /\
  (usable x b -> exists y y' f, fourier x b false = Ok (y, f) /\ fourier_with F I x b false = Ok (y', f) /\ length y' = length b /\
     forall k, (k < length b)%nat -> (Cmod (at_ y' k - at_ y k) <= e * loudness x b 0)%R).
Proof.
  intros HF. split.
  - intros NU. unfold fourier_with. destruct (length x =? 0)%nat eqn:E1; [auto|]. destruct ((length x <? length b)%nat || forallb close0 b)%bool eqn:E2; [auto|].
    exfalso. apply NU. apply usable_ok. auto.
  - intros U. eexists. eexists. eexists. split; [exact (run_forward x b U fft ifft)|]. split; [exact (run_forward x b U F I)|]. split.
    + rewrite length_rotate_half, map_length. rewrite (proj1 (HF _)). apply (w_length x b U).
    + intros k Hk. exact (forward_error e F HF x b U k Hk).
Qed.
Print Assumptions C199_forward.

(** C199.  Forward and back, for an even length: each sample returns up to (2 e + e^2) times the
    sum of the magnitudes of the windowed samples, divided by its window coefficient. *)
Theorem C199_round_trip e F I x b : (0 <= e)%R -> fft_close e F -> ifft_close e I ->
  Nat.Even (length b) -> (0 < length b)%nat -> (length b <= length x)%nat -> ends_far b -> (forall n, (n < length b)%nat -> at_ b n <> 0) ->
  exists y f z t, fourier_with F I x b false = Ok (y, f) /\ fourier_with F I y b true = Ok (z, t) /\ length z = length b /\
    forall n, (n < length b)%nat -> (Cmod (at_ z n - at_ x n) <= (2 * e + e ^ 2) * (INR (length b) * loudness x b 0) / Cmod (at_ b n))%R.
Proof.
  intros e0 HF HI Ev HN Hl Ef NZ. assert (U : usable x b) by (split; [exact Hl|]; exists 0%nat; split; [exact HN|apply Ef]). set (N := length b) in *.
  destruct (C76_fourier_round_trip_even x b Ev HN Hl Ef NZ) as (y & f & t & E1 & E2).
  change (fourier_with fft ifft x b false = Ok (y, f)) in E1. rewrite (run_forward x b U) in E1. fold N in E1. set (w := map2 Cmult b (firstn N x)) in E1. injection E1 as Ey _.
  set (y' := rotate_half (map (part_of N) (F w))).
  assert (Lw : length w = N) by apply (w_length x b U).
  assert (Ly : length y = N) by (rewrite <- Ey, length_rotate_half, map_length, length_fft; exact Lw).
  assert (Ly' : length y' = N) by (unfold y'; rewrite length_rotate_half, map_length, (proj1 (HF w)); exact Lw).
  assert (Uy : usable y b) by (destruct U as [_ U2]; split; [fold N; lia|exact U2]).
  assert (Inv : forall G J v, length v = N -> fourier_with G J v b true = Ok (map2 Cdiv (map (times N) (J (rotate_half v))) (mended b), linspace 0 (INR N - 1) N)) by (intros G J v Lv; eapply run_inverse; eassumption).
  change (fourier_with fft ifft y b true = Ok (firstn N x, t)) in E2. rewrite (Inv fft ifft y Ly) in E2. injection E2 as Ez _.
  assert (Em : mended b = b) by (unfold mended; fold (at_ b 0) (at_ b (length b - 1)); destruct Ef as [A1 A2]; rewrite (far _ A1), (far _ A2); reflexivity).
  exists y', (linspace (-1) (1 - 2 / INR N) N), (map2 Cdiv (map (times N) (I (rotate_half y'))) (mended b)), (linspace 0 (INR N - 1) N).
  split; [exact (run_forward x b U F I)|]. split; [exact (Inv F I y' Ly')|]. split.
  { rewrite length_map2, map_length, (proj1 (HI _)), length_rotate_half, mended_length, Ly'. fold N. lia. }
  intros n Hn.
  assert (D : forall k, (k < N)%nat -> (Cmod (at_ y' k - at_ y k) <= e * loudness x b 0)%R).
  { intros k Hk. rewrite <- Ey. exact (forward_error e F HF x b U k Hk). }
  assert (M : forall k, (k < N)%nat -> (Cmod (at_ y' k) <= (1 + e) * loudness x b 0)%R).
  { intros k Hk. eapply Rle_trans; [apply (Cmod_split _ (at_ y k))|]. specialize (D k Hk). assert (G := forward_size x b U k Hk). fold N w in G. rewrite Ey in G. lra. }
  assert (H := inverse_error e I HI b y y' Ly Ly' _ _ n Hn D M e0). rewrite Em in H. specialize (H (NZ n Hn)). fold N in H. rewrite Em in Ez |- *. rewrite Ez in H. replace (at_ (firstn N x) n) with (at_ x n) in H by (unfold at_; symmetry; apply nth_firstn; exact Hn).
  eapply Rle_trans; [exact H|]. right. unfold Rdiv. ring.
Qed.
Print Assumptions C199_round_trip.

(** ** PsdTransform *)
Lemma square_error (u v : C) (d m : R) : (Cmod (u - v) <= d)%R -> (Cmod v <= m)%R -> (Rabs (Cmod u ^ 2 - Cmod v ^ 2) <= 2 * d * m + d ^ 2)%R.
Proof.
  intros Hd Hm. assert (A := Cmod_split u v). assert (B := Cmod_split v u). replace (v - u) with (- (u - v)) in B by ring. rewrite Cmod_opp in B.
  assert (U0 := Cmod_ge_0 u). assert (V0 := Cmod_ge_0 v). assert (D0 := Cmod_ge_0 (u - v)). apply Rabs_le. split; nra.
Qed.
Section Psd.
  Variables (e : R) (F : list C -> list C).
  Hypothesis e0 : (0 <= e)%R.
  Hypothesis HF : fft_close e F.
  Lemma frame_error x b i k : (i + length b <= length x)%nat -> (k < length b / 2)%nat ->
    length (psd_frame_with F x b i) = (length b / 2)%nat /\
    (Rabs (nth k (psd_frame_with F x b i) 0 - nth k (psd_frame x b i) 0) <= (2 * e + e ^ 2) * loudness x b i ^ 2)%R.
  Proof.
    intros H Hk. set (N := length b) in *. assert (HN : (N / 2 <= N)%nat) by (apply Nat.div_le_upper_bound; lia). assert (P : (0 < INR N)%R) by (apply lt_0_INR; lia).
    unfold psd_frame_with, psd_frame. fold N. set (w := map2 Cmult (firstn N (skipn i x)) b).
    assert (Lf : length (firstn N (skipn i x)) = N) by (rewrite firstn_length, skipn_length; lia).
    assert (Lw : length w = N) by (unfold w; rewrite length_map2, Lf; fold N; lia).
    destruct (HF w) as [L G]. rewrite Lw in L, G. specialize (G k ltac:(lia)).
    split; [rewrite map_length, firstn_length; lia|].
    rewrite !nth_map_lt with (d := RtoC 0) by (rewrite firstn_length, ?length_fft; lia). rewrite !nth_firstn by exact Hk. fold (at_ (F w) k) (at_ (fft w) k).
    assert (M : mass w = (INR N * loudness x b i)%R).
    { unfold mass, loudness. fold N. rewrite Lw. replace (INR N * (rsum N (fun n => Cmod (at_ b n * at_ x (i + n))) / INR N))%R with (rsum N (fun n => Cmod (at_ b n * at_ x (i + n)))) by (field; lra).
      apply rsum_ext. intros n Hn. unfold at_, w. rewrite nth_map2 with (dx := RtoC 0) (dy := RtoC 0) by (rewrite ?Lf; fold N; exact Hn).
      rewrite nth_firstn by exact Hn. rewrite nth_skipn. f_equal. ring. }
    rewrite M in G. assert (Q := fft_mass w k). rewrite Lw, M in Q. specialize (Q ltac:(lia)).
    replace ((2 * e + e ^ 2) * loudness x b i ^ 2)%R with (2 * (e * loudness x b i) * loudness x b i + (e * loudness x b i) ^ 2)%R by ring.
    apply square_error.
    - replace (at_ (F w) k / RtoC (INR N) - at_ (fft w) k / RtoC (INR N)) with ((at_ (F w) k - at_ (fft w) k) / RtoC (INR N)) by (field; intros E; apply RtoC_inj in E; lra).
      rewrite Cmod_div_R by lia. apply (Rmult_le_reg_r (INR N)); [exact P|]. unfold Rdiv. rewrite Rmult_assoc, Rinv_l, Rmult_1_r by lra. lra.
    - rewrite Cmod_div_R by lia. apply (Rmult_le_reg_r (INR N)); [exact P|]. unfold Rdiv. rewrite Rmult_assoc, Rinv_l, Rmult_1_r by lra. lra.
  Qed.
  Definition psd_y' (x b : list C) (index : nat) : list (list R) := map (fun i => psd_frame_with F x b (i * index)) (seq 0 (frames x b index)).
  Lemma psd_eval_with x b index s : usable x b -> (0 < index)%nat ->
    psd_with F x b (Z.of_nat index) s =
    Ok (if s then Spectrogram (psd_y' x b index) else Mean (map (fun v => (v / INR (frames x b index))%R) (psd_sum (length b / 2) (psd_y' x b index))),
        linspace 0 (1 - 2 / INR (length b)) (length b / 2)).
  Proof.
    intros U Hi. apply usable_psd in U. destruct U as (U1 & U2 & U3). unfold psd_with. rewrite U1, U2, U3.
    destruct (Z.eqb_spec (Z.of_nat index) 0); [lia|]. destruct (Z.ltb_spec 0 (Z.of_nat index)); [|lia]. rewrite Nat2Z.id.
    rewrite range0_spec by exact Hi. fold (frames x b index). rewrite map_map. fold (psd_y' x b index).
    assert (Ly : length (psd_y' x b index) = frames x b index) by (unfold psd_y'; rewrite map_length, seq_length; reflexivity). rewrite Ly.
    destruct (Nat.eqb_spec (frames x b index) 0); [unfold frames in *; lia|]. destruct s; reflexivity.
  Qed.
End Psd.

(** C199.  PsdTransform with an FFT of relative error e: the shapes and frequencies do not
    depend on it, no power is negative, and each power is off by at most 2 e + e^2 times the
    squared mean magnitude of the windowed samples of its frame, the mean by the largest of
    these. *)
Theorem C199_psd e F x b index : (0 <= e)%R -> fft_close e F -> usable x b -> (0 < index)%nat ->
  exists y y' m m' f,
    psd_transform x b (Z.of_nat index) true = Ok (Spectrogram y, f) /\ psd_with F x b (Z.of_nat index) true = Ok (Spectrogram y', f) /\
    psd_transform x b (Z.of_nat index) false = Ok (Mean m, f) /\ psd_with F x b (Z.of_nat index) false = Ok (Mean m', f) /\
    length y' = length y /\ length m' = length m /\
    (forall i k, (i < length y)%nat -> (k < length b / 2)%nat -> length (nth i y' []) = (length b / 2)%nat /\ (0 <= nth k (nth i y' []) 0)%R /\
       (Rabs (nth k (nth i y' []) 0 - nth k (nth i y []) 0) <= (2 * e + e ^ 2) * loudness x b (i * index) ^ 2)%R) /\
    (forall q k, (forall i, (i < length y)%nat -> loudness x b (i * index) <= q)%R -> (k < length b / 2)%nat ->
       (0 <= nth k m' 0)%R /\ (Rabs (nth k m' 0 - nth k m 0) <= (2 * e + e ^ 2) * q ^ 2)%R).
Proof.
  intros e0 HF U Hi. exists (psd_y x b index), (psd_y' F x b index). do 3 eexists.
  split; [exact (psd_eval x b index true U Hi)|]. split; [exact (psd_eval_with F x b index true U Hi)|].
  split; [exact (psd_eval x b index false U Hi)|]. split; [exact (psd_eval_with F x b index false U Hi)|].
  assert (Ly : length (psd_y x b index) = frames x b index) by (unfold psd_y; rewrite map_length, seq_length; reflexivity).
  assert (Ly' : length (psd_y' F x b index) = frames x b index) by (unfold psd_y'; rewrite map_length, seq_length; reflexivity).
  split; [congruence|]. split; [unfold psd_sum; rewrite !map_length, !seq_length; reflexivity|]. rewrite Ly.
  assert (Row : forall i, (i < frames x b index)%nat -> nth i (psd_y' F x b index) [] = psd_frame_with F x b (i * index)).
  { intros i H. unfold psd_y'. rewrite nth_map_lt with (d := 0%nat) by (rewrite seq_length; exact H). rewrite seq_nth by exact H. reflexivity. }
  assert (Pos : forall i k, (0 <= nth k (psd_frame_with F x b i) 0)%R).
  { intros i k. destruct (Nat.lt_ge_cases k (length (psd_frame_with F x b i))) as [H|H]; [|rewrite nth_overflow by exact H; lra].
    assert (In_ : In (nth k (psd_frame_with F x b i) 0%R) (psd_frame_with F x b i)) by (apply nth_In; exact H). unfold psd_frame_with at 2 in In_. apply in_map_iff in In_. destruct In_ as (z & <- & _). apply pow2_ge_0. }
  assert (All : forall i k, (i < frames x b index)%nat -> (k < length b / 2)%nat ->
    (Rabs (nth k (nth i (psd_y' F x b index) []) 0 - nth k (nth i (psd_y x b index) []) 0) <= (2 * e + e ^ 2) * loudness x b (i * index) ^ 2)%R).
  { intros i k H Hk. rewrite Row, psd_y_nth by exact H. apply (frame_error e F HF); [apply frame_fits; [apply U|exact Hi|exact H]|exact Hk]. }
  split.
  - intros i k H Hk. split; [|split; [|exact (All i k H Hk)]].
    + rewrite Row by exact H. apply (frame_error e F HF x b (i * index) k); [apply frame_fits; [apply U|exact Hi|exact H]|exact Hk].
    + rewrite Row by exact H. apply Pos.
  - intros q k Hq Hk. assert (Fr : (0 < frames x b index)%nat) by (unfold frames; lia). assert (P : (0 < INR (frames x b index))%R) by (apply lt_0_INR; exact Fr).
    rewrite !nth_map_lt with (d := 0%R) by (unfold psd_sum; rewrite map_length, seq_length; exact Hk). rewrite !psd_sum_nth by exact Hk. rewrite Ly, Ly'.
    assert (q0 : (0 <= q)%R). { eapply Rle_trans; [|apply (Hq 0%nat Fr)]. unfold loudness. apply Rmult_le_pos; [apply rsum_nonneg; intros; apply Cmod_ge_0|]. left. apply Rinv_0_lt_compat. apply lt_0_INR. destruct U as [_ (j & Hj & _)]. lia. }
    split.
    + apply Rmult_le_pos; [|left; apply Rinv_0_lt_compat; exact P]. apply rsum_nonneg. intros i H. rewrite Row by exact H. apply Pos.
    + replace (rsum (frames x b index) (fun i => nth k (nth i (psd_y' F x b index) []) 0%R) / INR (frames x b index) - rsum (frames x b index) (fun i => nth k (nth i (psd_y x b index) []) 0%R) / INR (frames x b index))%R
        with (rsum (frames x b index) (fun i => nth k (nth i (psd_y' F x b index) []) 0 - nth k (nth i (psd_y x b index) []) 0)%R / INR (frames x b index))%R by (rewrite rsum_sub; field; lra).
      unfold Rdiv. rewrite Rabs_mult, (Rabs_right (/ INR (frames x b index))) by (left; apply Rinv_0_lt_compat; exact P).
      apply (Rmult_le_reg_r (INR (frames x b index))); [exact P|]. rewrite Rmult_assoc, Rinv_l, Rmult_1_r by lra. rewrite (Rmult_comm _ (INR (frames x b index))), <- rsum_const.
      eapply Rle_trans; [apply rsum_abs|]. apply rsum_le. intros i H. eapply Rle_trans; [apply All; assumption|].
      apply Rmult_le_compat_l; [nra|]. apply pow_incr. split; [|apply Hq; exact H]. unfold loudness. apply Rmult_le_pos; [apply rsum_nonneg; intros; apply Cmod_ge_0|]. left. apply Rinv_0_lt_compat. apply lt_0_INR. destruct U as [_ (j & Hj & _)]. lia.
Qed.
Print Assumptions C199_psd.

(** C199.  With exact sums these are the transforms of C73-C80. *)
Theorem C199_exact : (forall x b inverse, fourier_with fft ifft x b inverse = fourier x b inverse) /\
  (forall x b index s, psd_with fft x b index s = psd_transform x b index s) /\ fft_close 0 fft /\ ifft_close 0 ifft.
Proof.
  split; [reflexivity|]. split; [reflexivity|]. split; intros x.
  - split; [apply length_fft|]. intros k _. rewrite Rmult_0_l. right. replace (at_ (fft x) k - at_ (fft x) k) with (RtoC 0) by ring. apply Cmod_0.
  - split; [apply length_ifft|]. intros k _. rewrite Rmult_0_l. right. replace (at_ (ifft x) k - at_ (ifft x) k) with (RtoC 0) by ring. apply Cmod_0.
Qed.
Print Assumptions C199_exact.

(** an FFT that is off by a thousandth, everywhere *)
Example C199_example : let e := (1 / 1000)%R in let F x := map (Cmult (RtoC (1 + e))) (fft x) in let I x := map (Cmult (RtoC (1 + e))) (ifft x) in
  (0 <= e)%R /\ fft_close e F /\ ifft_close e I /\ (exists x, F x <> fft x).
Proof.
  cbv zeta. assert (e0 : (0 <= 1 / 1000)%R) by lra. split; [exact e0|]. set (e := (1 / 1000)%R) in *.
  assert (G : forall (l : list C) k, (k < length l)%nat -> at_ (map (Cmult (RtoC (1 + e))) l) k - at_ l k = RtoC e * at_ l k).
  { intros l k H. unfold at_. rewrite nth_map_lt with (d := RtoC 0) by exact H. rewrite RtoC_plus. ring. }
  split; [|split].
  - intros x. split; [rewrite map_length; apply length_fft|]. intros k Hk. rewrite G by (rewrite length_fft; exact Hk). rewrite Cmod_mult, Cmod_R, Rabs_right by lra.
    apply Rmult_le_compat_l; [exact e0|]. apply fft_mass. exact Hk.
  - intros x. split; [rewrite map_length; apply length_ifft|]. intros k Hk. rewrite G by (rewrite length_ifft; exact Hk). rewrite Cmod_mult, Cmod_R, Rabs_right by lra.
    apply Rmult_le_compat_l; [exact e0|]. unfold at_. rewrite nth_ifft by exact Hk. rewrite Cmod_div_R by lia. unfold Rdiv. apply Rmult_le_compat_r; [left; apply Rinv_0_lt_compat, lt_0_INR; lia|].
    apply csumn_bound. intros n _. rewrite Cmod_mult, Cmod_root. unfold at_. lra.
  - exists [RtoC 1]. intros E. apply (f_equal (fun l => Cmod (at_ l 0))) in E. assert (L : (0 < length (fft [RtoC 1]))%nat) by (rewrite length_fft; cbn; lia).
    assert (A : at_ (fft [RtoC 1]) 0 = RtoC 1). { unfold at_. rewrite nth_fft by (cbn; lia). cbn [length csumn nth]. rewrite Z.mul_0_l. rewrite root_0. ring. }
    assert (B := G (fft [RtoC 1]) 0%nat L). rewrite A in *. assert (B' : at_ (map (Cmult (RtoC (1 + e))) (fft [RtoC 1])) 0 = RtoC (1 + e)) by (transitivity (RtoC 1 + RtoC e * RtoC 1); [rewrite <- B; ring|rewrite RtoC_plus; ring]).
    rewrite B' in E. rewrite !Cmod_R, !Rabs_right in E by (unfold e; lra). unfold e in E. lra.
Qed.
Example C199_window_example : let b := [RtoC 1; RtoC 2] in let x := [RtoC 3; RtoC 4; RtoC 5] in
  Nat.Even (length b) /\ (length b <= length x)%nat /\ ends_far b /\ (forall n, (n < length b)%nat -> at_ b n <> 0) /\ usable x b.
Proof.
  cbv zeta. assert (A : (/ 100000000 < Cmod (RtoC 1))%R) by (rewrite Cmod_R, Rabs_right; lra). assert (B : (/ 100000000 < Cmod (RtoC 2))%R) by (rewrite Cmod_R, Rabs_right; lra).
  split; [exists 1%nat; reflexivity|]. split; [cbn; lia|]. split; [split; assumption|]. split.
  - intros [|[|n]] H; [apply (far_nz _ A)|apply (far_nz _ B)|cbn in H; lia].
  - split; [cbn; lia|]. exists 0%nat. split; [cbn; lia|exact A].
Qed.
