(** Property C162: what GoertzelFilter reports for tones (goertzel_filter.py:76-127): its
    response to every frequency, its selectivity, and the doubling of real signals. *)
From Coq Require Import List Arith ZArith Lia Bool Reals Lra.
From Coquelicot Require Import Complex.
From Verif Require Import Base BaseLemmas Instances Sums FirModel IirModel GoertzelModel GoertzelProps DftModel DftProofs.
Import ListNotations.
Set Asymmetric Patterns.
Close Scope nat_scope. Open Scope R_scope. Open Scope C_scope.

(** ** Specification *)
(** A complex tone of [L] samples: A e^{j pi t i}. *)
Definition ctone (A : C) (t : R) (L : nat) : list C := map (fun i => A * cis (PI * t * INR i)) (seq 0 L).
(** A real tone: a cos(pi t i + p). *)
Definition rtone (a t p : R) (L : nat) : list C := map (fun i => RtoC (a * cos (PI * t * INR i + p))) (seq 0 L).
(** The spectrum of the window [w] at the frequency offset [d]. *)
Definition kernel (w : list C) (d : R) : C := csumn (length w) (fun n => nth n w 0 * cis (PI * d * INR n)).
(** What the filter built with window [w] at frequency [f] returns for [x]. *)
Definition reports (w : list C) (f : R) (cplx : bool) (x y : list C) : Prop :=
  exists g g', @goertzel_make CA cos2C exnC isclose0C w f = Ok g /\ @goertzel_filter CA ceil_div g cplx x = (g', Ok y).

(** ** Lemmas *)
Lemma bigsum_csumn n (f : nat -> C) : @bigsum CA n f = csumn n f.
Proof. induction n as [|n IH]; [reflexivity|]. cbn [bigsum csumn]. rewrite IH. reflexivity. Qed.
Lemma reports_nth w f cplx x y : reports w f cplx x y -> w <> [] /\ x <> [] /\ length y = (length x / length w)%nat /\
  forall k, (k < length y)%nat -> nth k y (RtoC 0) = RtoC ((if cplx then 1 else 2) / INR (length w)) * cis (PI * f * (INR (length w) - 1)) *
    csumn (length w) (fun n => nth n w 0 * nth (k * length w + n) x 0 * cis (- (PI * f * INR n))).
Proof.
  intros (g & g' & E & F).
  assert (Hx : x <> []) by (intros ->; discriminate F).
  assert (Hw : w <> []) by (intros ->; discriminate E).
  destruct (C34_goertzel_block_dft w x f g cplx E Hx) as (g2 & y2 & F2 & Ly & H). rewrite F in F2. injection F2 as _ <-.
  split; [exact Hw|]. split; [exact Hx|]. split; [exact Ly|]. intros k Hk. rewrite H by (rewrite <- Ly; exact Hk).
  unfold block_dft. rewrite bigsum_csumn. reflexivity.
Qed.
Lemma length_pos (w : list C) : w <> [] -> (0 < INR (length w))%R.
Proof. intros H. apply lt_0_INR. destruct w; [congruence|cbn; lia]. Qed.
Lemma block_inside (w : list C) (k n L : nat) : (k < L / length w)%nat -> (n < length w)%nat -> (k * length w + n < L)%nat.
Proof. intros Hk Hn. pose proof (Nat.mul_div_le L (length w) ltac:(lia)). nia. Qed.
Lemma nth_gen (f : nat -> C) L i : (i < L)%nat -> nth i (map f (seq 0 L)) 0 = f i.
Proof. intros H. rewrite nth_map_lt with (d := 0%nat) by (rewrite seq_length; exact H). rewrite seq_nth by exact H. reflexivity. Qed.
Lemma length_ctone A t L : length (ctone A t L) = L.
Proof. unfold ctone. rewrite map_length, seq_length. reflexivity. Qed.
Lemma length_rtone a t p L : length (rtone a t p L) = L.
Proof. unfold rtone. rewrite map_length, seq_length. reflexivity. Qed.
Lemma csumn_mod n (f : nat -> C) : (Cmod (csumn n f) <= rsum n (fun i => Cmod (f i)))%R.
Proof.
  induction n as [|n IH]; cbn [csumn rsum]; [rewrite Cmod_0; lra|]. eapply Rle_trans; [apply Cmod_triangle|]. lra.
Qed.
Lemma kernel_mod w d : (Cmod (kernel w d) <= rsum (length w) (fun n => Cmod (nth n w 0)))%R.
Proof.
  unfold kernel. eapply Rle_trans; [apply csumn_mod|]. apply Req_le, rsum_ext. intros i Hi. rewrite Cmod_mult, Cmod_cis. ring.
Qed.
Lemma kernel_zero w : kernel w 0 = csumn (length w) (fun n => nth n w 0).
Proof. unfold kernel. apply csumn_ext. intros n _. replace (PI * 0 * INR n)%R with 0%R by ring. rewrite cis_0. ring. Qed.
(** Block [k] of a complex tone. *)
Lemma tone_block (w : list C) (A : C) (t f : R) (x0 : nat -> C) k :
  (forall n, (n < length w)%nat -> x0 n = A * cis (PI * t * INR (k * length w + n))) ->
  csumn (length w) (fun n => nth n w 0 * x0 n * cis (- (PI * f * INR n))) = A * cis (PI * t * INR (k * length w)) * kernel w (t - f).
Proof.
  intros H. unfold kernel. rewrite <- csumn_scal. apply csumn_ext. intros n Hn. rewrite (H n Hn), plus_INR.
  transitivity (A * nth n w 0 * (cis (PI * t * INR (k * length w)) * cis (PI * (t - f) * INR n))); [|ring].
  transitivity (A * nth n w 0 * (cis (PI * t * (INR (k * length w) + INR n)) * cis (- (PI * f * INR n)))); [ring|].
  f_equal. rewrite <- !cis_add. f_equal. ring.
Qed.
Lemma cos_cis (u : R) : RtoC (cos u) = (cis u + cis (- u)) / RtoC 2.
Proof.
  apply injective_projections; unfold cis, RtoC, Cdiv, Cmult, Cplus, Cinv; cbn [fst snd]; rewrite ?cos_neg, ?sin_neg; field.
Qed.

(** ** Complex tones *)
Theorem C162_complex_tone (w : list C) (f t : R) (A : C) (L : nat) (y : list C) : reports w f true (ctone A t L) y ->
  length y = (L / length w)%nat /\
  forall k, (k < length y)%nat -> nth k y (RtoC 0) =
    A * cis (PI * t * INR (k * length w)) * cis (PI * f * (INR (length w) - 1)) * kernel w (t - f) / RtoC (INR (length w)).
Proof.
  intros H. destruct (reports_nth _ _ _ _ _ H) as (Hw & Hx & Ly & Hy). rewrite length_ctone in Ly. split; [exact Ly|].
  intros k Hk. rewrite (Hy k Hk). pose proof (length_pos w Hw) as HN.
  rewrite (tone_block w A t f (fun n => nth (k * length w + n) (ctone A t L) 0) k).
  - rewrite RtoC_div by lra. field. intros C. apply RtoC_inj in C. lra.
  - intros n Hn. unfold ctone. apply (nth_gen (fun i => A * cis (PI * t * INR i))). apply block_inside; [lia|exact Hn].
Qed.
Print Assumptions C162_complex_tone.

(** Tuned to the tone, the filter returns the mean weight of the window times the last sample
    of the block; no tone of that size gives more than the mean magnitude of the weights. *)
Theorem C162_matched (w : list C) (f : R) (A : C) (L : nat) (y : list C) : reports w f true (ctone A f L) y ->
  forall k, (k < length y)%nat -> nth k y (RtoC 0) =
    csumn (length w) (fun n => nth n w 0) / RtoC (INR (length w)) * nth (k * length w + (length w - 1)) (ctone A f L) 0.
Proof.
  intros H k Hk. destruct (reports_nth _ _ _ _ _ H) as (Hw & _). destruct (C162_complex_tone _ _ _ _ _ _ H) as (Ly & Hy).
  rewrite (Hy k Hk). assert (H1 : (0 < length w)%nat) by (destruct w; [congruence|cbn; lia]).
  unfold ctone at 1. rewrite (nth_gen (fun i => A * cis (PI * f * INR i))) by (apply block_inside; lia).
  replace (f - f)%R with 0%R by ring. rewrite kernel_zero. rewrite plus_INR, minus_INR by lia. cbn [INR].
  replace (PI * f * (INR (k * length w) + (INR (length w) - 1)))%R
    with (PI * f * INR (k * length w) + PI * f * (INR (length w) - 1))%R by ring. rewrite cis_add. unfold Cdiv. ring.
Qed.
Print Assumptions C162_matched.

Theorem C162_bounded (w : list C) (f t : R) (A : C) (L : nat) (y : list C) : reports w f true (ctone A t L) y ->
  forall k, (k < length y)%nat -> (Cmod (nth k y (RtoC 0)) <= Cmod A * (rsum (length w) (fun n => Cmod (nth n w 0)) / INR (length w)))%R.
Proof.
  intros H k Hk. destruct (reports_nth _ _ _ _ _ H) as (Hw & _). destruct (C162_complex_tone _ _ _ _ _ _ H) as (Ly & Hy).
  rewrite (Hy k Hk). pose proof (length_pos w Hw) as HN.
  rewrite Cmod_div by (intros C; apply RtoC_inj in C; lra). rewrite !Cmod_mult, !Cmod_cis, Cmod_R, Rabs_pos_eq by lra.
  unfold Rdiv. rewrite !Rmult_1_r. rewrite Rmult_assoc. apply Rmult_le_compat_l; [apply Cmod_ge_0|].
  apply Rmult_le_compat_r; [apply Rlt_le, Rinv_0_lt_compat, HN|]. apply kernel_mod.
Qed.
Print Assumptions C162_bounded.

(** ** The rectangular window: the Dirichlet kernel *)
Lemma chord u : Cmod (cis u - 1) = (2 * Rabs (sin (u / 2)))%R.
Proof.
  assert (E : (Cmod (cis u - 1)%C ^ 2 = (2 * Rabs (sin (u / 2))) ^ 2)%R).
  { rewrite Rpow_mult_distr, pow2_abs. unfold Cmod. rewrite pow2_sqrt by (apply Rplus_le_le_0_compat; apply pow2_ge_0).
    unfold cis, Cminus, Cplus, Copp, RtoC. cbn [fst snd].
    replace u with (2 * (u / 2))%R at 1 2 by field. rewrite cos_2a_sin, sin_2a. pose proof (sin2_cos2 (u / 2)) as S. unfold Rsqr in S.
    set (s := sin (u / 2)) in *. set (c := cos (u / 2)) in *. 
    transitivity (4 * s ^ 2 * (s * s + c * c))%R; [ring|]. rewrite S. ring. }
  pose proof (Cmod_ge_0 (cis u - 1)%C). pose proof (Rabs_pos (sin (u / 2))). nra.
Qed.
Lemma rect_kernel N d : (cis (PI * d) - 1) * kernel (repeat (RtoC 1) N) d = cis (PI * d * INR N) - 1.
Proof.
  unfold kernel. rewrite repeat_length.
  rewrite (csumn_ext N _ (fun n => cis (PI * d * INR n))).
  - apply (geometric N (cis (PI * d)) (fun n => cis (PI * d * INR n))).
    + cbn [INR]. rewrite Rmult_0_r. apply cis_0.
    + intros k. rewrite S_INR, Rmult_plus_distr_l, Rmult_1_r, cis_add. reflexivity.
  - intros n Hn. rewrite nth_repeat_lt by exact Hn. ring.
Qed.
Lemma rect_dirichlet N d : (Cmod (kernel (repeat (RtoC 1) N) d) * Rabs (sin (PI * d / 2)) = Rabs (sin (INR N * (PI * d / 2))))%R.
Proof.
  pose proof (f_equal Cmod (rect_kernel N d)) as E. rewrite Cmod_mult, !chord in E.
  replace (PI * d * INR N / 2)%R with (INR N * (PI * d / 2))%R in E by field. lra.
Qed.

Theorem C162_dirichlet (N : nat) (f t : R) (A : C) (L : nat) (y : list C) : reports (repeat (RtoC 1) N) f true (ctone A t L) y ->
  forall k, (k < length y)%nat ->
    (Cmod (nth k y (RtoC 0)) * (INR N * Rabs (sin (PI * (t - f) / 2))) = Cmod A * Rabs (sin (INR N * (PI * (t - f) / 2))))%R.
Proof.
  intros H k Hk. destruct (reports_nth _ _ _ _ _ H) as (Hw & _). destruct (C162_complex_tone _ _ _ _ _ _ H) as (Ly & Hy).
  pose proof (length_pos _ Hw) as HN. rewrite (Hy k Hk). rewrite repeat_length in *.
  rewrite Cmod_div by (intros C; apply RtoC_inj in C; lra). rewrite !Cmod_mult, !Cmod_cis, Cmod_R, Rabs_pos_eq by lra.
  rewrite <- rect_dirichlet. field. lra.
Qed.
Print Assumptions C162_dirichlet.

(** The other bins are rejected entirely. *)
Lemma rect_null N (m : Z) : (Z.abs m < Z.of_nat N)%Z -> m <> 0%Z -> kernel (repeat (RtoC 1) N) (2 * IZR m / INR N) = 0.
Proof.
  intros Hm Hn. assert (HN : (0 < INR N)%R) by (apply lt_0_INR; lia). pose proof (rect_kernel N (2 * IZR m / INR N)) as E.
  replace (PI * (2 * IZR m / INR N) * INR N)%R with (0 + 2 * IZR m * PI)%R in E by (field; lra). rewrite cis_2PI_IZR, cis_0 in E.
  assert (Hz : cis (PI * (2 * IZR m / INR N)) <> 1).
  { replace (PI * (2 * IZR m / INR N))%R with (2 * PI * IZR m / INR N)%R by (field; lra). apply (root_one N m). lia. }
  assert (Hz' : cis (PI * (2 * IZR m / INR N)) - 1 <> 0).
  { intros C. apply Hz. transitivity (cis (PI * (2 * IZR m / INR N)) - 1 + 1); [ring|rewrite C; ring]. }
  transitivity (/ (cis (PI * (2 * IZR m / INR N)) - 1) * ((cis (PI * (2 * IZR m / INR N)) - 1) * kernel (repeat (RtoC 1) N) (2 * IZR m / INR N))).
  - field. exact Hz'.
  - rewrite E. ring.
Qed.

Theorem C162_selective (N : nat) (m : Z) (f : R) (A : C) (L : nat) (y : list C) : (Z.abs m < Z.of_nat N)%Z -> m <> 0%Z ->
  reports (repeat (RtoC 1) N) f true (ctone A (f + 2 * IZR m / INR N) L) y -> Forall (fun v => v = RtoC 0) y.
Proof.
  intros Hm Hn H. destruct (C162_complex_tone _ _ _ _ _ _ H) as (Ly & Hy). apply Forall_nth. intros k d Hk.
  rewrite (nth_indep _ d (RtoC 0) Hk), (Hy k Hk). replace (f + 2 * IZR m / INR N - f)%R with (2 * IZR m / INR N)%R by ring.
  rewrite rect_null by assumption. unfold Cdiv. ring.
Qed.
Print Assumptions C162_selective.

(** ** Real tones: twice the two-sided spectrum *)
Theorem C162_real_tone (w : list C) (f a t p : R) (L : nat) (y : list C) : reports w f false (rtone a t p L) y ->
  length y = (L / length w)%nat /\
  forall k, (k < length y)%nat -> nth k y (RtoC 0) =
    RtoC a * cis (PI * f * (INR (length w) - 1)) / RtoC (INR (length w)) *
    (cis (PI * t * INR (k * length w) + p) * kernel w (t - f) + cis (- (PI * t * INR (k * length w) + p)) * kernel w (- t - f)).
Proof.
  intros H. destruct (reports_nth _ _ _ _ _ H) as (Hw & Hx & Ly & Hy). rewrite length_rtone in Ly. split; [exact Ly|].
  intros k Hk. rewrite (Hy k Hk). pose proof (length_pos w Hw) as HN.
  assert (H2 : RtoC 2 <> 0) by (intros C; apply RtoC_inj in C; lra).
  assert (HN' : RtoC (INR (length w)) <> 0) by (intros C; apply RtoC_inj in C; lra).
  rewrite (csumn_ext (length w) _ (fun n =>
     nth n w 0 * (RtoC a * cis p / RtoC 2 * cis (PI * t * INR (k * length w + n))) * cis (- (PI * f * INR n)) +
     nth n w 0 * (RtoC a * cis (- p) / RtoC 2 * cis (PI * (- t) * INR (k * length w + n))) * cis (- (PI * f * INR n)))).
  - rewrite csumn_add.
    rewrite (tone_block w (RtoC a * cis p / RtoC 2) t f (fun n => RtoC a * cis p / RtoC 2 * cis (PI * t * INR (k * length w + n))) k) by reflexivity.
    rewrite (tone_block w (RtoC a * cis (- p) / RtoC 2) (- t) f (fun n => RtoC a * cis (- p) / RtoC 2 * cis (PI * (- t) * INR (k * length w + n))) k) by reflexivity.
    rewrite RtoC_div by lra. replace (- (PI * t * INR (k * length w) + p))%R with (PI * (- t) * INR (k * length w) + - p)%R by ring.
    rewrite !cis_add. field. split; assumption.
  - intros n Hn. unfold rtone. rewrite (nth_gen (fun i => RtoC (a * cos (PI * t * INR i + p)))) by (apply block_inside; [lia|exact Hn]).
    rewrite RtoC_mult, cos_cis. replace (- (PI * t * INR (k * length w + n) + p))%R with (PI * (- t) * INR (k * length w + n) + - p)%R by ring.
    rewrite !cis_add. field. exact H2.
Qed.
Print Assumptions C162_real_tone.

(** A real tone at bin [m] of a rectangular window, strictly between zero and Nyquist: the
    filter at that frequency returns the complex tone with its amplitude and phase, at the
    last sample of the block. *)
Lemma rect_full N : kernel (repeat (RtoC 1) N) 0 = RtoC (INR N).
Proof.
  rewrite kernel_zero, repeat_length. rewrite (csumn_ext N _ (fun _ => RtoC 1)) by (intros n Hn; apply nth_repeat_lt, Hn).
  rewrite csumn_const. ring.
Qed.
Theorem C162_real_bin (N m L : nat) (a p : R) (y : list C) : (0 < m)%nat -> (2 * m < N)%nat ->
  let f := (2 * INR m / INR N)%R in reports (repeat (RtoC 1) N) f false (rtone a f p L) y ->
  forall k, (k < length y)%nat -> nth k y (RtoC 0) = RtoC a * cis (PI * f * INR (k * N + (N - 1)) + p).
Proof.
  intros Hm HN f H k Hk. destruct (C162_real_tone _ _ _ _ _ _ _ H) as (Ly & Hy). rewrite (Hy k Hk). rewrite repeat_length.
  assert (HNp : (0 < INR N)%R) by (apply lt_0_INR; lia).
  replace (- f - f)%R with (2 * IZR (- (2 * Z.of_nat m)) / INR N)%R
    by (unfold f; rewrite opp_IZR, mult_IZR, <- INR_IZR_INZ; field; lra).
  rewrite rect_null by lia. replace (f - f)%R with 0%R by ring. rewrite rect_full. rewrite plus_INR, minus_INR by lia. cbn [INR].
  replace (PI * f * (INR (k * N) + (INR N - 1)) + p)%R with (PI * f * (INR N - 1) + (PI * f * INR (k * N) + p))%R by ring.
  rewrite !cis_add. field. intros C. apply RtoC_inj in C. lra.
Qed.
Print Assumptions C162_real_bin.

(** Refuted: every real bin-centred tone is reported with its amplitude.  At zero frequency
    the constant [c] is reported as [2 c]; so is the alternating signal at frequency one. *)
Theorem C162_dc_refuted (N L : nat) (c : R) (y : list C) : reports (repeat (RtoC 1) N) 0 false (rtone c 0 0 L) y ->
  forall k, (k < length y)%nat -> nth k y (RtoC 0) = RtoC (2 * c).
Proof.
  intros H k Hk. destruct (reports_nth _ _ _ _ _ H) as (Hw & _). pose proof (length_pos _ Hw) as HN.
  destruct (C162_real_tone _ _ _ _ _ _ _ H) as (Ly & Hy). rewrite (Hy k Hk). rewrite repeat_length in *.
  replace (0 - 0)%R with 0%R by ring. replace (- 0 - 0)%R with 0%R by ring. rewrite rect_full.
  rewrite !Rmult_0_r, !Rmult_0_l, Rplus_0_r, Ropp_0, cis_0, RtoC_mult. replace (RtoC 2) with (RtoC 1 + RtoC 1) by (rewrite <- RtoC_plus; f_equal; ring). field. intros C. apply RtoC_inj in C. lra.
Qed.
Print Assumptions C162_dc_refuted.

Theorem C162_nyquist_refuted (h L : nat) (c : R) (y : list C) : reports (repeat (RtoC 1) (2 * h)) 1 false (rtone c 1 0 L) y ->
  forall k, (k < length y)%nat -> nth k y (RtoC 0) = RtoC (- (2 * c)).
Proof.
  intros H k Hk. destruct (reports_nth _ _ _ _ _ H) as (Hw & _). pose proof (length_pos _ Hw) as HN.
  destruct (C162_real_tone _ _ _ _ _ _ _ H) as (Ly & Hy). rewrite (Hy k Hk). rewrite repeat_length in *.
  replace (1 - 1)%R with 0%R by ring. rewrite rect_full.
  assert (K : kernel (repeat (RtoC 1) (2 * h)) (- (1) - 1) = RtoC (INR (2 * h))).
  { rewrite <- rect_full. unfold kernel. rewrite repeat_length. apply csumn_ext. intros n _. f_equal.
    replace (PI * (- (1) - 1) * INR n)%R with (PI * 0 * INR n + 2 * IZR (- Z.of_nat n) * PI)%R
      by (rewrite opp_IZR, <- INR_IZR_INZ; ring). apply cis_2PI_IZR. }
  rewrite K.
  assert (E1 : cis (PI * 1 * INR (k * (2 * h)) + 0) = 1).
  { replace (PI * 1 * INR (k * (2 * h)) + 0)%R with (0 + 2 * INR (k * h) * PI)%R by (rewrite !mult_INR; cbn [INR]; ring). rewrite cis_2PI_INR. apply cis_0. }
  assert (E2 : cis (- (PI * 1 * INR (k * (2 * h)) + 0)) = 1) by (rewrite <- cis_conj, E1; apply injective_projections; cbn; ring).
  assert (E3 : cis (PI * 1 * (INR (2 * h) - 1)) = - (1)).
  { replace (PI * 1 * (INR (2 * h) - 1))%R with (- PI + 2 * INR h * PI)%R by (rewrite mult_INR; cbn [INR]; ring). rewrite cis_2PI_INR.
    unfold cis. rewrite cos_neg, sin_neg, cos_PI, sin_PI. apply injective_projections; cbn; ring. }
  rewrite E1, E2, E3. rewrite RtoC_opp, RtoC_mult. replace (RtoC 2) with (RtoC 1 + RtoC 1) by (rewrite <- RtoC_plus; f_equal; ring). field. intros C. apply RtoC_inj in C. lra.
Qed.
Print Assumptions C162_nyquist_refuted.

(** Such reports exist: windows of ones at every frequency in [-1, 1]. *)
Lemma reports_exist (N : nat) (f : R) cplx (x : list C) : (0 < N)%nat -> (-1 <= f <= 1)%R -> x <> [] ->
  exists y, reports (repeat (RtoC 1) N) f cplx x y /\ length y = (length x / N)%nat.
Proof.
  intros HN Hf Hx. assert (E : exists g, @goertzel_make CA cos2C exnC isclose0C (repeat (RtoC 1) N) f = Ok g).
  { unfold goertzel_make. rewrite repeat_length. destruct N as [|N]; [lia|]. cbn [Nat.eqb repeat forallb].
    assert (E : isclose0C 1 = false).
    { unfold isclose0C. destruct (Rleb _ _) eqn:E; [|reflexivity]. apply Rleb_iff in E. rewrite Cmod_1 in E. lra. }
    rewrite E. cbn [andb orb]. unfold freq_bad.
    destruct (Rltb f (-1)) eqn:E1; [apply Rltb_iff in E1; lra|].
    destruct (Rltb 1 f) eqn:E2; [apply Rltb_iff in E2; lra|]. cbn [orb].
    unfold iir_make. cbn [els adt length]. change (@zero CA) with (RtoC 0).
    assert (E0 : eqb (RtoC 0 : CA) (RtoC 0) = true) by (apply (law_eqb CA_laws); reflexivity).
    cbn [pad app length Nat.max Nat.sub zeros repeat els adt Nat.ltb Nat.leb]. rewrite E0. eexists. reflexivity. }
  destruct E as (g & E). destruct (C34_goertzel_block_dft _ x f g cplx E Hx) as (g' & y & F & Ly & _). rewrite repeat_length in Ly.
  exists y. split; [exists g, g'; split; assumption|exact Ly].
Qed.
Example C162_example :
  (exists y, reports (repeat (RtoC 1) 8) (1 / 2) true (ctone (RtoC 3) (1 / 2 + 2 * IZR 1 / INR 8) 20) y /\ length y = 2%nat) /\
  (exists y, reports (repeat (RtoC 1) 8) (2 * INR 2 / INR 8) false (rtone 3 (2 * INR 2 / INR 8) 1 20) y /\ length y = 2%nat) /\
  (exists y, reports (repeat (RtoC 1) 8) 0 false (rtone 3 0 0 20) y /\ length y = 2%nat) /\
  (exists y, reports (repeat (RtoC 1) (2 * 4)) 1 false (rtone 3 1 0 20) y /\ length y = 2%nat).
Proof.
  split; [|split; [|split]].
  - apply (reports_exist 8); [lia|lra|discriminate].
  - apply (reports_exist 8); [lia|cbn; lra|discriminate].
  - apply (reports_exist 8); [lia|lra|discriminate].
  - apply (reports_exist 8); [lia|lra|discriminate].
Qed.
