(** Property C167: the transform laws of FourierTransform and the energy PsdTransform accounts for. *)
From Coq Require Import List Arith ZArith Bool Reals Lra Lia.
From Coquelicot Require Import Complex.
From Verif Require Import Base BaseLemmas Instances FirModel FirDesignProofs Sums PolyC DftModel DftProofs DftProps PsdProps.
Import ListNotations.
Set Asymmetric Patterns.
Open Scope R_scope.

(** ** Specification *)
(** The bin that holds the negative of the frequency in bin k. *)
Definition mirror (N k : nat) : nat := ((N + N mod 2 - k) mod N)%nat.
(** The circular convolution of the first N samples. *)
Definition circular (N : nat) (x1 x2 : list C) (n : nat) : C := csumn N (fun m => Cmult (at_ x1 m) (at_ x2 ((n + (N - m)) mod N))).
(** The windowed frame that starts at sample i. *)
Definition frame (x b : list C) (i : nat) : list C := map2 Cmult (firstn (length b) (skipn i x)) b.
(** A real sinusoid with q periods every N samples. *)
Definition sinusoid (A phi : R) (q N L : nat) : list C := map (fun n => RtoC (A * cos (2 * PI * INR q * INR n / INR N + phi))) (seq 0 L).

(** ** Lemmas *)
Lemma csumn_app n m f : csumn (n + m) f = Cplus (csumn n f) (csumn m (fun i => f (n + i)%nat)).
Proof. induction m as [|m IH]; [rewrite Nat.add_0_r; cbn [csumn]; ring|]. rewrite Nat.add_succ_r. cbn [csumn]. rewrite IH. ring. Qed.
Lemma csumn_rot N e g : (e <= N)%nat -> csumn N (fun n => g ((n + e) mod N)%nat) = csumn N g.
Proof.
  intros He. destruct (Nat.eq_dec N 0) as [->|Hz]; [reflexivity|].
  replace N with ((N - e) + e)%nat at 1 by lia. rewrite csumn_app.
  replace (csumn N g) with (csumn (e + (N - e)) g) by (f_equal; lia). rewrite csumn_app. rewrite Cplus_comm. f_equal.
  - apply csumn_ext. intros n Hn. f_equal. replace (N - e + n + e)%nat with (n + 1 * N)%nat by lia. rewrite Nat.mod_add by lia. apply Nat.mod_small. lia.
  - apply csumn_ext. intros n Hn. f_equal. rewrite Nat.mod_small by lia. lia.
Qed.
Lemma dft_ext w w' N z : (forall n, (n < N)%nat -> w n = w' n) -> dft w N z = dft w' N z.
Proof. intros H. apply csumn_ext. intros n Hn. rewrite H by exact Hn. reflexivity. Qed.
Lemma dft_shift w N d z : (0 < N)%nat -> (d <= N)%nat ->
  dft (fun n => w ((n + (N - d)) mod N)%nat) N z = Cmult (root N (- (z * Z.of_nat d))) (dft w N z).
Proof.
  intros HN Hd. unfold dft. rewrite <- csumn_scal.
  rewrite <- (csumn_rot N (N - d) (fun m => Cmult (root N (- (z * Z.of_nat d))) (Cmult (w m) (root N (- (z * Z.of_nat m)))))) by lia.
  apply csumn_ext. intros n Hn. set (m := ((n + (N - d)) mod N)%nat).
  transitivity (Cmult (w m) (Cmult (root N (- (z * Z.of_nat d))) (root N (- (z * Z.of_nat m))))); [|ring]. f_equal.
  rewrite <- root_add. pose proof (Nat.div_mod (n + (N - d)) N ltac:(lia)) as D. fold m in D.
  set (q := ((n + (N - d)) / N)%nat) in *.
  assert (G : (Z.of_nat d = Z.of_nat n + Z.of_nat N - Z.of_nat N * Z.of_nat q - Z.of_nat m)%Z) by lia.
  replace (- (z * Z.of_nat d) + - (z * Z.of_nat m))%Z with (- (z * Z.of_nat n) + Z.of_nat N * (z * (Z.of_nat q - 1)))%Z by (rewrite G; ring).
  symmetry. apply root_period, HN.
Qed.
Lemma dft_conj w N z : Cconj (dft w N z) = dft (fun n => Cconj (w n)) N (- z).
Proof. unfold dft. rewrite csumn_conj. apply csumn_ext. intros n _. rewrite Cconj_mul, root_conj. do 2 f_equal. ring. Qed.
Lemma dft_congr w N a b : (0 < N)%nat -> (exists c, a = b + Z.of_nat N * c)%Z -> dft w N a = dft w N b.
Proof. intros HN [c ->]. apply dft_period, HN. Qed.
Lemma dft_parseval w N : (0 < N)%nat -> rsum N (fun k => Cmod (dft w N (Z.of_nat k)) ^ 2) = INR N * rsum N (fun n => Cmod (w n) ^ 2).
Proof.
  intros HN. apply RtoC_inj. rewrite RtoC_mult, <- !csumn_RtoC.
  rewrite (csumn_ext N _ (fun k => csumn N (fun m => csumn N (fun n => Cmult (Cmult (w m) (Cconj (w n))) (root N (Z.of_nat k * (Z.of_nat n - Z.of_nat m))))))).
  2:{ intros k _. rewrite Cmod_sq, dft_conj. unfold dft. rewrite <- csumn_scal_r. apply csumn_ext. intros m _. rewrite <- csumn_scal. apply csumn_ext. intros n _.
      transitivity (Cmult (Cmult (w m) (Cconj (w n))) (Cmult (root N (- (Z.of_nat k * Z.of_nat m))) (root N (- (- Z.of_nat k * Z.of_nat n))))); [ring|].
      f_equal. rewrite <- root_add. f_equal. ring. }
  rewrite csumn_swap, <- csumn_scal. apply csumn_ext. intros m Hm. rewrite csumn_swap. rewrite (csumn_single _ m); [|exact Hm|].
  - rewrite csumn_scal, orth by lia. rewrite Z.sub_diag. cbn [Z.eqb]. rewrite Cmod_sq. ring.
  - intros n Hn Ne. rewrite csumn_scal, orth by lia. destruct (Z.eqb_spec (Z.of_nat n - Z.of_nat m) 0); [lia|]. ring.
Qed.
Lemma Cmod_conj z : Cmod (Cconj z) = Cmod z.
Proof. destruct z as [u v]. unfold Cmod, Cconj. cbn [fst snd]. f_equal. ring. Qed.
Lemma NzC N : (0 < N)%nat -> RtoC (INR N) <> RtoC 0.
Proof. intros H F. apply RtoC_inj in F. revert F. apply not_0_INR. lia. Qed.

(** ** FourierTransform *)
(** The gain of a circular delay is a phase that is linear in the frequency the bin really holds. *)
Theorem C167_fourier_shift N x x' y y' f f' d : (d <= N)%nat ->
  fourier x (ones N) false = Ok (y, f) -> fourier x' (ones N) false = Ok (y', f') ->
  (forall n, (n < N)%nat -> at_ x' n = at_ x ((n + (N - d)) mod N)) ->
  f' = f /\ forall k, (k < N)%nat ->
    at_ y' k = Cmult (at_ y k) (cis (- (PI * INR d * (nth k f 0 - INR (N mod 2) / INR N)))).
Proof.
  intros Hd E E' Hx. assert (LN : length (ones N) = N) by apply repeat_length.
  destruct (fourier_forward _ _ _ _ E) as (HN & _ & _ & _ & Ef & Fy). destruct (fourier_forward _ _ _ _ E') as (_ & _ & _ & _ & Ef' & Fy'). rewrite LN in *.
  split; [congruence|]. intros k Hk. destruct (C78_fourier_bins _ _ _ _ k E) as [Ek _]; [rewrite LN; exact Hk|]. rewrite LN in Ek. rewrite Ek.
  unfold at_. rewrite Fy, Fy' by exact Hk.
  rewrite (dft_ext _ (fun n => (fun m => Cmult (nth m (ones N) (RtoC 0)) (nth m x (RtoC 0))) ((n + (N - d)) mod N)%nat)).
  2:{ intros n Hn. cbn beta. fold (at_ (ones N) n) (at_ (ones N) ((n + (N - d)) mod N)). rewrite !ones_at by (try apply Nat.mod_upper_bound; lia). f_equal. apply Hx, Hn. }
  rewrite (dft_shift (fun m => Cmult (nth m (ones N) (RtoC 0)) (nth m x (RtoC 0)))) by lia. set (D := dft _ _ _).
  replace (cis (- (PI * INR d * (-1 + 2 * INR k / INR N - INR (N mod 2) / INR N)))) with (root N (- (Z.of_nat (k + N / 2) * Z.of_nat d))); [field; apply NzC, HN|].
  unfold root. apply cis_shift with (z := (- Z.of_nat d)%Z). rewrite opp_IZR, mult_IZR, opp_IZR, <- !INR_IZR_INZ, plus_INR.
  assert (P : 0 < INR N) by (apply lt_0_INR; exact HN).
  assert (Dv : INR N = 2 * INR (N / 2) + INR (N mod 2)) by (rewrite (Nat.div_mod N 2) at 1 by lia; rewrite plus_INR, mult_INR; reflexivity).
  replace (INR (N / 2)) with ((INR N - INR (N mod 2)) / 2) by lra. field. lra.
Qed.
Print Assumptions C167_fourier_shift.

(** Multiplying by a tone of q bins rotates the bins by q, under every window. *)
Theorem C167_fourier_modulate b x x' y y' f f' q : (q <= length b)%nat ->
  fourier x b false = Ok (y, f) -> fourier x' b false = Ok (y', f') ->
  let N := length b in
  (forall n, (n < N)%nat -> at_ x' n = Cmult (at_ x n) (cis (2 * PI * INR q * INR n / INR N))) ->
  forall k, (k < N)%nat -> at_ y' k = at_ y ((k + (N - q)) mod N).
Proof.
  intros Hq E E' N Hx k Hk. destruct (fourier_forward _ _ _ _ E) as (HN & _ & _ & _ & _ & Fy). destruct (fourier_forward _ _ _ _ E') as (_ & _ & _ & _ & _ & Fy').
  fold N in Hq, HN, Fy, Fy'. unfold at_. rewrite Fy' by exact Hk. rewrite Fy by (apply Nat.mod_upper_bound; lia). f_equal.
  set (j := ((k + (N - q)) mod N)%nat). unfold dft. apply csumn_ext. intros n Hn. fold (at_ x' n) (at_ x n). rewrite Hx by exact Hn.
  replace (cis (2 * PI * INR q * INR n / INR N)) with (root N (Z.of_nat q * Z.of_nat n)).
  2:{ unfold root. f_equal. rewrite mult_IZR, <- !INR_IZR_INZ. unfold Rdiv. ring. }
  transitivity (Cmult (Cmult (nth n b (RtoC 0)) (at_ x n)) (Cmult (root N (Z.of_nat q * Z.of_nat n)) (root N (- (Z.of_nat (k + N / 2) * Z.of_nat n))))); [ring|].
  f_equal. rewrite <- root_add. pose proof (Nat.div_mod (k + (N - q)) N ltac:(lia)) as D. fold j in D. set (c := ((k + (N - q)) / N)%nat) in *.
  rewrite <- (root_period N (- (Z.of_nat (j + N / 2) * Z.of_nat n)) ((1 - Z.of_nat c) * Z.of_nat n)) by exact HN. f_equal.
  assert (G : (Z.of_nat j = Z.of_nat k + Z.of_nat N - Z.of_nat q - Z.of_nat N * Z.of_nat c)%Z) by lia. rewrite !Nat2Z.inj_add, G. ring.
Qed.
Print Assumptions C167_fourier_modulate.

Lemma mirror_lt N k : (0 < N)%nat -> (mirror N k < N)%nat.
Proof. intros H. apply Nat.mod_upper_bound. lia. Qed.
(** Conjugating the signal under a real window mirrors and conjugates the bins. *)
Theorem C167_fourier_conjugate b x x' y y' f f' :
  fourier x b false = Ok (y, f) -> fourier x' b false = Ok (y', f') ->
  let N := length b in
  (forall n, (n < N)%nat -> Im (at_ b n) = 0) -> (forall n, (n < N)%nat -> at_ x' n = Cconj (at_ x n)) ->
  forall k, (k < N)%nat -> at_ y' (mirror N k) = Cconj (at_ y k).
Proof.
  intros E E' N Hb Hx k Hk. destruct (fourier_forward _ _ _ _ E) as (HN & _ & _ & _ & _ & Fy). destruct (fourier_forward _ _ _ _ E') as (_ & _ & _ & _ & _ & Fy').
  fold N in HN, Fy, Fy'. unfold at_. rewrite Fy' by (apply mirror_lt; exact HN). rewrite Fy by exact Hk.
  assert (P : INR N <> 0) by (apply not_0_INR; lia).
  unfold Cdiv. rewrite Cconj_mul. replace (Cconj (/ RtoC (INR N))%C) with (/ RtoC (INR N))%C by (rewrite <- RtoC_inv by exact P; symmetry; apply Cconj_R).
  f_equal. rewrite dft_conj. rewrite (dft_ext _ (fun n => Cconj (Cmult (nth n b (RtoC 0)) (nth n x (RtoC 0))))).
  2:{ intros n Hn. fold (at_ x' n) (at_ x n) (at_ b n). rewrite Hx, Cconj_mul by exact Hn. f_equal. specialize (Hb n Hn). destruct (at_ b n) as [u v]. cbn in Hb. subst v. symmetry. apply Cconj_R. }
  apply dft_congr; [exact HN|]. unfold mirror. pose proof (Nat.div_mod (N + N mod 2 - k) N ltac:(lia)) as D. pose proof (Nat.div_mod N 2 ltac:(lia)) as D2.
  set (m := ((N + N mod 2 - k) mod N)%nat) in *. exists (2 - Z.of_nat ((N + N mod 2 - k) / N))%Z. nia.
Qed.
Print Assumptions C167_fourier_conjugate.
(** A real signal under a real window has conjugate symmetric bins, the bin of frequency 0 is real,
    and with an even length the bin labelled -1 is real too. *)
Theorem C167_fourier_real b x y f : fourier x b false = Ok (y, f) ->
  let N := length b in
  (forall n, (n < N)%nat -> Im (at_ b n) = 0) -> (forall n, (n < N)%nat -> Im (at_ x n) = 0) ->
  (forall k, (k < N)%nat -> at_ y (mirror N k) = Cconj (at_ y k)) /\
  Im (at_ y ((N / 2 + N mod 2) mod N)) = 0 /\ (Nat.Even N -> Im (at_ y 0) = 0).
Proof.
  intros E N Hb Hx. destruct (fourier_forward _ _ _ _ E) as (HN & _). fold N in HN.
  assert (M : forall k, (k < N)%nat -> at_ y (mirror N k) = Cconj (at_ y k)).
  { apply (C167_fourier_conjugate b x x y y f f E E Hb). intros n Hn. specialize (Hx n Hn). destruct (at_ x n) as [u v]. cbn in Hx. subst v. symmetry. apply Cconj_R. }
  assert (Im0 : forall z : C, z = Cconj z -> Im z = 0) by (intros [u v] H; injection H as H; cbn; lra).
  pose proof (Nat.div_mod N 2 ltac:(lia)) as D2. pose proof (Nat.mod_upper_bound N 2 ltac:(lia)) as U2.
  split; [exact M|]. split.
  - apply Im0. assert (Hj : ((N / 2 + N mod 2) mod N < N)%nat) by (apply Nat.mod_upper_bound; lia). rewrite <- M by exact Hj. f_equal.
    destruct (Nat.eq_dec N 1) as [E1|N1]; [rewrite E1; reflexivity|].
    assert (N / 2 + N mod 2 < N)%nat by (destruct (N mod 2) as [|[|r]]; nia).
    unfold mirror. rewrite (Nat.mod_small (N / 2 + N mod 2) N) by assumption. rewrite (Nat.mod_small (N + N mod 2 - (N / 2 + N mod 2)) N) by lia. lia.
  - intros [h Eh]. apply Im0. rewrite <- M by exact HN. f_equal. unfold mirror. rewrite Eh. rewrite (Nat.mul_comm 2 h), Nat.mod_mul by lia.
    rewrite Nat.add_0_r, Nat.sub_0_r, Nat.mod_same by lia. reflexivity.
Qed.
Print Assumptions C167_fourier_real.

(** Circular convolution multiplies the bins, up to the factor N that comes from the scaling. *)
Theorem C167_fourier_convolution N x1 x2 x3 y1 y2 y3 f1 f2 f3 :
  fourier x1 (ones N) false = Ok (y1, f1) -> fourier x2 (ones N) false = Ok (y2, f2) -> fourier x3 (ones N) false = Ok (y3, f3) ->
  (forall n, (n < N)%nat -> at_ x3 n = circular N x1 x2 n) ->
  forall k, (k < N)%nat -> at_ y3 k = Cmult (RtoC (INR N)) (Cmult (at_ y1 k) (at_ y2 k)).
Proof.
  intros E1 E2 E3 Hx k Hk. assert (LN : length (ones N) = N) by apply repeat_length.
  destruct (fourier_forward _ _ _ _ E1) as (HN & _ & _ & _ & _ & F1). destruct (fourier_forward _ _ _ _ E2) as (_ & _ & _ & _ & _ & F2). destruct (fourier_forward _ _ _ _ E3) as (_ & _ & _ & _ & _ & F3).
  rewrite LN in *. unfold at_. rewrite F1, F2, F3 by exact Hk. set (z := Z.of_nat (k + N / 2)).
  assert (On : forall x, dft (fun n => Cmult (nth n (ones N) (RtoC 0)) (nth n x (RtoC 0))) N z = dft (at_ x) N z).
  { intros x. apply dft_ext. intros n Hn. fold (at_ (ones N) n). rewrite ones_at by exact Hn. unfold at_. ring. }
  rewrite !On.
  assert (G : dft (at_ x3) N z = Cmult (dft (at_ x1) N z) (dft (at_ x2) N z)).
  { transitivity (csumn N (fun m => Cmult (at_ x1 m) (dft (fun n => at_ x2 ((n + (N - m)) mod N)) N z))).
    - unfold dft at 1. rewrite (csumn_ext N _ (fun n => csumn N (fun m => Cmult (at_ x1 m) (Cmult (at_ x2 ((n + (N - m)) mod N)) (root N (- (z * Z.of_nat n))))))).
      + rewrite csumn_swap. apply csumn_ext. intros m _. unfold dft. rewrite <- csumn_scal. reflexivity.
      + intros n Hn. rewrite Hx by exact Hn. unfold circular. rewrite <- csumn_scal_r. apply csumn_ext. intros m _. ring.
    - unfold dft at 2. rewrite <- csumn_scal_r. apply csumn_ext. intros m Hm. rewrite (dft_shift (at_ x2)) by lia. ring. }
  rewrite G. field. apply NzC, HN.
Qed.
Print Assumptions C167_fourier_convolution.

(** ** PsdTransform *)
Lemma power_dft x b i k : power x b i k = (Cmod (dft (fun n => Cmult (at_ x (i + n)) (at_ b n)) (length b) (Z.of_nat k)) / INR (length b)) ^ 2.
Proof.
  unfold power. do 3 f_equal. unfold dft. apply csumn_ext. intros n _. f_equal. unfold root. f_equal. rewrite opp_IZR, mult_IZR, <- !INR_IZR_INZ. unfold Rdiv. ring.
Qed.
Lemma frame_energy x b i : (i + length b <= length x)%nat -> energy (frame x b i) = rsum (length b) (fun n => Cmod (Cmult (at_ x (i + n)) (at_ b n)) ^ 2).
Proof.
  intros H. unfold energy, frame. assert (Lf : length (firstn (length b) (skipn i x)) = length b) by (rewrite firstn_length, skipn_length; lia).
  rewrite length_map2, Lf, Nat.min_id. apply rsum_ext. intros n Hn. unfold at_ at 1.
  rewrite nth_map2 with (dx := RtoC 0) (dy := RtoC 0) by (rewrite ?Lf; exact Hn). rewrite nth_firstn by exact Hn. rewrite nth_skipn. reflexivity.
Qed.
Lemma power_parseval x b i : (0 < length b)%nat -> (i + length b <= length x)%nat ->
  rsum (length b) (power x b i) = energy (frame x b i) / INR (length b).
Proof.
  intros HN H. assert (P : 0 < INR (length b)) by (apply lt_0_INR; exact HN). rewrite frame_energy by exact H.
  rewrite (rsum_ext _ _ (fun k => / (INR (length b) ^ 2) * Cmod (dft (fun n => Cmult (at_ x (i + n)) (at_ b n)) (length b) (Z.of_nat k)) ^ 2)).
  2:{ intros k _. rewrite power_dft. field. lra. }
  rewrite rsum_scal, dft_parseval by exact HN. field. lra.
Qed.
Lemma power_mirror x b i k : (0 < length b)%nat -> (forall n, Im (at_ x n) = 0) -> (forall n, Im (at_ b n) = 0) -> (0 < k <= length b)%nat ->
  power x b i (length b - k) = power x b i k.
Proof.
  intros HN Hx Hb Hk. rewrite !power_dft. do 2 f_equal. set (w := fun n => _). 
  rewrite <- (Cmod_conj (dft w (length b) (Z.of_nat k))), dft_conj. f_equal. rewrite (dft_ext (fun n => Cconj (w n)) w).
  2:{ intros n _. unfold w. rewrite Cconj_mul. assert (R : forall z : C, Im z = 0 -> Cconj z = z) by (intros [u v] H; cbn in H; subst v; apply Cconj_R). rewrite !R by auto. reflexivity. }
  apply dft_congr; [exact HN|]. exists 1%Z. lia.
Qed.
Lemma usable_pos x b : usable x b -> (0 < length b)%nat.
Proof. intros [_ [i [H _]]]. lia. Qed.

Lemma rows x b index y f : usable x b -> (0 < index)%nat -> psd_transform x b (Z.of_nat index) true = Ok (Spectrogram y, f) ->
  length y = frames x b index /\ forall i k, (i < length y)%nat -> (k < length b / 2)%nat -> nth k (nth i y []) 0 = power x b (i * index) k.
Proof.
  intros U Hi E. destruct (C73_psd_spectrogram x b index U Hi) as (y' & f' & E' & Ly & _ & Hy). rewrite E in E'. injection E' as <- <-.
  split; [exact Ly|]. intros i k Hin Hk. apply (proj2 (proj2 (Hy i Hin) k Hk)).
Qed.

(** The reported powers never exceed the energy of the windowed frame. *)
Theorem C167_psd_bound x b index y f : usable x b -> (0 < index)%nat -> psd_transform x b (Z.of_nat index) true = Ok (Spectrogram y, f) ->
  forall i, (i < length y)%nat -> rsum (length b / 2) (fun k => nth k (nth i y []) 0) <= energy (frame x b (i * index)) / INR (length b).
Proof.
  intros U Hi E i Hin. destruct (rows x b index y f U Hi E) as [Ly Hy]. pose proof (usable_pos x b U) as HN.
  assert (F : (i * index + length b <= length x)%nat) by (apply frame_fits; [exact (proj1 U)|exact Hi|rewrite <- Ly; exact Hin]).
  rewrite <- power_parseval by assumption. rewrite (rsum_ext _ _ (power x b (i * index))) by (intros k Hk; apply Hy; assumption).
  assert (D : (length b / 2 <= length b)%nat) by (apply Nat.div_le_upper_bound; lia).
  replace (rsum (length b) (power x b (i * index))) with (rsum (length b / 2 + (length b - length b / 2)) (power x b (i * index))) by (f_equal; lia). rewrite rsum_app.
  assert (0 <= rsum (length b - length b / 2) (fun j => power x b (i * index) (length b / 2 + j))) by (apply rsum_nonneg; intros; unfold power; apply pow2_ge_0). lra.
Qed.
Print Assumptions C167_psd_bound.

(** For real signals and windows: exactly what is missing. *)
Theorem C167_psd_real x b index y f : usable x b -> (0 < index)%nat -> (2 <= length b)%nat ->
  (forall n, Im (at_ x n) = 0) -> (forall n, Im (at_ b n) = 0) ->
  psd_transform x b (Z.of_nat index) true = Ok (Spectrogram y, f) ->
  forall i, (i < length y)%nat -> let N := length b in let row := nth i y [] in
    2 * rsum (N / 2) (fun k => nth k row 0) - nth 0 row 0 + (1 + INR (N mod 2)) * power x b (i * index) (N / 2) =
    energy (frame x b (i * index)) / INR N.
Proof.
  intros U Hi H2 Hx Hb E i Hin N row. destruct (rows x b index y f U Hi E) as [Ly Hy]. fold N in Hy, H2.
  assert (F : (i * index + N <= length x)%nat) by (apply frame_fits; [exact (proj1 U)|exact Hi|rewrite <- Ly; exact Hin]).
  unfold N. rewrite <- power_parseval by (fold N; lia || exact F). fold N. unfold row. set (p := power x b (i * index)).
  pose proof (Nat.div_mod N 2 ltac:(lia)) as D. pose proof (Nat.mod_upper_bound N 2 ltac:(lia)) as U2. set (h := (N / 2)%nat) in *.
  assert (Hh : (0 < h)%nat) by lia.
  rewrite (rsum_ext h _ p) by (intros k Hk; apply Hy; assumption). rewrite Hy by assumption. fold p.
  assert (M : forall k, (0 < k <= N)%nat -> p (N - k)%nat = p k) by (intros k Hk; apply power_mirror; try assumption; fold N; lia).
  destruct h as [|g] eqn:Eh; [lia|].
  assert (R : rsum g (fun j => p (S j)) = rsum g (fun j => p (N - g + j)%nat)).
  { rewrite rsum_rev. apply rsum_ext. intros j Hj. rewrite <- M by lia. f_equal. lia. }
  destruct (N mod 2) as [|[|r]] eqn:Er; [| |lia].
  - replace (rsum N p) with (rsum (S (S g) + g) p) by (f_equal; lia). rewrite rsum_app.
    rewrite (rsum_ext g (fun j => p (S (S g) + j)%nat) (fun j => p (N - g + j)%nat)) by (intros j _; f_equal; lia). rewrite <- R.
    change (rsum (S (S g)) p) with (rsum (S g) p + p (S g)). rewrite (rsum_S_l g p). cbn [INR]. ring.
  - replace (rsum N p) with (rsum (S (S (S g)) + g) p) by (f_equal; lia). rewrite rsum_app.
    rewrite (rsum_ext g (fun j => p (S (S (S g)) + j)%nat) (fun j => p (N - g + j)%nat)) by (intros j _; f_equal; lia). rewrite <- R.
    change (rsum (S (S (S g))) p) with (rsum (S g) p + p (S g) + p (S (S g))). rewrite (rsum_S_l g p).
    assert (p (S (S g)) = p (S g)) by (rewrite <- (M (S g)) by lia; f_equal; lia). cbn [INR]. rewrite H. ring.
Qed.
Print Assumptions C167_psd_real.

(** A complex tone in the upper half of the band, the Nyquist bin included, is invisible. *)
Theorem C167_psd_blind_refuted A q N L index : (0 < index)%nat -> (N / 2 <= q < N)%nat -> (N <= L)%nat ->
  exists y m f, psd_transform (tone A q N L) (ones N) (Z.of_nat index) true = Ok (Spectrogram y, f) /\
    psd_transform (tone A q N L) (ones N) (Z.of_nat index) false = Ok (Mean m, f) /\
    (forall i k, nth k (nth i y []) 0 = 0) /\ (forall k, nth k m 0 = 0) /\
    forall i, (i < length y)%nat -> energy (frame (tone A q N L) (ones N) (i * index)) = INR N * Cmod A ^ 2.
Proof.
  intros Hi Hq HL. assert (U : usable (tone A q N L) (ones N)) by (apply tone_usable; lia).
  assert (LN : length (ones N) = N) by apply repeat_length.
  assert (LL : length (tone A q N L) = L) by (unfold tone; rewrite map_length, seq_length; reflexivity).
  destruct (C73_psd_spectrogram _ _ index U Hi) as (y & f & E & Ly & _ & Hy). destruct (C73_psd_mean _ _ index U Hi) as (y' & m & f' & E' & Em & Lm & Hm).
  rewrite E in E'. assert (y' = y /\ f' = f) as [-> ->] by (split; congruence). clear E'.
  destruct (rows _ _ index y f U Hi E) as [Ly' Hr]. rewrite LN in *.
  assert (F : forall i, (i < length y)%nat -> (i * index + N <= L)%nat).
  { intros i Hin. rewrite <- LN, <- LL. apply frame_fits; [exact (proj1 U)|exact Hi|rewrite <- Ly'; exact Hin]. }
  assert (V : forall i k, nth k (nth i y []) 0 = 0).
  { intros i k. destruct (Nat.lt_ge_cases i (length y)) as [Hin|Hin]; [|rewrite (nth_overflow y) by exact Hin; destruct k; reflexivity].
    destruct (Nat.lt_ge_cases k (N / 2)) as [Hk|Hk]; [|apply nth_overflow; rewrite (proj1 (Hy i Hin)); exact Hk].
    rewrite Hr by assumption. rewrite tone_power by (try apply F; lia). destruct (Nat.eqb_spec k q); [lia|reflexivity]. }
  exists y, m, f. split; [exact E|]. split; [exact Em|]. split; [exact V|]. split.
  - intros k. destruct (Nat.lt_ge_cases k (N / 2)) as [Hk|Hk]; [|apply nth_overflow; lia]. rewrite (proj2 (Hm k Hk)).
    rewrite rsum_zero by (intros; apply V). unfold Rdiv. ring.
  - intros i Hin. rewrite frame_energy by (rewrite LN, LL; apply F, Hin). rewrite LN, <- rsum_const. apply rsum_ext. intros n Hn.
    pose proof (F i Hin). rewrite tone_at, ones_at by lia. rewrite !Cmod_mult, Cmod_root, Cmod_1. ring.
Qed.
Print Assumptions C167_psd_blind_refuted.

Lemma sinusoid_at A phi q N L n : (n < L)%nat -> at_ (sinusoid A phi q N L) n =
  Cplus (Cmult (Cmult (RtoC (A / 2)) (cis phi)) (root N (Z.of_nat q * Z.of_nat n))) (Cmult (Cmult (RtoC (A / 2)) (cis (- phi))) (root N (- (Z.of_nat q * Z.of_nat n)))).
Proof.
  intros H. unfold at_, sinusoid. rewrite nth_map_lt with (d := 0%nat) by (rewrite seq_length; exact H). rewrite seq_nth by exact H. cbn [Nat.add].
  unfold root. rewrite <- !Cmult_assoc, <- !cis_add. rewrite opp_IZR, mult_IZR, <- !INR_IZR_INZ.
  replace (2 * PI * INR q * INR n / INR N + phi) with (phi + 2 * PI * (INR q * INR n) / INR N) by (unfold Rdiv; ring).
  replace (- phi + 2 * PI * - (INR q * INR n) / INR N) with (- (phi + 2 * PI * (INR q * INR n) / INR N)) by (unfold Rdiv; ring).
  set (t := phi + _). unfold cis. rewrite cos_neg, sin_neg. unfold Cplus, Cmult, RtoC. cbn [fst snd]. apply injective_projections; cbn [fst snd]; field.
Qed.
Lemma sinusoid_power A phi q N L i k : (0 < q < N / 2)%nat -> (i + N <= L)%nat -> (k < N / 2)%nat ->
  power (sinusoid A phi q N L) (ones N) i k = if (k =? q)%nat then A ^ 2 / 4 else 0.
Proof.
  intros Hq Hi Hk. pose proof (Nat.div_mod N 2 ltac:(lia)) as D. assert (LN : length (ones N) = N) by apply repeat_length.
  assert (P : 0 < INR N) by (apply lt_0_INR; lia).
  rewrite power_dft, LN. unfold dft. set (a := Cmult (RtoC (A / 2)) (cis phi)). set (c := Cmult (RtoC (A / 2)) (cis (- phi))).
  rewrite (csumn_ext N _ (fun n => Cplus (Cmult (Cmult a (root N (Z.of_nat q * Z.of_nat i))) (root N (Z.of_nat n * (Z.of_nat q - Z.of_nat k))))
                                      (Cmult (Cmult c (root N (- (Z.of_nat q * Z.of_nat i)))) (root N (Z.of_nat n * (- Z.of_nat q - Z.of_nat k)))))).
  2:{ intros n Hn. rewrite sinusoid_at, ones_at by lia. fold a c. set (s := root N (- (Z.of_nat k * Z.of_nat n))).
      transitivity (Cplus (Cmult a (Cmult (root N (Z.of_nat q * Z.of_nat (i + n))) s)) (Cmult c (Cmult (root N (- (Z.of_nat q * Z.of_nat (i + n)))) s))); [ring|].
      rewrite <- !Cmult_assoc. unfold s. rewrite <- !root_add. do 2 f_equal; f_equal; lia. }
  rewrite csumn_add, !csumn_scal, !orth by lia. destruct (Z.eqb_spec (- Z.of_nat q - Z.of_nat k) 0) as [|_]; [lia|].
  destruct (Nat.eqb_spec k q) as [->|Ne].
  - rewrite Z.sub_diag. cbn [Z.eqb].
    match goal with |- context [Cmod ?z] => replace z with (Cmult (Cmult a (root N (Z.of_nat q * Z.of_nat i))) (RtoC (INR N))) by ring end.
    unfold a. rewrite !Cmod_mult, Cmod_root, Cmod_cis, !Cmod_R, (Rabs_right (INR N)) by lra.
    replace (Rabs (A / 2) * 1 * 1 * INR N / INR N) with (Rabs (A / 2)) by (field; lra). rewrite pow2_abs. field.
  - destruct (Z.eqb_spec (Z.of_nat q - Z.of_nat k) 0); [lia|].
    match goal with |- context [Cmod ?z] => replace z with (RtoC 0) by ring end. rewrite Cmod_0. unfold Rdiv. ring.
Qed.
(** A real sinusoid of amplitude A shows A^2/4 in its bin; its mean square is A^2/2. *)
Theorem C167_psd_sinusoid A phi q N L index : (0 < index)%nat -> (0 < q < N / 2)%nat -> (N <= L)%nat ->
  exists y m f, psd_transform (sinusoid A phi q N L) (ones N) (Z.of_nat index) true = Ok (Spectrogram y, f) /\
    psd_transform (sinusoid A phi q N L) (ones N) (Z.of_nat index) false = Ok (Mean m, f) /\
    (forall i k, (i < length y)%nat -> (k < N / 2)%nat -> nth k (nth i y []) 0 = if (k =? q)%nat then A ^ 2 / 4 else 0) /\
    (forall k, (k < N / 2)%nat -> nth k m 0 = if (k =? q)%nat then A ^ 2 / 4 else 0) /\
    forall i, (i < length y)%nat -> energy (frame (sinusoid A phi q N L) (ones N) (i * index)) / INR N = A ^ 2 / 2.
Proof.
  intros Hi Hq HL. pose proof (Nat.div_mod N 2 ltac:(lia)) as D.
  assert (LN : length (ones N) = N) by apply repeat_length.
  assert (LL : length (sinusoid A phi q N L) = L) by (unfold sinusoid; rewrite map_length, seq_length; reflexivity).
  assert (U : usable (sinusoid A phi q N L) (ones N)).
  { split; [lia|]. exists 0%nat. rewrite LN, ones_at, Cmod_1 by lia. split; [lia|lra]. }
  destruct (C73_psd_spectrogram _ _ index U Hi) as (y & f & E & Ly & _ & _). destruct (C73_psd_mean _ _ index U Hi) as (y' & m & f' & E' & Em & Lm & Hm).
  rewrite E in E'. assert (y' = y /\ f' = f) as [-> ->] by (split; congruence). clear E'.
  destruct (rows _ _ index y f U Hi E) as [Ly' Hr]. rewrite LN in *.
  assert (F : forall i, (i < length y)%nat -> (i * index + N <= L)%nat).
  { intros i Hin. rewrite <- LN, <- LL. apply frame_fits; [exact (proj1 U)|exact Hi|rewrite <- Ly'; exact Hin]. }
  assert (V : forall i k, (i < length y)%nat -> (k < N / 2)%nat -> nth k (nth i y []) 0 = if (k =? q)%nat then A ^ 2 / 4 else 0).
  { intros i k Hin Hk. rewrite Hr by assumption. apply sinusoid_power; try assumption. apply F, Hin. }
  exists y, m, f. split; [exact E|]. split; [exact Em|]. split; [exact V|]. split.
  - intros k Hk. rewrite (proj2 (Hm k Hk)). rewrite (rsum_ext _ _ (fun _ => if (k =? q)%nat then A ^ 2 / 4 else 0)) by (intros i Hin; apply V; assumption).
    rewrite rsum_const. field. apply not_0_INR. rewrite Ly. lia.
  - intros i Hin. assert (P : 0 < INR N) by (apply lt_0_INR; lia). pose proof (F i Hin) as Fi.
    assert (Sx : forall n, Im (at_ (sinusoid A phi q N L) n) = 0).
    { intros n. unfold at_. destruct (Nat.lt_ge_cases n L) as [Hn|Hn]; [|rewrite nth_overflow by lia; reflexivity].
      unfold sinusoid. rewrite nth_map_lt with (d := 0%nat) by (rewrite seq_length; exact Hn). reflexivity. }
    assert (Sb : forall n, Im (at_ (ones N) n) = 0).
    { intros n. destruct (Nat.lt_ge_cases n N) as [Hn|Hn]; [rewrite ones_at by exact Hn; reflexivity|unfold at_; rewrite nth_overflow by lia; reflexivity]. }
    pose proof (C167_psd_real _ _ index y f U Hi ltac:(rewrite LN; lia) Sx Sb E i Hin) as Q. cbn zeta in Q. rewrite LN in Q. rewrite <- Q. clear Q.
    rewrite (rsum_single _ q); [|lia|intros k Hk Ne; rewrite V by assumption; destruct (Nat.eqb_spec k q); [contradiction|reflexivity]].
    rewrite !V by lia. rewrite Nat.eqb_refl. destruct (Nat.eqb_spec 0 q); [lia|].
    rewrite power_dft, LN. unfold dft.
    rewrite (csumn_ext N _ (fun n => Cplus (Cmult (Cmult (Cmult (RtoC (A / 2)) (cis phi)) (root N (Z.of_nat q * Z.of_nat (i * index)))) (root N (Z.of_nat n * (Z.of_nat q - Z.of_nat (N / 2)))))
                                      (Cmult (Cmult (Cmult (RtoC (A / 2)) (cis (- phi))) (root N (- (Z.of_nat q * Z.of_nat (i * index))))) (root N (Z.of_nat n * (- Z.of_nat q - Z.of_nat (N / 2))))))).
    2:{ intros k Hk. rewrite sinusoid_at, ones_at by lia. set (a := Cmult (RtoC (A / 2)) (cis phi)). set (c := Cmult (RtoC (A / 2)) (cis (- phi))). set (s := root N (- (Z.of_nat (N / 2) * Z.of_nat k))).
        transitivity (Cplus (Cmult a (Cmult (root N (Z.of_nat q * Z.of_nat (i * index + k))) s)) (Cmult c (Cmult (root N (- (Z.of_nat q * Z.of_nat (i * index + k)))) s))); [ring|].
        rewrite <- !Cmult_assoc. unfold s. rewrite <- !root_add. do 2 f_equal; f_equal; lia. }
    rewrite csumn_add, !csumn_scal, !orth by lia.
    destruct (Z.eqb_spec (- Z.of_nat q - Z.of_nat (N / 2)) 0) as [|_]; [lia|]. destruct (Z.eqb_spec (Z.of_nat q - Z.of_nat (N / 2)) 0) as [|_]; [lia|].
    match goal with |- context [Cmod ?z] => replace z with (RtoC 0) by ring end. rewrite Cmod_0. field. lra.
Qed.
Print Assumptions C167_psd_sinusoid.

(** Four samples delayed by one: both calls succeed and the hypothesis on the samples holds. *)
Example C167_example : let x := [RtoC 3; RtoC 5; RtoC 7; RtoC 11] in let x' := [RtoC 11; RtoC 3; RtoC 5; RtoC 7] in
  (exists y f, fourier x (ones 4) false = Ok (y, f)) /\ (exists y f, fourier x' (ones 4) false = Ok (y, f)) /\  (forall n, (n < 4)%nat -> at_ x' n = at_ x ((n + (4 - 1)) mod 4)).
Proof.
  cbn zeta. assert (U : forall x, length x = 4%nat -> exists y f, fourier x (ones 4) false = Ok (y, f)).
  { intros x Lx. destruct (proj1 (C76_fourier_rejects x (ones 4) false)) as (y & f & E & _); [|eauto].
    split; [rewrite Lx; cbn; lia|]. exists 0%nat. split; [cbn; lia|]. unfold at_. cbn [nth ones repeat]. rewrite Cmod_1. lra. }
  split; [apply U; reflexivity|]. split; [apply U; reflexivity|].
  intros n Hn. destruct n as [|[|[|[|n]]]]; [reflexivity..|lia].
Qed.
(** A frame of five samples of a real signal. *)
Example C167_psd_example : let x := [RtoC 3; RtoC 5; RtoC (-7); RtoC 11; RtoC 2; RtoC 4] in let b := [RtoC 1; RtoC 2; RtoC 3; RtoC 2; RtoC 1] in
  usable x b /\ (2 <= length b)%nat /\ (forall n, Im (at_ x n) = 0) /\ (forall n, Im (at_ b n) = 0) /\ (0 < 1 < 5 / 2)%nat /\ (5 / 2 <= 3 < 5)%nat.
Proof.
  cbn zeta. split; [split; [cbn; lia|exists 0%nat; split; [cbn; lia|]; unfold at_; cbn [nth]; rewrite Cmod_1; lra]|].
  split; [cbn; lia|]. split; [|split; [|cbn; lia]].
  - intros n. unfold at_. do 6 (destruct n as [|n]; [reflexivity|]). destruct n; reflexivity.
  - intros n. unfold at_. do 5 (destruct n as [|n]; [reflexivity|]). destruct n; reflexivity.
Qed.
