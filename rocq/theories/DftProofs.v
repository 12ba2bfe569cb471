(** Roots of unity, finite sums and the lemmas behind DftProps.v. *)
From Coq Require Import List Arith ZArith Bool Reals Lra Lia.
From Coquelicot Require Import Complex.
From Verif Require Import Base BaseLemmas Instances FirModel FirDesignProofs Sums PolyC DftModel.
Import ListNotations.
Set Asymmetric Patterns.
Open Scope R_scope.
Open Scope C_scope.

(** ** Sums *)
Lemma csumn_ext n f g : (forall i, (i < n)%nat -> f i = g i) -> csumn n f = csumn n g.
Proof. induction n as [|n IH]; intros H; cbn [csumn]; [reflexivity|]. rewrite IH by (intros; apply H; lia). rewrite H by lia. reflexivity. Qed.
Lemma csumn_zero n f : (forall i, (i < n)%nat -> f i = RtoC 0) -> csumn n f = 0.
Proof. induction n as [|n IH]; intros H; cbn [csumn]; [reflexivity|]. rewrite IH by (intros; apply H; lia). rewrite H by lia. ring. Qed.
Lemma csumn_add n f g : csumn n (fun i => f i + g i) = csumn n f + csumn n g.
Proof. induction n as [|n IH]; cbn [csumn]; [ring|]. rewrite IH. ring. Qed.
Lemma csumn_scal n c f : csumn n (fun i => c * f i) = c * csumn n f.
Proof. induction n as [|n IH]; cbn [csumn]; [ring|]. rewrite IH. ring. Qed.
Lemma csumn_scal_r n c f : csumn n (fun i => f i * c) = csumn n f * c.
Proof. induction n as [|n IH]; cbn [csumn]; [ring|]. rewrite IH. ring. Qed.
Lemma csumn_swap n m (f : nat -> nat -> C) : csumn n (fun i => csumn m (f i)) = csumn m (fun j => csumn n (fun i => f i j)).
Proof.
  induction n as [|n IH]; cbn [csumn]; [symmetry; apply csumn_zero; reflexivity|].
  rewrite IH, <- csumn_add. reflexivity.
Qed.
Lemma csumn_single n k f : (k < n)%nat -> (forall i, (i < n)%nat -> i <> k -> f i = RtoC 0) -> csumn n f = f k.
Proof.
  induction n as [|n IH]; intros Hk H; [lia|]. cbn [csumn]. destruct (Nat.eq_dec k n) as [->|Ne].
  - rewrite csumn_zero by (intros; apply H; lia). ring.
  - rewrite IH by (try lia; intros; apply H; lia). rewrite (H n) by lia. ring.
Qed.
Lemma csumn_conj n f : Cconj (csumn n f) = csumn n (fun i => Cconj (f i)).
Proof. induction n as [|n IH]; cbn [csumn]; [apply Cconj_R|]. rewrite Cconj_add, IH. reflexivity. Qed.
Lemma csumn_RtoC n f : csumn n (fun i => RtoC (f i)) = RtoC (rsum n f).
Proof. induction n as [|n IH]; cbn [csumn rsum]; [reflexivity|]. rewrite IH, RtoC_plus. reflexivity. Qed.
Lemma csumn_const n c : csumn n (fun _ => c) = RtoC (INR n) * c.
Proof. induction n as [|n IH]; cbn [csumn]; [cbn; ring|]. rewrite IH, S_INR, RtoC_plus. ring. Qed.

(** ** Roots of unity *)
(** e^{2 pi j z / N} *)
Definition root (N : nat) (z : Z) : C := cis (2 * PI * IZR z / INR N).
Lemma root_0 N : root N 0 = 1.
Proof. unfold root. replace (2 * PI * 0 / INR N)%R with 0%R by (unfold Rdiv; ring). apply cis_0. Qed.
Lemma root_add N a b : root N (a + b) = root N a * root N b.
Proof. unfold root. rewrite <- cis_add. f_equal. rewrite plus_IZR. unfold Rdiv. ring. Qed.
Lemma root_period N z k : (0 < N)%nat -> root N (z + Z.of_nat N * k) = root N z.
Proof.
  intros HN. unfold root. rewrite <- (cis_2PI_IZR (2 * PI * IZR z / INR N) k). f_equal. rewrite plus_IZR, mult_IZR, <- INR_IZR_INZ.
  field. apply not_0_INR. lia.
Qed.
Lemma root_neq0 N z : root N z <> 0.
Proof. apply cis_neq_0. Qed.
Lemma root_conj N z : Cconj (root N z) = root N (- z).
Proof. unfold root. rewrite cis_conj. f_equal. rewrite opp_IZR. unfold Rdiv. ring. Qed.
Lemma root_mod N a k : (0 < N)%nat -> Z.modulo a (Z.of_nat N) = Z.modulo k (Z.of_nat N) -> root N a = root N k.
Proof.
  intros HN H. rewrite (Z.div_mod a (Z.of_nat N)), (Z.div_mod k (Z.of_nat N)) by lia. rewrite H.
  rewrite (Z.add_comm _ (k mod _)), (Z.add_comm _ (k mod _)). rewrite !root_period by exact HN. reflexivity.
Qed.
Lemma Cmod_root N z : Cmod (root N z) = 1%R.
Proof. apply Cmod_cis. Qed.

Lemma cis_one t : (0 < Rabs t < 2 * PI)%R -> cis t <> 1.
Proof.
  intros [H1 H2] E. unfold cis in E. injection E as Ec _.
  assert (S2 : (sin (t / 2) * sin (t / 2) = 0)%R).
  { pose proof (cos_2a_sin (t / 2)) as D. replace (2 * (t / 2))%R with t in D by field. rewrite Ec in D. lra. }
  assert (S0 : sin (t / 2) = 0%R) by nra.
  destruct (Rcase_abs t) as [Ht|Ht].
  - rewrite Rabs_left in H1, H2 by exact Ht. assert (0 < sin (- (t / 2)))%R by (apply sin_gt_0; lra). rewrite sin_neg in *. lra.
  - rewrite Rabs_right in H1, H2 by exact Ht. assert (0 < sin (t / 2))%R by (apply sin_gt_0; lra). lra.
Qed.
Lemma root_one N z : (0 < Z.abs z < Z.of_nat N)%Z -> root N z <> 1.
Proof.
  intros [H1 H2]. apply cis_one. assert (HN : (0 < INR N)%R) by (apply lt_0_INR; lia). pose proof PI_RGT_0.
  replace (2 * PI * IZR z / INR N)%R with ((2 * PI / INR N) * IZR z)%R by (field; lra).
  assert (HP : (0 < 2 * PI / INR N)%R) by (apply Rdiv_lt_0_compat; lra).
  rewrite Rabs_mult, (Rabs_right (_ / _)) by lra. rewrite <- abs_IZR. apply IZR_lt in H1, H2. rewrite <- INR_IZR_INZ in H2.
  split; [apply Rmult_lt_0_compat; lra|]. apply Rlt_le_trans with ((2 * PI / INR N) * INR N)%R; [apply Rmult_lt_compat_l; lra|]. right. field. lra.
Qed.
Lemma geometric N (w : C) (f : nat -> C) : f 0%nat = 1 -> (forall k, f (S k) = f k * w) -> (w - 1) * csumn N f = f N - 1.
Proof.
  intros H0 HS. induction N as [|N IH]; cbn [csumn]; [rewrite H0; ring|]. rewrite HS.
  transitivity ((w - 1) * csumn N f + (w - 1) * f N); [ring|]. rewrite IH. ring.
Qed.
(** Orthogonality. *)
Lemma orth N (d : Z) : (Z.abs d < Z.of_nat N)%Z ->
  csumn N (fun k => root N (Z.of_nat k * d)) = if (d =? 0)%Z then RtoC (INR N) else 0.
Proof.
  intros Hd. destruct (Z.eqb_spec d 0) as [->|Ne].
  - rewrite (csumn_ext _ _ (fun _ => 1)) by (intros; rewrite Z.mul_0_r; apply root_0). rewrite csumn_const. ring.
  - assert (G : (root N d - 1) * csumn N (fun k => root N (Z.of_nat k * d)) = root N (Z.of_nat N * d) - 1).
    { apply (geometric N (root N d) (fun k => root N (Z.of_nat k * d))); [apply root_0|]. intros k. rewrite <- root_add. f_equal. lia. }
    replace (Z.of_nat N * d)%Z with (0 + Z.of_nat N * d)%Z in G by lia. rewrite root_period, root_0 in G by lia.
    replace (1 - 1) with (RtoC 0) in G by ring. destruct (Cmult_zero _ _ G) as [F|F]; [|exact F].
    exfalso. apply (root_one N d); [lia|]. replace (root N d) with (root N d - 1 + 1) by ring. rewrite F. ring.
Qed.

(** ** fft and ifft *)
Lemma length_fft x : length (fft x) = length x.
Proof. unfold fft. rewrite map_length, seq_length. reflexivity. Qed.
Lemma length_ifft x : length (ifft x) = length x.
Proof. unfold ifft. rewrite map_length, seq_length. reflexivity. Qed.
Lemma nth_fft x k : (k < length x)%nat ->
  nth k (fft x) 0 = csumn (length x) (fun n => nth n x 0 * root (length x) (- (Z.of_nat k * Z.of_nat n))).
Proof.
  intros Hk. unfold fft. rewrite nth_map_lt with (d := 0%nat) by (rewrite seq_length; exact Hk). rewrite seq_nth by exact Hk.
  apply csumn_ext. intros n Hn. unfold root. do 2 f_equal. rewrite opp_IZR, mult_IZR, <- !INR_IZR_INZ. cbn [Nat.add]. unfold Rdiv. ring.
Qed.
Lemma nth_ifft x n : (n < length x)%nat ->
  nth n (ifft x) 0 = csumn (length x) (fun k => nth k x 0 * root (length x) (Z.of_nat k * Z.of_nat n)) / RtoC (INR (length x)).
Proof.
  intros Hk. unfold ifft. rewrite nth_map_lt with (d := 0%nat) by (rewrite seq_length; exact Hk). rewrite seq_nth by exact Hk.
  f_equal. apply csumn_ext. intros k Hn. unfold root. do 2 f_equal. rewrite mult_IZR, <- !INR_IZR_INZ. cbn [Nat.add]. unfold Rdiv. ring.
Qed.

(** ** The transforms *)
Lemma close0_false (b : list C) : (exists i, (i < length b)%nat /\ (/ 100000000 < Cmod (nth i b (RtoC 0)))%R) -> forallb close0 b = false.
Proof.
  intros [i [Hi H]]. destruct (forallb close0 b) eqn:E; [|reflexivity]. rewrite forallb_forall in E.
  specialize (E _ (nth_In b 0 Hi)). unfold close0 in E. apply Rleb_iff in E. lra.
Qed.
Lemma close0_zero : close0 0 = true.
Proof. unfold close0. apply Rleb_iff. rewrite Cmod_0. lra. Qed.

(** A sum of w[n] e^{-2 pi j z n / N}. *)
Definition dft (w : nat -> C) (N : nat) (z : Z) : C := csumn N (fun n => w n * root N (- (z * Z.of_nat n))).
Lemma dft_period w N z k : (0 < N)%nat -> dft w N (z + Z.of_nat N * k) = dft w N z.
Proof.
  intros HN. apply csumn_ext. intros n _. f_equal.
  replace (- ((z + Z.of_nat N * k) * Z.of_nat n))%Z with (- (z * Z.of_nat n) + Z.of_nat N * (- (k * Z.of_nat n)))%Z by ring. apply root_period, HN.
Qed.
Lemma dft_mod w N (k : nat) : (0 < N)%nat -> dft w N (Z.of_nat (k mod N)) = dft w N (Z.of_nat k).
Proof.
  intros HN. rewrite (Nat.div_mod k N) at 2 by lia. rewrite Nat2Z.inj_add, Nat2Z.inj_mul, Z.add_comm. symmetry. apply dft_period, HN.
Qed.

Lemma fourier_forward x b y f : fourier x b false = Ok (y, f) ->
  let N := length b in
  (0 < N)%nat /\ (N <= length x)%nat /\ forallb close0 b = false /\ length y = N /\ f = linspace (-1) (1 - 2 / INR N) N /\
  forall k, (k < N)%nat -> nth k y 0 = dft (fun n => nth n b 0 * nth n x 0) N (Z.of_nat (k + N / 2)) / RtoC (INR N).
Proof.
  intros E N. unfold fourier in E.
  destruct (Nat.eqb_spec (length x) 0) as [|Hx]; [discriminate|].
  destruct (Nat.ltb_spec (length x) (length b)) as [|Hl]; [discriminate|].
  destruct (forallb close0 b) eqn:Ec; [discriminate|]. cbn [orb] in E.
  assert (HN : (0 < N)%nat) by (unfold N; destruct b; [discriminate Ec|cbn; lia]).
  rewrite firstn_length_le in E by exact Hl. fold N in E, Hl.
  assert (Em : length (map2 Cmult b (firstn N x)) = N) by (rewrite length_map2, firstn_length_le by exact Hl; fold N; lia).
  injection E as Ey Ef.
  assert (Ly : length y = N) by (rewrite <- Ey, length_rotate_half, map_length, length_fft; exact Em).
  refine (conj HN (conj Hl (conj eq_refl (conj Ly (conj (eq_sym Ef) _))))).
  intros k Hk. rewrite <- Ey.
  assert (Hm : ((k + N / 2) mod N < N)%nat) by (apply Nat.mod_upper_bound; lia).
  rewrite nth_rotate_half by (rewrite map_length, length_fft, Em; exact Hk). rewrite map_length, length_fft, Em.
  rewrite nth_map_lt with (d := RtoC 0) by (rewrite length_fft, Em; exact Hm).
  rewrite nth_fft by (rewrite Em; exact Hm). rewrite Em. rewrite <- dft_mod by exact HN. f_equal. apply csumn_ext. intros n Hn. f_equal.
  rewrite nth_map2 with (dx := RtoC 0) (dy := RtoC 0) by (rewrite ?firstn_length_le; try exact Hn; exact Hl).
  rewrite nth_firstn by exact Hn. reflexivity.
Qed.

Lemma set_at_length i a v : length (set_at i a v) = length v.
Proof.
  unfold set_at. destruct (skipn i v) as [|c r] eqn:E.
  - rewrite app_nil_r, firstn_length. apply (f_equal (@length C)) in E. rewrite skipn_length in E. cbn in E. lia.
  - rewrite app_length, firstn_length. cbn. apply (f_equal (@length C)) in E. rewrite skipn_length in E. cbn in E. lia.
Qed.
Lemma set_at_nth i a v k : (i < length v)%nat -> nth k (set_at i a v) 0 = if (k =? i)%nat then a else nth k v 0.
Proof.
  intros Hi. unfold set_at. destruct (skipn i v) as [|c r] eqn:E.
  { apply (f_equal (@length C)) in E. rewrite skipn_length in E. cbn in E. lia. }
  assert (L : length (firstn i v) = i) by (apply firstn_length_le; lia).
  rewrite <- (firstn_skipn i v) at 2. rewrite E.
  destruct (Nat.eqb_spec k i) as [->|Ne].
  - rewrite app_nth2 by lia. rewrite L, Nat.sub_diag. reflexivity.
  - destruct (Nat.lt_ge_cases k i).
    + rewrite !app_nth1 by lia. reflexivity.
    + rewrite !app_nth2 by lia. rewrite L. destruct (k - i)%nat eqn:D; [lia|]. reflexivity.
Qed.
Lemma mend_ends_length v : length (mend_ends v) = length v.
Proof. unfold mend_ends. rewrite !set_at_length. reflexivity. Qed.
Lemma mend_ends_nth v k : (2 <= length v)%nat ->
  nth k (mend_ends v) 0 = if (k =? 0)%nat then nth 1 v 0 else if (k =? length v - 1)%nat then nth (length v - 2) v 0 else nth k v 0.
Proof.
  intros Hv. unfold mend_ends. rewrite set_at_nth by (rewrite set_at_length; lia). rewrite set_at_nth by lia.
  destruct (Nat.eqb_spec k 0); destruct (Nat.eqb_spec k (length v - 1)); try reflexivity. lia.
Qed.

(** The window the inverse divides by. *)
Definition mended (b : list C) : list C :=
  if (close0 (nth 0 b (RtoC 0)) || close0 (nth (length b - 1) b (RtoC 0)))%bool then mend_ends b else b.
Lemma mended_length b : length (mended b) = length b.
Proof. unfold mended. destruct (_ || _)%bool; [apply mend_ends_length|reflexivity]. Qed.

Lemma fourier_inverse y b z t : fourier y b true = Ok (z, t) ->
  let N := length b in
  (0 < N)%nat /\ (N <= length y)%nat /\ forallb close0 b = false /\ length z = N /\ t = linspace 0 (INR N - 1) N /\
  forall n, (n < N)%nat -> nth n z 0 =
    csumn N (fun k => nth ((k + N / 2) mod N) y 0 * root N (Z.of_nat k * Z.of_nat n)) / nth n (mended b) 0.
Proof.
  intros E N. unfold fourier in E.
  destruct (Nat.eqb_spec (length y) 0) as [|Hx]; [discriminate|].
  destruct (Nat.ltb_spec (length y) (length b)) as [|Hl]; [discriminate|].
  destruct (forallb close0 b) eqn:Ec; [discriminate|]. cbn [orb] in E.
  assert (HN : (0 < N)%nat) by (unfold N; destruct b; [discriminate Ec|cbn; lia]).
  fold (mended b) in E. rewrite firstn_length_le in E by exact Hl. fold N in E, Hl.
  pose proof (mended_length b) as Lm. fold N in Lm.
  assert (Lr : length (rotate_half (firstn N y)) = N) by (rewrite length_rotate_half, firstn_length_le by exact Hl; reflexivity).
  assert (Li : length (map (fun z => z * RtoC (INR N)) (ifft (rotate_half (firstn N y)))) = N) by (rewrite map_length, length_ifft; exact Lr).
  injection E as Ez Et.
  assert (Lz : length z = N) by (rewrite <- Ez, length_map2, Li, Lm; lia).
  refine (conj HN (conj Hl (conj eq_refl (conj Lz (conj (eq_sym Et) _))))).
  intros n Hn. rewrite <- Ez. rewrite nth_map2 with (dx := RtoC 0) (dy := RtoC 0) by (rewrite ?Li, ?Lm; exact Hn).
  f_equal. rewrite nth_map_lt with (d := RtoC 0) by (rewrite length_ifft, Lr; exact Hn).
  rewrite nth_ifft by (rewrite Lr; exact Hn). rewrite Lr.
  assert (NZ : RtoC (INR N) <> 0) by (intros F; apply RtoC_inj in F; revert F; apply not_0_INR; lia).
  transitivity (csumn N (fun n0 => nth n0 (rotate_half (firstn N y)) 0 * root N (Z.of_nat n0 * Z.of_nat n))); [field; exact NZ|].
  apply csumn_ext. intros k Hk. f_equal. rewrite nth_rotate_half by (rewrite firstn_length_le; assumption). rewrite firstn_length_le by exact Hl.
  apply nth_firstn. apply Nat.mod_upper_bound. lia.
Qed.

(** Forward then inverse, for every length and window. *)
Lemma fourier_round_trip x b y f z t n : fourier x b false = Ok (y, f) -> fourier y b true = Ok (z, t) ->
  let N := length b in (n < N)%nat ->
  nth n z 0 = nth n x 0 * nth n b 0 * root N (Z.of_nat (N mod 2) * Z.of_nat n) / nth n (mended b) 0.
Proof.
  intros E1 E2 N Hn. destruct (fourier_forward _ _ _ _ E1) as (HN & Hx & _ & Ly & _ & Fy). fold N in HN, Hx, Ly, Fy.
  destruct (fourier_inverse _ _ _ _ E2) as (_ & _ & _ & Lz & _ & Fz). fold N in Lz, Fz.
  rewrite Fz by exact Hn. f_equal. set (w := fun n => nth n b 0 * nth n x 0) in *. set (p := (N mod 2)%nat).
  assert (NZ : RtoC (INR N) <> 0) by (intros F; apply RtoC_inj in F; revert F; apply not_0_INR; lia).
  rewrite (csumn_ext _ _ (fun k => csumn N (fun m => w m * root N (Z.of_nat p * Z.of_nat m) / RtoC (INR N) * root N (Z.of_nat k * (Z.of_nat n - Z.of_nat m))))).
  2:{ intros k Hk. rewrite Fy by (apply Nat.mod_upper_bound; lia).
      assert (Ed : dft w N (Z.of_nat ((k + N / 2) mod N + N / 2)) = dft w N (Z.of_nat k - Z.of_nat p)).
      { rewrite <- dft_mod, Nat.add_mod_idemp_l, dft_mod by lia.
        replace (Z.of_nat (k + N / 2 + N / 2)) with (Z.of_nat k - Z.of_nat p + Z.of_nat N * 1)%Z; [apply dft_period, HN|].
        unfold p. pose proof (Nat.div_mod N 2 ltac:(lia)). lia. }
      rewrite Ed. unfold dft, Cdiv. rewrite <- !csumn_scal_r. apply csumn_ext. intros m _.
      transitivity (w m * / RtoC (INR N) * (root N (- ((Z.of_nat k - Z.of_nat p) * Z.of_nat m)) * root N (Z.of_nat k * Z.of_nat n))); [ring|].
      transitivity (w m * / RtoC (INR N) * (root N (Z.of_nat p * Z.of_nat m) * root N (Z.of_nat k * (Z.of_nat n - Z.of_nat m)))); [|ring].
      f_equal. rewrite <- !root_add. f_equal. ring. }
  rewrite csumn_swap. rewrite (csumn_ext _ _ (fun m => w m * root N (Z.of_nat p * Z.of_nat m) / RtoC (INR N) * (if (Z.of_nat n - Z.of_nat m =? 0)%Z then RtoC (INR N) else 0))).
  2:{ intros m Hm. rewrite csumn_scal. f_equal. apply orth. lia. }
  rewrite (csumn_single _ n); [|exact Hn|intros i Hi Ne; destruct (Z.eqb_spec (Z.of_nat n - Z.of_nat i) 0); [lia|ring]].
  rewrite Z.sub_diag. cbn [Z.eqb]. unfold w. field. exact NZ.
Qed.
