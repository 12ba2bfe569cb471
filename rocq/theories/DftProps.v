(** Properties C73-C80 and C113: PsdTransform and FourierTransform. *)
From Coq Require Import List Arith ZArith Bool Reals Lra Lia.
From Coquelicot Require Import Complex.
From Verif Require Import Base BaseLemmas Instances FirModel FirDesignProofs Sums PolyC DftModel DftProofs.
Import ListNotations.
Set Asymmetric Patterns.
Open Scope R_scope.
Open Scope C_scope.

(** ** Specification *)
(** Sample n of a signal. *)
Definition at_ (x : list C) (n : nat) : C := nth n x (RtoC 0).
(** The windowed spectrum (1/N) sum b[n] x[n] e^{-j pi f n} at a normalized frequency f. *)
Definition spectrum (x b : list C) (f : R) : C :=
  csumn (length b) (fun n => at_ b n * at_ x n * cis (- (PI * f * INR n))) / RtoC (INR (length b)).
(** Energy of a list. *)
Definition energy (x : list C) : R := rsum (length x) (fun n => Cmod (at_ x n) ^ 2)%R.
(** A window the code accepts for x: some element exceeds the tolerance of isclose. *)
Definition usable (x b : list C) : Prop :=
  (length b <= length x)%nat /\ exists i, (i < length b)%nat /\ (/ 100000000 < Cmod (at_ b i))%R.

(** ** FourierTransform *)
Lemma usable_ok x b : usable x b <-> (length x =? 0)%nat = false /\ ((length x <? length b)%nat || forallb close0 b)%bool = false.
Proof.
  split.
  - intros [Hl [i [Hi H]]]. split; [apply Nat.eqb_neq; lia|]. apply orb_false_iff. split; [apply Nat.ltb_ge; exact Hl|].
    apply close0_false. exists i. split; assumption.
  - intros [Hx H]. apply orb_false_iff in H. destruct H as [Hl Hc]. apply Nat.ltb_ge in Hl. split; [exact Hl|].
    assert (E : existsb (fun z => negb (close0 z)) b = true).
    { clear -Hc. induction b as [|a b IH]; [discriminate|]. cbn in *. destruct (close0 a); [cbn in *; auto|reflexivity]. }
    apply existsb_exists in E. destruct E as [z [Hz Cz]]. destruct (In_nth _ _ (RtoC 0) Hz) as [i [Hi Ei]]. exists i. split; [exact Hi|].
    unfold at_. rewrite Ei. unfold close0 in Cz. destruct (Rle_or_lt (Cmod z) (/ 100000000)) as [F|F]; [|exact F].
    apply Rleb_iff in F. rewrite F in Cz. discriminate.
Qed.

(** C76.  Which arguments are rejected, and how. *)
Theorem C76_fourier_rejects x b inverse :
  (usable x b -> exists y f, fourier x b inverse = Ok (y, f) /\ length y = length b /\ length f = length b) /\
  (~ usable x b -> fourier x b inverse = Err ValueError).
Proof.
  split.
  - intros U. apply usable_ok in U. destruct U as [U1 U2]. destruct (fourier x b inverse) as [[y f]|e] eqn:E.
    + exists y, f. split; [reflexivity|]. destruct inverse.
      * destruct (fourier_inverse _ _ _ _ E) as (_ & _ & _ & L & F & _). subst f. unfold linspace. rewrite map_length, seq_length. auto.
      * destruct (fourier_forward _ _ _ _ E) as (_ & _ & _ & L & F & _). subst f. unfold linspace. rewrite map_length, seq_length. auto.
    + unfold fourier in E. rewrite U1, U2 in E. destruct inverse; discriminate.
  - intros U. unfold fourier. destruct (length x =? 0)%nat eqn:E1; [reflexivity|].
    destruct ((length x <? length b)%nat || forallb close0 b)%bool eqn:E2; [reflexivity|]. exfalso. apply U, usable_ok. auto.
Qed.
Print Assumptions C76_fourier_rejects.

Lemma round_trip_runs x b : usable x b -> exists y f z t,
  fourier x b false = Ok (y, f) /\ fourier y b true = Ok (z, t) /\ length z = length b.
Proof.
  intros U. destruct (proj1 (C76_fourier_rejects x b false) U) as (y & f & E & Ly & _).
  assert (U' : usable y b) by (destruct U as [_ U]; split; [lia|exact U]).
  destruct (proj1 (C76_fourier_rejects y b true) U') as (z & t & E' & Lz & _). exists y, f, z, t. auto.
Qed.
Lemma far x : (/ 100000000 < Cmod x)%R -> close0 x = false.
Proof. intros H. unfold close0. destruct (Rleb _ _) eqn:E; [|reflexivity]. apply Rleb_iff in E. lra. Qed.
Lemma far_nz x : (/ 100000000 < Cmod x)%R -> x <> 0.
Proof. intros H E. rewrite E, Cmod_0 in H. lra. Qed.
Lemma list_at x y : length x = length y -> (forall n, (n < length x)%nat -> at_ x n = at_ y n) -> x = y.
Proof. intros L H. apply nth_ext with (d := RtoC 0) (d' := RtoC 0); [exact L|exact H]. Qed.

(** Ends that count as nonzero for the inverse. *)
Definition ends_far (b : list C) : Prop :=
  (/ 100000000 < Cmod (at_ b 0))%R /\ (/ 100000000 < Cmod (at_ b (length b - 1)))%R.

(** Round trip, any length. *)
Lemma round_trip_far x b : (length b <= length x)%nat -> (0 < length b)%nat -> ends_far b -> (forall n, (n < length b)%nat -> at_ b n <> 0) ->
  exists y f z t, fourier x b false = Ok (y, f) /\ fourier y b true = Ok (z, t) /\ length z = length b /\
    forall n, (n < length b)%nat -> at_ z n = at_ x n * root (length b) (Z.of_nat (length b mod 2) * Z.of_nat n).
Proof.
  intros Hl HN [E1 E2] NZ. assert (U : usable x b) by (split; [exact Hl|]; exists 0%nat; auto).
  destruct (round_trip_runs x b U) as (y & f & z & t & F & I & Lz). exists y, f, z, t. repeat (split; [assumption|]).
  intros n Hn. unfold at_. rewrite (fourier_round_trip x b y f z t n F I Hn).
  assert (Em : mended b = b) by (unfold mended; fold (at_ b 0) (at_ b (length b - 1)); rewrite (far _ E1), (far _ E2); reflexivity). rewrite Em.
  field. apply (NZ n Hn).
Qed.

Theorem C76_fourier_round_trip_even x b :
  Nat.Even (length b) -> (0 < length b)%nat -> (length b <= length x)%nat -> ends_far b -> (forall n, (n < length b)%nat -> at_ b n <> 0) ->
  exists y f t, fourier x b false = Ok (y, f) /\ fourier y b true = Ok (firstn (length b) x, t).
Proof.
  intros Ev HN Hl Ef NZ. destruct (round_trip_far x b Hl HN Ef NZ) as (y & f & z & t & F & I & Lz & Hz). exists y, f, t. split; [exact F|].
  rewrite I. do 2 f_equal. apply list_at; [rewrite firstn_length_le by exact Hl; exact Lz|]. intros n Hn. rewrite Lz in Hn.
  rewrite Hz by exact Hn. replace (length b mod 2)%nat with 0%nat.
  2:{ destruct Ev as [m ->]. symmetry. rewrite Nat.mul_comm. apply Nat.mod_mul. lia. }
  rewrite Z.mul_0_l, root_0. unfold at_. rewrite nth_firstn by exact Hn. ring.
Qed.
Print Assumptions C76_fourier_round_trip_even.

(** C77.  For an odd length the round trip rotates sample n by 2 pi n / N. *)
Theorem C77_fourier_round_trip_odd x b :
  Nat.Odd (length b) -> (length b <= length x)%nat -> ends_far b -> (forall n, (n < length b)%nat -> at_ b n <> 0) ->
  exists y f z t, fourier x b false = Ok (y, f) /\ fourier y b true = Ok (z, t) /\ length z = length b /\
    (forall n, (n < length b)%nat -> at_ z n = at_ x n * cis (2 * PI * INR n / INR (length b))) /\
    (z = firstn (length b) x <-> forall n, (0 < n < length b)%nat -> at_ x n = 0).
Proof.
  intros Od Hl Ef NZ. assert (HN : (0 < length b)%nat) by (destruct Od; lia).
  destruct (round_trip_far x b Hl HN Ef NZ) as (y & f & z & t & F & I & Lz & Hz). exists y, f, z, t. repeat (split; [assumption|]).
  assert (M : (length b mod 2 = 1)%nat) by (destruct Od as [m ->]; rewrite Nat.add_comm, Nat.mul_comm, Nat.mod_add by lia; reflexivity).
  rewrite M in Hz.
  assert (Hz' : forall n, (n < length b)%nat -> at_ z n = at_ x n * cis (2 * PI * INR n / INR (length b))).
  { intros n Hn. rewrite Hz by exact Hn. f_equal. unfold root. rewrite Z.mul_1_l, <- INR_IZR_INZ. reflexivity. }
  split; [exact Hz'|]. split.
  - intros Ez n Hn. assert (Ea : at_ z n = at_ x n) by (rewrite Ez; unfold at_; apply nth_firstn; lia).
    rewrite Hz in Ea by lia. rewrite Z.mul_1_l in Ea.
    assert (P : at_ x n * (root (length b) (Z.of_nat n) - 1) = 0) by (transitivity (at_ x n * root (length b) (Z.of_nat n) - at_ x n); [ring|rewrite Ea; ring]).
    apply Cmult_zero in P. destruct P as [P|P]; [exact P|]. exfalso. apply (root_one (length b) (Z.of_nat n)); [lia|].
    replace (root (length b) (Z.of_nat n)) with (root (length b) (Z.of_nat n) - 1 + 1) by ring. rewrite P. ring.
  - intros H. apply list_at; [rewrite firstn_length_le by exact Hl; exact Lz|]. intros n Hn. rewrite Lz in Hn. rewrite Hz by exact Hn.
    unfold at_ at 2. rewrite nth_firstn by exact Hn. fold (at_ x n). destruct (Nat.eq_dec n 0) as [->|Ne].
    + rewrite Z.mul_0_r, root_0. ring.
    + rewrite H by lia. ring.
Qed.
Print Assumptions C77_fourier_round_trip_odd.

(** The claim of an identity round trip is false for every odd length above 1. *)
Theorem C77_fourier_round_trip_refuted h : (0 < h)%nat ->
  let N := (2 * h + 1)%nat in
  exists x b y f z t, length x = N /\ length b = N /\ (forall n, (n < N)%nat -> at_ b n = 1) /\
    fourier x b false = Ok (y, f) /\ fourier y b true = Ok (z, t) /\ z <> x.
Proof.
  intros Hh N. set (u := repeat (RtoC 1) N). assert (Lu : length u = N) by apply repeat_length.
  assert (A : forall n, (n < N)%nat -> at_ u n = 1) by (intros n Hn; apply nth_repeat_lt; exact Hn).
  assert (One : forall n, (n < N)%nat -> (/ 100000000 < Cmod (at_ u n))%R) by (intros n Hn; rewrite A, Cmod_1 by exact Hn; lra).
  destruct (C77_fourier_round_trip_odd u u) as (y & f & z & t & F & I & Lz & Hz & Iff).
  - rewrite Lu. exists h. unfold N. lia.
  - lia.
  - unfold ends_far. rewrite Lu. split; apply One; unfold N; lia.
  - intros n Hn. apply far_nz, One. rewrite <- Lu. exact Hn.
  - exists u, u, y, f, z, t. repeat (split; [assumption|]). intros E. rewrite firstn_all in Iff. apply Iff with (n := 1%nat) in E; [|rewrite Lu; unfold N; lia].
    rewrite A in E by (unfold N; lia). apply RtoC_inj in E. lra.
Qed.
Print Assumptions C77_fourier_round_trip_refuted.

(** C80.  When either end counts as zero, the inverse divides both ends by their
    neighbours in the window. *)
Theorem C80_fourier_mended_ends x b :
  Nat.Even (length b) -> (2 <= length b <= length x)%nat -> ~ ends_far b ->
  (exists i, (i < length b)%nat /\ (/ 100000000 < Cmod (at_ b i))%R) ->
  (forall n, (0 < n < length b - 1)%nat -> at_ b n <> 0) ->
  exists y f z t, fourier x b false = Ok (y, f) /\ fourier y b true = Ok (z, t) /\ length z = length b /\
    (forall n, (0 < n < length b - 1)%nat -> at_ z n = at_ x n) /\
    at_ z 0 = at_ x 0 * at_ b 0 / at_ b 1 /\
    at_ z (length b - 1) = at_ x (length b - 1) * at_ b (length b - 1) / at_ b (length b - 2).
Proof.
  intros Ev Hl Nf Ex NZ. assert (U : usable x b) by (split; [lia|exact Ex]).
  destruct (round_trip_runs x b U) as (y & f & z & t & F & I & Lz). exists y, f, z, t. repeat (split; [assumption|]).
  assert (Em : mended b = mend_ends b).
  { unfold mended. destruct (_ || _)%bool eqn:E; [reflexivity|]. exfalso. apply Nf. apply orb_false_iff in E. destruct E as [E1 E2]. unfold close0 in E1, E2.
    split; apply Rnot_le_lt; intros G; apply Rleb_iff in G; unfold at_ in G; congruence. }
  assert (M : (length b mod 2 = 0)%nat) by (destruct Ev as [m ->]; rewrite Nat.mul_comm; apply Nat.mod_mul; lia).
  assert (R : forall n, (n < length b)%nat -> at_ z n = at_ x n * at_ b n / at_ (mend_ends b) n).
  { intros n Hn. unfold at_. rewrite (fourier_round_trip x b y f z t n F I Hn), Em, M, Z.mul_0_l, root_0. f_equal. ring. }
  split; [|split].
  - intros n Hn. rewrite R by lia. unfold at_ at 3. rewrite mend_ends_nth by lia.
    destruct (Nat.eqb_spec n 0); [lia|]. destruct (Nat.eqb_spec n (length b - 1)); [lia|]. fold (at_ b n). field. apply NZ, Hn.
  - rewrite R by lia. unfold at_ at 3. rewrite mend_ends_nth by lia. reflexivity.
  - rewrite R by lia. unfold at_ at 3. rewrite mend_ends_nth by lia. destruct (Nat.eqb_spec (length b - 1) 0); [lia|]. rewrite Nat.eqb_refl. reflexivity.
Qed.
Print Assumptions C80_fourier_mended_ends.

Theorem C80_fourier_zero_ends x b :
  Nat.Even (length b) -> (4 <= length b <= length x)%nat -> at_ b 0 = 0 -> at_ b (length b - 1) = 0 ->
  (exists i, (i < length b)%nat /\ (/ 100000000 < Cmod (at_ b i))%R) ->
  (forall n, (0 < n < length b - 1)%nat -> at_ b n <> 0) ->
  exists y f z t, fourier x b false = Ok (y, f) /\ fourier y b true = Ok (z, t) /\ length z = length b /\
    forall n, (n < length b)%nat -> at_ z n = if (n =? 0)%nat || (n =? length b - 1)%nat then 0 else at_ x n.
Proof.
  intros Ev Hl Z0 Z1 Ex NZ.
  destruct (C80_fourier_mended_ends x b Ev ltac:(lia)) as (y & f & z & t & F & I & Lz & Hi & H0 & H1); try assumption.
  { intros [E _]. rewrite Z0, Cmod_0 in E. lra. }
  exists y, f, z, t. repeat (split; [assumption|]). intros n Hn.
  destruct (Nat.eqb_spec n 0) as [->|N0]; cbn [orb].
  - rewrite H0, Z0. unfold Cdiv. ring.
  - destruct (Nat.eqb_spec n (length b - 1)) as [->|N1]; [rewrite H1, Z1; unfold Cdiv; ring|]. apply Hi. lia.
Qed.
Print Assumptions C80_fourier_zero_ends.
Example C80_example : let b : list C := [RtoC 0; RtoC 1; RtoC 2; RtoC 0] in let x := [RtoC 3; RtoC 5; RtoC 7; RtoC 11; RtoC 13] in
  Nat.Even (length b) /\ (4 <= length b <= length x)%nat /\ at_ b 0 = 0 /\ at_ b 3 = 0 /\
  (exists i, (i < length b)%nat /\ (/ 100000000 < Cmod (at_ b i))%R) /\ (forall n, (0 < n < 3)%nat -> at_ b n <> 0).
Proof.
  cbn zeta. split; [exists 2%nat; reflexivity|]. split; [cbn; lia|]. repeat (split; [reflexivity|]).
  split; [exists 1%nat; split; [cbn; lia|]; unfold at_; cbn [nth]; rewrite Cmod_1; lra|].
  intros n Hn. unfold at_. destruct n as [|[|[|n]]]; [lia| | |lia]; cbn [nth]; intros E; apply RtoC_inj in E; lra.
Qed.
Example C76_example : let b : list C := [RtoC 1; RtoC 2] in let x := [RtoC 3; (5, 1)%R; RtoC 7] in
  Nat.Even (length b) /\ (0 < length b)%nat /\ (length b <= length x)%nat /\ ends_far b /\ (forall n, (n < length b)%nat -> at_ b n <> 0).
Proof.
  cbn zeta. split; [exists 1%nat; reflexivity|]. split; [cbn; lia|]. split; [cbn; lia|].
  split; [unfold ends_far, at_; cbn [nth length Nat.sub]; rewrite Cmod_1, Cmod_R, Rabs_right by lra; lra|].
  cbn [length]. intros n Hn. unfold at_. destruct n as [|[|n]]; [| |lia]; cbn [nth]; intros E; apply RtoC_inj in E; lra.
Qed.
Example C77_example : let b : list C := [RtoC 1; RtoC 2; RtoC 1] in
  Nat.Odd (length b) /\ ends_far b /\ (forall n, (n < length b)%nat -> at_ b n <> 0).
Proof.
  cbn zeta. split; [exists 1%nat; reflexivity|].
  split; [unfold ends_far, at_; cbn [nth length Nat.sub]; rewrite Cmod_1; lra|].
  cbn [length]. intros n Hn. unfold at_. destruct n as [|[|[|n]]]; [| | |lia]; cbn [nth]; intros E; apply RtoC_inj in E; lra.
Qed.

(** C78. *)
Lemma cis_shift a (z : Z) b : (a = b + 2 * IZR z * PI)%R -> cis a = cis b.
Proof. intros ->. apply cis_2PI_IZR. Qed.
Theorem C78_fourier_bins x b y f k :
  fourier x b false = Ok (y, f) -> (k < length b)%nat ->
  let N := length b in
  nth k f 0%R = (-1 + 2 * INR k / INR N)%R /\
  at_ y k = spectrum x b (nth k f 0%R - INR (N mod 2) / INR N).
Proof.
  intros E Hk N. destruct (fourier_forward _ _ _ _ E) as (HN & Hl & _ & Ly & Ef & Fy). fold N in HN, Hl, Ly, Ef, Fy, Hk.
  assert (P : (0 < INR N)%R) by (apply lt_0_INR; exact HN).
  assert (A : nth k f 0%R = (-1 + 2 * INR k / INR N)%R).
  { rewrite Ef, nth_linspace by exact Hk. destruct (Nat.eq_dec N 1) as [E1|N1].
    - rewrite E1 in *. replace k with 0%nat by lia. cbn. lra.
    - rewrite minus_INR by lia. cbn [INR]. field. split; [lra|]. assert (1 < INR N)%R by (replace 1%R with (INR 1) by reflexivity; apply lt_INR; lia). lra. }
  split; [exact A|]. rewrite A. unfold at_. rewrite Fy by exact Hk. unfold spectrum. fold N. f_equal. apply csumn_ext. intros n Hn. unfold at_. f_equal.
  unfold root. apply cis_shift with (z := (- Z.of_nat n)%Z). rewrite opp_IZR, mult_IZR, opp_IZR, <- !INR_IZR_INZ, plus_INR.
  assert (D : (INR N = 2 * INR (N / 2) + INR (N mod 2))%R) by (rewrite (Nat.div_mod N 2) at 1 by lia; rewrite plus_INR, mult_INR; reflexivity).
  replace (INR (N / 2)) with ((INR N - INR (N mod 2)) / 2)%R by lra. field. lra.
Qed.
Print Assumptions C78_fourier_bins.
Theorem C78_fourier_bins_even x b y f k :
  Nat.Even (length b) -> fourier x b false = Ok (y, f) -> (k < length b)%nat -> at_ y k = spectrum x b (nth k f 0%R).
Proof.
  intros [m Em] E Hk. destruct (C78_fourier_bins x b y f k E Hk) as [_ ->]. f_equal.
  rewrite Em, Nat.mul_comm, Nat.mod_mul by lia. cbn [INR]. unfold Rdiv. ring.
Qed.
Print Assumptions C78_fourier_bins_even.
(** For odd N > 1 and every window with b[1] nonzero some signal has every bin wrong. *)
Theorem C78_fourier_bins_refuted b : Nat.Odd (length b) -> (1 < length b)%nat -> (/ 100000000 < Cmod (at_ b 1))%R ->
  exists x y f, length x = length b /\ fourier x b false = Ok (y, f) /\
    forall k, (k < length b)%nat -> at_ y k <> spectrum x b (nth k f 0%R).
Proof.
  intros Od H1 Hb. set (N := length b) in *. set (x := map (fun n => if (n =? 1)%nat then RtoC 1 else RtoC 0) (seq 0 N)).
  assert (Lx : length x = N) by (unfold x; rewrite map_length, seq_length; reflexivity).
  assert (Ax : forall n, (n < N)%nat -> at_ x n = if (n =? 1)%nat then 1 else 0).
  { intros n Hn. unfold at_, x. rewrite nth_map_lt with (d := 0%nat) by (rewrite seq_length; exact Hn). rewrite seq_nth by exact Hn. reflexivity. }
  assert (S : forall g, spectrum x b g = at_ b 1 * cis (- (PI * g)) / RtoC (INR N)).
  { intros g. unfold spectrum. fold N. f_equal. rewrite (csumn_single _ 1%nat) by (try exact H1; intros i Hi Ne; rewrite Ax by exact Hi; destruct (Nat.eqb_spec i 1); try contradiction; ring).
    rewrite Ax by exact H1. cbn [Nat.eqb INR]. rewrite Rmult_1_r. ring. }
  assert (U : usable x b) by (split; [fold N; lia|]; exists 1%nat; split; [exact H1|exact Hb]).
  destruct (proj1 (C76_fourier_rejects x b false) U) as (y & f & E & Ly & Lf). exists x, y, f. split; [exact Lx|]. split; [exact E|].
  intros k Hk. destruct (C78_fourier_bins x b y f k E Hk) as [_ ->]. rewrite !S. fold N.
  assert (M : (N mod 2 = 1)%nat) by (destruct Od as [m ->]; rewrite Nat.add_comm, Nat.mul_comm, Nat.mod_add by lia; reflexivity). rewrite M.
  assert (P : (1 < INR N)%R) by (replace 1%R with (INR 1) by reflexivity; apply lt_INR; exact H1).
  assert (NZ : RtoC (INR N) <> 0) by (intros F; apply RtoC_inj in F; lra). pose proof (far_nz _ Hb) as Bz.
  replace (- (PI * (nth k f 0 - INR 1 / INR N)))%R with (- (PI * nth k f 0) + PI / INR N)%R by (cbn [INR]; field; lra). rewrite cis_add.
  set (c := cis (- (PI * nth k f 0))%R). intros F.
  assert (G : cis (PI / INR N) = 1).
  { assert (Cz : c <> 0) by apply cis_neq_0.
    transitivity (at_ b 1 * (c * cis (PI / INR N)) / RtoC (INR N) * RtoC (INR N) / (at_ b 1 * c)); [field; auto|]. rewrite F. field. auto. }
  revert G. apply cis_one. pose proof PI_RGT_0. rewrite Rabs_right by (apply Rle_ge; apply Rlt_le; apply Rdiv_lt_0_compat; lra).
  split; [apply Rdiv_lt_0_compat; lra|]. apply Rmult_lt_reg_r with (INR N); [lra|]. unfold Rdiv. rewrite Rmult_assoc, Rinv_l by lra. nra.
Qed.
Print Assumptions C78_fourier_bins_refuted.

(** C79. *)
Theorem C79_fourier_linear (a c : C) x x' b y f y' f' :
  length x = length x' -> fourier x b false = Ok (y, f) -> fourier x' b false = Ok (y', f') ->
  fourier (map2 (fun u v => a * u + c * v) x x') b false = Ok (map2 (fun u v => a * u + c * v) y y', f).
Proof.
  intros Lx E E'. destruct (fourier_forward _ _ _ _ E) as (HN & Hl & Cb & Ly & Ef & Fy). destruct (fourier_forward _ _ _ _ E') as (_ & Hl' & _ & Ly' & Ef' & Fy').
  set (N := length b) in *. set (s := map2 _ x x').
  assert (Ls : length s = length x) by (unfold s; rewrite length_map2; lia).
  assert (U : usable s b). { apply usable_ok. rewrite Ls. fold N. split; [apply Nat.eqb_neq; lia|]. rewrite Cb, orb_false_r. apply Nat.ltb_ge. exact Hl. }
  destruct (proj1 (C76_fourier_rejects s b false) U) as (w & g & E2 & Lw & _). rewrite E2.
  destruct (fourier_forward _ _ _ _ E2) as (_ & _ & _ & _ & Eg & Fw). fold N in Lw, Eg, Fw. rewrite Eg, Ef. do 2 f_equal.
  apply list_at; [rewrite length_map2; lia|]. intros k Hk. rewrite Lw in Hk. unfold at_.
  rewrite nth_map2 with (dx := RtoC 0) (dy := RtoC 0) by lia. rewrite Fw, Fy, Fy' by exact Hk. unfold dft, Cdiv.
  rewrite !Cmult_assoc, <- !csumn_scal. rewrite <- Cmult_plus_distr_r, <- csumn_add. f_equal. apply csumn_ext. intros n Hn.
  unfold s. rewrite nth_map2 with (dx := RtoC 0) (dy := RtoC 0) by lia. ring.
Qed.
Print Assumptions C79_fourier_linear.

Lemma Cmod_sq z : RtoC (Cmod z ^ 2) = z * Cconj z.
Proof.
  destruct z as [u v]. unfold Cmod. cbn [fst snd]. rewrite pow2_sqrt by nra.
  unfold Cmult, Cconj, RtoC. cbn [fst snd]. apply injective_projections; cbn [fst snd]; ring.
Qed.
Theorem C79_fourier_parseval x b y f : fourier x b false = Ok (y, f) ->
  energy y = (energy (map2 Cmult b x) / INR (length b))%R.
Proof.
  intros E. destruct (fourier_forward _ _ _ _ E) as (HN & Hl & _ & Ly & _ & Fy). set (N := length b) in *.
  assert (P : (0 < INR N)%R) by (apply lt_0_INR; exact HN). assert (NZ : RtoC (INR N) <> 0) by (intros F; apply RtoC_inj in F; lra).
  set (w := fun n => nth n b 0 * nth n x 0) in *.
  apply RtoC_inj. rewrite RtoC_div by lra. unfold energy. rewrite Ly, length_map2. fold N. rewrite Nat.min_l by exact Hl.
  rewrite <- !csumn_RtoC.
  rewrite (csumn_ext N (fun i => RtoC (Cmod (at_ (map2 Cmult b x) i) ^ 2)) (fun n => w n * Cconj (w n))).
  2:{ intros n Hn. rewrite Cmod_sq. unfold at_. rewrite nth_map2 with (dx := RtoC 0) (dy := RtoC 0) by (fold N; lia). reflexivity. }
  rewrite (csumn_ext N _ (fun k => csumn N (fun m => csumn N (fun n => w m * Cconj (w n) * root N (- (Z.of_nat (N / 2) * (Z.of_nat m - Z.of_nat n))) / (RtoC (INR N) * RtoC (INR N)) * root N (Z.of_nat k * (Z.of_nat n - Z.of_nat m)))))).
  2:{ intros k Hk. rewrite Cmod_sq. unfold at_. rewrite Fy by exact Hk. unfold dft, Cdiv. rewrite Cconj_mul, csumn_conj.
      assert (Ci : Cconj (/ RtoC (INR N)) = / RtoC (INR N)) by (rewrite <- RtoC_inv by lra; apply Cconj_R). rewrite Ci.
      transitivity (csumn N (fun n => w n * root N (- (Z.of_nat (k + N / 2) * Z.of_nat n))) * (csumn N (fun i => Cconj (w i * root N (- (Z.of_nat (k + N / 2) * Z.of_nat i)))) * / (RtoC (INR N) * RtoC (INR N)))); [field; exact NZ|].
      rewrite <- csumn_scal_r. apply csumn_ext. intros m Hm. rewrite <- csumn_scal_r, <- csumn_scal. apply csumn_ext. intros n Hn.
      rewrite Cconj_mul, root_conj.
      transitivity (w m * Cconj (w n) * / (RtoC (INR N) * RtoC (INR N)) * (root N (- (Z.of_nat (k + N / 2) * Z.of_nat m)) * root N (- - (Z.of_nat (k + N / 2) * Z.of_nat n)))); [ring|].
      transitivity (w m * Cconj (w n) * / (RtoC (INR N) * RtoC (INR N)) * (root N (- (Z.of_nat (N / 2) * (Z.of_nat m - Z.of_nat n))) * root N (Z.of_nat k * (Z.of_nat n - Z.of_nat m)))); [|ring].
      f_equal. rewrite <- !root_add. f_equal. lia. }
  rewrite csumn_swap. unfold Cdiv at 2. rewrite <- csumn_scal_r. apply csumn_ext. intros m Hm. rewrite csumn_swap.
  rewrite (csumn_single _ m); [|exact Hm|].
  - rewrite csumn_scal, orth by lia. rewrite Z.sub_diag, Z.mul_0_r. cbn [Z.eqb Z.opp]. rewrite root_0. field. exact NZ.
  - intros n Hn Ne. rewrite csumn_scal, orth by lia. destruct (Z.eqb_spec (Z.of_nat n - Z.of_nat m) 0); [lia|]. ring.
Qed.
Print Assumptions C79_fourier_parseval.
Example C78_C79_example : exists y f, fourier [RtoC 3; RtoC 5; RtoC 7] [RtoC 1; RtoC 2; RtoC 1] false = Ok (y, f).
Proof.
  destruct (proj1 (C76_fourier_rejects [RtoC 3; RtoC 5; RtoC 7] [RtoC 1; RtoC 2; RtoC 1] false)) as (y & f & E & _); [|eauto].
  split; [cbn; lia|]. exists 0%nat. split; [cbn; lia|]. unfold at_. cbn [nth]. rewrite Cmod_1. lra.
Qed.
