(** Lemmas for properties C129-C131: recursions whose poles lie inside the unit circle. *)
From Coq Require Import String List Arith ZArith Bool Reals Lra Lia Permutation.
From Coquelicot Require Import Complex.
From Verif Require Import Base BaseLemmas PyString Instances FirModel FirSpec FirDesignProofs IirModel IirSpec IirProofs IirProps PolyC ZModel ZProofs IirDesignProofs AnalysisModel AnalysisProofs AnalysisProps RootsProps.
Import ListNotations.
Set Asymmetric Patterns.
Open Scope R_scope.
Open Scope C_scope.

(** ** Lagged sums form an algebra *)
Lemma lagged_ext c u v n : (forall m, (m <= n)%Z -> u m = v m) -> lagged c u n = lagged c v n.
Proof. revert n. induction c as [|x c IH]; intros n H; cbn [lagged]; [reflexivity|]. rewrite H by lia. rewrite (IH (n - 1)%Z); [reflexivity|]. intros m Hm. apply H. lia. Qed.
Lemma lagged_sum c u v n : lagged c (fun m => u m + v m) n = lagged c u n + lagged c v n.
Proof. revert n. induction c as [|x c IH]; intros n; cbn [lagged]; [ring|]. rewrite IH. ring. Qed.
Lemma lagged_coef k c u n : lagged (map (Cmult k) c) u n = k * lagged c u n.
Proof. revert n. induction c as [|x c IH]; intros n; cbn [lagged map]; [ring|]. rewrite IH. ring. Qed.
Lemma lagged_padd x : forall y u n, lagged (padd Cplus x y) u n = lagged x u n + lagged y u n.
Proof. induction x as [|a x IH]; intros [|b y] u n; cbn [padd lagged]; try ring. rewrite IH. ring. Qed.
Lemma lagged_shift c u n : lagged c (fun m => u (m - 1)%Z) n = lagged c u (n - 1)%Z.
Proof. revert n. induction c as [|x c IH]; intros n; cbn [lagged]; [reflexivity|]. rewrite IH. reflexivity. Qed.
Lemma lagged_conv x y u n : lagged (convC x y) u n = lagged x (lagged y u) n.
Proof.
  unfold convC. revert n. induction x as [|a x IH]; intros n; [reflexivity|]. destruct x as [|c x].
  - cbn [conv]. rewrite lagged_coef. cbn [lagged]. ring.
  - change (conv Cplus Cmult 0 (a :: c :: x) y) with (padd Cplus (map (Cmult a) y) (RtoC 0 :: conv Cplus Cmult 0 (c :: x) y)).
    rewrite lagged_padd, lagged_coef. cbn [lagged] in *. rewrite IH. ring.
Qed.
Lemma lagged_cpoly zs z u n : lagged (cpoly (zs ++ [z])) u n = lagged (cpoly zs) (fun m => u m - z * u (m - 1)%Z) n.
Proof.
  unfold cpoly. rewrite fold_left_app. cbn [fold_left]. rewrite lagged_conv. apply lagged_ext. intros m _. cbn [lagged]. ring.
Qed.
Lemma lagged_denominator a u n : lagged (denominator a) u n = u n - lagged (tl a) u (n - 1)%Z.
Proof.
  unfold denominator. cbn [lagged]. replace (map Copp (tl a)) with (map (Cmult (- (1))) (tl a)) by (apply map_ext; intros; ring).
  rewrite lagged_coef. ring.
Qed.
Lemma factored_cpoly (c zs : list C) : factored c zs -> hd (RtoC 0) c = RtoC 1 -> c = cpoly zs.
Proof.
  intros F Hc. assert (N1 : RtoC 1 <> RtoC 0) by (intros Q; apply RtoC_inj in Q; lra).
  pose proof (factored_length c zs F) as L. rewrite Hc in L. specialize (L N1). destruct F as (k & Hk & F).
  assert (E : rev c = rev (map (Cmult k) (cpoly zs))).
  { apply pe_ext; [rewrite !rev_length, map_length, cpoly_length; lia|]. intros r. rewrite <- !pvC_rev, pvC_scale, pvC_cpoly. apply F. }
  apply (f_equal (@rev C)) in E. rewrite !rev_involutive in E. destruct (cpoly_cons zs) as [r Er]. rewrite Er in *. rewrite E in Hc. cbn [map hd] in Hc.
  assert (K1 : k = RtoC 1) by (rewrite <- Hc; ring). rewrite E, K1. rewrite <- (map_id (RtoC 1 :: r)) at 2. apply map_ext. intros x. apply Cmult_1_l.
Qed.

(** ** One pole *)
Definition vanishing (e : Z -> C) : Prop := forall eps, (0 < eps)%R -> exists N, forall n, (N <= n)%Z -> (Cmod (e n) < eps)%R.

Lemma one_pole_vanishing (z : C) (e : Z -> C) : (Cmod z < 1)%R -> vanishing (fun n => e n - z * e (n - 1)%Z) -> vanishing e.
Proof.
  intros Hz H eps He. pose proof (Cmod_ge_0 z) as Hz0. set (q := Cmod z) in *.
  destruct (H (eps / 2 * (1 - q))%R) as [N HN]; [nra|].
  assert (G : forall m : nat, (Cmod (e (N + Z.of_nat m)%Z) <= q ^ m * Cmod (e N) + eps / 2 * (1 - q ^ m))%R).
  { induction m as [|m IH]; [rewrite Z.add_0_r; cbn [pow]; lra|].
    set (n := (N + Z.of_nat (S m))%Z). specialize (HN n ltac:(lia)). cbv beta in HN.
    replace (e n) with ((e n - z * e (n - 1)%Z) + z * e (n - 1)%Z) by ring.
    replace (n - 1)%Z with (N + Z.of_nat m)%Z in * by lia.
    eapply Rle_trans; [apply Cmod_triangle|]. rewrite Cmod_mult. fold q. cbn [pow].
    assert (q * Cmod (e (N + Z.of_nat m)%Z) <= q * (q ^ m * Cmod (e N) + eps / 2 * (1 - q ^ m)))%R by (apply Rmult_le_compat_l; lra). nra. }
  assert (A : (0 < Cmod (e N) + 1)%R) by (pose proof (Cmod_ge_0 (e N)); lra).
  destruct (pow_lt_1_zero q ltac:(rewrite Rabs_pos_eq by lra; exact Hz) (eps / 2 / (Cmod (e N) + 1))%R) as [M HM]; [apply Rdiv_lt_0_compat; lra|].
  exists (N + Z.of_nat M)%Z. intros n Hn. specialize (G (Z.to_nat (n - N))). replace (N + Z.of_nat (Z.to_nat (n - N)))%Z with n in G by lia.
  specialize (HM (Z.to_nat (n - N)) ltac:(lia)). set (p := (q ^ Z.to_nat (n - N))%R) in *. assert (P0 : (0 <= p)%R) by (apply pow_le; lra). rewrite Rabs_pos_eq in HM by exact P0.
  assert (p * (Cmod (e N) + 1) < eps / 2)%R.
  { apply (Rmult_lt_compat_r (Cmod (e N) + 1)) in HM; [|exact A]. replace (eps / 2 / (Cmod (e N) + 1) * (Cmod (e N) + 1))%R with (eps / 2)%R in HM by (field; lra). exact HM. }
  nra.
Qed.
Lemma poles_vanishing zs : forall e, Forall (fun z => (Cmod z < 1)%R) zs -> vanishing (lagged (cpoly zs) e) -> vanishing e.
Proof.
  induction zs as [|z zs IH] using rev_ind; intros e Hz H.
  - intros eps He. destruct (H eps He) as [N HN]. exists N. intros n Hn. specialize (HN n Hn). cbn [cpoly fold_left lagged] in HN.
    replace (RtoC 1 * e n + 0) with (e n) in HN by ring. exact HN.
  - apply Forall_app in Hz. destruct Hz as [Hz1 Hz2]. apply (one_pole_vanishing z); [inversion Hz2; assumption|]. apply IH; [exact Hz1|].
    intros eps He. destruct (H eps He) as [N HN]. exists N. intros n Hn. rewrite <- lagged_cpoly. apply HN, Hn.
Qed.

(** From rest: an explicit bound. *)
Fixpoint margin (zs : list C) : R := match zs with [] => 1%R | z :: r => ((1 - Cmod z) * margin r)%R end.
Lemma margin_app zs zs' : margin (zs ++ zs') = (margin zs * margin zs')%R.
Proof. induction zs as [|z zs IH]; cbn [app margin]; [ring|]. rewrite IH. ring. Qed.
Lemma margin_pos zs : Forall (fun z => (Cmod z < 1)%R) zs -> (0 < margin zs)%R.
Proof. intros H. induction H; cbn [margin]; [lra|]. apply Rmult_lt_0_compat; [lra|assumption]. Qed.
Lemma margin_perm zs zs' : Permutation zs zs' -> margin zs = margin zs'.
Proof. intros P. induction P; cbn [margin]; [reflexivity|rewrite IHP; reflexivity|ring|congruence]. Qed.
Lemma one_pole_bounded (z : C) (e : Z -> C) D : (Cmod z < 1)%R -> (forall n, (n < 0)%Z -> e n = RtoC 0) ->
  (forall n, (Cmod (e n - z * e (n - 1)%Z)%C <= D)%R) -> forall n, (Cmod (e n) <= D / (1 - Cmod z))%R.
Proof.
  intros Hz H0 H. pose proof (Cmod_ge_0 z) as Hz0. set (q := Cmod z) in *.
  assert (D0 : (0 <= D)%R) by (eapply Rle_trans; [apply Cmod_ge_0|apply (H 0%Z)]).
  assert (K : (0 <= D / (1 - q))%R) by (apply Rmult_le_pos; [exact D0|left; apply Rinv_0_lt_compat; lra]).
  assert (G : forall m : nat, (Cmod (e (Z.of_nat m - 1)%Z) <= D / (1 - q))%R).
  { induction m as [|m IH]; [rewrite H0 by lia; rewrite Cmod_0; exact K|].
    set (n := (Z.of_nat (S m) - 1)%Z). specialize (H n). replace (n - 1)%Z with (Z.of_nat m - 1)%Z in H by lia.
    replace (e n) with ((e n - z * e (Z.of_nat m - 1)%Z) + z * e (Z.of_nat m - 1)%Z) by ring.
    eapply Rle_trans; [apply Cmod_triangle|]. rewrite Cmod_mult. fold q.
    assert (q * Cmod (e (Z.of_nat m - 1)%Z) <= q * (D / (1 - q)))%R by (apply Rmult_le_compat_l; lra).
    assert (D + q * (D / (1 - q)) = D / (1 - q))%R by (field; lra). lra. }
  intros n. destruct (Z_lt_le_dec n 0) as [Hn|Hn]; [rewrite H0 by exact Hn; rewrite Cmod_0; exact K|].
  specialize (G (Z.to_nat (n + 1))). replace (Z.of_nat (Z.to_nat (n + 1)) - 1)%Z with n in G by lia. exact G.
Qed.
Lemma poles_bounded zs : forall e D, Forall (fun z => (Cmod z < 1)%R) zs -> (forall n, (n < 0)%Z -> e n = RtoC 0) ->
  (forall n, (Cmod (lagged (cpoly zs) e n) <= D)%R) -> forall n, (Cmod (e n) <= D / margin zs)%R.
Proof.
  induction zs as [|z zs IH] using rev_ind; intros e D Hz H0 H n.
  - specialize (H n). cbn [cpoly fold_left lagged margin] in *. replace (RtoC 1 * e n + 0) with (e n) in H by ring. lra.
  - apply Forall_app in Hz. destruct Hz as [Hz1 Hz2]. inversion_clear Hz2 as [|? ? Hz3 _]. rewrite margin_app. cbn [margin].
    pose proof (margin_pos zs Hz1) as Mp.
    assert (G : forall n, (Cmod (e n - z * e (n - 1)%Z)%C <= D / margin zs)%R).
    { apply (IH (fun n => e n - z * e (n - 1)%Z) D Hz1).
      - intros m Hm. rewrite !H0 by lia. ring.
      - intros m. rewrite <- lagged_cpoly. apply H. }
    pose proof (one_pole_bounded z e _ Hz3 H0 G n) as B.
    replace (D / (margin zs * ((1 - Cmod z) * 1)))%R with (D / margin zs / (1 - Cmod z))%R by (field; lra). exact B.
Qed.

(** ** Sums with bounded or vanishing terms *)
Fixpoint l1 (c : list C) : R := match c with [] => 0%R | x :: r => (Cmod x + l1 r)%R end.
Lemma lagged_bounded c u M n : (forall m, (Cmod (u m) <= M)%R) -> (Cmod (lagged c u n) <= l1 c * M)%R.
Proof.
  intros H. revert n. induction c as [|x c IH]; intros n; cbn [lagged l1]; [rewrite Cmod_0; lra|].
  eapply Rle_trans; [apply Cmod_triangle|]. rewrite Cmod_mult. specialize (IH (n - 1)%Z).
  assert (Cmod x * Cmod (u n) <= Cmod x * M)%R by (apply Rmult_le_compat_l; [apply Cmod_ge_0|apply H]). lra.
Qed.
Lemma l1_nonneg c : (0 <= l1 c)%R.
Proof. induction c as [|x c IH]; cbn [l1]; [lra|]. pose proof (Cmod_ge_0 x). lra. Qed.
Lemma vanishing_ext (N : Z) e e' : (forall n, (N <= n)%Z -> e n = e' n) -> vanishing e -> vanishing e'.
Proof. intros H V eps He. destruct (V eps He) as [K HK]. exists (Z.max N K). intros n Hn. rewrite <- H by lia. apply HK. lia. Qed.
Lemma vanishing_sum e e' : vanishing e -> vanishing e' -> vanishing (fun n => e n + e' n).
Proof.
  intros V V' eps He. destruct (V (eps / 2)%R) as [K HK]; [lra|]. destruct (V' (eps / 2)%R) as [K' HK']; [lra|].
  exists (Z.max K K'). intros n Hn. eapply Rle_lt_trans; [apply Cmod_triangle|]. specialize (HK n ltac:(lia)). specialize (HK' n ltac:(lia)). lra.
Qed.
Lemma vanishing_scale k e : vanishing e -> vanishing (fun n => k * e n).
Proof.
  intros V eps He. pose proof (Cmod_ge_0 k). destruct (V (eps / (Cmod k + 1))%R) as [K HK]; [apply Rdiv_lt_0_compat; lra|]. exists K. intros n Hn.
  rewrite Cmod_mult. specialize (HK n Hn). pose proof (Cmod_ge_0 (e n)).
  apply (Rmult_lt_compat_r (Cmod k + 1)) in HK; [|lra]. replace (eps / (Cmod k + 1) * (Cmod k + 1))%R with eps in HK by (field; lra). nra.
Qed.
Lemma vanishing_shift e : vanishing e -> vanishing (fun n => e (n - 1)%Z).
Proof. intros V eps He. destruct (V eps He) as [K HK]. exists (K + 1)%Z. intros n Hn. apply HK. lia. Qed.
Lemma vanishing_lagged c : forall e, vanishing e -> vanishing (lagged c e).
Proof.
  induction c as [|x c IH]; intros e V; [intros eps He; exists 0%Z; intros n _; cbn [lagged]; rewrite Cmod_0; exact He|].
  apply (vanishing_sum (fun n => x * e n) (fun n => lagged c e (n - 1)%Z)); [apply vanishing_scale, V|]. apply (vanishing_shift (lagged c e)), IH, V.
Qed.

(** ** The difference equation as lagged sums *)
Lemma lagged_bigsum (c : list C) u n : lagged c u n = @bigsum CA (length c) (fun i => Cmult (nth i c (RtoC 0)) (u (n - Z.of_nat i)%Z)).
Proof.
  revert n. induction c as [|x c IH]; intros n; [reflexivity|]. cbn [lagged length]. rewrite (bigsum_S_l CA CA_laws). cbn [nth]. rewrite IH.
  change (@add CA) with Cplus. f_equal; [rewrite Z.sub_0_r; reflexivity|]. apply (@bigsum_ext CA). intros i Hi. f_equal. f_equal. lia.
Qed.
