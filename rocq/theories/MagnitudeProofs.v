(** Lemmas for properties C132-C134: what the designed IIR filters do to sinusoids. *)
From Coq Require Import String List Arith ZArith Bool Reals Lra Lia Permutation.
From Coquelicot Require Import Complex.
From Verif Require Import Base BaseLemmas PyString Instances FirModel FirSpec FirDesignProofs IirModel PolyC ZModel ZProofs ZProps IirDesignProofs IirDesignProps AnalysisModel AnalysisProofs AnalysisProps.
Import ListNotations.
Set Asymmetric Patterns.
Open Scope R_scope.
Open Scope C_scope.

(** ** Products *)
Lemma cprod_mul {X} (f g : X -> C) l : cprod (map (fun p => f p * g p) l) = cprod (map f l) * cprod (map g l).
Proof. induction l as [|x l IH]; cbn [map cprod fold_right]; [ring|]. fold (cprod (map (fun p => f p * g p) l)). rewrite IH. unfold cprod. ring. Qed.
Lemma cprod_ext {X} (f g : X -> C) l : (forall p, In p l -> f p = g p) -> cprod (map f l) = cprod (map g l).
Proof. intros H. f_equal. apply map_ext_in. exact H. Qed.
Lemma cprod_const {X} (k : C) (l : list X) : cprod (map (fun _ => k) l) = cpow k (length l).
Proof. induction l as [|x l IH]; cbn [map cprod fold_right length cpow]; [reflexivity|]. fold (cprod (map (fun _ : X => k) l)). rewrite IH. reflexivity. Qed.
Lemma cprod_ne {X} (f : X -> C) l : (forall p, In p l -> f p <> RtoC 0) -> cprod (map f l) <> RtoC 0.
Proof. intros H Q. apply cprod_zero in Q. destruct Q as (x & Hx & ->). apply in_map_iff in Hx. destruct Hx as (p & E & Hp). exact (H p Hp E). Qed.
Lemma cpow_mul x y n : cpow (x * y) n = cpow x n * cpow y n.
Proof. induction n as [|n IH]; cbn [cpow]; [ring|]. rewrite IH. ring. Qed.
Lemma cpow_one n : cpow (RtoC 1) n = RtoC 1.
Proof. induction n as [|n IH]; cbn [cpow]; [reflexivity|]. rewrite IH. ring. Qed.
Lemma cpow_R r n : cpow (RtoC r) n = RtoC (r ^ n).
Proof. induction n as [|n IH]; cbn [cpow pow]; [reflexivity|]. rewrite IH, RtoC_mult. reflexivity. Qed.
Lemma cpow_ne x n : x <> RtoC 0 -> cpow x n <> RtoC 0.
Proof. intros H. induction n as [|n IH]; cbn [cpow]; [intros Q; apply RtoC_inj in Q; lra|]. intros Q. apply Cmult_zero in Q. tauto. Qed.
Lemma cpow_cis t n : cpow (cis t) n = cis (INR n * t).
Proof.
  induction n as [|n IH]; [cbn [cpow INR]; rewrite Rmult_0_l, cis_0; reflexivity|].
  cbn [cpow]. rewrite IH, <- cis_add. f_equal. rewrite S_INR. ring.
Qed.
Lemma Cmod_sqr z : RtoC (Cmod z ^ 2) = z * Cconj z.
Proof.
  destruct z as [x y]. unfold Cmod. cbn [fst snd].
  replace (sqrt (x ^ 2 + y ^ 2) ^ 2)%R with (x ^ 2 + y ^ 2)%R.
  - unfold Cmult, Cconj, RtoC. cbn [fst snd]. apply injective_projections; cbn [fst snd]; ring.
  - pose proof (pow2_ge_0 x). pose proof (pow2_ge_0 y). rewrite <- (Rsqr_pow2 (sqrt _)), Rsqr_sqrt by lra. reflexivity.
Qed.

(** ** A polynomial is known up to a factor by its distinct roots *)
Lemma distinct_factor zs : forall c, NoDup zs -> length c = S (length zs) -> (forall z, In z zs -> pe c z = RtoC 0) ->
  exists k, forall w, pe c w = k * cprod (map (fun z => w - z) zs).
Proof.
  induction zs as [|z zs IH]; intros c Hn Hl Hz.
  - destruct c as [|k [|y c]]; try discriminate Hl. exists k. intros w. cbn [pe map cprod fold_right]. ring.
  - inversion_clear Hn as [|? ? Hnot Hnd].
    destruct (IH (quot c z) Hnd) as [k Hk].
    + rewrite quot_length, Hl. reflexivity.
    + intros r Hr. pose proof (Hz r (or_intror Hr)) as Q. rewrite (quot_spec c z r), (Hz z (or_introl eq_refl)) in Q.
      assert (Q2 : (r - z) * pe (quot c z) r = 0) by (rewrite <- Q; ring). apply Cmult_zero in Q2. destruct Q2 as [Q2|Q2]; [|exact Q2].
      exfalso. apply Hnot. replace z with r; [exact Hr|]. transitivity (r - z + z); [ring|rewrite Q2; ring].
    + exists k. intros w. rewrite (quot_spec c z w), (Hz z (or_introl eq_refl)), Hk. cbn [map cprod fold_right]. fold (cprod (map (fun z => w - z) zs)). ring.
Qed.
Lemma NoDup_pairs {X} (f g : nat -> X) l : NoDup l -> (forall i, In i l -> f i <> g i) ->
  (forall i j, In i l -> In j l -> i <> j -> f i <> f j /\ f i <> g j /\ g i <> g j) ->
  NoDup (flat_map (fun i => [f i; g i]) l).
Proof.
  intros Hn. induction Hn as [|i l Hi Hn IH]; intros H1 H2; [constructor|]. cbn [flat_map app].
  assert (N : forall x, (x = f i \/ x = g i) -> ~ In x (flat_map (fun i => [f i; g i]) l)).
  { intros x Hx Hin. apply in_flat_map in Hin. destruct Hin as (j & Hj & Hjx).
    assert (Hne : i <> j) by (intros ->; tauto). destruct (H2 i j (or_introl eq_refl) (or_intror Hj) Hne) as (A & B & D).
    assert (Hne' : j <> i) by congruence. destruct (H2 j i (or_intror Hj) (or_introl eq_refl) Hne') as (A' & B' & D').
    cbn [In] in Hjx. destruct Hx as [->| ->]; destruct Hjx as [E|[E|[]]]; congruence. }
  constructor; [|constructor].
  - cbn [In]. intros [E|E]; [apply (H1 i (or_introl eq_refl)); congruence|exact (N (f i) (or_introl eq_refl) E)].
  - apply N. right. reflexivity.
  - apply IH; [intros j Hj; apply H1; right; exact Hj|intros j k Hj Hk; apply H2; right; assumption].
Qed.

(** ** Butterworth: |P(jx)|^2 is proportional to 1 + x^(2n) *)
Lemma pv_conj_imag l (x : R) : Cconj (pv l (Ci * RtoC x)) = pv l (- (Ci * RtoC x)).
Proof.
  unfold pv. assert (G : forall l acc s, Cconj (horner l acc s) = horner l (Cconj acc) (Cconj s)).
  { clear. induction l as [|a l IH]; intros acc s; cbn [horner]; [reflexivity|]. rewrite IH. f_equal. rewrite Cconj_add, Cconj_mul, Cconj_R. reflexivity. }
  rewrite G. f_equal; [apply Cconj_R|]. unfold Cconj, Ci, RtoC, Cmult, Copp. apply injective_projections; cbn [fst snd]; ring.
Qed.
Definition minus_sq (p : C) : C := - (p * p).
Definition butter_step (n i : nat) : R := ((2 * INR i - 1) / INR n * PI)%R.
Lemma cis_PI : cis PI = - RtoC 1.
Proof. unfold cis. rewrite cos_PI, sin_PI. apply injective_projections; cbn; ring. Qed.
Lemma cis_shift t : - cis t = cis (t + PI).
Proof. rewrite cis_add, cis_PI. ring. Qed.
Lemma cis_2PI t : cis (t + 2 * PI) = cis t.
Proof. replace (t + 2 * PI)%R with (t + PI + PI)%R by ring. rewrite <- !cis_shift. ring. Qed.
Lemma butter_minus_sq n i : (0 < n)%nat ->
  map minus_sq (butter_pair n i) = [cis (butter_step n i); cis (- butter_step n i)].
Proof.
  intros Hn. assert (Hp : (0 < INR n)%R) by (apply lt_0_INR; exact Hn). unfold butter_pair. cbn [map]. unfold minus_sq, butter_step.
  rewrite <- !cis_add, !cis_shift. f_equal; [|f_equal].
  - rewrite <- (cis_2PI ((2 * INR i - 1) / INR n * PI)). f_equal. field. lra.
  - f_equal. field. lra.
Qed.
Lemma map_flat_map {X Y Z} (h : Y -> Z) (f : X -> list Y) l : map h (flat_map f l) = flat_map (fun x => map h (f x)) l.
Proof. induction l as [|x l IH]; cbn [flat_map map]; [reflexivity|]. rewrite map_app, IH. reflexivity. Qed.
Lemma flat_map_eq {X Y} (f g : X -> list Y) l : (forall x, In x l -> f x = g x) -> flat_map f l = flat_map g l.
Proof. induction l as [|x l IH]; intros H; cbn [flat_map]; [reflexivity|]. rewrite H by (left; reflexivity). rewrite IH; [reflexivity|intros y Hy; apply H; right; exact Hy]. Qed.
Lemma butter_step_range n i : (1 <= i <= n / 2)%nat -> (0 < butter_step n i < PI)%R.
Proof.
  intros [H1 H2]. assert (Ho : (2 * i <= n)%nat) by (pose proof (Nat.div_mod n 2); lia). pose proof PI_RGT_0 as P.
  assert (Hp : (0 < INR n)%R) by (apply lt_0_INR; lia).
  assert (A1 : (1 <= INR i)%R) by (replace 1%R with (INR 1) by reflexivity; apply le_INR; lia).
  assert (A2 : (2 * INR i <= INR n)%R) by (apply le_INR in Ho; rewrite mult_INR in Ho; exact Ho).
  unfold butter_step. assert (Q1 : (0 < (2 * INR i - 1) / INR n)%R) by (apply Rdiv_lt_0_compat; lra).
  assert (Q2 : ((2 * INR i - 1) / INR n < 1)%R) by (apply (Rmult_lt_reg_r (INR n)); [lra|]; unfold Rdiv; rewrite Rmult_assoc, Rinv_l by lra; lra).
  split; nra.
Qed.
Lemma cos_inj t u : (0 < t < PI)%R -> (0 < u < PI)%R -> cos t = cos u -> t = u.
Proof.
  intros Ht Hu E. destruct (Rtotal_order t u) as [L|[L|L]]; [|exact L|]; exfalso.
  - assert (cos u < cos t)%R by (apply cos_decreasing_1; lra). lra.
  - assert (cos t < cos u)%R by (apply cos_decreasing_1; lra). lra.
Qed.
Lemma butter_squares n : (0 < n)%nat ->
  NoDup (map minus_sq (butter_poles n)) /\ length (butter_poles n) = n /\
  forall z, In z (map minus_sq (butter_poles n)) -> cpow z n = - RtoC 1.
Proof.
  intros Hn. assert (Hp : (0 < INR n)%R) by (apply lt_0_INR; exact Hn).
  assert (E : map minus_sq (butter_poles n) = flat_map (fun i => [cis (butter_step n i); cis (- butter_step n i)]) (seq 1 (n / 2)) ++ (if Nat.odd n then [- RtoC 1] else [])).
  { unfold butter_poles. rewrite map_app, map_flat_map. f_equal.
    - apply flat_map_eq. intros i _. apply butter_minus_sq, Hn.
    - destruct (Nat.odd n); [|reflexivity]. cbn [map]. unfold minus_sq. f_equal. ring. }
  assert (Rg : forall i, In i (seq 1 (n / 2)) -> (0 < butter_step n i < PI)%R) by (intros i Hi; apply in_seq in Hi; apply butter_step_range; lia).
  assert (Inj : forall i j, butter_step n i = butter_step n j -> i = j).
  { intros i j Q. unfold butter_step in Q. pose proof PI_RGT_0. apply Rmult_eq_reg_r in Q; [|lra]. apply Rmult_eq_reg_r in Q; [|apply Rinv_neq_0_compat; lra].
    apply INR_eq. lra. }
  assert (Sep : forall t u, (0 < t < PI)%R -> (0 < u < PI)%R -> cis t <> cis (- u)).
  { intros t u Ht Hu Q. apply (f_equal snd) in Q. unfold cis in Q. cbn [snd] in Q. rewrite sin_neg in Q. pose proof (sin_gt_0 t). pose proof (sin_gt_0 u). lra. }
  assert (Cj : forall t u, (0 < t < PI)%R -> (0 < u < PI)%R -> cis t = cis u -> t = u).
  { intros t u Ht Hu Q. apply cos_inj; [exact Ht|exact Hu|]. apply (f_equal fst) in Q. exact Q. }
  assert (Cj' : forall t u, (0 < t < PI)%R -> (0 < u < PI)%R -> cis (- t) = cis (- u) -> t = u).
  { intros t u Ht Hu Q. apply cos_inj; [exact Ht|exact Hu|]. apply (f_equal fst) in Q. unfold cis in Q. cbn [fst] in Q. rewrite !cos_neg in Q. exact Q. }
  split; [|split].
  - rewrite E. assert (N1 : NoDup (flat_map (fun i => [cis (butter_step n i); cis (- butter_step n i)]) (seq 1 (n / 2)))).
    { apply NoDup_pairs; [apply seq_NoDup|intros i Hi; apply Sep; apply Rg, Hi|]. intros i j Hi Hj Hij.
      split; [|split].
      - intros Q. apply Hij, Inj. apply Cj; [apply Rg, Hi|apply Rg, Hj|exact Q].
      - apply Sep; [apply Rg, Hi|apply Rg, Hj].
      - intros Q. apply Hij, Inj. apply Cj'; [apply Rg, Hi|apply Rg, Hj|exact Q]. }
    destruct (Nat.odd n); [|rewrite app_nil_r; exact N1].
    apply (Permutation_NoDup (Permutation_app_comm [- RtoC 1] _)). cbn [app]. constructor; [|exact N1].
    intros Q. apply in_flat_map in Q. destruct Q as (i & Hi & Q). pose proof (Rg i Hi) as Ri. pose proof (sin_gt_0 (butter_step n i) ltac:(lra) ltac:(lra)) as Sp.
    cbn [In] in Q. destruct Q as [Q|[Q|[]]]; apply (f_equal snd) in Q; unfold cis in Q; cbn in Q; rewrite ?sin_neg in Q; lra.
  - unfold butter_poles. rewrite app_length.
    assert (L : forall l, length (flat_map (butter_pair n) l) = (2 * length l)%nat) by (induction l as [|i l IH]; cbn [flat_map]; [reflexivity|]; rewrite app_length, IH; cbn [butter_pair length]; lia).
    rewrite L, seq_length. pose proof (Nat.div2_odd n) as D. rewrite Nat.div2_div in D. destruct (Nat.odd n); cbn [Nat.b2n length] in *; lia.
  - rewrite E. intros z Hz. apply in_app_iff in Hz.
    assert (Odd : forall i, (1 <= i)%nat -> cis ((2 * INR i - 1) * PI) = - RtoC 1).
    { intros i Hi. induction Hi as [|i Hi IH]; [replace ((2 * INR 1 - 1) * PI)%R with PI by (cbn [INR]; ring); apply cis_PI|].
      rewrite S_INR. replace ((2 * (INR i + 1) - 1) * PI)%R with ((2 * INR i - 1) * PI + 2 * PI)%R by ring. rewrite cis_2PI. exact IH. }
    destruct Hz as [Hz|Hz].
    + apply in_flat_map in Hz. destruct Hz as (i & Hi & Hz). apply in_seq in Hi.
      assert (Si : (INR n * butter_step n i = (2 * INR i - 1) * PI)%R) by (unfold butter_step; field; lra).
      cbn [In] in Hz. destruct Hz as [<-|[<-|[]]]; rewrite cpow_cis.
      * rewrite Si. apply Odd. lia.
      * replace (INR n * - butter_step n i)%R with (- (INR n * butter_step n i))%R by ring. rewrite Si, cis_neg, Odd by lia. unfold Cconj, Copp, RtoC. cbn [fst snd]. f_equal. ring.
    + destruct (Nat.odd n) eqn:O; [|destruct Hz]. destruct Hz as [<-|[]]. rewrite <- cis_PI, cpow_cis.
      apply Nat.odd_spec in O. destruct O as [m O]. replace (INR n * PI)%R with ((2 * INR (S m) - 1) * PI)%R; [rewrite (Odd (S m)) by lia; symmetry; apply cis_PI|].
      rewrite O, S_INR, plus_INR, mult_INR. cbn [INR]. ring.
Qed.
Lemma pe_power_one n w : pe (RtoC 1 :: repeat (RtoC 0) n ++ [RtoC 1]) w = 1 + cpow w (S n).
Proof. cbn [pe]. rewrite pe_app, repeat_length. assert (Z : pe (repeat (RtoC 0) n) w = 0) by (induction n as [|n IH]; cbn [repeat pe]; [reflexivity|rewrite IH; ring]). rewrite Z. cbn [pe cpow]. ring. Qed.

Theorem butterworth_magnitude n (x : R) : (0 < n)%nat ->
  (Cmod (pv (butterworth n) (Ci * RtoC x)%C) ^ 2 = Cmod (pv (butterworth n) (RtoC 0)) ^ 2 * (1 + x ^ (2 * n)))%R.
Proof.
  intros Hn. destruct (butter_squares n Hn) as (Nd & Ln & Rt).
  destruct (distinct_factor (map minus_sq (butter_poles n)) (RtoC 1 :: repeat (RtoC 0) (n - 1) ++ [RtoC 1]) Nd) as [k Hk].
  { cbn [length]. rewrite app_length, repeat_length, map_length, Ln. cbn [length]. lia. }
  { intros z Hz. rewrite pe_power_one. replace (S (n - 1)) with n by lia. rewrite (Rt z Hz). ring. }
  destruct (butter_is_roots n) as (k2 & Hk2 & Hp).
  assert (V : forall y : R, k * RtoC (Cmod (pv (butterworth n) (Ci * RtoC y)%C) ^ 2) = RtoC (k2 * k2) * RtoC (1 + y ^ (2 * n))).
  { intros y. rewrite Cmod_sqr, pv_conj_imag, !Hp, !fold_cprod. specialize (Hk (RtoC (y * y))). rewrite pe_power_one in Hk. replace (S (n - 1)) with n in Hk by lia.
    rewrite map_map in Hk.
    assert (E : cprod (map (fun p => Ci * RtoC y - p) (butter_poles n)) * cprod (map (fun p => - (Ci * RtoC y) - p) (butter_poles n)) = cprod (map (fun p => RtoC (y * y) - minus_sq p) (butter_poles n))).
    { rewrite <- cprod_mul. apply cprod_ext. intros p _. unfold minus_sq. rewrite RtoC_mult. 
      assert (Ic : Ci * Ci = - RtoC 1) by (apply injective_projections; cbn; ring).
      transitivity (- (Ci * Ci) * (RtoC y * RtoC y) + p * p); [ring|]. rewrite Ic. ring. }
    change (map (Cminus (Ci * RtoC y))) with (map (fun p => Ci * RtoC y - p)). change (map (Cminus (- (Ci * RtoC y)))) with (map (fun p => - (Ci * RtoC y) - p)).
    transitivity (RtoC k2 * RtoC k2 * (k * (cprod (map (fun p => Ci * RtoC y - p) (butter_poles n)) * cprod (map (fun p => - (Ci * RtoC y) - p) (butter_poles n))))); [ring|].
    rewrite E, <- Hk, cpow_R, (RtoC_mult k2), RtoC_plus. replace (y ^ (2 * n))%R with ((y * y) ^ n)%R by (rewrite pow_mult; f_equal; ring). ring. }
  pose proof (V x) as Vx. pose proof (V 0%R) as V0.
  assert (Z : (1 + 0 ^ (2 * n) = 1)%R) by (rewrite pow_i by lia; ring). rewrite Z in V0.
  assert (I0 : Ci * RtoC 0 = RtoC 0) by ring. rewrite I0 in V0.
  assert (Nk : k <> RtoC 0). { intros ->. rewrite Cmult_0_l in V0. rewrite <- RtoC_mult in V0. apply RtoC_inj in V0. assert (k2 * k2 <> 0)%R by (apply Rmult_integral_contrapositive; auto). lra. }
  apply RtoC_inj. apply (Cmult_inj_l k _ _ Nk). rewrite Vx, (RtoC_mult (Cmod (pv (butterworth n) (RtoC 0)) ^ 2)). rewrite Cmult_assoc, V0. ring.
Qed.

(** ** Chebyshev: |P(j 2 pi x)|^2 is proportional to 1 + eps^2 T_n(x)^2 *)
(** Chebyshev polynomials of the first kind, as functions and as coefficients (lowest
    power first). *)
Fixpoint cheb_pair {X} (two_x : X -> X) (sub : X -> X -> X) (t0 t1 : X) (n : nat) : X * X :=
  match n with
  | O => (t0, t1)
  | S m => let '(a, b) := cheb_pair two_x sub t0 t1 m in (b, sub (two_x b) a)
  end.
Definition chebT (n : nat) (x : R) : R := fst (cheb_pair (fun t => 2 * x * t)%R Rminus 1%R x n).
Definition chebC (n : nat) (x : C) : C := fst (cheb_pair (fun t => 2 * x * t) Cminus (RtoC 1) x n).
Definition csub (x y : list C) : list C := padd Cplus x (map (Cmult (- RtoC 1)) y).
Definition chebL (n : nat) : list C := fst (cheb_pair (fun t => RtoC 0 :: map (Cmult (RtoC 2)) t) csub [RtoC 1] [RtoC 0; RtoC 1] n).
Lemma chebC_R n x : chebC n (RtoC x) = RtoC (chebT n x).
Proof.
  unfold chebC, chebT. set (P := cheb_pair (fun t => 2 * RtoC x * t) Cminus (RtoC 1) (RtoC x)). set (Q := cheb_pair _ _ _ _).
  assert (G : forall n, fst (P n) = RtoC (fst (Q n)) /\ snd (P n) = RtoC (snd (Q n))); [|apply G].
  unfold P, Q. clear. induction n as [|n [IH1 IH2]]; [split; reflexivity|]. cbn [cheb_pair].
  destruct (cheb_pair _ Cminus _ _ n) as [a b]. destruct (cheb_pair _ Rminus _ _ n) as [c d]. cbn [fst snd] in *. subst a b.
  split; [reflexivity|]. rewrite RtoC_minus, !RtoC_mult. reflexivity.
Qed.
Lemma pe_csub x y w : pe (csub x y) w = pe x w - pe y w.
Proof. unfold csub. rewrite pe_padd, pe_scale. ring. Qed.
Lemma chebL_spec n : (forall w, pe (chebL n) w = chebC n w) /\ length (chebL n) = S n.
Proof.
  unfold chebL, chebC. set (L := cheb_pair _ csub _ _). set (F := fun w => cheb_pair (fun t => 2 * w * t) Cminus (RtoC 1) w).
  assert (G : forall n, (forall w, pe (fst (L n)) w = fst (F w n) /\ pe (snd (L n)) w = snd (F w n)) /\ length (fst (L n)) = S n /\ length (snd (L n)) = S (S n)).
  { unfold L, F. clear. induction n as [|n (IH & L1 & L2)].
    - split; [|split; reflexivity]. intros w. cbn [cheb_pair fst snd pe]. split; ring.
    - cbn [cheb_pair]. destruct (cheb_pair _ csub _ _ n) as [a b]. cbn [fst snd] in *. split; [|split; [exact L2|]].
      + intros w. specialize (IH w). destruct (cheb_pair _ Cminus _ _ n) as [c d]. cbn [fst snd] in *. destruct IH as [I1 I2]. split; [exact I2|].
        rewrite pe_csub. cbn [pe]. rewrite pe_scale, I1, I2. ring.
      + unfold csub. rewrite padd_length. cbn [length]. rewrite !map_length, L1, L2. lia. }
  destruct (G n) as (G1 & G2 & _). split; [intros w; apply G1|exact G2].
Qed.
(** T_n((X + 1/X)/2) = (X^n + X^-n)/2 *)
Lemma chebC_joukowski n X : X <> RtoC 0 -> chebC n ((X + / X) / 2) = (cpow X n + cpow (/ X) n) / 2.
Proof.
  intros HX. unfold chebC. set (x := (X + / X) / 2). set (P := cheb_pair _ Cminus _ _).
  assert (T2 : RtoC 2 <> RtoC 0) by (intros Q; apply RtoC_inj in Q; lra).
  assert (D : RtoC 2 = RtoC 1 + RtoC 1) by (rewrite <- RtoC_plus; f_equal; ring).
  assert (G : forall n, fst (P n) = (cpow X n + cpow (/ X) n) / 2 /\ snd (P n) = (cpow X (S n) + cpow (/ X) (S n)) / 2); [|apply G].
  unfold P. induction n0 as [|m [IH1 IH2]].
  - cbn [cheb_pair fst snd cpow]. split; [unfold Cdiv; rewrite <- RtoC_plus, <- RtoC_inv, <- RtoC_mult by lra; f_equal; field|]. unfold x. field. split; assumption.
  - cbn [cheb_pair]. destruct (cheb_pair _ _ _ _ m) as [a b]. cbn [fst snd] in *. split; [exact IH2|]. rewrite IH1, IH2. cbn [cpow].
    unfold x. generalize (cpow X m) (cpow (/ X) m). intros A B. field. split; assumption.
Qed.

Definition cheby_eps2 : R := (Rpower 10 (1 / 10 * (125 / 1000)) - 1)%R.
Lemma cheby_eps2_pos : (0 < cheby_eps2)%R.
Proof.
  unfold cheby_eps2. assert (1 < Rpower 10 (1 / 10 * (125 / 1000)))%R; [|lra].
  apply Rle_lt_trans with (Rpower 10 0); [rewrite Rpower_O by lra; lra|apply Rpower_lt; lra].
Qed.
Lemma sinh_asinh y : sinh (asinh y) = y.
Proof.
  unfold sinh, asinh. set (r := sqrt (y * y + 1)).
  assert (R2 : (r * r = y * y + 1)%R) by (apply sqrt_sqrt; nra). assert (R0 : (0 <= r)%R) by apply sqrt_pos.
  assert (P : (0 < y + r)%R) by nra.
  rewrite exp_Ropp, exp_ln by exact P. assert (I : (/ (y + r) = r - y)%R) by (apply (Rmult_eq_reg_l (y + r)); [rewrite Rinv_r by lra; nra|lra]).
  rewrite I. field.
Qed.
(** The zeros of 1 + eps^2 T_n^2 in the upper half plane. *)
Definition cheby_node (n k : nat) : C :=
  let th := (PI * INR (2 * k + 1) / (2 * INR n))%R in ((cosh (cheby_v n) * cos th)%R, (sinh (cheby_v n) * sin th)%R).
Definition cheby_zeta (n k : nat) : C := RtoC (exp (cheby_v n)) * cis (PI * INR (2 * k + 1) / (2 * INR n)).
Lemma cheby_zeta_ne n k : cheby_zeta n k <> RtoC 0.
Proof. unfold cheby_zeta. intros Q. apply Cmult_zero in Q. destruct Q as [Q|Q]; [apply RtoC_inj in Q; pose proof (exp_pos (cheby_v n)); lra|exact (cis_neq_0 _ Q)]. Qed.
Lemma cheby_zeta_inv n k : / cheby_zeta n k = RtoC (exp (- cheby_v n)) * cis (- (PI * INR (2 * k + 1) / (2 * INR n))).
Proof.
  apply (Cmult_inj_l (cheby_zeta n k)); [apply cheby_zeta_ne|]. rewrite Cinv_r by apply cheby_zeta_ne. unfold cheby_zeta.
  transitivity (RtoC (exp (cheby_v n) * exp (- cheby_v n)) * cis (PI * INR (2 * k + 1) / (2 * INR n) + - (PI * INR (2 * k + 1) / (2 * INR n)))).
  - rewrite <- exp_plus, Rplus_opp_r, exp_0, Rplus_opp_r, cis_0. ring.
  - rewrite RtoC_mult, cis_add. ring.
Qed.
Lemma cheby_node_zeta n k : cheby_node n k = (cheby_zeta n k + / cheby_zeta n k) / 2.
Proof.
  rewrite cheby_zeta_inv. unfold cheby_zeta, cheby_node, cis. set (th := (PI * INR (2 * k + 1) / (2 * INR n))%R). rewrite cos_neg, sin_neg.
  unfold Cdiv. rewrite <- RtoC_inv by lra. unfold cosh, sinh. apply injective_projections; cbn; field.
Qed.
Lemma cis_odd i : cis (INR (2 * i + 1) * PI) = - RtoC 1.
Proof.
  induction i as [|i IH]; [cbn [Nat.mul Nat.add INR]; rewrite Rmult_1_l; apply cis_PI|].
  replace (2 * S i + 1)%nat with (2 + (2 * i + 1))%nat by lia. rewrite plus_INR. cbn [INR].
  replace ((1 + 1 + INR (2 * i + 1)) * PI)%R with (INR (2 * i + 1) * PI + 2 * PI)%R by ring. rewrite cis_2PI. exact IH.
Qed.
Lemma exp_pow x n : (exp x ^ n = exp (INR n * x))%R.
Proof. induction n as [|n IH]; [cbn [pow INR]; rewrite Rmult_0_l, exp_0; reflexivity|]. cbn [pow]. rewrite IH, <- exp_plus, S_INR. f_equal. ring. Qed.
Lemma cheby_node_zero n k : (0 < n)%nat -> RtoC 1 + RtoC cheby_eps2 * (chebC n (cheby_node n k) * chebC n (cheby_node n k)) = RtoC 0.
Proof.
  intros Hn. assert (Hp : (0 < INR n)%R) by (apply lt_0_INR; exact Hn). rewrite cheby_node_zeta, chebC_joukowski by apply cheby_zeta_ne.
  set (A := cpow (cheby_zeta n k) n). set (B := cpow (/ cheby_zeta n k) n).
  assert (AB : A * B = RtoC 1) by (unfold A, B; rewrite <- cpow_mul, Cinv_r by apply cheby_zeta_ne; apply cpow_one).
  set (E := exp (INR n * cheby_v n)). assert (Ep : (0 < E)%R) by apply exp_pos.
  assert (A2 : A * A = - RtoC (E * E)).
  { unfold A, cheby_zeta. rewrite cpow_mul, cpow_R, exp_pow, cpow_cis. fold E.
    transitivity (RtoC (E * E) * (cis (INR n * (PI * INR (2 * k + 1) / (2 * INR n))) * cis (INR n * (PI * INR (2 * k + 1) / (2 * INR n))))); [rewrite RtoC_mult; ring|].
    rewrite <- cis_add. replace (INR n * (PI * INR (2 * k + 1) / (2 * INR n)) + INR n * (PI * INR (2 * k + 1) / (2 * INR n)))%R with (INR (2 * k + 1) * PI)%R by (field; lra).
    rewrite cis_odd. ring. }
  assert (B2 : B * B = - RtoC (/ (E * E))).
  { apply (Cmult_inj_l (A * A)). { rewrite A2. intros Q. rewrite <- RtoC_opp in Q. apply RtoC_inj in Q. nra. }
    transitivity ((A * B) * (A * B)); [ring|]. rewrite AB, A2. rewrite RtoC_inv by nra. field. intros Q. apply RtoC_inj in Q. nra. }
  assert (S2 : (sinh (INR n * cheby_v n) * sinh (INR n * cheby_v n) * cheby_eps2 = 1)%R).
  { unfold cheby_v. replace (INR n * (asinh (1 / sqrt (Rpower 10 (1 / 10 * (125 / 1000)) - 1)) / INR n))%R with (asinh (1 / sqrt (Rpower 10 (1 / 10 * (125 / 1000)) - 1))) by (field; lra).
    rewrite sinh_asinh. fold cheby_eps2. pose proof cheby_eps2_pos as P. pose proof (sqrt_lt_R0 _ P) as Sp.
    rewrite <- (sqrt_sqrt cheby_eps2) at 3 by lra. field. lra. }
  assert (Sv : (sinh (INR n * cheby_v n) * sinh (INR n * cheby_v n) = (E * E + / (E * E) - 2) / 4)%R).
  { unfold sinh. rewrite exp_Ropp. fold E. field. lra. }
  rewrite Sv in S2.
  assert (M : (A + B) / 2 * ((A + B) / 2) = - RtoC ((E * E + / (E * E) - 2) / 4)).
  { transitivity ((A * A + B * B + (A * B + A * B)) / (RtoC 2 * RtoC 2)); [field; intros Q; apply RtoC_inj in Q; lra|]. rewrite A2, B2, AB.
    rewrite <- RtoC_mult, <- !RtoC_opp, <- !RtoC_plus. unfold Cdiv. rewrite <- RtoC_inv, <- RtoC_mult by lra. f_equal. field. lra. }
  rewrite M. rewrite <- RtoC_opp, <- RtoC_mult, <- RtoC_plus. f_equal. lra.
Qed.
Lemma chebC_conj n z : chebC n (Cconj z) = Cconj (chebC n z).
Proof.
  unfold chebC. set (P := cheb_pair (fun t => 2 * Cconj z * t) Cminus (RtoC 1) (Cconj z)). set (Q := cheb_pair _ _ _ _).
  assert (G : forall n, fst (P n) = Cconj (fst (Q n)) /\ snd (P n) = Cconj (snd (Q n))); [|apply G].
  unfold P, Q. clear. induction n as [|n [IH1 IH2]]; [split; [symmetry; apply Cconj_R|reflexivity]|]. cbn [cheb_pair].
  destruct (cheb_pair _ _ _ (Cconj z) n) as [a b]. destruct (cheb_pair _ _ _ z n) as [c d]. cbn [fst snd] in *. subst a b.
  split; [reflexivity|]. rewrite Cconj_sub, !Cconj_mul, Cconj_R. reflexivity.
Qed.
Lemma cheby_nodes n : (0 < n)%nat -> NoDup (flat_map (fun k => [cheby_node n k; Cconj (cheby_node n k)]) (seq 0 n)).
Proof.
  intros Hn. pose proof (cheby_v_pos n Hn) as Vp. pose proof (sinh_pos _ Vp) as Sp.
  assert (Cp : (0 < cosh (cheby_v n))%R) by (unfold cosh; pose proof (exp_pos (cheby_v n)); pose proof (exp_pos (- cheby_v n)); lra).
  assert (Im : forall k, In k (seq 0 n) -> (0 < snd (cheby_node n k))%R).
  { intros k Hk. apply in_seq in Hk. unfold cheby_node. cbn [snd]. apply Rmult_lt_0_compat; [exact Sp|]. destruct (cheby_th n k ltac:(lia)). apply sin_gt_0; assumption. }
  assert (Re' : forall j k, In j (seq 0 n) -> In k (seq 0 n) -> fst (cheby_node n j) = fst (cheby_node n k) -> j = k).
  { intros j k Hj Hk Q. apply in_seq in Hj. apply in_seq in Hk. unfold cheby_node in Q. cbn [fst] in Q. apply Rmult_eq_reg_l in Q; [|lra].
    apply cos_inj in Q; [|apply cheby_th; lia|apply cheby_th; lia]. assert (Hp : (0 < INR n)%R) by (apply lt_0_INR; exact Hn). pose proof PI_RGT_0.
    apply Rmult_eq_reg_r in Q; [|apply Rinv_neq_0_compat; lra]. apply Rmult_eq_reg_l in Q; [|lra]. apply INR_eq in Q. lia. }
  apply NoDup_pairs; [apply seq_NoDup| |].
  - intros k Hk Q. specialize (Im k Hk). apply (f_equal snd) in Q. unfold Cconj in Q. cbn [snd] in Q. lra.
  - intros j k Hj Hk Hjk. pose proof (Im j Hj). pose proof (Im k Hk). split; [|split].
    + intros Q. apply Hjk, Re'; [exact Hj|exact Hk|]. rewrite Q. reflexivity.
    + intros Q. apply (f_equal snd) in Q. unfold Cconj in Q. cbn [snd] in Q. lra.
    + intros Q. apply Hjk, Re'; [exact Hj|exact Hk|]. apply (f_equal fst) in Q. exact Q.
Qed.
Lemma cheby_pole_node n k : cheby_pole n k = RtoC (2 * PI) * (Ci * cheby_node n k).
Proof. rewrite cheby_pole_eq. unfold cheby_node. apply injective_projections; cbn; ring. Qed.
Theorem chebyshev_magnitude n (x : R) : (0 < n)%nat ->
  (Cmod (pv (chebyshev n) (Ci * RtoC (2 * PI * x))%C) ^ 2 * (1 + cheby_eps2 * chebT n 0 ^ 2) =
   Cmod (pv (chebyshev n) (RtoC 0)) ^ 2 * (1 + cheby_eps2 * chebT n x ^ 2))%R.
Proof.
  intros Hn. destruct (chebL_spec n) as [LT LL].
  set (Q := padd Cplus [RtoC 1] (map (Cmult (RtoC cheby_eps2)) (convC (chebL n) (chebL n)))).
  assert (Ql : length Q = S (length (flat_map (fun k => [cheby_node n k; Cconj (cheby_node n k)]) (seq 0 n)))).
  { unfold Q. rewrite padd_length, map_length. unfold convC. rewrite conv_length by (intros E; rewrite E in LL; discriminate LL). rewrite LL. cbn [length].
    assert (L : forall l, length (flat_map (fun k => [cheby_node n k; Cconj (cheby_node n k)]) l) = (2 * length l)%nat) by (induction l as [|i l IH]; cbn [flat_map app length]; [reflexivity|rewrite IH; lia]).
    rewrite L, seq_length. lia. }
  assert (Qe : forall w, pe Q w = RtoC 1 + RtoC cheby_eps2 * (chebC n w * chebC n w)).
  { intros w. unfold Q. rewrite pe_padd, pe_scale, pe_conv, LT. cbn [pe]. ring. }
  destruct (distinct_factor _ Q (cheby_nodes n Hn) Ql) as [K HK].
  { intros z Hz. rewrite Qe. apply in_flat_map in Hz. destruct Hz as (k & _ & Hz). cbn [In] in Hz. destruct Hz as [<-|[<-|[]]]; [apply cheby_node_zero, Hn|].
    rewrite chebC_conj. pose proof (f_equal Cconj (cheby_node_zero n k Hn)) as E. rewrite Cconj_add, !Cconj_mul, !Cconj_R in E. exact E. }
  assert (F : forall y : R, RtoC ((2 * PI) ^ (2 * n)) * RtoC (1 + cheby_eps2 * chebT n y ^ 2) = K * RtoC (Cmod (pv (chebyshev n) (Ci * RtoC (2 * PI * y))) ^ 2)).
  { intros y. specialize (HK (RtoC y)). rewrite Qe, chebC_R in HK.
    assert (E1 : RtoC 1 + RtoC cheby_eps2 * (RtoC (chebT n y) * RtoC (chebT n y)) = RtoC (1 + cheby_eps2 * chebT n y ^ 2)).
    { rewrite <- !RtoC_mult, <- RtoC_plus. f_equal. ring. }
    rewrite E1 in HK. rewrite HK, Cmod_sqr, pv_chebyshev, cprod_conj, !map_map, <- cprod_mul.
    assert (E2 : forall l, cprod (map (fun z => RtoC y - z) (flat_map (fun k => [cheby_node n k; Cconj (cheby_node n k)]) l)) = cprod (map (fun k => (RtoC y - cheby_node n k) * (RtoC y - Cconj (cheby_node n k))) l)).
    { induction l as [|k l IH]; [reflexivity|]. cbn [flat_map app map]. unfold cprod in *. cbn [fold_right]. rewrite IH. ring. }
    rewrite E2.
    assert (E3 : cprod (map (fun k => (Ci * RtoC (2 * PI * y) - cheby_pole n k) * Cconj (Ci * RtoC (2 * PI * y) - cheby_pole n k)) (seq 0 n)) =
      cprod (map (fun _ => RtoC ((2 * PI) ^ 2)) (seq 0 n)) * cprod (map (fun k => (RtoC y - cheby_node n k) * (RtoC y - Cconj (cheby_node n k))) (seq 0 n))).
    { rewrite <- cprod_mul. apply cprod_ext. intros k _. rewrite cheby_pole_node. generalize (cheby_node n k). intros [a b].
      apply injective_projections; cbn; ring. }
    rewrite E3, cprod_const, seq_length, cpow_R, <- pow_mult. ring. }
  pose proof (F x) as Fx. pose proof (F 0%R) as F0. rewrite Rmult_0_r in F0. replace (Ci * RtoC 0) with (RtoC 0) in F0 by ring.
  assert (P2 : ((2 * PI) ^ (2 * n) <> 0)%R) by (apply pow_nonzero; pose proof PI_RGT_0; lra).
  assert (Nk : K <> RtoC 0).
  { intros E. rewrite E, Cmult_0_l, <- RtoC_mult in F0. apply RtoC_inj in F0. apply Rmult_integral in F0. destruct F0 as [F0|F0]; [auto|].
    pose proof cheby_eps2_pos. pose proof (pow2_ge_0 (chebT n 0)). nra. }
  apply RtoC_inj. apply (Cmult_inj_l K _ _ Nk). match goal with |- K * RtoC (?p * ?a) = K * RtoC (?q * ?b) => rewrite (RtoC_mult p a), (RtoC_mult q b) end. rewrite !Cmult_assoc, <- Fx, <- F0. ring.
Qed.
