(** Lemmas about the IIR prototypes and the design by constraints. *)
From Coq Require Import String List Arith ZArith Bool Reals Lra Lia Permutation.
From Coquelicot Require Import Complex.
From Verif Require Import Base BaseLemmas PyString Instances FirModel FirDesignProofs PolyC ZModel ZProofs ZProps.
Import ListNotations.
Set Asymmetric Patterns.
Open Scope R_scope.
Open Scope C_scope.

(** ** Polynomials with the highest power first *)
Fixpoint pvC (c : list C) (s : C) : C := match c with [] => 0 | a :: r => a * cpow s (length r) + pvC r s end.
Lemma cpow_add s n m : cpow s (n + m) = cpow s n * cpow s m.
Proof. induction n as [|n IH]; cbn [cpow Nat.add]; [ring|]. rewrite IH. ring. Qed.
Lemma horner_acc l acc s : horner l acc s = acc * cpow s (length l) + pvC (map RtoC l) s.
Proof.
  revert acc. induction l as [|x l IH]; intros acc; cbn [horner map pvC length cpow]; [ring|]. rewrite IH, map_length. ring.
Qed.
Lemma pv_pvC l s : pv l s = pvC (map RtoC l) s.
Proof. unfold pv. rewrite horner_acc. ring. Qed.
Lemma pvC_scale k c s : pvC (map (Cmult k) c) s = k * pvC c s.
Proof. induction c as [|x c IH]; cbn [map pvC]; [ring|]. rewrite IH, map_length. ring. Qed.
Lemma pvC_padd x : forall y s, (length x <= length y)%nat -> pvC (padd Cplus x y) s = pvC x s * cpow s (length y - length x) + pvC y s.
Proof.
  induction x as [|a x IH]; intros y s H; [cbn [padd pvC]; ring|]. destruct y as [|b y]; [cbn in H; lia|].
  cbn [padd pvC length] in *. rewrite IH by lia. rewrite padd_length. replace (Nat.max (length x) (length y)) with (length y) by lia.
  replace (S (length y) - S (length x))%nat with (length y - length x)%nat by lia.
  replace (cpow s (length y)) with (cpow s (length x) * cpow s (length y - length x)) by (rewrite <- cpow_add; f_equal; lia). ring.
Qed.
Lemma pvC_conv x y s : x <> [] -> y <> [] -> pvC (convC x y) s = pvC x s * pvC y s.
Proof.
  intros Hx Hy. unfold convC. induction x as [|a x IH]; [congruence|]. destruct x as [|c x].
  - cbn [conv]. rewrite pvC_scale. cbn [pvC length cpow]. ring.
  - change (conv Cplus Cmult 0 (a :: c :: x) y) with (padd Cplus (map (Cmult a) y) (RtoC 0 :: conv Cplus Cmult 0 (c :: x) y)).
    assert (L : length (conv Cplus Cmult 0 (c :: x) y) = (length (c :: x) + length y - 1)%nat) by (apply conv_length; [exact Hy|discriminate]).
    assert (Ly : (0 < length y)%nat) by (destruct y; [congruence|cbn; lia]).
    rewrite pvC_padd by (rewrite map_length; cbn [length] in *; lia).
    rewrite pvC_scale, map_length.
    change (pvC (RtoC 0 :: conv Cplus Cmult 0 (c :: x) y) s) with (0 * cpow s (length (conv Cplus Cmult 0 (c :: x) y)) + pvC (conv Cplus Cmult 0 (c :: x) y) s).
    rewrite IH by discriminate. change (pvC (a :: c :: x) s) with (a * cpow s (length (c :: x)) + pvC (c :: x) s).
    replace (length (RtoC 0 :: conv Cplus Cmult (RtoC 0) (c :: x) y) - length y)%nat with (length (c :: x)) by (cbn [length] in *; lia). ring.
Qed.
Lemma conv_ne {X} (add mul : X -> X -> X) z x y : x <> [] -> y <> [] -> conv add mul z x y <> [].
Proof.
  intros Hx Hy E. apply (f_equal (@length X)) in E. rewrite conv_length in E by assumption.
  destruct x; [congruence|]. destruct y; [congruence|]. cbn in E. lia.
Qed.
Lemma convR_C x y : map RtoC (convR x y) = convC (map RtoC x) (map RtoC y).
Proof.
  assert (P : forall x y, map RtoC (padd Rplus x y) = padd Cplus (map RtoC x) (map RtoC y)).
  { clear. induction x as [|a x IH]; intros [|b y]; cbn [padd map]; try reflexivity. rewrite IH, RtoC_plus. reflexivity. }
  unfold convR, convC. induction x as [|a x IH]; [reflexivity|].
  assert (M : map RtoC (map (Rmult a) y) = map (Cmult (RtoC a)) (map RtoC y)) by (rewrite !map_map; apply map_ext; intros; apply RtoC_mult).
  destruct x as [|c x]; [exact M|].
  change (conv Rplus Rmult 0%R (a :: c :: x) y) with (padd Rplus (map (Rmult a) y) (0%R :: conv Rplus Rmult 0%R (c :: x) y)).
  rewrite P, M. cbn [map] in *. rewrite IH. reflexivity.
Qed.
Lemma pv_convR x y s : x <> [] -> y <> [] -> pv (convR x y) s = pv x s * pv y s.
Proof.
  intros Hx Hy. rewrite !pv_pvC, convR_C. apply pvC_conv; intros E; apply map_eq_nil in E; auto.
Qed.
Lemma pvC_cpoly ps s : pvC (cpoly ps) s = cprod (map (fun p => s - p) ps).
Proof.
  unfold cpoly. enough (H : forall a, a <> [] -> pvC (fold_left (fun a z => convC a [RtoC 1; - z]) ps a) s = pvC a s * cprod (map (fun p => s - p) ps)).
  { rewrite H by discriminate. cbn [pvC length cpow]. ring. }
  induction ps as [|p ps IH]; intros a Ha; cbn [fold_left map cprod fold_right]; [ring|]. fold (cprod (map (fun p => s - p) ps)).
  rewrite IH by (apply conv_ne; [exact Ha|discriminate]). rewrite pvC_conv by (exact Ha || discriminate). cbn [pvC length cpow]. ring.
Qed.

(** ** Prototypes: every root lies in the open left half plane. *)
Definition hurwitz (l : list R) : Prop := forall s, pv l s = 0 -> (fst s < 0)%R.

Lemma quad_left c s : (0 < c)%R -> s * s + 2 * RtoC c * s + 1 = 0 -> (fst s < 0)%R.
Proof.
  intros Hc H. destruct s as [x y]. pose proof (f_equal fst H) as H1. pose proof (f_equal snd H) as H2. cbn in *.
  destruct (Req_dec y 0) as [->|Hy]; [nra|]. assert (2 * y * (x + c) = 0)%R by lra.
  assert (x + c = 0)%R by (destruct (Rmult_integral _ _ H0) as [Q|Q]; [exfalso; apply Hy; lra|exact Q]). lra.
Qed.
Lemma butter_angle order ii : (1 <= ii <= order / 2)%nat -> (cos ((2 * INR ii + INR order - 1) / (2 * INR order) * PI) < 0)%R.
Proof.
  intros [H1 H2]. assert (Ho : (2 * ii <= order)%nat) by (pose proof (Nat.div_mod order 2); lia).
  assert (Hp : (1 <= INR order)%R) by (replace 1%R with (INR 1) by reflexivity; apply le_INR; lia).
  assert (A1 : (1 <= INR ii)%R) by (replace 1%R with (INR 1) by reflexivity; apply le_INR; lia).
  assert (A2 : (2 * INR ii <= INR order)%R) by (apply le_INR in Ho; rewrite mult_INR in Ho; exact Ho).
  pose proof PI_RGT_0 as P. set (q := ((2 * INR ii + INR order - 1) / (2 * INR order))%R).
  assert (Q1 : (1 / 2 < q)%R).
  { unfold q. apply (Rmult_lt_reg_r (2 * INR order)); [lra|]. unfold Rdiv at 2. rewrite Rmult_assoc, Rinv_l by lra. lra. }
  assert (Q2 : (q < 1)%R).
  { unfold q. apply (Rmult_lt_reg_r (2 * INR order)); [lra|]. unfold Rdiv. rewrite Rmult_assoc, Rinv_l by lra. lra. }
  apply cos_lt_0; nra.
Qed.
Lemma butter_ne order l a : a <> [] -> fold_left (fun a ii => convR a (butter_factor order ii)) l a <> [].
Proof.
  revert a. induction l as [|i l IH]; intros a Ha; [exact Ha|]. cbn [fold_left]. apply IH. apply conv_ne; [exact Ha|discriminate].
Qed.
Theorem butterworth_hurwitz order : (0 < order)%nat -> hurwitz (butterworth order).
Proof.
  intros Ho s. unfold butterworth. set (B := fold_left _ _ _).
  assert (HB : pv B s = 0 -> (fst s < 0)%R).
  { unfold B. enough (G : forall l a, a <> [] -> (forall i, In i l -> (1 <= i <= order / 2)%nat) -> (pv a s = 0 -> (fst s < 0)%R) ->
      pv (fold_left (fun a ii => convR a (butter_factor order ii)) l a) s = 0 -> (fst s < 0)%R).
    { apply G; [discriminate|intros i Hi; apply in_seq in Hi; lia|]. unfold pv. cbn. intros Q. apply (f_equal fst) in Q. cbn in Q. lra. }
    induction l as [|i l IH]; intros a Ha Hl Hs; cbn [fold_left]; [exact Hs|].
    apply IH; [apply conv_ne; [exact Ha|discriminate]|intros j Hj; apply Hl; right; exact Hj|].
    rewrite pv_convR by (exact Ha || discriminate). intros Q. apply Cmult_zero in Q. destruct Q as [Q|Q]; [exact (Hs Q)|].
    pose proof (butter_angle order i (Hl i ltac:(left; reflexivity))) as Hc.
    apply (quad_left (- cos ((2 * INR i + INR order - 1) / (2 * INR order) * PI)) s); [lra|]. rewrite <- Q.
    unfold butter_factor, pv. cbn [horner]. rewrite RtoC_mult, RtoC_opp. replace (RtoC (-2)) with (- RtoC 2) by (rewrite <- RtoC_opp; reflexivity). ring. }
  destruct (Nat.odd order); [|exact HB]. rewrite pv_convR; [|apply butter_ne; discriminate|discriminate].
  intros Q. apply Cmult_zero in Q. destruct Q as [Q|Q]; [exact (HB Q)|]. unfold pv in Q. destruct s as [x y]. apply (f_equal fst) in Q. cbn in Q. cbn. lra.
Qed.

(** Bessel: the recurrence theta_n = (2n-1) theta_(n-1) + s^2 theta_(n-2). *)
Lemma pv_bessel_step u a k s : length a = S (length u) ->
  pv (vadd (u ++ [0; 0]%R) (0%R :: map (Rmult k) a)) s = pv u s * s * s + RtoC k * pv a s.
Proof.
  intros L. assert (V : forall x y, length x = length y -> pv (vadd x y) s = pv x s + pv y s).
  { unfold vadd. clear. intros x y H. rewrite !pv_pvC. revert y H. induction x as [|a x IH]; intros [|b y] H; try discriminate; cbn [map2 map pvC]; [ring|].
    injection H as H. rewrite IH by exact H. rewrite !map_length, length_map2, RtoC_plus. replace (Nat.min (length x) (length y)) with (length y) by lia. rewrite H. ring. }
  rewrite V by (rewrite app_length; cbn [length]; rewrite map_length; lia). f_equal.
  - unfold pv. rewrite !horner_acc. assert (A : forall l m, pvC (l ++ m) s = pvC l s * cpow s (length m) + pvC m s).
    { clear. induction l as [|x l IH]; intros m; cbn [app pvC]; [ring|]. rewrite IH, app_length, cpow_add. ring. }
    rewrite map_app, A. cbn [map length pvC cpow]. ring.
  - rewrite !pv_pvC. cbn [map pvC]. rewrite map_map.
    rewrite (map_ext _ (fun x => RtoC k * RtoC x)) by (intros; apply RtoC_mult). rewrite <- (map_map RtoC (Cmult (RtoC k))), pvC_scale. ring.
Qed.
Lemma bessel_loop_hurwitz n : forall ii u a, (1 <= ii)%R -> length a = S (length u) ->
  (forall s : C, (0 <= fst s)%R -> s <> 0 -> (0 < fst (pv a s * Cconj (s * pv u s))%C)%R) -> (0 < fst (pv a (RtoC 0)))%R ->
  hurwitz (bessel_loop n ii u a).
Proof.
  induction n as [|n IH]; intros ii u a Hi L Hs H0.
  - cbn [bessel_loop]. intros s Q. destruct (Rlt_or_le (fst s) 0) as [Hn|Hn]; [exact Hn|exfalso].
    destruct (Ceq_dec s 0) as [->|Ns]; [rewrite Q in H0; cbn in H0; lra|]. specialize (Hs s Hn Ns). rewrite Q in Hs. cbn in Hs. lra.
  - cbn [bessel_loop]. apply IH; [lra| | |].
    + unfold vadd. rewrite length_map2, app_length. cbn [length]. rewrite map_length. lia.
    + intros s Hn Ns. rewrite pv_bessel_step by exact L. specialize (Hs s Hn Ns). revert Hs.
      generalize (pv a s) (pv u s). intros A U HA. destruct s as [x y], A as [a1 a2], U as [u1 u2]. cbn in *.
      assert (Sq : (0 < x * x + y * y)%R).
      { destruct (Req_dec x 0) as [->|Hx]; [|nra]. destruct (Req_dec y 0) as [->|Hy]; [exfalso; apply Ns; reflexivity|nra]. }
      assert (K : (0 <= (2 * ii - 1) * (a1 * a1 + a2 * a2) * x)%R) by (apply Rmult_le_pos; [apply Rmult_le_pos; nra|exact Hn]).
      match goal with |- (0 < ?e)%R => replace e with ((x * x + y * y) * (a1 * (x * u1 - y * u2) - a2 * - (x * u2 + y * u1)) + (2 * ii - 1) * (a1 * a1 + a2 * a2) * x)%R by ring end.
      assert (0 < (x * x + y * y) * (a1 * (x * u1 - y * u2) - a2 * - (x * u2 + y * u1)))%R by (apply Rmult_lt_0_compat; assumption). lra.
    + rewrite pv_bessel_step by exact L. revert H0. generalize (pv a (RtoC 0)) (pv u (RtoC 0)). intros [a1 a2] [u1 u2]. cbn. intros H0. nra.
Qed.
Theorem bessel_hurwitz order : hurwitz (bessel order).
Proof.
  unfold bessel. apply bessel_loop_hurwitz; [lra|reflexivity| |].
  - intros [x y] Hn Ns. unfold pv. cbn in *. assert (0 < x * x + y * y)%R; [|nra].
    destruct (Req_dec x 0) as [->|Hx]; [|nra]. destruct (Req_dec y 0) as [->|Hy]; [exfalso; apply Ns; reflexivity|nra].
  - unfold pv. cbn. lra.
Qed.

(** Chebyshev: explicit poles. *)
Lemma sinh_pos x : (0 < x)%R -> (0 < sinh x)%R.
Proof. intros H. unfold sinh. assert (exp (- x) < exp x)%R by (apply exp_increasing; lra). lra. Qed.
Lemma cheby_v_pos order : (0 < order)%nat -> (0 < cheby_v order)%R.
Proof.
  intros Ho. unfold cheby_v. apply Rdiv_lt_0_compat; [|apply lt_0_INR; exact Ho].
  assert (R1 : (1 < Rpower 10 (1 / 10 * (125 / 1000)))%R).
  { apply Rle_lt_trans with (Rpower 10 0); [rewrite Rpower_O by lra; lra|apply Rpower_lt; lra]. }
  set (q := (1 / sqrt (Rpower 10 (1 / 10 * (125 / 1000)) - 1))%R).
  assert (Hq : (0 < q)%R) by (apply Rdiv_lt_0_compat; [lra|apply sqrt_lt_R0; lra]).
  unfold asinh. rewrite <- ln_1. apply ln_increasing; [lra|].
  assert (1 <= sqrt (q * q + 1))%R by (rewrite <- sqrt_1 at 1; apply sqrt_le_1_alt; nra). lra.
Qed.
Lemma cheby_th order k : (k < order)%nat -> (0 < PI * INR (2 * k + 1) / (2 * INR order) < PI)%R.
Proof.
  intros H. pose proof PI_RGT_0 as P. assert (Ho : (0 < INR order)%R) by (apply lt_0_INR; lia).
  assert (A : (0 < INR (2 * k + 1))%R) by (apply lt_0_INR; lia).
  assert (B : (INR (2 * k + 1) < 2 * INR order)%R) by (replace (2 * INR order)%R with (INR (2 * order)) by (rewrite mult_INR; reflexivity); apply lt_INR; lia).
  split; [apply Rdiv_lt_0_compat; nra|]. apply (Rmult_lt_reg_r (2 * INR order)); [lra|]. unfold Rdiv. rewrite Rmult_assoc, Rinv_l by lra. nra.
Qed.
Lemma cheby_pole_eq order k : cheby_pole order k =
  ((- sinh (cheby_v order) * sin (PI * INR (2 * k + 1) / (2 * INR order)) * 2 * PI)%R, (cosh (cheby_v order) * cos (PI * INR (2 * k + 1) / (2 * INR order)) * 2 * PI)%R).
Proof.
  unfold cheby_pole. set (th := (PI * INR (2 * k + 1) / (2 * INR order))%R). unfold Cplus, Cmult, RtoC, Ci. cbn [fst snd]. f_equal; ring.
Qed.
Lemma cheby_conj order : conj_closed (map (cheby_pole order) (seq 0 order)).
Proof.
  unfold conj_closed. rewrite map_map.
  assert (E : map (fun k => Cconj (cheby_pole order k)) (seq 0 order) = rev (map (cheby_pole order) (seq 0 order))).
  { apply nth_ext with (d := 0) (d' := 0); [rewrite rev_length, !map_length; reflexivity|].
    intros i Hi. rewrite map_length, seq_length in Hi. rewrite rev_nth by (rewrite map_length, seq_length; exact Hi).
    rewrite map_length, seq_length. rewrite !nth_map_lt with (d := 0%nat) by (rewrite seq_length; lia). rewrite !seq_nth by lia. cbn [Nat.add].
    rewrite !cheby_pole_eq. unfold Cconj. cbn [fst snd].
    assert (T : (PI * INR (2 * (order - S i) + 1) / (2 * INR order) = PI - PI * INR (2 * i + 1) / (2 * INR order))%R).
    { replace (2 * (order - S i) + 1)%nat with (2 * order - (2 * i + 1))%nat by lia. rewrite minus_INR by lia. rewrite (mult_INR 2 order).
      change (INR 2) with 2%R. field. apply not_0_INR. lia. }
    rewrite T, sin_PI_x. replace (PI - PI * INR (2 * i + 1) / (2 * INR order))%R with (- (PI * INR (2 * i + 1) / (2 * INR order)) + PI)%R by ring.
    rewrite neg_cos, cos_neg. f_equal. ring. }
  rewrite E. apply Permutation_sym, Permutation_rev.
Qed.
Lemma pv_chebyshev order s : pv (chebyshev order) s = cprod (map (fun p => s - p) (map (cheby_pole order) (seq 0 order))).
Proof. unfold chebyshev. rewrite pv_pvC, cpoly_real by apply cheby_conj. apply pvC_cpoly. Qed.
Theorem chebyshev_hurwitz order : (0 < order)%nat -> hurwitz (chebyshev order).
Proof.
  intros Ho s H. rewrite pv_chebyshev in H. apply cprod_zero in H. destruct H as (x & Hx & ->).
  apply in_map_iff in Hx. destruct Hx as (p & E & Hp). apply in_map_iff in Hp. destruct Hp as (k & <- & Hk). apply in_seq in Hk.
  assert (s = cheby_pole order k) as -> by (transitivity (s - cheby_pole order k + cheby_pole order k); [ring|rewrite E; ring]).
  rewrite cheby_pole_eq. cbn [fst]. pose proof (sinh_pos _ (cheby_v_pos order Ho)). pose proof PI_RGT_0.
  assert (0 < sin (PI * INR (2 * k + 1) / (2 * INR order)))%R by (destruct (cheby_th order k) as [T1 T2]; [lia|apply sin_gt_0; assumption]).
  assert (0 < sinh (cheby_v order) * sin (PI * INR (2 * k + 1) / (2 * INR order)))%R by (apply Rmult_lt_0_compat; assumption). nra.
Qed.

Theorem prototype_hurwitz style order : (0 < order)%nat -> hurwitz (prototype style order).
Proof.
  intros Ho. unfold prototype. destruct (String.eqb style "Bessel"); [apply bessel_hurwitz|].
  destruct (String.eqb style "Butterworth"); [apply butterworth_hurwitz, Ho|apply chebyshev_hurwitz, Ho].
Qed.

(** Lengths. *)
Lemma bessel_loop_length n : forall ii u a, length a = S (length u) -> length (bessel_loop n ii u a) = (length a + n)%nat.
Proof.
  induction n as [|n IH]; intros ii u a L; cbn [bessel_loop]; [lia|].
  assert (Lv : length (vadd (u ++ [0; 0]%R) (0%R :: map (Rmult (2 * ii - 1)) a)) = S (length a)).
  { unfold vadd. rewrite length_map2, app_length. cbn [length]. rewrite map_length. lia. }
  rewrite IH; rewrite Lv; lia.
Qed.
Lemma prototype_length style order : (0 < order)%nat -> length (prototype style order) = S order.
Proof.
  intros Ho. unfold prototype. destruct (String.eqb style "Bessel").
  - unfold bessel. rewrite bessel_loop_length by reflexivity. cbn [length]. lia.
  - destruct (String.eqb style "Butterworth").
    + unfold butterworth. set (B := fold_left _ _ _).
      assert (LB : length B = S (2 * (order / 2))).
      { unfold B. enough (G : forall l a, a <> [] -> length (fold_left (fun a ii => convR a (butter_factor order ii)) l a) = (length a + 2 * length l)%nat)
          by (rewrite G by discriminate; rewrite seq_length; cbn [length]; lia).
        induction l as [|i l IH]; intros a Ha; cbn [fold_left length]; [lia|].
        assert (Lc : length (convR a (butter_factor order i)) = (length a + 2)%nat) by (unfold convR; rewrite conv_length by (exact Ha || discriminate); cbn; lia).
        rewrite IH by (apply conv_ne; [exact Ha|discriminate]). rewrite Lc. lia. }
      destruct (Nat.odd order) eqn:Eo.
      * unfold convR. rewrite conv_length; [|discriminate|intros Q; rewrite Q in LB; discriminate]. rewrite LB. cbn [length].
        apply Nat.odd_spec in Eo. destruct Eo as [m ->]. replace ((2 * m + 1) / 2)%nat with m; [lia|]. rewrite Nat.add_comm, Nat.mul_comm, Nat.div_add by lia. cbn. lia.
      * rewrite LB. assert (Ev : Nat.even order = true) by (rewrite <- Nat.negb_odd, Eo; reflexivity).
        apply Nat.even_spec in Ev. destruct Ev as [m ->]. assert (D : (2 * m / 2 = m)%nat) by (rewrite Nat.mul_comm; apply Nat.div_mul; lia). rewrite D. reflexivity.
    + unfold chebyshev. rewrite map_length, cpoly_length, map_length, seq_length. reflexivity.
Qed.
Lemma prototype_last style order : (0 < order)%nat -> last (prototype style order) 0%R <> 0%R.
Proof.
  intros Ho E. pose proof (prototype_hurwitz style order Ho 0) as H. pose proof (prototype_length style order Ho) as L.
  assert (Z : pv (prototype style order) 0 = 0).
  { unfold pv. rewrite horner_zero; [rewrite E; reflexivity|reflexivity|]. intros C. rewrite C in L. discriminate. }
  specialize (H Z). cbn in H. lra.
Qed.

Lemma repeat_snoc {X} (x : X) n : repeat x (S n) = repeat x n ++ [x].
Proof. induction n as [|n IH]; [reflexivity|]. cbn [repeat app] in *. rewrite <- IH. reflexivity. Qed.

(** Every prototype is monic. *)
Lemma bessel_loop_monic n : forall ii u a, hd 0%R u = 1%R -> hd 0%R a = 1%R -> hd 0%R (bessel_loop n ii u a) = 1%R.
Proof.
  induction n as [|n IH]; intros ii u a Hu Ha; cbn [bessel_loop]; [exact Ha|]. apply IH; [exact Ha|].
  destruct u as [|x u]; [cbn in Hu; lra|]. cbn in Hu. subst x. cbn. ring.
Qed.
Lemma convR_monic x y : x <> [] -> y <> [] -> hd 0%R (convR x y) = (hd 0 x * hd 0 y)%R.
Proof.
  intros Hx Hy. destruct x as [|a x]; [congruence|]. destruct y as [|b y]; [congruence|]. unfold convR. destruct x as [|c x]; cbn; [reflexivity|]. ring.
Qed.
Lemma prototype_monic style order : hd 0%R (prototype style order) = 1%R.
Proof.
  unfold prototype. destruct (String.eqb style "Bessel"); [apply bessel_loop_monic; reflexivity|].
  destruct (String.eqb style "Butterworth").
  - unfold butterworth. set (B := fold_left _ _ _). assert (HB : hd 0%R B = 1%R).
    { unfold B. enough (G : forall l a, a <> [] -> hd 0%R a = 1%R -> hd 0%R (fold_left (fun a ii => convR a (butter_factor order ii)) l a) = 1%R) by (apply G; [discriminate|reflexivity]).
      induction l as [|i l IH]; intros a Ha H1; [exact H1|]. cbn [fold_left]. apply IH; [apply conv_ne; [exact Ha|discriminate]|].
      rewrite convR_monic by (exact Ha || discriminate). rewrite H1. cbn. ring. }
    destruct (Nat.odd order); [|exact HB]. rewrite convR_monic; [|intros C; rewrite C in HB; cbn in HB; lra|discriminate]. rewrite HB. cbn. ring.
  - unfold chebyshev. destruct (cpoly_cons (map (cheby_pole order) (seq 0 order))) as [r ->]. reflexivity.
Qed.
Lemma pvC_rev c s : pvC c s = pe (rev c) s.
Proof.
  induction c as [|x c IH]; cbn [pvC rev]; [reflexivity|]. rewrite IH, pe_app, rev_length. cbn [pe]. ring.
Qed.
(** Equal polynomials have equal degrees. *)
Lemma degree_le (c d : list C) : hd (RtoC 0) d <> 0 -> (forall s, pvC c s = pvC d s) -> (length d <= length c)%nat.
Proof.
  intros Hd Hs. destruct (Nat.le_gt_cases (length d) (length c)) as [?|G]; [assumption|exfalso].
  assert (E : rev c ++ repeat (RtoC 0) (length d - length c) = rev d).
  { apply pe_ext; [rewrite app_length, repeat_length, !rev_length; lia|]. intros r. rewrite pe_app_zeros, <- !pvC_rev. apply Hs. }
  apply Hd. destruct d as [|x d]; [reflexivity|]. cbn [hd rev] in *.
  replace (length (x :: d) - length c)%nat with (S (length d - length c)) in E by (cbn [length] in *; lia).
  rewrite repeat_snoc, app_assoc in E. apply app_inj_tail in E. symmetry. apply E.
Qed.

(** ** numpy.poly(-ones(order)) *)
Fixpoint binom (n k : nat) : nat :=
  match n, k with
  | _, O => 1
  | O, S _ => 0
  | S n', S k' => binom n' k' + binom n' k
  end.
Lemma nth_padd x : forall y i, nth i (padd Cplus x y) 0 = nth i x 0 + nth i y 0.
Proof.
  induction x as [|a x IH]; intros y i; [cbn [padd]; destruct i; cbn [nth]; ring|]. destruct y as [|b y]; [cbn [padd]; destruct i; cbn [nth]; ring|].
  destruct i as [|i]; cbn [padd nth]; [reflexivity|apply IH].
Qed.
Lemma nth_conv2 c e i : c <> [] -> nth i (convC c [RtoC 1; e]) 0 = nth i c 0 + match i with O => 0 | S j => e * nth j c 0 end.
Proof.
  intros Hc. unfold convC. revert i. induction c as [|a c IH]; [congruence|]. intros i. destruct c as [|b c].
  - cbn [conv map]. destruct i as [|[|i]]; cbn [nth]; [ring|ring|destruct i; ring].
  - change (conv Cplus Cmult 0 (a :: b :: c) [RtoC 1; e]) with (padd Cplus (map (Cmult a) [RtoC 1; e]) (RtoC 0 :: conv Cplus Cmult 0 (b :: c) [RtoC 1; e])).
    rewrite nth_padd. destruct i as [|i]; [cbn [map nth]; ring|].
    change (nth (S i) (RtoC 0 :: conv Cplus Cmult 0 (b :: c) [RtoC 1; e]) 0) with (nth i (conv Cplus Cmult 0 (b :: c) [RtoC 1; e]) 0).
    rewrite IH by discriminate. change (nth (S i) (a :: b :: c) 0) with (nth i (b :: c) 0).
    destruct i as [|i]; cbn [map nth]; [ring|]. destruct i; ring.
Qed.
Lemma nth_poly_ones n k : nth k (cpoly (repeat (- RtoC 1) n)) 0 = RtoC (INR (binom n k)).
Proof.
  revert k. induction n as [|n IH]; intros k.
  - destruct k as [|[|k]]; reflexivity.
  - unfold cpoly. rewrite repeat_snoc, fold_left_app. fold (cpoly (repeat (- RtoC 1) n)). cbn [fold_left].
    rewrite nth_conv2 by (destruct (cpoly_cons (repeat (- RtoC 1) n)) as [r ->]; discriminate). rewrite IH. destruct k as [|k].
    + replace (binom n 0) with 1%nat by (destruct n; reflexivity). cbn [binom]. ring.
    + rewrite IH. cbn [binom]. rewrite plus_INR, RtoC_plus. ring.
Qed.
Definition ones_poly (n : nat) : list R := map fst (cpoly (repeat (Copp (RtoC 1)) n)).
Lemma nth_ones_poly n k : nth k (ones_poly n) 0%R = INR (binom n k).
Proof. unfold ones_poly. change 0%R with (fst (RtoC 0)). rewrite map_nth, nth_poly_ones. reflexivity. Qed.
Lemma length_ones_poly n : length (ones_poly n) = S n.
Proof. unfold ones_poly. rewrite map_length, cpoly_length, repeat_length. reflexivity. Qed.
Lemma tot_ones_poly n : tot (ones_poly n) = (2 ^ n)%R.
Proof.
  apply RtoC_inj. rewrite <- pe_one_tot. unfold ones_poly. rewrite cpoly_real.
  2:{ unfold conj_closed. induction n as [|n IH]; cbn [repeat map]; [constructor|]. rewrite <- RtoC_opp, Cconj_R. constructor. rewrite RtoC_opp. exact IH. }
  rewrite pe_cpoly. induction n as [|n IH]; cbn [repeat map cprod fold_right pow]; [reflexivity|].
  fold (cprod (map (fun z => 1 - z * 1) (repeat (- RtoC 1) n))). rewrite IH, RtoC_mult. replace (RtoC 2) with (RtoC 1 + RtoC 1) by (rewrite <- RtoC_plus; f_equal; ring). ring.
Qed.
