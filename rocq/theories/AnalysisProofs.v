(** Lemmas about group delay, unit-circle samples and roots. *)
From Coq Require Import List Arith ZArith Bool Reals Lra Lia Permutation.
From Coquelicot Require Import Complex.
From Verif Require Import Base BaseLemmas Instances FirModel FirDesignProofs IirModel PolyC ZProofs IirDesignProofs RankModel AnalysisModel.
Import ListNotations.
Set Asymmetric Patterns.
Open Scope R_scope.
Open Scope C_scope.

(** ** The operator z d/dz on polynomials *)
Fixpoint dp (c : list C) (z : C) : C := match c with [] => 0 | _ :: r => z * (dp r z + pe r z) end.

Lemma ramp_from c z : forall k, pe (map (fun p : C * nat => fst p * RtoC (INR (snd p))) (combine c (seq k (length c)))) z
  = dp c z + RtoC (INR k) * pe c z.
Proof.
  induction c as [|a c IH]; intros k; cbn [length seq combine map pe dp fst snd]; [ring|].
  rewrite IH. rewrite S_INR, RtoC_plus. ring.
Qed.
Lemma pe_ramp c z : pe (ramp c) z = dp c z.
Proof. unfold ramp. rewrite ramp_from. cbn [INR]. ring. Qed.

Lemma dp_padd x : forall y z, dp (padd Cplus x y) z = dp x z + dp y z.
Proof.
  induction x as [|a x IH]; intros [|b y] z; cbn [padd dp]; try ring. rewrite IH, pe_padd. ring.
Qed.
Lemma dp_scale a y z : dp (map (Cmult a) y) z = a * dp y z.
Proof. induction y as [|b y IH]; cbn [map dp]; [ring|]. rewrite IH, pe_scale. ring. Qed.
Lemma dp_conv x y z : dp (convC x y) z = dp x z * pe y z + pe x z * dp y z.
Proof.
  unfold convC. induction x as [|a x IH]; [cbn [dp pe conv]; ring|]. destruct x as [|c x].
  - cbn [conv]. rewrite dp_scale. cbn [dp pe]. ring.
  - change (conv Cplus Cmult 0 (a :: c :: x) y) with (padd Cplus (map (Cmult a) y) (RtoC 0 :: conv Cplus Cmult 0 (c :: x) y)).
    rewrite dp_padd, dp_scale. change (dp (RtoC 0 :: conv Cplus Cmult 0 (c :: x) y) z)
      with (z * (dp (conv Cplus Cmult 0 (c :: x) y) z + pe (conv Cplus Cmult 0 (c :: x) y) z)).
    rewrite IH. change (conv Cplus Cmult 0 (c :: x) y) with (convC (c :: x) y). rewrite pe_conv.
    change (dp (a :: c :: x) z) with (z * (dp (c :: x) z + pe (c :: x) z)).
    change (pe (a :: c :: x) z) with (a + z * pe (c :: x) z). ring.
Qed.
Lemma dp_snoc x a z : dp (x ++ [a]) z = dp x z + RtoC (INR (length x)) * cpow z (length x) * a.
Proof.
  induction x as [|b x IH]; cbn [app dp length cpow pe]; [cbn [INR]; ring|]. rewrite IH, pe_app. cbn [pe]. rewrite S_INR, RtoC_plus. ring.
Qed.

(** The reversed conjugate on the unit circle. *)
Lemma pe_flip a z : z * Cconj z = 1 ->
  z * pe (map Cconj (rev a)) z = cpow z (length a) * Cconj (pe a z).
Proof.
  intros U. induction a as [|x a IH]; cbn [rev map pe length cpow].
  - rewrite Cconj_R. ring.
  - rewrite map_app, pe_app. cbn [map pe]. rewrite map_length, rev_length, Cconj_add, Cconj_mul.
    transitivity (z * pe (map Cconj (rev a)) z + cpow z (length a) * z * Cconj x); [ring|]. rewrite IH.
    transitivity (cpow z (length a) * z * Cconj x + cpow z (length a) * Cconj (pe a z) * (z * Cconj z)); [rewrite U; ring|ring].
Qed.
Lemma dp_flip a z : z * Cconj z = 1 ->
  z * dp (map Cconj (rev a)) z = cpow z (length a) * ((RtoC (INR (length a)) - 1) * Cconj (pe a z) - Cconj (dp a z)).
Proof.
  intros U. induction a as [|x a IH]; [cbn [rev map dp pe length cpow INR]; rewrite Cconj_R; ring|].
  cbn [rev]. rewrite map_app. cbn [map]. rewrite dp_snoc, map_length, rev_length.
  transitivity (z * dp (map Cconj (rev a)) z + RtoC (INR (length a)) * cpow z (length a) * Cconj x * z); [ring|]. rewrite IH.
  cbn [length cpow pe dp]. rewrite S_INR, RtoC_plus, !Cconj_add, !Cconj_mul, Cconj_add.
  transitivity (z * cpow z (length a) * RtoC (INR (length a)) * Cconj x +
    (z * Cconj z) * cpow z (length a) * ((RtoC (INR (length a)) + 1 - 1) * Cconj (pe a z) - (Cconj (dp a z) + Cconj (pe a z)))).
  - rewrite U. ring.
  - ring.
Qed.

(** ** Derivatives along the unit circle *)
Definition der (F : R -> C) (w : R) (d : C) : Prop :=
  derivable_pt_lim (fun u => fst (F u)) w (fst d) /\ derivable_pt_lim (fun u => snd (F u)) w (snd d).

Lemma der_ext F G w d : (forall u, F u = G u) -> der F w d -> der G w d.
Proof.
  intros E [H1 H2]. split.
  - intros e He. destruct (H1 e He) as [dl Hd]. exists dl. intros h Hh Hl. rewrite <- !E. apply Hd; assumption.
  - intros e He. destruct (H2 e He) as [dl Hd]. exists dl. intros h Hh Hl. rewrite <- !E. apply Hd; assumption.
Qed.
Lemma der_const c w : der (fun _ => c) w 0.
Proof. split; apply derivable_pt_lim_const. Qed.
Lemma der_plus F G w d e : der F w d -> der G w e -> der (fun u => F u + G u) w (d + e).
Proof.
  intros [H1 H2] [H3 H4]. split.
  - apply (derivable_pt_lim_plus (fun u => fst (F u)) (fun u => fst (G u))); assumption.
  - apply (derivable_pt_lim_plus (fun u => snd (F u)) (fun u => snd (G u))); assumption.
Qed.
Lemma der_mult F G w d e : der F w d -> der G w e -> der (fun u => F u * G u) w (d * G w + F w * e).
Proof.
  intros [H1 H2] [H3 H4]. split; cbn [fst snd Cmult Cplus].
  - replace (fst d * fst (G w) - snd d * snd (G w) + (fst (F w) * fst e - snd (F w) * snd e))%R
      with ((fst d * fst (G w) + fst (F w) * fst e) - (snd d * snd (G w) + snd (F w) * snd e))%R by ring.
    apply (derivable_pt_lim_minus (fun u => fst (F u) * fst (G u))%R (fun u => snd (F u) * snd (G u))%R);
    [apply (derivable_pt_lim_mult (fun u => fst (F u)) (fun u => fst (G u)))|apply (derivable_pt_lim_mult (fun u => snd (F u)) (fun u => snd (G u)))]; assumption.
  - replace (fst d * snd (G w) + snd d * fst (G w) + (fst (F w) * snd e + snd (F w) * fst e))%R
      with ((fst d * snd (G w) + fst (F w) * snd e) + (snd d * fst (G w) + snd (F w) * fst e))%R by ring.
    apply (derivable_pt_lim_plus (fun u => fst (F u) * snd (G u))%R (fun u => snd (F u) * fst (G u))%R);
    [apply (derivable_pt_lim_mult (fun u => fst (F u)) (fun u => snd (G u)))|apply (derivable_pt_lim_mult (fun u => snd (F u)) (fun u => fst (G u)))]; assumption.
Qed.
Lemma der_cis w : der (fun u => cis (- u)) w (- Ci * cis (- w)).
Proof.
  assert (N : derivable_pt_lim (fun u : R => - u)%R w (-1)%R).
  { replace (-1)%R with (- (1))%R by ring. apply (derivable_pt_lim_opp id). apply derivable_pt_lim_id. }
  split; cbn [cis fst snd Ci Cmult Copp].
  - replace (- 0 * cos (- w) - - (1) * sin (- w))%R with (- sin (- w) * -1)%R by ring.
    apply (derivable_pt_lim_comp (fun u => - u)%R cos); [exact N|apply derivable_pt_lim_cos].
  - replace (- 0 * sin (- w) + - (1) * cos (- w))%R with (cos (- w) * -1)%R by ring.
    apply (derivable_pt_lim_comp (fun u => - u)%R sin); [exact N|apply derivable_pt_lim_sin].
Qed.
Lemma der_pe c w : der (fun u => pe c (cis (- u))) w (- Ci * dp c (cis (- w))).
Proof.
  induction c as [|a c IH]; cbn [pe dp].
  - replace (- Ci * 0) with (RtoC 0) by ring. apply der_const.
  - replace (- Ci * (cis (- w) * (dp c (cis (- w)) + pe c (cis (- w)))))
      with (RtoC 0 + ((- Ci * cis (- w)) * pe c (cis (- w)) + cis (- w) * (- Ci * dp c (cis (- w))))) by ring.
    apply (der_plus (fun _ => a) (fun u => cis (- u) * pe c (cis (- u)))); [apply der_const|].
    apply (der_mult (fun u => cis (- u)) (fun u => pe c (cis (- u)))); [apply der_cis|exact IH].
Qed.
Lemma norm2_pos (z : C) : z <> 0 -> (0 < fst z * fst z + snd z * snd z)%R.
Proof.
  intros H. destruct z as [x y]. cbn [fst snd]. destruct (Req_dec x 0) as [->|Hx]; [|nra].
  destruct (Req_dec y 0) as [->|Hy]; [|nra]. exfalso. apply H. reflexivity.
Qed.
Lemma Cinv_norm2 (z : C) : z <> 0 -> / z = Cconj z * RtoC (/ (fst z * fst z + snd z * snd z)).
Proof.
  intros H. pose proof (norm2_pos z H). destruct z as [x y]. unfold Cinv, Cconj, Cmult, RtoC. cbn [fst snd] in *. f_equal; field; lra.
Qed.
Lemma der_inv (F : R -> C) w d : F w <> 0 -> der F w d -> der (fun u => / F u) w (- d / (F w * F w)).
Proof.
  intros Hn [H1 H2]. pose proof (norm2_pos _ Hn) as P.
  set (q := fun u => (fst (F u) * fst (F u) + snd (F u) * snd (F u))%R).
  assert (Hq : derivable_pt_lim q w (2 * (fst (F w) * fst d + snd (F w) * snd d))%R).
  { replace (2 * (fst (F w) * fst d + snd (F w) * snd d))%R with ((fst d * fst (F w) + fst (F w) * fst d) + (snd d * snd (F w) + snd (F w) * snd d))%R by ring.
    apply (derivable_pt_lim_plus (fun u => fst (F u) * fst (F u))%R (fun u => snd (F u) * snd (F u))%R);
    [apply (derivable_pt_lim_mult (fun u => fst (F u)) (fun u => fst (F u)))|apply (derivable_pt_lim_mult (fun u => snd (F u)) (fun u => snd (F u)))]; assumption. }
  assert (Pq : q w <> 0%R) by (unfold q; lra).
  assert (E : - d / (F w * F w) =
    ((fst d * q w - fst (F w) * (2 * (fst (F w) * fst d + snd (F w) * snd d))) / (q w * q w),
     ((- snd d) * q w - (- snd (F w)) * (2 * (fst (F w) * fst d + snd (F w) * snd d))) / (q w * q w))%R).
  { unfold Cdiv. assert (N2 : F w * F w <> 0) by (intros Q; apply Cmult_zero in Q; tauto). rewrite (Cinv_norm2 _ N2).
    unfold q in *. destruct (F w) as [x y]. destruct d as [dx dy]. unfold Cmult, Cconj, Copp, RtoC. cbn [fst snd] in *.
    assert (Q : (((x * x - y * y) * (x * x - y * y) + (x * y + y * x) * (x * y + y * x)) = (x * x + y * y) * (x * x + y * y))%R) by ring.
    rewrite Q. f_equal; field; lra. }
  rewrite E. split; cbn [fst snd].
  - assert (G : derivable_pt_lim (div_fct (fun u => fst (F u)) q) w ((fst d * q w - (2 * (fst (F w) * fst d + snd (F w) * snd d)) * fst (F w)) / Rsqr (q w))%R)
      by (apply (derivable_pt_lim_div (fun u => fst (F u)) q w (fst d) (2 * (fst (F w) * fst d + snd (F w) * snd d))%R); assumption).
    unfold Rsqr in G. replace (fst (F w) * (2 * (fst (F w) * fst d + snd (F w) * snd d)))%R with (2 * (fst (F w) * fst d + snd (F w) * snd d) * fst (F w))%R by ring.
    intros e He. destruct (G e He) as [dl Hd]. exists dl. intros h Hh Hl. specialize (Hd h Hh Hl).
    assert (Ei : forall u, fst (/ F u) = div_fct (fun u => fst (F u)) q u).
    { intros u. unfold Cinv, div_fct, q. cbn [fst]. destruct (Req_dec (fst (F u) * fst (F u) + snd (F u) * snd (F u)) 0) as [Z|Z]; f_equal; ring. }
    rewrite !Ei. exact Hd.
  - assert (Hs : derivable_pt_lim (fun u => - snd (F u))%R w (- snd d)%R) by (apply (derivable_pt_lim_opp (fun u => snd (F u))); exact H2).
    assert (G : derivable_pt_lim (div_fct (fun u => - snd (F u))%R q) w (((- snd d) * q w - (2 * (fst (F w) * fst d + snd (F w) * snd d)) * (- snd (F w))) / Rsqr (q w))%R)
      by (apply (derivable_pt_lim_div (fun u => - snd (F u))%R q w (- snd d)%R (2 * (fst (F w) * fst d + snd (F w) * snd d))%R); assumption).
    unfold Rsqr in G. replace (- snd (F w) * (2 * (fst (F w) * fst d + snd (F w) * snd d)))%R with (2 * (fst (F w) * fst d + snd (F w) * snd d) * - snd (F w))%R by ring.
    intros e He. destruct (G e He) as [dl Hd]. exists dl. intros h Hh Hl. specialize (Hd h Hh Hl).
    assert (Ei : forall u, snd (/ F u) = div_fct (fun u => - snd (F u))%R q u).
    { intros u. unfold Cinv, div_fct, q. cbn [snd]. destruct (Req_dec (fst (F u) * fst (F u) + snd (F u) * snd (F u)) 0) as [Z|Z]; f_equal; ring. }
    rewrite !Ei. exact Hd.
Qed.

(** ** Samples on the unit circle after rotation by half *)
Lemma length_unit_points L : length (unit_points L) = L.
Proof. unfold unit_points. rewrite map_length, seq_length. reflexivity. Qed.
Lemma nth_unit_points L k : (k < L)%nat -> nth k (unit_points L) 0 = cis (- (2 * PI * INR k / INR L)).
Proof.
  intros H. unfold unit_points. set (g := fun k : nat => cis (- (2 * PI * INR k / INR L))).
  rewrite (nth_indep _ (RtoC 0) (g O)) by (rewrite map_length, seq_length; exact H). rewrite map_nth, seq_nth by exact H. reflexivity.
Qed.
(** The frequency at which the k-th of L rotated values is sampled. *)
Definition bin (L k : nat) : R := (-1 + 2 * INR k / INR L - INR (L mod 2) / INR L)%R.
Lemma rotated_point L k : (k < L)%nat -> nth ((k + L / 2) mod L) (unit_points L) 0 = cis (- (PI * bin L k)).
Proof.
  intros Hk. assert (HL : (L <> 0)%nat) by lia. assert (H0 : INR L <> 0%R) by (apply not_0_INR; exact HL).
  rewrite nth_unit_points by (apply Nat.mod_upper_bound; exact HL). set (m := (k + L / 2)%nat).
  rewrite <- (cis_2PI_IZR (- (2 * PI * INR (m mod L) / INR L)) (1 - Z.of_nat (m / L))). f_equal.
  assert (E : INR m = (INR L * INR (m / L) + INR (m mod L))%R) by (rewrite <- mult_INR, <- plus_INR, <- Nat.div_mod by exact HL; reflexivity).
  assert (E2 : INR L = (2 * INR (L / 2) + INR (L mod 2))%R).
  { rewrite (Nat.div_mod L 2) at 1 by discriminate. rewrite plus_INR, mult_INR. reflexivity. }
  unfold bin. rewrite minus_IZR, <- INR_IZR_INZ. apply Rmult_eq_reg_r with (INR L); [|exact H0].
  transitivity (- (2 * PI * INR (m mod L)) + 2 * (INR L - INR L * INR (m / L)) * PI)%R; [field; exact H0|].
  transitivity (- (PI * (- INR L + 2 * INR k - INR (L mod 2))))%R; [|field; exact H0].
  assert (E3 : INR (m mod L) = (INR m - INR L * INR (m / L))%R) by lra. rewrite E3. unfold m. rewrite plus_INR. rewrite E2 at 2. rewrite E2 at 3. ring.
Qed.
Lemma nth_rotated {X} (F : C -> X) (d : X) L k : (k < L)%nat ->
  nth k (rotate_half (map F (unit_points L))) d = F (cis (- (PI * bin L k))).
Proof.
  intros Hk. rewrite nth_rotate_half by (rewrite map_length, length_unit_points; exact Hk). rewrite map_length, length_unit_points.
  assert (Hm : ((k + L / 2) mod L < L)%nat) by (apply Nat.mod_upper_bound; lia).
  rewrite (nth_indep _ d (F (RtoC 0))) by (rewrite map_length, length_unit_points; exact Hm). rewrite map_nth, rotated_point by exact Hk. reflexivity.
Qed.
