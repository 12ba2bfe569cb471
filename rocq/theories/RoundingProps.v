(** Properties C135-C137: rounding errors of FirFilter and IirFilter.  The model runs in
    an arithmetic with rounding errors and is compared with the exact run. *)
From Coq Require Import List Arith ZArith Bool Reals Lra Lia PrimFloat.
From Coquelicot Require Import Complex.
From Flocq Require Import Core Relative.
From Verif Require Import Base BaseLemmas Instances FirModel FirSpec FirProofs FirProps IirModel IirSpec IirProofs IirProps PolyC ZProofs AnalysisModel AnalysisProofs AnalysisProps RootsProps CalculusModel StabilityProofs StabilityProps RoundingProofs.
Import ListNotations.
Set Asymmetric Patterns.
Open Scope R_scope.
Open Scope C_scope.
Local Arguments Cmod _%C.

(** ** Specification *)
(** The same filter, computing with other operations ([rounds], [nearby], [fl_add] ...
    are specified in RoundingProofs.v). *)
Definition fir_in radd rmul rdot rcast (f : fir CA) : fir (RndA radd rmul rdot rcast) := @mkFir (RndA radd rmul rdot rcast) (fdt f) (fb f) (fs f).
Definition iir_in radd rmul rdot rcast (f : iir CA) : iir (RndA radd rmul rdot rcast) := @mkIir (RndA radd rmul rdot rcast) (idt f) (ia f) (ib f) (is_ f).
(** Both runs succeed and stay within E of each other. *)
Definition within (E : R) (r r' : res (list C)) : Prop :=
  exists y y', r = Ok y /\ r' = Ok y' /\ length y' = length y /\ forall n, (Cmod (nth n y' (RtoC 0) - nth n y (RtoC 0)) <= E)%R.
(** Every value is at most M in magnitude. *)
Definition at_most (M : R) (l : list C) : Prop := forall v, In v l -> (Cmod v <= M)%R.

Lemma at_most_nth M l i : (0 <= M)%R -> at_most M l -> (Cmod (nth i l (RtoC 0)) <= M)%R.
Proof.
  intros M0 H. destruct (Nat.lt_ge_cases i (length l)) as [L|L]; [apply H, nth_In, L|]. rewrite nth_overflow by exact L. rewrite Cmod_0. exact M0.
Qed.
Lemma map_nth_seq_C (l : list C) : map (fun n => nth n l (RtoC 0)) (seq 0 (length l)) = l.
Proof.
  apply nth_ext with (d := RtoC 0) (d' := RtoC 0); [rewrite map_length; apply seq_length|]. intros n Hn. rewrite map_length, seq_length in Hn.
  rewrite nth_map_lt with (d := 0%nat) by (rewrite seq_length; exact Hn). rewrite seq_nth by exact Hn. reflexivity.
Qed.
Lemma within_weaken E E' r r' : (E <= E')%R -> within E r r' -> within E' r r'.
Proof. intros H (y & y' & H1 & H2 & H3 & H4). exists y, y'. repeat split; try assumption. intros n. specialize (H4 n). lra. Qed.
Lemma past_end (y y' : list C) E n : (0 <= E)%R -> length y' = length y -> (length y <= n)%nat -> (Cmod (nth n y' (RtoC 0) - nth n y (RtoC 0)) <= E)%R.
Proof. intros H L Hn. rewrite !nth_overflow by lia. replace (0 - 0) with (RtoC 0) by ring. rewrite Cmod_0. exact H. Qed.

(** ** C135 *)
Theorem C135_fir_rounding (b s : arr CA) ops (f : fir CA) (x : list C) (M u eta : R) radd rmul rdot rcast :
  @arr_ok CA b -> fir_used b s ops f -> fdt f <> DInt -> rounds (length (fb f)) u eta radd rmul rdot rcast -> (0 <= u <= 1)%R -> (0 <= eta)%R ->
  x <> [] -> Forall (@fits CA (fdt f)) x -> at_most M (fs f) -> at_most M x ->
  within ((7 * l1 (fb f) + 3) * (u * M + eta)) (snd (fir_filter f x)) (snd (@fir_filter (RndA radd rmul rdot rcast) (fir_in radd rmul rdot rcast f) x)).
Proof.
  intros Hb Hf Hd Hr Hu He Nx Fx Ms Mx. destruct (fir_used_inv _ _ _ _ Hf) as [Nb Ls]. destruct (fir_used_typed CA_laws _ _ _ _ Hb Hf) as [Tb Ts].
  assert (M0 : (0 <= M)%R) by (destruct x as [|v x]; [congruence|]; eapply Rle_trans; [apply Cmod_ge_0|apply (Mx v); left; reflexivity]).
  set (A := RndA radd rmul rdot rcast).
  exists (@fir_ys CA (fdt f) (fb f) (fs f) x), (@fir_ys A (fdt f) (fb f) (fs f) x).
  pose proof (@length_fir_ys CA (fdt f) (fb f) (fs f) x) as L1. pose proof (@length_fir_ys A (fdt f) (fb f) (fs f) x) as L2.
  split; [rewrite (@fir_filter_eq CA f x Nb Ls Nx); reflexivity|]. split; [rewrite (@fir_filter_eq A (fir_in radd rmul rdot rcast f) x Nb Ls Nx); reflexivity|].
  split; [exact (eq_trans L2 (eq_sym L1))|]. intros n.
  destruct (Nat.lt_ge_cases n (length x)) as [Hn|Hn].
  - apply (fir_compare (fb f) u eta radd rmul rdot rcast (fdt f) (fs f) x M n); try assumption; intros i; apply at_most_nth; assumption.
  - apply past_end; [|exact (eq_trans L2 (eq_sym L1))|]; [|exact (Nat.le_trans _ _ _ (Nat.eq_le_incl _ _ L1) Hn)]. pose proof (l1_nonneg (fb f)). assert (0 <= u * M)%R by (apply Rmult_le_pos; lra). apply Rmult_le_pos; lra.
Qed.
Print Assumptions C135_fir_rounding.

(** Rounding every real operation to within u (relative) and eta (absolute) is enough,
    with dot products added up from left to right. *)
Theorem C135_rounded_operations (u eta : R) (rnd : R -> R) (k : nat) : (0 <= u <= 1 / 12)%R -> (0 <= eta)%R -> nearby u eta rnd ->
  exists u' eta', (0 <= u' <= 37 ^ (k + 1) * u)%R /\ (0 <= eta' <= 24 * INR (k + 1) * 37 ^ (k + 1) * eta)%R /\
    rounds k u' eta' (fl_add rnd) (fl_mul rnd) (fl_dot rnd) (fl_cast rnd).
Proof.
  intros Hu He Hn. eexists _, _. split; [|split; [|apply (fl_rounds u eta rnd Hu He Hn k)]].
  - split; [|apply (pow_small u Hu (k + 1)); lra]. assert (1 <= (1 + 36 * u) ^ (k + 1))%R by (apply pow_R1_Rle; lra). lra.
  - assert (P : (1 <= (1 + 36 * u) ^ (k + 1) <= 37 ^ (k + 1))%R) by (split; [apply pow_R1_Rle; lra|apply (pow_small u Hu (k + 1)); lra]).
    pose proof (pos_INR (k + 1)) as I. split; [apply Rmult_le_pos; [|exact He]; apply Rmult_le_pos; lra|]. apply Rmult_le_compat_r; [exact He|]. apply Rmult_le_compat_l; lra.
Qed.
Print Assumptions C135_rounded_operations.

(** ** C136 *)
Lemma iir_filter_outs {A : Arith} (f : iir A) (x : list A) z N : iir_inv f -> x <> [] -> x = map z (seq 0 N) ->
  snd (iir_filter f x) = Ok (map (outp (idt f) (ia f) (ib f) (is_ f) z) (seq 0 N)).
Proof.
  intros (Nb & La & Ls) Nx ->. rewrite (iir_filter_run f _ Nb Nx). change (is_ f) with (st (idt f) (ia f) (is_ f) z 0) at 1. rewrite (run_states (idt f) (ia f) (ib f) (is_ f) z Nb La Ls 0 N). reflexivity.
Qed.
Lemma iir_within (a b s : arr CA) ops (f : iir CA) poles (x : list C) (M u eta : R) radd rmul rdot rcast :
  @coeffs_ok CA a b -> iir_used a b s ops f -> poles_inside f poles -> idt f <> DInt ->
  rounds (length (ib f)) u eta radd rmul rdot rcast -> (0 <= u <= 1)%R -> (0 <= eta <= 1)%R -> (40 * / margin poles * (1 + l1 (tl (ia f))) * u <= 1)%R ->
  x <> [] -> Forall (@fits CA (idt f)) x -> at_most M (is_ f) -> at_most M x ->
  within (kout (/ margin poles) (1 + l1 (tl (ia f))) (cw (nth 0 (ib f) (RtoC 0)) (combine (ia f) (ib f))) (INR (length (ib f))) * (u * M + eta * (1 + M)))
    (snd (iir_filter f x)) (snd (@iir_filter (RndA radd rmul rdot rcast) (iir_in radd rmul rdot rcast f) x)).
Proof.
  intros Hc Hf [Hfa Hp] Hd Hr Hu He Hsm Nx Fx Ms Mx. destruct (iir_used_inv _ _ _ _ _ Hf) as (Nb & La & Ls). destruct (iir_used_typed CA_laws _ _ _ _ _ Hc Hf) as (Ta & Tb & Ts).
  pose proof (iir_used_a0 CA_laws _ _ _ _ _ Hf) as Z0. pose proof (denominator_cpoly _ _ Hfa) as Hden.
  assert (M0 : (0 <= M)%R) by (destruct x as [|v x]; [congruence|]; eapply Rle_trans; [apply Cmod_ge_0|apply (Mx v); left; reflexivity]).
  set (A := RndA radd rmul rdot rcast). set (z := fun n => nth n x (RtoC 0)).
  assert (Fz : forall n, @fits CA (idt f) (z n)).
  { intros n. unfold z. destruct (Nat.lt_ge_cases n (length x)) as [L|L]; [apply Forall_nth; assumption|]. rewrite nth_overflow by exact L. apply (law_fits_zero CA_laws). }
  assert (Mz : forall n, (Cmod (z n) <= M)%R) by (intros n; apply at_most_nth; assumption).
  assert (Mt : forall i, (Cmod (nth i (is_ f) (RtoC 0)) <= M)%R) by (intros i; apply at_most_nth; assumption).
  assert (Ex : x = map z (seq 0 (length x))) by (symmetry; apply map_nth_seq_C).
  pose proof (cmp_outputs (ib f) u eta radd rmul rdot rcast Hr Hu He (idt f) (ia f) (is_ f) z M poles Hd Nb La Ls Z0 Ta Tb Ts Fz Mt Mz Hp Hden Hsm) as K.
  set (E := (_ * (u * M + eta * (1 + M)))%R) in *.
  assert (E0 : (0 <= E)%R) by (eapply Rle_trans; [apply Cmod_ge_0|apply (K 0%nat)]).
  exists (map (@outp CA (idt f) (ia f) (ib f) (is_ f) z) (seq 0 (length x))), (map (@outp A (idt f) (ia f) (ib f) (is_ f) z) (seq 0 (length x))).
  split; [|split; [|split]].
  - exact (@iir_filter_outs CA f x z (length x) (conj Nb (conj La Ls)) Nx Ex).
  - exact (@iir_filter_outs A (iir_in radd rmul rdot rcast f) x z (length x) (conj Nb (conj La Ls)) Nx Ex).
  - transitivity (length (seq 0 (length x))); [apply map_length|symmetry; apply map_length].
  - intros n. destruct (Nat.lt_ge_cases n (length x)) as [Hn|Hn].
    + assert (Y : forall (g : nat -> C), nth n (map g (seq 0 (length x))) (RtoC 0) = g n).
      { intros g. rewrite nth_map_lt with (d := 0%nat) by (rewrite seq_length; exact Hn). rewrite seq_nth by exact Hn. reflexivity. }
      refine (eq_ind_r (fun w : C => (Cmod (w - _) <= E)%R) _ (Y _)). refine (eq_ind_r (fun w : C => (Cmod (_ - w) <= E)%R) _ (Y _)). apply K.
    + apply past_end; [exact E0| |]; [transitivity (length (seq 0 (length x))); [apply map_length|symmetry; apply map_length]|]. 
      apply Nat.le_trans with (length (seq 0 (length x))); [apply Nat.eq_le_incl, map_length|rewrite seq_length; exact Hn].
Qed.

(** With all poles inside the unit circle the rounding errors never build up: however
    long the signal, the result is off by at most K (u M + eta (1 + M)), where K and the
    largest tolerable u depend on the coefficients only. *)
Theorem C136_iir_rounding (a b s : arr CA) ops (f : iir CA) poles :
  @coeffs_ok CA a b -> iir_used a b s ops f -> poles_inside f poles -> idt f <> DInt ->
  exists K u0, (0 <= K)%R /\ (0 < u0)%R /\ forall (ops' : list (iir_op CA)) (x : list C) (M u eta : R) radd rmul rdot rcast, let g := fold_left iir_exec ops' f in
    rounds (length (ib f)) u eta radd rmul rdot rcast -> (0 <= u <= u0)%R -> (0 <= eta <= 1)%R ->
    x <> [] -> Forall (@fits CA (idt f)) x -> at_most M (is_ g) -> at_most M x ->
    within (K * (u * M + eta * (1 + M))) (snd (iir_filter g x)) (snd (@iir_filter (RndA radd rmul rdot rcast) (iir_in radd rmul rdot rcast g) x)).
Proof.
  intros Hc Hf Hp Hd. pose proof Hp as [_ Hi]. set (G := (/ margin poles)%R). set (L := (1 + l1 (tl (ia f)))%R).
  assert (G0 : (0 < G)%R) by (apply Rinv_0_lt_compat, margin_pos, Hi). assert (L1 : (1 <= L)%R) by (unfold L; pose proof (l1_nonneg (tl (ia f))); lra).
  assert (GL : (0 < 40 * G * L)%R) by (apply Rmult_lt_0_compat; lra).
  set (K := kout G L (cw (nth 0 (ib f) (RtoC 0)) (combine (ia f) (ib f))) (INR (length (ib f)))).
  assert (K0 : (0 <= K)%R).
  { unfold K, kout. pose proof (cw_nonneg (nth 0 (ib f) (RtoC 0)) (combine (ia f) (ib f))) as C0. pose proof (pos_INR (length (ib f))) as I0. set (c := cw _ _) in *. set (k := INR _) in *.
    assert (D0 : (0 <= kdev G L)%R) by (unfold kdev; apply Rmult_le_pos; [lra|]; assert (0 <= L * (G * L + 1))%R by (apply Rmult_le_pos; nra); lra).
    assert (0 <= 46 * (G * L + 1) * (3 * (c + k) + 3 * (4 * c + 3 * k)))%R by (apply Rmult_le_pos; nra). assert (0 <= c * (kdev G L + 1))%R by (apply Rmult_le_pos; lra). lra. }
  exists K, (Rmin 1 (/ (40 * G * L)))%R. split; [exact K0|]. split; [apply Rmin_glb_lt; [lra|apply Rinv_0_lt_compat, GL]|].
  intros ops' x M u eta radd rmul rdot rcast g Hr Hu He Nx Fx Ms Mx.
  assert (Hg : iir_used a b s (ops ++ ops') g) by (destruct Hf as (Hl & f0 & E & Ef); split; [exact Hl|]; exists f0; split; [exact E|]; unfold g; rewrite Ef, fold_left_app; reflexivity).
  assert (Eg : ia g = ia f /\ ib g = ib f /\ idt g = idt f).
  { unfold g. clear. revert f. induction ops' as [|o ops' IH]; intros f; [auto|]. cbn [fold_left]. destruct (IH (iir_exec f o)) as (E1 & E2 & E3).
    destruct (iir_exec_ab f o) as (F1 & F2 & F3). rewrite E1, E2, E3. auto. }
  destruct Eg as (Ea & Eb & Ed). unfold K, G, L. rewrite <- Ea, <- Eb.
  assert (U1 : (u <= 1 /\ u <= / (40 * G * L))%R) by (pose proof (Rmin_l 1 (/ (40 * G * L))); pose proof (Rmin_r 1 (/ (40 * G * L))); lra).
  apply (iir_within a b s (ops ++ ops') g poles x M u eta); try assumption.
  - split; [rewrite Ea; apply Hp|exact Hi].
  - rewrite Ed. exact Hd.
  - rewrite Eb. exact Hr.
  - lra.
  - rewrite Ea. fold L G. apply Rle_trans with (40 * G * L * / (40 * G * L))%R; [apply Rmult_le_compat_l; lra|]. rewrite Rinv_r by lra. lra.
  - rewrite Ed. exact Fx.
Qed.
Print Assumptions C136_iir_rounding.

(** The same for an arithmetic that rounds every real operation. *)
Theorem C136_iir_rounded_operations (a b s : arr CA) ops (f : iir CA) poles :
  @coeffs_ok CA a b -> iir_used a b s ops f -> poles_inside f poles -> idt f <> DInt ->
  exists K u0, (0 <= K)%R /\ (0 < u0)%R /\ forall (x : list C) (M u eta : R) (rnd : R -> R),
    nearby u eta rnd -> (0 <= u <= u0)%R -> (0 <= eta <= u0)%R ->
    x <> [] -> Forall (@fits CA (idt f)) x -> at_most M (is_ f) -> at_most M x ->
    within (K * (u * M + eta * (1 + M))) (snd (iir_filter f x))
      (snd (@iir_filter (RndA (fl_add rnd) (fl_mul rnd) (fl_dot rnd) (fl_cast rnd)) (iir_in (fl_add rnd) (fl_mul rnd) (fl_dot rnd) (fl_cast rnd) f) x)).
Proof.
  intros Hc Hf Hp Hd. destruct (C136_iir_rounding a b s ops f poles Hc Hf Hp Hd) as (K & u0 & K0 & U0 & H). set (k := length (ib f)) in *.
  set (q := (24 * INR (k + 1) * 37 ^ (k + 1))%R).
  assert (P1 : (1 <= 37 ^ (k + 1))%R) by (apply pow_R1_Rle; lra). assert (I1 : (1 <= INR (k + 1))%R) by (rewrite plus_INR; cbn [INR]; pose proof (pos_INR k); lra).
  assert (Q1 : (37 ^ (k + 1) <= q)%R) by (unfold q; nra). assert (Q0 : (1 <= q)%R) by lra.
  set (m := Rmin (1 / 12) (Rmin (u0 / q) (/ q))). exists (K * q)%R, m. split; [apply Rmult_le_pos; lra|].
  assert (Qi : (0 < / q)%R) by (apply Rinv_0_lt_compat; lra).
  split; [unfold m; repeat apply Rmin_glb_lt; [lra|unfold Rdiv; apply Rmult_lt_0_compat; lra|lra]|].
  intros x M u eta rnd Hn Hu He Nx Fx Ms Mx.
  assert (m1 : (m <= 1 / 12)%R) by apply Rmin_l. assert (m2 : (m <= u0 / q)%R) by (eapply Rle_trans; [apply Rmin_r|apply Rmin_l]). assert (m3 : (m <= / q)%R) by (eapply Rle_trans; [apply Rmin_r|apply Rmin_r]).
  destruct (C135_rounded_operations u eta rnd k ltac:(lra) ltac:(lra) Hn) as (u' & e' & Hu' & He' & Hr). fold q in He'.
  assert (M0 : (0 <= M)%R) by (destruct x as [|v x]; [congruence|]; eapply Rle_trans; [apply Cmod_ge_0|apply (Mx v); left; reflexivity]).
  assert (Uq : (u' <= q * u)%R) by (apply Rle_trans with (37 ^ (k + 1) * u)%R; [lra|apply Rmult_le_compat_r; lra]).
  assert (Ub : (q * u <= u0)%R) by (apply Rle_trans with (q * (u0 / q))%R; [apply Rmult_le_compat_l; lra|right; field; lra]).
  assert (Eb : (q * eta <= 1)%R) by (apply Rle_trans with (q * / q)%R; [apply Rmult_le_compat_l; lra|right; field; lra]).
  eapply within_weaken; [|apply (H [] x M u' e' _ _ _ _ Hr ltac:(lra) ltac:(lra) Nx Fx Ms Mx)].
  rewrite Rmult_assoc. apply Rmult_le_compat_l; [exact K0|]. 
  assert (u' * M <= q * u * M)%R by (apply Rmult_le_compat_r; lra). assert (e' * (1 + M) <= q * eta * (1 + M))%R by (apply Rmult_le_compat_r; lra). lra.
Qed.
Print Assumptions C136_iir_rounded_operations.

(** IEEE double precision, without overflow: round to nearest even, 53 bits, smallest
    positive number 2^-1074. *)
Definition double : R -> R := round radix2 (FLT_exp (-1074) 53) ZnearestE.
Lemma double_nearby : nearby (/ 2 * bpow radix2 (-52)) (/ 2 * bpow radix2 (-1074)) double.
Proof.
  intros x. unfold double. destruct (error_N_FLT radix2 (-1074) 53 ltac:(lia) (fun n => negb (Z.even n)) x) as (e & h & E & H & _ & ->).
  replace (x * (1 + e) + h - x)%R with (e * x + h)%R by ring. eapply Rle_trans; [apply Rabs_triang|]. rewrite Rabs_mult.
  assert (Rabs e * Rabs x <= / 2 * bpow radix2 (-52) * Rabs x)%R by (apply Rmult_le_compat_r; [apply Rabs_pos|exact E]). lra.
Qed.
Lemma bpow_small : (0 < bpow radix2 (-52) <= / 4000000000000000)%R /\ (0 < bpow radix2 (-1074) <= / 4000000000000000)%R.
Proof.
  assert (E : (bpow radix2 (-52) <= / 4000000000000000)%R) by (cbn; lra). split; (split; [apply bpow_gt_0|]); [exact E|].
  apply Rle_trans with (bpow radix2 (-52)); [apply bpow_le; lia|exact E].
Qed.
Lemma double_rounds k : (k <= 2)%nat -> exists u eta, (0 <= u <= / 1000)%R /\ (0 <= eta <= / 1000)%R /\ rounds k u eta (fl_add double) (fl_mul double) (fl_dot double) (fl_cast double).
Proof.
  intros Hk. destruct bpow_small as [B1 B2]. destruct (C135_rounded_operations (/ 2 * bpow radix2 (-52)) (/ 2 * bpow radix2 (-1074)) double k ltac:(lra) ltac:(lra) double_nearby) as (u & eta & Hu & He & Hr).
  exists u, eta. split; [|split; [|exact Hr]].
  - assert (37 ^ (k + 1) <= 50653)%R by (replace 50653%R with (37 ^ 3)%R by ring; apply Rle_pow; [lra|lia]).
    assert (37 ^ (k + 1) * (/ 2 * bpow radix2 (-52)) <= 50653 * (/ 2 * bpow radix2 (-52)))%R by (apply Rmult_le_compat_r; lra). lra.
  - assert (37 ^ (k + 1) <= 50653)%R by (replace 50653%R with (37 ^ 3)%R by ring; apply Rle_pow; [lra|lia]).
    assert (INR (k + 1) <= 3)%R by (replace 3%R with (INR 3) by (cbn; ring); apply le_INR; lia). pose proof (pos_INR (k + 1)). assert (0 <= 37 ^ (k + 1))%R by (apply pow_le; lra).
    assert (24 * INR (k + 1) * 37 ^ (k + 1) <= 24 * 3 * 50653)%R by (apply Rmult_le_compat; lra).
    assert (24 * INR (k + 1) * 37 ^ (k + 1) * (/ 2 * bpow radix2 (-1074)) <= 24 * 3 * 50653 * (/ 2 * bpow radix2 (-1074)))%R by (apply Rmult_le_compat_r; lra). lra.
Qed.

(** Two taps in double precision. *)
Example C135_example : exists (f : fir CA) u eta, @fir_used CA (mkArr DFloat [RtoC (1 / 2); RtoC (1 / 4)]) (mkArr DFloat []) [] f /\ fdt f <> DInt /\
  rounds (length (fb f)) u eta (fl_add double) (fl_mul double) (fl_dot double) (fl_cast double) /\ (0 <= u <= / 1000)%R /\ (0 <= eta <= / 1000)%R /\
  within (33 / 4 * (u * 7 + eta)) (snd (fir_filter f [RtoC 7; RtoC (-3); RtoC 5]))
    (snd (@fir_filter (RndA (fl_add double) (fl_mul double) (fl_dot double) (fl_cast double)) (fir_in (fl_add double) (fl_mul double) (fl_dot double) (fl_cast double) f) [RtoC 7; RtoC (-3); RtoC 5])).
Proof.
  destruct (double_rounds 2 (le_n 2)) as (u & eta & Hu & He & Hr).
  exists (@mkFir CA DFloat [RtoC (1 / 2); RtoC (1 / 4)] [RtoC 0; RtoC 0]), u, eta.
  assert (U : @fir_used CA (mkArr DFloat [RtoC (1 / 2); RtoC (1 / 4)]) (mkArr DFloat []) [] (@mkFir CA DFloat [RtoC (1 / 2); RtoC (1 / 4)] [RtoC 0; RtoC 0])) by (eexists; split; reflexivity).
  split; [exact U|]. split; [discriminate|]. split; [exact Hr|]. split; [exact Hu|]. split; [exact He|].
  eapply within_weaken; [|apply (C135_fir_rounding _ _ _ _ [RtoC 7; RtoC (-3); RtoC 5] 7 u eta _ _ _ _) with (2 := U) (4 := Hr)].
  - cbn [fb l1]. rewrite !Cmod_R, !Rabs_right by lra. lra.
  - repeat constructor.
  - discriminate.
  - lra.
  - lra.
  - discriminate.
  - repeat constructor.
  - intros v [<-|[<-|[]]]; rewrite Cmod_0; lra.
  - intros v [<-|[<-|[<-|[]]]]; rewrite Cmod_R; unfold Rabs; destruct (Rcase_abs _); lra.
Qed.
(** A leaky accumulator in double precision, on signals of any length. *)
Example C136_example : exists K u eta, (0 <= u <= / 1000)%R /\ (0 <= eta <= / 1000)%R /\
  rounds 2 u eta (fl_add double) (fl_mul double) (fl_dot double) (fl_cast double) /\ poles_inside (leaky (1 / 2)) [RtoC (1 / 2)] /\
  forall N, (0 < N)%nat -> within (K * (u * 1 + eta * (1 + 1))) (snd (iir_filter (leaky (1 / 2)) (repeat (RtoC 1) N)))
    (snd (@iir_filter (RndA (fl_add double) (fl_mul double) (fl_dot double) (fl_cast double)) (iir_in (fl_add double) (fl_mul double) (fl_dot double) (fl_cast double) (leaky (1 / 2))) (repeat (RtoC 1) N))).
Proof.
  destruct (double_rounds 2 (le_n 2)) as (u & eta & Hu & He & Hr). eexists _, u, eta. split; [exact Hu|]. split; [exact He|]. split; [exact Hr|].
  assert (P : poles_inside (leaky (1 / 2)) [RtoC (1 / 2)]) by (split; [apply leaky_poles|constructor; [rewrite Cmod_R, Rabs_right; lra|constructor]]).
  split; [exact P|]. intros N HN. destruct (leaky_used (1 / 2)) as (H1 & H2 & _).
  assert (One : forall N v, In v (repeat (RtoC 1) N) -> v = RtoC 1) by (intros n v Hv; apply repeat_spec in Hv; exact Hv).
  apply (iir_within _ _ _ _ (leaky (1 / 2)) [RtoC (1 / 2)] (repeat (RtoC 1) N) 1 u eta _ _ _ _ H1 H2 P); try lra; [discriminate|exact Hr| | | | |].
  - cbn [margin leaky ia tl l1]. rewrite Cmod_R, Rabs_right by lra. lra.
  - destruct N; [lia|discriminate].
  - apply Forall_forall. intros v Hv. rewrite (One _ _ Hv). reflexivity.
  - intros v [<-|[<-|[]]]; rewrite Cmod_0; lra.
  - intros v Hv. rewrite (One _ _ Hv), Cmod_1. lra.
Qed.

(** ** C137 *)
(** Sums that come out too small by a factor 1 - u. *)
Definition short_add (u : R) (x y : C) : C := RtoC (1 - u) * (x + y).
Lemma short_rounds u k : (0 <= u)%R -> rounds k u 0 (short_add u) Cmult (@dot CA) (@cast CA).
Proof.
  intros Hu. destruct (exact_rounds k) as [_ B C D E]. split; [|intros x y; specialize (B x y); pose proof (Cmod_ge_0 (x * y)); nra| | |exact E].
  - intros x y. unfold short_add. replace (RtoC (1 - u) * (x + y) - (x + y)) with (RtoC (- u) * (x + y)) by (rewrite RtoC_opp, RtoC_minus; ring). rewrite Cmod_mult, Cmod_R, Rabs_Ropp, Rabs_right by lra. lra.
  - intros l m Hl Hm. specialize (C l m Hl Hm). pose proof (absdot_nonneg l m). nra.
  - intros dt x Hd. specialize (D dt x Hd). pose proof (Cmod_ge_0 x). nra.
Qed.
Section Drift.
  Variable u : R.
  Hypothesis Hu : (0 < u <= 1)%R.
  Let A := RndA (short_add u) Cmult (@dot CA) (@cast CA).
  Let S (n : nat) : list C := @st A DComplex [RtoC 0; RtoC 1] [RtoC 0; RtoC 0] (fun _ => RtoC 1) n.
  Lemma drift_state n : exists v r : R, S n = [RtoC v; RtoC r] /\ (0 <= v <= 1)%R /\ (0 <= r <= 1 / u)%R.
  Proof.
    assert (U0 : (0 < / u)%R) by (apply Rinv_0_lt_compat; lra).
    induction n as [|n (v & r & E & V & R)]; [exists 0%R, 0%R; split; [reflexivity|]; split; [lra|unfold Rdiv; lra]|].
    exists 1%R, ((1 - u) * (v + r))%R. split.
    - change (RtoC 1 :: @hist A DComplex [RtoC 0; RtoC 1] (S n) = [RtoC 1; RtoC ((1 - u) * (v + r))%R]). rewrite E. cbn [hist length firstn]. f_equal. f_equal.
      change (short_add u (RtoC v) (0 + RtoC 0 * RtoC v + RtoC 1 * RtoC r) = RtoC ((1 - u) * (v + r))). unfold short_add. rewrite RtoC_mult, RtoC_plus. ring.
    - split; [lra|]. assert (X : ((1 - u) * (1 / u) = 1 / u - 1)%R) by (field; lra). assert (0 <= 1 / u)%R by (unfold Rdiv; lra). nra.
  Qed.
  Lemma drift_out n : (Cmod (@outp A DComplex [RtoC 0; RtoC 1] [RtoC 1; RtoC 0] [RtoC 0; RtoC 0] (fun _ => RtoC 1) n) <= 1 + 1 / u)%R.
  Proof.
    destruct (drift_state (Datatypes.S n)) as (v & r & E & V & R). unfold outp. fold (S (Datatypes.S n)). rewrite E.
    change (Cmod (0 + short_add u (RtoC 0 * RtoC 1) (RtoC 1) * RtoC v + short_add u (RtoC 1 * RtoC 1) (RtoC 0) * RtoC r)%C <= 1 + 1 / u)%R. unfold short_add.
    replace (0 + RtoC (1 - u) * (RtoC 0 * RtoC 1 + RtoC 1) * RtoC v + RtoC (1 - u) * (RtoC 1 * RtoC 1 + RtoC 0) * RtoC r) with (RtoC ((1 - u) * (v + r))) by (rewrite RtoC_mult, RtoC_plus; ring).
    rewrite Cmod_R. assert (0 <= (1 - u) * (v + r))%R by (apply Rmult_le_pos; lra). rewrite Rabs_right by lra. nra.
  Qed.
End Drift.
(** With a pole on the unit circle the error has no bound, however small u is: an
    accumulator (the pole of IntegralFilter) fed ones. *)
Theorem C137_pole_on_circle_refuted (u : R) : (0 < u <= 1)%R ->
  exists (a b s : arr CA) (f : iir CA) poles radd rmul rdot rcast,
    @coeffs_ok CA a b /\ iir_used a b s [] f /\ factored (denominator (ia f)) poles /\ Forall (fun z => (Cmod z <= 1)%R) poles /\ at_most 1 (is_ f) /\
    rounds (length (ib f)) u 0 radd rmul rdot rcast /\
    forall E, exists x, x <> [] /\ at_most 1 x /\
      ~ within E (snd (iir_filter f x)) (snd (@iir_filter (RndA radd rmul rdot rcast) (iir_in radd rmul rdot rcast f) x)).
Proof.
  intros Hu. destruct (leaky_used 1) as (H1 & H2 & H3). do 3 eexists. exists (leaky 1), [RtoC 1], (short_add u), Cmult, (@dot CA), (@cast CA).
  split; [exact H1|]. split; [exact H2|]. split; [apply leaky_poles|]. split; [constructor; [rewrite Cmod_1; lra|constructor]|].
  split; [intros v [<-|[<-|[]]]; rewrite Cmod_0; lra|]. split; [apply short_rounds; lra|]. intros E.
  set (z := fun _ : nat => RtoC 1). set (A := RndA (short_add u) Cmult (@dot CA) (@cast CA)).
  assert (V : forall n, @st CA DComplex [RtoC 0; RtoC 1] [RtoC 0; RtoC 0] z (S n) = [RtoC 1; RtoC (INR n)]).
  { induction n as [|n IH]; [cbn; f_equal; f_equal; ring|].
    change (RtoC 1 :: @hist CA DComplex [RtoC 0; RtoC 1] (@st CA DComplex [RtoC 0; RtoC 1] [RtoC 0; RtoC 0] z (S n)) = [RtoC 1; RtoC (INR (S n))]). rewrite IH. cbn [hist length firstn]. f_equal. f_equal.
    change (RtoC 1 + (0 + RtoC 0 * RtoC 1 + RtoC 1 * RtoC (INR n)) = RtoC (INR (S n))). rewrite S_INR, RtoC_plus. ring. }
  destruct (archimed (E + 2 + 1 / u)) as [Hk _]. set (N := Z.to_nat (up (E + 2 + 1 / u)%R)).
  assert (HN : (E + 2 + 1 / u < INR N + 1)%R) by (rewrite INR_IZR_INZ; assert (IZR (up (E + 2 + 1 / u)) <= IZR (Z.of_nat N))%R by (apply IZR_le; unfold N; lia); lra).
  exists (map z (seq 0 (S N))). split; [discriminate|]. split; [intros v Hv; apply in_map_iff in Hv; destruct Hv as (? & <- & _); unfold z; rewrite Cmod_1; lra|].
  intros (y & y' & Ey & Ey' & _ & W). specialize (W N).
  pose proof (@iir_filter_outs CA (leaky 1) (map z (seq 0 (S N))) z (S N) ltac:(repeat split; discriminate) ltac:(discriminate) eq_refl) as O.
  pose proof (@iir_filter_outs A (iir_in (short_add u) Cmult (@dot CA) (@cast CA) (leaky 1)) (map z (seq 0 (S N))) z (S N) ltac:(repeat split; discriminate) ltac:(discriminate) eq_refl) as O'.
  assert (Q : Ok y = Ok (map (@outp CA DComplex [RtoC 0; RtoC 1] [RtoC 1; RtoC 0] [RtoC 0; RtoC 0] z) (seq 0 (S N)))) by exact (eq_trans (eq_sym Ey) O). apply Ok_inj in Q.
  assert (Q' : Ok y' = Ok (map (@outp A DComplex [RtoC 0; RtoC 1] [RtoC 1; RtoC 0] [RtoC 0; RtoC 0] z) (seq 0 (S N)))) by exact (eq_trans (eq_sym Ey') O'). apply Ok_inj in Q'.
  assert (Y : forall (g : nat -> C), nth N (map g (seq 0 (S N))) (RtoC 0) = g N).
  { intros g. rewrite nth_map_lt with (d := 0%nat) by (rewrite seq_length; lia). rewrite seq_nth by lia. reflexivity. }
  assert (B : nth N y (RtoC 0) = RtoC (1 + INR N)).
  { rewrite Q. etransitivity; [apply Y|]. unfold outp. rewrite V. change (0 + (RtoC 0 * RtoC 1 + RtoC 1) * RtoC 1 + (RtoC 1 * RtoC 1 + RtoC 0) * RtoC (INR N) = RtoC (1 + INR N)). rewrite RtoC_plus. ring. }
  assert (B' : (Cmod (nth N y' (RtoC 0)) <= 1 + 1 / u)%R) by (rewrite Q'; refine (eq_ind_r (fun w : C => (Cmod w <= 1 + 1 / u)%R) _ (Y _)); apply (drift_out u Hu)).
  rewrite B in W. assert (T : (Cmod (RtoC (1 + INR N)) <= Cmod (nth N y' (RtoC 0)) + E)%R).
  { replace (RtoC (1 + INR N)) with (nth N y' (RtoC 0) + - (nth N y' (RtoC 0) - RtoC (1 + INR N))) by ring. eapply Rle_trans; [apply Cmod_triangle|]. rewrite Cmod_opp. lra. }
  rewrite Cmod_R in T. pose proof (pos_INR N). rewrite Rabs_right in T by lra. lra.
Qed.
Print Assumptions C137_pole_on_circle_refuted.

(** In IEEE doubles: IntegralFilter of order 0, at 2^53, no longer counts.  The exact
    output grows by one with every sample (C20). *)
Theorem C137_integral_stuck (N : nat) : exists f : iir FA, @integral_make FA 0 = Ok f /\
  snd (@iir_filter FA f (9007199254740992 :: repeat 1 N)%float) = Ok (repeat 9007199254740992%float (S N)).
Proof.
  set (f0 := @mkIir FA DFloat [0; 1]%float [1; 0]%float [0; 0]%float). exists f0. split; [reflexivity|].
  assert (St : forall s, In s [[9007199254740992; 0]; [1; 9007199254740992]]%float -> @iir_step FA DFloat [0; 1]%float [1; 0]%float s 1%float = ([1; 9007199254740992]%float, Ok 9007199254740992%float)).
  { intros s [<-|[<-|[]]]; vm_compute; reflexivity. }
  assert (R : forall n s, In s [[9007199254740992; 0]; [1; 9007199254740992]]%float ->
     exists s', run (@iir_step FA DFloat [0; 1]%float [1; 0]%float) s (repeat 1%float n) = (s', Ok (repeat 9007199254740992%float n))).
  { induction n as [|n IH]; intros s Hs; cbn [repeat run]; [exists s; reflexivity|]. rewrite (St s Hs).
    destruct (IH [1; 9007199254740992]%float (or_intror (or_introl eq_refl))) as [s' E]. exists s'. rewrite E. reflexivity. }
  unfold iir_filter. cbn [length Nat.eqb f0 ib]. cbn [run].
  assert (F : @iir_step FA DFloat [0; 1]%float [1; 0]%float [0; 0]%float 9007199254740992%float = ([9007199254740992; 0]%float, Ok 9007199254740992%float)) by (vm_compute; reflexivity).
  cbn [f0 idt ia ib is_]. rewrite F. destruct (R N [9007199254740992; 0]%float (or_introl eq_refl)) as [s' E]. rewrite E. reflexivity.
Qed.
Print Assumptions C137_integral_stuck.
(** One below 2^53 it still counts, and the exact result goes on. *)
Example C137_example :
  (exists f : iir FA, @integral_make FA 0 = Ok f /\ fls (snd (iir_filter f [9007199254740991; 1; 1]%float)) = Ok [9007199254740991; 9007199254740992; 9007199254740992]%float) /\
  (exists f : iir QA, @integral_make QA 0 = Ok f /\ rqs (snd (iir_filter f [q 9007199254740991 1; q 1 1; q 1 1])) = Ok [QArith_base.Qmake 9007199254740991 1; QArith_base.Qmake 9007199254740992 1; QArith_base.Qmake 9007199254740993 1]).
Proof. split; eexists; (split; [reflexivity|]); vm_compute; reflexivity. Qed.
