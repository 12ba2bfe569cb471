(** C181: ComplexTransform in IEEE doubles. *)
From Flocq Require Import Core BinarySingleNaN PrimFloat Relative Plus_error.
From Coq Require Import List Arith ZArith Lia Bool Reals Lra Floats.
From Coquelicot Require Import Complex.
From Verif Require Import Base BaseLemmas Instances PolyC DoubleSpec DoubleProofs DoubleOps FixedPointProps CTransModel CTransProps CTransDoubleModel.
Import ListNotations.
Set Asymmetric Patterns.
Local Open Scope R_scope.

(** What is assumed of pow and of numpy.linalg.inv: one unit in the last place, and entries
    within 2^-50 of the exact inverse. *)
Definition root_ok (r : float) : Prop := finite r /\ Rabs (val r - R_sqrt.sqrt 3) <= bpow radix2 (-52).
Definition near (e : R) (c : list float) (a : list R) : Prop := Forall2 (fun v w => finite v /\ Rabs (val v - w) <= e) c a.
Definition inv_ok (m : list (list float)) : Prop := Forall2 (near (bpow radix2 (-50))) m (inv3 COEFFICIENT).
Definition sized (M : R) (v : float) : Prop := finite v /\ Rabs (val v) <= M.
Definition cval (a : float * float) : C := (val (fst a), val (snd a)).

Lemma uro_small : uro = bpow radix2 (-53).
Proof. unfold uro. cbn. lra. Qed.
Lemma gam3 : gam 3 <= 4 * uro.
Proof.
  unfold gam. assert (U : 0 < uro <= / 1000). { split; [apply uro_pos|]. rewrite uro_small. cbn. lra. } cbn [pow].
  replace ((1 + uro) * ((1 + uro) * ((1 + uro) * 1)) - 1) with (3 * uro + uro * (3 * uro + uro * uro)) by ring. nra.
Qed.
Lemma und3 : und 3 <= 6 * eta0.
Proof.
  unfold und. change (2 * 3 - 1)%nat with 5%nat. replace (INR 5) with 5 by (cbn; lra). pose proof gam3 as G. unfold gam in G. assert (U : 0 < uro <= / 1000). { split; [apply uro_pos|]. rewrite uro_small. cbn. lra. }
  pose proof eta0_pos. nra.
Qed.

(** One element of a product with a 3-column matrix. *)
Lemma row_close d (c x : list float) (a : list R) e M : any_order d -> near e c a -> length c = 3%nat -> length x = 3%nat ->
  0 <= e <= / 16 -> Forall (fun w => Rabs w <= 1) a -> Forall (sized M) x -> bpow radix2 (-960) <= M <= bpow radix2 1000 ->
  finite (d c x) /\ Rabs (val (d c x) - (nth 0 a 0 * val (nth 0 x 0%float) + nth 1 a 0 * val (nth 1 x 0%float) + nth 2 a 0 * val (nth 2 x 0%float))) <= (3 * e + 14 * uro) * M.
Proof.
  intros Hd Hn Lc Lx He Ha Hx HM.
  destruct c as [|c0 [|c1 [|c2 [|]]]]; try discriminate Lc. destruct x as [|x0 [|x1 [|x2 [|]]]]; try discriminate Lx. clear Lc Lx.
  inversion Hn as [|? a0 ? t0 [F0 E0] H0]; subst. inversion H0 as [|? a1 ? t1 [F1 E1] H1]; subst. inversion H1 as [|? a2 ? t2 [F2 E2] H2]; subst. inversion H2; subst. clear Hn H0 H1 H2.
  inversion Ha as [|? ? A0 Ha0]; subst. inversion Ha0 as [|? ? A1 Ha1]; subst. inversion Ha1 as [|? ? A2 _]; subst. clear Ha Ha0 Ha1.
  inversion Hx as [|? ? [G0 B0] Hx0]; subst. inversion Hx0 as [|? ? [G1 B1] Hx1]; subst. inversion Hx1 as [|? ? [G2 B2] _]; subst. clear Hx Hx0 Hx1.
  assert (MP : 0 < M) by (pose proof (bpow_gt_0 radix2 (-960)); lra).
  assert (CB : forall v w, Rabs (val v - w) <= e -> Rabs w <= 1 -> Rabs (val v) <= 17 / 16).
  { intros v w Q1 Q2. pose proof (Rabs_triang (val v - w) w) as T. replace (val v - w + w) with (val v) in T by ring. lra. }
  pose proof (CB _ _ E0 A0) as K0. pose proof (CB _ _ E1 A1) as K1. pose proof (CB _ _ E2 A2) as K2.
  assert (PB : forall v w, Rabs (val v) <= 17 / 16 -> Rabs (val w) <= M -> Rabs (val v) * Rabs (val w) <= 17 / 16 * M).
  { intros v w Q1 Q2. apply Rmult_le_compat; try apply Rabs_pos; assumption. }
  set (l := combine [c0; c1; c2] [x0; x1; x2]).
  assert (ML : mags l <= 51 / 16 * M).
  { unfold l, mags. cbn [combine fold_right fst snd]. pose proof (PB _ _ K0 B0). pose proof (PB _ _ K1 B1). pose proof (PB _ _ K2 B2). lra. }
  pose proof gam3 as GA. pose proof und3 as UN. pose proof (gam_pos 3) as GP. pose proof (und_pos 3) as UP. pose proof uro_pos as UR. pose proof (mags_pos l) as MPOS.
  assert (US : uro <= / 1000) by (rewrite uro_small; cbn; lra).
  assert (EM : 6 * eta0 <= uro * M).
  { unfold eta0. rewrite uro_small. apply Rle_trans with (bpow radix2 (-53) * bpow radix2 (-960)); [|apply Rmult_le_compat_l; [apply bpow_ge_0|lra]].
    rewrite <- bpow_plus. apply Rle_trans with (bpow radix2 2 * bpow radix2 (-1074)); [change (bpow radix2 2) with 4; pose proof (bpow_gt_0 radix2 (-1074)); lra|]. rewrite <- bpow_plus. apply bpow_le. lia. }
  assert (GM : gam 3 * mags l <= 51 / 4 * uro * M) by (apply Rle_trans with (4 * uro * (51 / 16 * M)); [apply Rmult_le_compat; lra|lra]).
  assert (Q : good l (d [c0; c1; c2] [x0; x1; x2])).
  { apply dots_good; [apply Hd; reflexivity| |].
    - unfold l. cbn [combine]. repeat (apply Forall_cons; [split; assumption|]). apply Forall_nil.
    - change (length l) with 3%nat. apply Rle_lt_trans with (4 * M); [|apply Rle_lt_trans with (bpow radix2 2 * bpow radix2 1000); [change (bpow radix2 2) with 4; lra|rewrite <- bpow_plus; unfold huge; apply bpow_lt; lia]].
      assert (uro * M <= / 1000 * M) by (apply Rmult_le_compat_r; lra). rewrite Rmult_plus_distr_r, Rmult_1_l. lra. }
  destruct Q as [Fq Eq]. split; [exact Fq|]. change (length l) with 3%nat in Eq. cbn [nth].
  assert (X : Rabs (exact l - (a0 * val x0 + a1 * val x1 + a2 * val x2)) <= 3 * e * M).
  { unfold l, exact. cbn [combine fold_right fst snd].
    replace (val c0 * val x0 + (val c1 * val x1 + (val c2 * val x2 + 0)) - (a0 * val x0 + a1 * val x1 + a2 * val x2)) with ((val c0 - a0) * val x0 + (val c1 - a1) * val x1 + (val c2 - a2) * val x2) by ring.
    eapply Rle_trans; [apply Rabs_triang|]. eapply Rle_trans; [apply Rplus_le_compat_r, Rabs_triang|]. rewrite !Rabs_mult.
    assert (T : forall u v, Rabs u <= e -> Rabs v <= M -> Rabs u * Rabs v <= e * M) by (intros u v Q1 Q2; apply Rmult_le_compat; try apply Rabs_pos; assumption).
    pose proof (T _ _ E0 B0). pose proof (T _ _ E1 B1). pose proof (T _ _ E2 B2). lra. }
  pose proof (Rabs_triang (val (d [c0; c1; c2] [x0; x1; x2]) - exact l) (exact l - (a0 * val x0 + a1 * val x1 + a2 * val x2))) as T.
  replace (val (d [c0; c1; c2] [x0; x1; x2]) - exact l + (exact l - (a0 * val x0 + a1 * val x1 + a2 * val x2))) with (val (d [c0; c1; c2] [x0; x1; x2]) - (a0 * val x0 + a1 * val x1 + a2 * val x2)) in T by ring.
  assert (0 <= uro * M) by (apply Rmult_le_pos; lra). lra.
Qed.

(** ** The constants *)
Lemma root_size r : root_ok r -> 17 / 10 <= val r <= 18 / 10.
Proof.
  intros [_ H]. pose proof sqrt3 as Q. pose proof sqrt3_pos as P. assert (B : bpow radix2 (-52) <= / 1000) by (cbn; lra).
  apply Rabs_le_inv in H. set (s := R_sqrt.sqrt 3) in *. assert (171 / 100 <= s <= 179 / 100) by (split; nra). lra.
Qed.
Lemma two_thirds : finite (2 / 3)%float /\ Rabs (val (2 / 3)%float - 2 / 3) <= bpow radix2 (-54).
Proof.
  split; [reflexivity|]. assert (V : val (2 / 3)%float = IZR 6004799503160661 * bpow radix2 (-53)) by (unfold val; vm_compute Prim2B; cbn [B2R SF2R]; unfold F2R; cbn; lra).
  rewrite V. cbn. apply Rabs_le. lra.
Qed.
Lemma close_mul x y a b ea eb : finite x -> finite y -> Rabs (val x - a) <= ea -> Rabs (val y - b) <= eb -> Rabs a <= 1 -> Rabs b <= 1 -> ea <= / 16 -> eb <= / 16 ->
  finite (x * y)%float /\ Rabs (val (x * y)%float - a * b) <= 17 / 16 * ea + eb + 19 / 16 * uro + 2 * eta0.
Proof.
  intros Fx Fy Ex Ey A B Ha Hb. pose proof uro_pos. pose proof eta0_pos as EP. assert (US : uro <= / 1000) by (rewrite uro_small; cbn; lra).
  assert (ES : eta0 <= uro) by apply eta_uro. pose proof (Rabs_pos (val x - a)). pose proof (Rabs_pos (val y - b)).
  assert (KB : Rabs (val y) <= 17 / 16). { pose proof (Rabs_triang (val y - b) b) as T. replace (val y - b + b) with (val y) in T by ring. lra. }
  assert (E : Rabs (val x * val y - a * b) <= 17 / 16 * ea + eb).
  { replace (val x * val y - a * b) with ((val x - a) * val y + a * (val y - b)) by ring. eapply Rle_trans; [apply Rabs_triang|]. rewrite !Rabs_mult.
    assert (Rabs (val x - a) * Rabs (val y) <= ea * (17 / 16)) by (apply Rmult_le_compat; try apply Rabs_pos; assumption).
    assert (Rabs a * Rabs (val y - b) <= 1 * eb) by (apply Rmult_le_compat; try apply Rabs_pos; assumption). lra. }
  assert (AB : Rabs (a * b) <= 1). { rewrite Rabs_mult. replace 1 with (1 * 1) by ring. apply Rmult_le_compat; try apply Rabs_pos; assumption. }
  pose proof (round_err _ _ _ _ E AB) as RE.
  assert (uro * (17 / 16 * ea + eb) <= uro * / 7) by (apply Rmult_le_compat_l; lra).
  assert (FE : Rabs (nearest (val x * val y) - a * b) <= 17 / 16 * ea + eb + 19 / 16 * uro + 2 * eta0) by lra.
  destruct (mul_fin x y Fx Fy) as [Fm Vm].
  { pose proof (err_size _ _ _ _ FE AB) as Z. apply Rle_lt_trans with (1 := Z). apply Rlt_trans with 4; [lra|]. unfold huge. change 4 with (bpow radix2 2). apply bpow_lt. lia. }
  split; [exact Fm|]. rewrite Vm. exact FE.
Qed.
Lemma half_root r s : root_ok r -> s = 1 \/ s = -1 -> forall h, finite h -> val h = s / 2 -> finite (h * r)%float /\ Rabs (val (h * r)%float - s * (R_sqrt.sqrt 3 / 2)) <= bpow radix2 (-53) + uro * (9 / 10) + eta0.
Proof.
  intros Hr Hs h Fh Vh. pose proof (root_size r Hr) as Sz. destruct Hr as [Fr Er]. pose proof uro_pos. pose proof eta0_pos. pose proof eta_uro. assert (US : uro <= / 1000) by (rewrite uro_small; cbn; lra).
  assert (AB : Rabs (val h * val r) <= 9 / 10). { rewrite Vh, Rabs_mult. rewrite (Rabs_right (val r)) by lra. destruct Hs as [E|E]; rewrite E; [rewrite Rabs_right by lra|rewrite Rabs_left by lra]; lra. }
  pose proof (nearest_close (val h * val r)) as NC.
  assert (uro * Rabs (val h * val r) <= uro * (9 / 10)) by (apply Rmult_le_compat_l; lra).
  destruct (mul_fin h r Fh Fr) as [Fm Vm].
  { pose proof (err_size (nearest (val h * val r)) (val h * val r) _ _ ltac:(eapply Rle_trans; [exact NC|apply Rle_refl]) AB) as Z. apply Rle_lt_trans with (1 := Z). apply Rlt_trans with 4; [lra|]. unfold huge. change 4 with (bpow radix2 2). apply bpow_lt. lia. }
  split; [exact Fm|]. rewrite Vm.
  assert (D : Rabs (val h * val r - s * (R_sqrt.sqrt 3 / 2)) <= bpow radix2 (-53)).
  { replace (val h * val r - s * (R_sqrt.sqrt 3 / 2)) with (s / 2 * (val r - R_sqrt.sqrt 3)) by (rewrite Vh; field). rewrite Rabs_mult.
    replace (bpow radix2 (-53)) with (/ 2 * bpow radix2 (-52)) by (cbn; lra). apply Rmult_le_compat; try apply Rabs_pos; [|exact Er].
    destruct Hs as [E|E]; rewrite E; [rewrite Rabs_right by lra|rewrite Rabs_left by lra]; lra. }
  pose proof (Rabs_triang (nearest (val h * val r) - val h * val r) (val h * val r - s * (R_sqrt.sqrt 3 / 2))) as T.
  replace (nearest (val h * val r) - val h * val r + (val h * val r - s * (R_sqrt.sqrt 3 / 2))) with (nearest (val h * val r) - s * (R_sqrt.sqrt 3 / 2)) in T by ring. lra.
Qed.

Definition row0 : list R := [2 / 3; - (1 / 3); - (1 / 3)].
Definition row1 : list R := [0; R_sqrt.sqrt 3 / 3; - (R_sqrt.sqrt 3 / 3)].
Lemma coef_near r : root_ok r -> near (4 * uro) (nth 0 (coefF r) []) row0 /\ near (4 * uro) (nth 1 (coefF r) []) row1.
Proof.
  intros Hr. pose proof uro_pos as U. pose proof eta0_pos as EP. assert (US : uro <= / 1000) by (rewrite uro_small; cbn; lra).
  assert (EU : eta0 <= / 100 * uro). { unfold eta0. rewrite uro_small. apply Rle_trans with (bpow radix2 (-7) * bpow radix2 (-53)); [rewrite <- bpow_plus|cbn; lra]. pose proof (bpow_le radix2 (-1074) (-7 + -53) ltac:(lia)). pose proof (bpow_gt_0 radix2 (-1074)). lra. }
  destruct two_thirds as [Ft Et]. assert (E54 : bpow radix2 (-54) = / 2 * uro) by (rewrite uro_small; cbn; lra). rewrite E54 in Et.
  assert (At : Rabs (2 / 3) <= 1) by (rewrite Rabs_right; lra).
  assert (LIT : forall v w, finite v -> val v = w -> Rabs w <= 1 -> finite (2 / 3 * v)%float /\ Rabs (val (2 / 3 * v)%float - 2 / 3 * w) <= 4 * uro).
  { intros v w Fv Vv Aw. assert (Z : Rabs (val v - w) <= 0) by (rewrite Vv; replace (w - w) with 0 by ring; rewrite Rabs_R0; lra).
    destruct (close_mul _ _ _ _ _ _ Ft Fv Et Z At Aw ltac:(lra) ltac:(lra)) as [F E]. split; [exact F|]. lra. }
  assert (V1 : val 1%float = 1) by litval. assert (Vh : val (-0.5)%float = -1 / 2) by litval. assert (Vp : val 0.5%float = 1 / 2) by litval.
  assert (S3 : Rabs (R_sqrt.sqrt 3 / 2) <= 1) by (pose proof sqrt3; pose proof sqrt3_pos; rewrite Rabs_right; nra).
  assert (HR : forall s h, s = 1 \/ s = -1 -> finite h -> val h = s / 2 -> finite (2 / 3 * (h * r))%float /\ Rabs (val (2 / 3 * (h * r))%float - s * (R_sqrt.sqrt 3 / 3)) <= 4 * uro).
  { intros s h Hs Fh Vhh. destruct (half_root r s Hr Hs h Fh Vhh) as [F E]. rewrite <- uro_small in E.
    assert (As : Rabs (s * (R_sqrt.sqrt 3 / 2)) <= 1). { rewrite Rabs_mult. destruct Hs as [Z|Z]; rewrite Z; [rewrite (Rabs_right 1) by lra|rewrite (Rabs_left (-1)) by lra]; lra. }
    destruct (close_mul _ _ _ _ _ _ Ft F Et E At As ltac:(lra) ltac:(lra)) as [F2 E2]. split; [exact F2|].
    replace (s * (R_sqrt.sqrt 3 / 3)) with (2 / 3 * (s * (R_sqrt.sqrt 3 / 2))) by field. lra. }
  split; unfold coefF; cbn [map nth]; unfold near, row0, row1.
  - destruct (LIT 1%float 1 eq_refl V1 ltac:(rewrite Rabs_right; lra)) as [F1 E1]. destruct (LIT (-0.5)%float (-1 / 2) eq_refl Vh ltac:(rewrite Rabs_left; lra)) as [F2 E2].
    repeat (apply Forall2_cons); try apply Forall2_nil; (split; [assumption|]); [replace (2 / 3) with (2 / 3 * 1) by ring; exact E1| |];
      (replace (- (1 / 3)) with (2 / 3 * (-1 / 2)) by field; exact E2).
  - destruct (LIT 0%float 0 eq_refl val_zero ltac:(rewrite Rabs_R0; lra)) as [F0 E0].
    destruct (HR 1 0.5%float (or_introl eq_refl) eq_refl Vp) as [F1 E1]. destruct (HR (-1) (-0.5)%float (or_intror eq_refl) eq_refl Vh) as [F2 E2].
    apply Forall2_cons; [split; [exact F0|]; rewrite Rmult_0_r in E0; exact E0|].
    apply Forall2_cons; [split; [exact F1|]; rewrite Rmult_1_l in E1; exact E1|].
    apply Forall2_cons; [split; [exact F2|]; replace (- (R_sqrt.sqrt 3 / 3)) with (-1 * (R_sqrt.sqrt 3 / 3)) by field; exact E2|apply Forall2_nil].
Qed.

(** ** One column *)
Lemma near_length e c a : near e c a -> length c = length a.
Proof. induction 1; cbn; congruence. Qed.
Lemma e50 : bpow radix2 (-50) = 8 * uro.
Proof. rewrite uro_small. cbn. lra. Qed.
Lemma sqrt_half : 0 <= R_sqrt.sqrt 3 / 2 <= 9 / 10.
Proof. pose proof sqrt3. pose proof sqrt3_pos. split; nra. Qed.
Lemma sqrt_third : 0 <= R_sqrt.sqrt 3 / 3 <= 6 / 10.
Proof. pose proof sqrt_half. lra. Qed.
Ltac absb := apply Rabs_le; pose proof sqrt_half; pose proof sqrt_third; lra.

Lemma phases_close d inv a M : any_order d -> inv_ok inv -> sized M (fst a) -> sized M (snd a) -> bpow radix2 (-960) <= M <= bpow radix2 1000 ->
  length (phasesF d inv a) = 3%nat /\
  forall k, (k < 3)%nat -> finite (nth k (phasesF d inv a) 0%float) /\ Rabs (val (nth k (phasesF d inv a) 0%float) - phase k (cval a)) <= 38 * uro * M.
Proof.
  intros Hd Hi S1 S2 HM. assert (MP : 0 < M) by (pose proof (bpow_gt_0 radix2 (-960)); lra). pose proof uro_pos as U. assert (US : uro <= / 1000) by (rewrite uro_small; cbn; lra).
  unfold inv_ok in Hi. rewrite inv_coef in Hi. rewrite e50 in Hi.
  inversion Hi as [|r0 ? m1 ? N0 H1]; subst. inversion H1 as [|r1 ? m2 ? N1 H2]; subst. inversion H2 as [|r2 ? m3 ? N2 H3]; subst. inversion H3; subst. clear Hi H1 H2 H3.
  assert (S0 : sized M 0%float) by (split; [reflexivity|rewrite val_zero, Rabs_R0; lra]).
  assert (SX : Forall (sized M) [fst a; snd a; 0%float]) by (repeat (apply Forall_cons; [assumption|]); apply Forall_nil).
  assert (LEN : forall r w0 w1 w2, near (8 * uro) r [w0; w1; w2] -> length r = 3%nat) by (intros r w0 w1 w2 H; exact (near_length _ _ _ H)).
  assert (RC : forall r w0 w1 w2, near (8 * uro) r [w0; w1; w2] -> Rabs w0 <= 1 -> Rabs w1 <= 1 -> Rabs w2 <= 1 ->
    finite (d r [fst a; snd a; 0%float]) /\ Rabs (val (d r [fst a; snd a; 0%float]) - (w0 * val (fst a) + w1 * val (snd a))) <= 38 * uro * M).
  { intros r w0 w1 w2 N B0 B1 B2. destruct (row_close d r [fst a; snd a; 0%float] [w0; w1; w2] (8 * uro) M Hd N (LEN _ _ _ _ N) eq_refl ltac:(lra)) as [F E]; [repeat (apply Forall_cons; [assumption|]); apply Forall_nil|exact SX|exact HM|].
    split; [exact F|]. cbn [nth] in E. rewrite val_zero in E. replace (w0 * val (fst a) + w1 * val (snd a)) with (w0 * val (fst a) + w1 * val (snd a) + w2 * 0) by ring. lra. }
  split; [reflexivity|]. intros k Hk. unfold phasesF. cbn [map].
  destruct k as [|[|[|k]]]; [| | |lia]; cbn [nth]; rewrite ?phase0, ?phase1, ?phase2; unfold cval; cbn [fst snd].
  - destruct (RC _ _ _ _ N0 ltac:(absb) ltac:(absb) ltac:(absb)) as [F E]. split; [exact F|]. replace (val (fst a)) with (1 * val (fst a) + 0 * val (snd a)) by ring. exact E.
  - exact (RC _ _ _ _ N1 ltac:(absb) ltac:(absb) ltac:(absb)).
  - destruct (RC _ _ _ _ N2 ltac:(absb) ltac:(absb) ltac:(absb)) as [F E]. split; [exact F|].
    replace (- (1 / 2) * val (fst a) - R_sqrt.sqrt 3 / 2 * val (snd a)) with (- (1 / 2) * val (fst a) + - (R_sqrt.sqrt 3 / 2) * val (snd a)) by ring. exact E.
Qed.

Lemma unphase_parts (a b c : R) : unphase (RtoC a) (RtoC b) (RtoC c) = (2 / 3 * a - 1 / 3 * b - 1 / 3 * c, R_sqrt.sqrt 3 / 3 * (b - c)).
Proof. unfold unphase, Cmult, Cplus, RtoC. cbn [fst snd]. f_equal; field. Qed.

Lemma zero_mul v : finite v -> finite (0 * v)%float /\ val (0 * v)%float = 0.
Proof.
  intros F. assert (N : nearest (val 0%float * val v) = 0) by (rewrite val_zero, Rmult_0_l; apply round_0; auto with typeclass_instances).
  destruct (mul_fin 0%float v eq_refl F) as [Fm Vm]; [rewrite N, Rabs_R0; apply huge_pos|]. split; [exact Fm|]. rewrite Vm. exact N.
Qed.
Lemma val_huge v : finite v -> Rabs (val v) < huge.
Proof. intros F. unfold finite in F. unfold val, huge. rewrite is_finite_equiv in F. pose proof (abs_B2R_lt_emax FloatOps.prec FloatOps.emax (Prim2B v)). exact H. Qed.

Lemma join_close d r a b c M : any_order d -> root_ok r -> sized M a -> sized M b -> sized M c -> bpow radix2 (-960) <= M <= bpow radix2 1000 ->
  let w := joinF d r [a; b; c] in let e := unphase (RtoC (val a)) (RtoC (val b)) (RtoC (val c)) in
  finite (fst w) /\ finite (snd w) /\ Rabs (val (fst w) - fst e) <= 26 * uro * M /\ Rabs (val (snd w) - snd e) <= 26 * uro * M.
Proof.
  intros Hd Hr Sa Sb Sc HM w e. assert (MP : 0 < M) by (pose proof (bpow_gt_0 radix2 (-960)); lra). pose proof uro_pos as U. assert (US : uro <= / 1000) by (rewrite uro_small; cbn; lra).
  destruct (coef_near r Hr) as [N0 N1]. assert (SX : Forall (sized M) [a; b; c]) by (repeat (apply Forall_cons; [assumption|]); apply Forall_nil).
  destruct (row_close d _ [a; b; c] row0 (4 * uro) M Hd N0 eq_refl eq_refl ltac:(lra)) as [F0 E0]; [repeat (apply Forall_cons; [absb|]); apply Forall_nil|exact SX|exact HM|].
  destruct (row_close d _ [a; b; c] row1 (4 * uro) M Hd N1 eq_refl eq_refl ltac:(lra)) as [F1 E1]; [repeat (apply Forall_cons; [absb|]); apply Forall_nil|exact SX|exact HM|].
  set (v0 := d (nth 0 (coefF r) []) [a; b; c]) in *. set (v1 := d (nth 1 (coefF r) []) [a; b; c]) in *.
  destruct (zero_mul v1 F1) as [Fz Vz].
  assert (V1 : val 1%float = 1) by litval.
  assert (P1 : finite (0 * v1 - 1 * 0)%float /\ val (0 * v1 - 1 * 0)%float = 0).
  { assert (N : nearest (val (0 * v1)%float - val (1 * 0)%float) = 0) by (rewrite Vz; replace (val (1 * 0)%float) with 0 by litval; rewrite Rminus_0_r; apply round_0; auto with typeclass_instances).
    destruct (sub_fin (0 * v1)%float (1 * 0)%float Fz eq_refl) as [Fs Vs]; [rewrite N, Rabs_R0; apply huge_pos|]. split; [exact Fs|rewrite Vs; exact N]. }
  destruct P1 as [FP VP].
  assert (P2 : finite (v0 + (0 * v1 - 1 * 0))%float /\ val (v0 + (0 * v1 - 1 * 0))%float = val v0).
  { assert (N : nearest (val v0 + val (0 * v1 - 1 * 0)%float) = val v0) by (rewrite VP, Rplus_0_r; apply nearest_val).
    destruct (add_fin v0 _ F0 FP) as [Fs Vs]; [rewrite N; apply val_huge, F0|]. split; [exact Fs|rewrite Vs; exact N]. }
  assert (P3 : finite (1 * v1)%float /\ val (1 * v1)%float = val v1).
  { assert (N : nearest (val 1%float * val v1) = val v1) by (rewrite V1, Rmult_1_l; apply nearest_val).
    destruct (mul_fin 1%float v1 eq_refl F1) as [Fs Vs]; [rewrite N; apply val_huge, F1|]. split; [exact Fs|rewrite Vs; exact N]. }
  destruct P3 as [F3 V3].
  assert (P4 : forall z v, finite z -> val z = 0 -> finite v -> finite (z + v)%float /\ val (z + v)%float = val v).
  { intros z v Fz' Vz' Fv. assert (N : nearest (val z + val v) = val v) by (rewrite Vz', Rplus_0_l; apply nearest_val).
    destruct (add_fin z v Fz' Fv) as [Fs Vs]; [rewrite N; apply val_huge, Fv|]. split; [exact Fs|rewrite Vs; exact N]. }
  destruct (P4 (0 * 0)%float (1 * v1)%float eq_refl ltac:(litval) F3) as [F4 V4].
  destruct (P4 0%float (0 * 0 + 1 * v1)%float eq_refl val_zero F4) as [F5 V5].
  destruct P2 as [F2 V2]. unfold w, e, joinF. fold v0 v1. cbn [fst snd]. split; [exact F2|]. split; [exact F5|]. rewrite V2, V5, V4, V3, unphase_parts. cbn [fst snd].
  unfold row0, row1 in E0, E1. cbn [nth] in E0, E1. split.
  - replace (2 / 3 * val a - 1 / 3 * val b - 1 / 3 * val c) with (2 / 3 * val a + - (1 / 3) * val b + - (1 / 3) * val c) by ring. lra.
  - replace (R_sqrt.sqrt 3 / 3 * (val b - val c)) with (0 * val a + R_sqrt.sqrt 3 / 3 * val b + - (R_sqrt.sqrt 3 / 3) * val c) by ring. lra.
Qed.

(** ** The transform *)
Lemma nth_seq_map {X} (f : nat -> X) n k (x0 : X) : (k < n)%nat -> nth k (map f (seq 0 n)) x0 = f k.
Proof. intros H. rewrite nth_indep with (d' := f 0%nat) by (rewrite map_length, seq_length; exact H). rewrite map_nth, seq_nth by exact H. reflexivity. Qed.
Lemma nth_map_in {X Y} (f : X -> Y) l k x0 y0 : (k < length l)%nat -> nth k (map f l) y0 = f (nth k l x0).
Proof. intros H. rewrite nth_indep with (d' := f x0) by (rewrite map_length; exact H). apply map_nth. Qed.

(** The phases of samples up to M are the exact phases up to 2^-47 M. *)
Theorem C181_phases d root3 inv (v : list (float * float)) M : any_order d -> inv_ok inv -> v <> [] ->
  Forall (fun a => sized M (fst a) /\ sized M (snd a)) v -> bpow radix2 (-960) <= M <= bpow radix2 1000 ->
  exists t, ctF_transform d root3 inv (VecF v) = Ok (MatF (length v) t) /\ length t = 3%nat /\
    forall k, (k < 3)%nat -> length (nth k t []) = length v /\ forall j, (j < length v)%nat ->
      finite (nth j (nth k t []) 0%float) /\
      Rabs (val (nth j (nth k t []) 0%float) - phase k (cval (nth j v (0%float, 0%float)))) <= bpow radix2 (-47) * M.
Proof.
  intros Hd Hi Hv HS HM. assert (MP : 0 < M) by (pose proof (bpow_gt_0 radix2 (-960)); lra).
  assert (Li : length inv = 3%nat) by (unfold inv_ok in Hi; rewrite inv_coef in Hi; clear - Hi; inversion Hi as [|? ? ? ? _ H1]; subst; inversion H1 as [|? ? ? ? _ H2]; subst; inversion H2 as [|? ? ? ? _ H3]; subst; inversion H3; reflexivity).
  unfold ctF_transform. destruct (Nat.eqb_spec (length v) 0) as [E|_]; [destruct v; [congruence|discriminate]|].
  eexists. split; [reflexivity|]. rewrite map_length, seq_length. split; [exact Li|]. intros k Hk. rewrite nth_seq_map by lia. split; [apply map_length|].
  intros j Hj. rewrite (nth_map_in _ v j (0%float, 0%float)) by exact Hj. destruct (proj1 (Forall_forall _ _) HS _ (nth_In v (0%float, 0%float) Hj)) as [S1 S2].
  destruct (phases_close d inv _ M Hd Hi S1 S2 HM) as [_ H]. destruct (H k Hk) as [F E]. split; [exact F|]. apply Rle_trans with (1 := E).
  apply Rmult_le_compat_r; [lra|]. replace (bpow radix2 (-47)) with (64 * uro) by (rewrite uro_small; cbn; lra). pose proof uro_pos. lra.
Qed.
Print Assumptions C181_phases.

Lemma mat_run d root3 inv n a b c : (0 < n)%nat ->
  ctF_transform d root3 inv (MatF n [a; b; c]) = Ok (VecF (map (fun j => joinF d root3 [nth j a 0%float; nth j b 0%float; nth j c 0%float]) (seq 0 n))).
Proof. intros Hn. unfold ctF_transform. cbn [length Nat.eqb orb negb]. destruct n; [lia|]. reflexivity. Qed.

(** The complex samples of phases up to M are the exact ones up to 2^-48 M. *)
Theorem C181_complex d root3 inv n (a b c : list float) M : any_order d -> root_ok root3 -> (0 < n)%nat -> length a = n -> length b = n -> length c = n ->
  Forall (sized M) a -> Forall (sized M) b -> Forall (sized M) c -> bpow radix2 (-960) <= M <= bpow radix2 1000 ->
  exists w, ctF_transform d root3 inv (MatF n [a; b; c]) = Ok (VecF w) /\ length w = n /\
    forall j, (j < n)%nat -> let z := nth j w (0%float, 0%float) in
      let e := unphase (RtoC (val (nth j a 0%float))) (RtoC (val (nth j b 0%float))) (RtoC (val (nth j c 0%float))) in
      finite (fst z) /\ finite (snd z) /\
      Rabs (val (fst z) - fst e) <= bpow radix2 (-48) * M /\ Rabs (val (snd z) - snd e) <= bpow radix2 (-48) * M.
Proof.
  intros Hd Hr Hn La Lb Lc Sa Sb Sc HM. assert (MP : 0 < M) by (pose proof (bpow_gt_0 radix2 (-960)); lra).
  rewrite mat_run by exact Hn. eexists. split; [reflexivity|]. rewrite map_length, seq_length. split; [reflexivity|]. intros j Hj. cbv zeta. rewrite nth_seq_map by exact Hj.
  assert (G : forall l, length l = n -> Forall (sized M) l -> sized M (nth j l 0%float)) by (intros l L S; apply (proj1 (Forall_forall _ _) S), nth_In; lia).
  destruct (join_close d root3 _ _ _ M Hd Hr (G a La Sa) (G b Lb Sb) (G c Lc Sc) HM) as (F1 & F2 & E1 & E2).
  assert (K : 26 * uro * M <= bpow radix2 (-48) * M) by (apply Rmult_le_compat_r; [lra|]; replace (bpow radix2 (-48)) with (32 * uro) by (rewrite uro_small; cbn; lra); pose proof uro_pos; lra).
  split; [exact F1|]. split; [exact F2|]. split; [exact (Rle_trans _ _ _ E1 K)|exact (Rle_trans _ _ _ E2 K)].
Qed.
Print Assumptions C181_complex.

Lemma phase_bound k (z : C) M : (k < 3)%nat -> Rabs (fst z) <= M -> Rabs (snd z) <= M -> Rabs (phase k z) <= 7 / 5 * M.
Proof.
  intros Hk H1 H2. apply Rabs_le_inv in H1. apply Rabs_le_inv in H2. pose proof sqrt_half as Q. set (s := R_sqrt.sqrt 3 / 2) in *.
  assert (K : - (9 / 10 * M) <= s * snd z <= 9 / 10 * M).
  { assert (Rabs (s * snd z) <= 9 / 10 * M) by (rewrite Rabs_mult; apply Rmult_le_compat; try apply Rabs_pos; [apply Rabs_le; lra|apply Rabs_le; lra]). apply Rabs_le_inv in H. lra. }
  destruct k as [|[|[|k]]]; [| | |lia]; rewrite ?phase0, ?phase1, ?phase2; fold s; apply Rabs_le; lra.
Qed.
Lemma join_lipschitz (a b c a' b' c' e : R) : Rabs (a - a') <= e -> Rabs (b - b') <= e -> Rabs (c - c') <= e ->
  let w := unphase (RtoC a) (RtoC b) (RtoC c) in let w' := unphase (RtoC a') (RtoC b') (RtoC c') in
  Rabs (fst w - fst w') <= 4 / 3 * e /\ Rabs (snd w - snd w') <= 4 / 3 * e.
Proof.
  intros Ha Hb Hc. cbv zeta. rewrite !unphase_parts. cbn [fst snd]. apply Rabs_le_inv in Ha. apply Rabs_le_inv in Hb. apply Rabs_le_inv in Hc. split; [apply Rabs_le; lra|].
  pose proof sqrt_third as Q. set (s := R_sqrt.sqrt 3 / 3) in *. replace (s * (b - c) - s * (b' - c')) with (s * ((b - b') - (c - c'))) by ring. rewrite Rabs_mult. rewrite (Rabs_right s) by lra.
  assert (Rabs (b - b' - (c - c')) <= 2 * e) by (apply Rabs_le; lra). pose proof (Rabs_pos (b - b' - (c - c'))). nra.
Qed.

(** Complex to three phases to complex: back up to 2^-46 M. *)
Theorem C181_round_trip d root3 inv (v : list (float * float)) M : any_order d -> root_ok root3 -> inv_ok inv -> v <> [] ->
  Forall (fun a => sized M (fst a) /\ sized M (snd a)) v -> bpow radix2 (-960) <= M <= bpow radix2 999 ->
  exists t w, ctF_transform d root3 inv (VecF v) = Ok t /\ ctF_transform d root3 inv t = Ok (VecF w) /\ length w = length v /\
    forall j, (j < length v)%nat -> let z := nth j w (0%float, 0%float) in let x := nth j v (0%float, 0%float) in
      finite (fst z) /\ finite (snd z) /\
      Rabs (val (fst z) - val (fst x)) <= bpow radix2 (-46) * M /\ Rabs (val (snd z) - val (snd x)) <= bpow radix2 (-46) * M.
Proof.
  intros Hd Hr Hi Hv HS HM. assert (MP : 0 < M) by (pose proof (bpow_gt_0 radix2 (-960)); lra). pose proof uro_pos as U. assert (US : uro <= / 1000) by (rewrite uro_small; cbn; lra).
  assert (B1 : bpow radix2 999 <= bpow radix2 1000) by (apply bpow_le; lia).
  assert (B2 : bpow radix2 1000 = 2 * bpow radix2 999) by (change 2 with (bpow radix2 1); rewrite <- bpow_plus; reflexivity).
  destruct (C181_phases d root3 inv v M Hd Hi Hv HS ltac:(lra)) as (t & Et & Lt & _).
  assert (Li : length inv = 3%nat) by (unfold inv_ok in Hi; rewrite inv_coef in Hi; clear - Hi; inversion Hi as [|? ? ? ? _ H1]; subst; inversion H1 as [|? ? ? ? _ H2]; subst; inversion H2 as [|? ? ? ? _ H3]; subst; inversion H3; reflexivity).
  set (P := fun k => map (fun a => nth k (phasesF d inv a) 0%float) v).
  assert (E1 : ctF_transform d root3 inv (VecF v) = Ok (MatF (length v) [P 0%nat; P 1%nat; P 2%nat])).
  { unfold ctF_transform. destruct (Nat.eqb_spec (length v) 0) as [E|_]; [destruct v; [congruence|discriminate]|]. rewrite Li. reflexivity. }
  eexists _, _. split; [exact E1|]. split; [apply mat_run; destruct v; [congruence|cbn; lia]|]. split; [rewrite map_length, seq_length; reflexivity|].
  intros j Hj. cbv zeta. rewrite nth_seq_map by exact Hj. set (x := nth j v (0%float, 0%float)). unfold P. rewrite !(nth_map_in _ v j (0%float, 0%float)) by exact Hj. fold x.
  destruct (proj1 (Forall_forall _ _) HS x (nth_In v (0%float, 0%float) Hj)) as [S1 S2].
  destruct (phases_close d inv x M Hd Hi S1 S2 ltac:(lra)) as [_ PC].
  assert (PB : forall k, (k < 3)%nat -> sized (3 / 2 * M) (nth k (phasesF d inv x) 0%float)).
  { intros k Hk. destruct (PC k Hk) as [F E]. split; [exact F|]. pose proof (phase_bound k (cval x) M Hk (proj2 S1) (proj2 S2)) as Q.
    pose proof (Rabs_triang (val (nth k (phasesF d inv x) 0%float) - phase k (cval x)) (phase k (cval x))) as T.
    replace (val (nth k (phasesF d inv x) 0%float) - phase k (cval x) + phase k (cval x)) with (val (nth k (phasesF d inv x) 0%float)) in T by ring.
    assert (38 * uro * M <= 38 * / 1000 * M) by (apply Rmult_le_compat_r; lra). lra. }
  set (p0 := nth 0 (phasesF d inv x) 0%float) in *. set (p1 := nth 1 (phasesF d inv x) 0%float) in *. set (p2 := nth 2 (phasesF d inv x) 0%float) in *.
  destruct (join_close d root3 p0 p1 p2 (3 / 2 * M) Hd Hr (PB 0%nat ltac:(lia)) (PB 1%nat ltac:(lia)) (PB 2%nat ltac:(lia)) ltac:(lra)) as (F1 & F2 & D1 & D2).
  destruct (join_lipschitz _ _ _ _ _ _ _ (proj2 (PC 0%nat ltac:(lia))) (proj2 (PC 1%nat ltac:(lia))) (proj2 (PC 2%nat ltac:(lia)))) as [L1 L2]. fold p0 p1 p2 in L1, L2.
  rewrite unphase_phase in L1, L2. change (fst (cval x)) with (val (fst x)) in L1. change (snd (cval x)) with (val (snd x)) in L2.
  split; [exact F1|]. split; [exact F2|].
  assert (K : 26 * uro * (3 / 2 * M) + 4 / 3 * (38 * uro * M) <= bpow radix2 (-46) * M).
  { replace (bpow radix2 (-46)) with (128 * uro) by (rewrite uro_small; cbn; lra). assert (0 <= uro * M) by (apply Rmult_le_pos; lra). lra. }
  split.
  - eapply Rle_trans; [|exact K]. eapply Rle_trans; [|exact (Rplus_le_compat _ _ _ _ D1 L1)]. eapply Rle_trans; [|apply Rabs_triang]. right. f_equal. ring.
  - eapply Rle_trans; [|exact K]. eapply Rle_trans; [|exact (Rplus_le_compat _ _ _ _ D2 L2)]. eapply Rle_trans; [|apply Rabs_triang]. right. f_equal. ring.
Qed.
Print Assumptions C181_round_trip.

(** Three phases to complex to three phases: what is left of the mean is 2^-46 M. *)
Theorem C181_three_round_trip d root3 inv n (a b c : list float) M : any_order d -> root_ok root3 -> inv_ok inv -> (0 < n)%nat -> length a = n -> length b = n -> length c = n ->
  Forall (sized M) a -> Forall (sized M) b -> Forall (sized M) c -> bpow radix2 (-960) <= M <= bpow radix2 999 ->
  exists y t, ctF_transform d root3 inv (MatF n [a; b; c]) = Ok y /\ ctF_transform d root3 inv y = Ok (MatF n t) /\ length t = 3%nat /\
    forall k j, (k < 3)%nat -> (j < n)%nat -> let x i := val (nth j (nth i [a; b; c] []) 0%float) in
      finite (nth j (nth k t []) 0%float) /\
      Rabs (val (nth j (nth k t []) 0%float) - (x k - (x 0%nat + x 1%nat + x 2%nat) / 3)) <= bpow radix2 (-46) * M.
Proof.
  intros Hd Hr Hi Hn La Lb Lc Sa Sb Sc HM. assert (MP : 0 < M) by (pose proof (bpow_gt_0 radix2 (-960)); lra). pose proof uro_pos as U. assert (US : uro <= / 1000) by (rewrite uro_small; cbn; lra).
  assert (B2 : bpow radix2 1000 = 2 * bpow radix2 999) by (change 2 with (bpow radix2 1); rewrite <- bpow_plus; reflexivity).
  assert (Li : length inv = 3%nat) by (unfold inv_ok in Hi; rewrite inv_coef in Hi; clear - Hi; inversion Hi as [|? ? ? ? _ H1]; subst; inversion H1 as [|? ? ? ? _ H2]; subst; inversion H2 as [|? ? ? ? _ H3]; subst; inversion H3; reflexivity).
  eexists _, _. split; [apply mat_run, Hn|]. set (w := map _ (seq 0 n)). assert (Lw : length w = n) by (unfold w; rewrite map_length, seq_length; reflexivity).
  split; [unfold ctF_transform; destruct (Nat.eqb_spec (length w) 0) as [E|_]; [lia|]; rewrite Lw, Li; reflexivity|]. split; [reflexivity|].
  intros k j Hk Hj. cbv zeta. rewrite nth_seq_map by exact Hk. rewrite (nth_map_in _ w j (0%float, 0%float)) by lia. unfold w. rewrite nth_seq_map by exact Hj. clear w Lw. change (nth 0 [a; b; c] []) with a. change (nth 1 [a; b; c] []) with b. change (nth 2 [a; b; c] []) with c.
  assert (G : forall l, length l = n -> Forall (sized M) l -> sized M (nth j l 0%float)) by (intros l L S; apply (proj1 (Forall_forall _ _) S), nth_In; lia).
  pose proof (G a La Sa) as Ga. pose proof (G b Lb Sb) as Gb. pose proof (G c Lc Sc) as Gc.
  assert (Ex : val (nth j (nth k [a; b; c] []) 0%float) = nth k [val (nth j a 0%float); val (nth j b 0%float); val (nth j c 0%float)] 0) by (destruct k as [|[|[|k]]]; [reflexivity..|lia]).
  rewrite Ex. set (x0 := nth j a 0%float) in *. set (x1 := nth j b 0%float) in *. set (x2 := nth j c 0%float) in *.
  destruct (join_close d root3 x0 x1 x2 M Hd Hr Ga Gb Gc ltac:(lra)) as (F1 & F2 & D1 & D2). set (z := joinF d root3 [x0; x1; x2]) in *.
  set (e := unphase (RtoC (val x0)) (RtoC (val x1)) (RtoC (val x2))) in *.
  assert (EB : Rabs (fst e) <= 4 / 3 * M /\ Rabs (snd e) <= 4 / 3 * M).
  { assert (Z : e = unphase (RtoC (val x0)) (RtoC (val x1)) (RtoC (val x2))) by reflexivity. rewrite unphase_parts in Z. rewrite Z. cbn [fst snd].
    destruct Ga as [_ Ga], Gb as [_ Gb], Gc as [_ Gc]. apply Rabs_le_inv in Ga. apply Rabs_le_inv in Gb. apply Rabs_le_inv in Gc. split; [apply Rabs_le; lra|].
    pose proof sqrt_third. rewrite Rabs_mult, (Rabs_right (R_sqrt.sqrt 3 / 3)) by lra. assert (Rabs (val x1 - val x2) <= 2 * M) by (apply Rabs_le; lra). pose proof (Rabs_pos (val x1 - val x2)). nra. }
  assert (UM : 26 * uro * M <= 26 * / 1000 * M) by (apply Rmult_le_compat_r; lra).
  assert (SZ : sized (3 / 2 * M) (fst z) /\ sized (3 / 2 * M) (snd z)).
  { split; (split; [assumption|]).
    - pose proof (Rabs_triang (val (fst z) - fst e) (fst e)) as T. replace (val (fst z) - fst e + fst e) with (val (fst z)) in T by ring. lra.
    - pose proof (Rabs_triang (val (snd z) - snd e) (snd e)) as T. replace (val (snd z) - snd e + snd e) with (val (snd z)) in T by ring. lra. }
  destruct (phases_close d inv z (3 / 2 * M) Hd Hi (proj1 SZ) (proj2 SZ) ltac:(lra)) as [_ PC]. destruct (PC k Hk) as [F E]. split; [exact F|].
  assert (PD : Rabs (phase k (cval z) - phase k e) <= 7 / 5 * (26 * uro * M)).
  { replace (phase k (cval z) - phase k e) with (phase k (val (fst z) - fst e, val (snd z) - snd e)) by (unfold phase, cval; cbn [fst snd]; ring). apply phase_bound; assumption. }
  assert (PE : phase k e = nth k [val x0; val x1; val x2] 0 - (val x0 + val x1 + val x2) / 3).
  { destruct (phase_unphase (val x0) (val x1) (val x2)) as (P0 & P1 & P2). fold e in P0, P1, P2. unfold mean3 in *. destruct k as [|[|[|k]]]; [exact P0|exact P1|exact P2|lia]. }
  rewrite PE in PD.
  assert (K : 38 * uro * (3 / 2 * M) + 7 / 5 * (26 * uro * M) <= bpow radix2 (-46) * M).
  { replace (bpow radix2 (-46)) with (128 * uro) by (rewrite uro_small; cbn; lra). assert (0 <= uro * M) by (apply Rmult_le_pos; lra). lra. }
  eapply Rle_trans; [|exact K]. eapply Rle_trans; [|exact (Rplus_le_compat _ _ _ _ E PD)]. eapply Rle_trans; [|apply Rabs_triang]. right. f_equal. ring.
Qed.
Print Assumptions C181_three_round_trip.

(** Columns do not mix, whatever the doubles. *)
Theorem C181_columns d root3 inv : 
  (forall v w t u j k, ctF_transform d root3 inv (VecF v) = Ok (MatF (length v) t) -> ctF_transform d root3 inv (VecF w) = Ok (MatF (length w) u) ->
     (j < length v)%nat -> (j < length w)%nat -> nth j v (0%float, 0%float) = nth j w (0%float, 0%float) ->
     length t = length u /\ ((k < length t)%nat -> nth j (nth k t []) 0%float = nth j (nth k u []) 0%float)) /\
  (forall n m p q y z j, length p = 3%nat -> length q = 3%nat -> ctF_transform d root3 inv (MatF n p) = Ok (VecF y) -> ctF_transform d root3 inv (MatF m q) = Ok (VecF z) ->
     (j < n)%nat -> (j < m)%nat -> (forall k, (k < 3)%nat -> nth j (nth k p []) 0%float = nth j (nth k q []) 0%float) ->
     nth j y (0%float, 0%float) = nth j z (0%float, 0%float)).
Proof.
  split.
  - intros v w t u j k Ht Hu Hv Hw E. unfold ctF_transform in Ht, Hu. destruct (Nat.eqb (length v) 0); [discriminate|]. destruct (Nat.eqb (length w) 0); [discriminate|].
    injection Ht; intros Et. injection Hu; intros Eu. subst t u. rewrite !map_length, !seq_length. split; [reflexivity|]. intros Hk.
    rewrite !nth_seq_map by exact Hk. rewrite (nth_map_in _ v j (0%float, 0%float)), (nth_map_in _ w j (0%float, 0%float)) by assumption. rewrite E. reflexivity.
  - intros n m p q y z j Lp Lq Hy Hz Hn Hm E. destruct p as [|p0 [|p1 [|p2 [|]]]]; try discriminate. destruct q as [|q0 [|q1 [|q2 [|]]]]; try discriminate.
    rewrite mat_run in Hy by lia. rewrite mat_run in Hz by lia. injection Hy; intros Ey. injection Hz; intros Ez. subst y z. rewrite !nth_seq_map by assumption.
    pose proof (E 0%nat ltac:(lia)) as E0. pose proof (E 1%nat ltac:(lia)) as E1. pose proof (E 2%nat ltac:(lia)) as E2. cbn [nth] in E0, E1, E2. rewrite E0, E1, E2. reflexivity.
Qed.
Print Assumptions C181_columns.

Lemma sub_nan x y : nonnumber x -> nonnumber (x - y)%float.
Proof. unfold nonnumber. rewrite !is_nan_equiv, sub_equiv. intros H. destruct (Prim2B x); try discriminate. reflexivity. Qed.
Lemma join_nan d r a b c : any_order d -> nonnumber a \/ nonnumber b \/ nonnumber c \/ ~ finite a ->
  nonnumber (fst (joinF d r [a; b; c])) /\ nonnumber (snd (joinF d r [a; b; c])).
Proof.
  intros Hd H. assert (V1 : nonnumber (d (nth 1 (coefF r) []) [a; b; c])).
  { eapply dots_nan; [apply Hd; reflexivity|]. cbn [coefF map nth combine]. unfold poison.
    destruct H as [H|[H|[H|H]]].
    - apply Exists_cons_hd. right. left. exact H.
    - apply Exists_cons_tl, Exists_cons_hd. right. left. exact H.
    - apply Exists_cons_tl, Exists_cons_tl, Exists_cons_hd. right. left. exact H.
    - apply Exists_cons_hd. right. right. right. cbn [fst snd]. split; [exact H|]. split; [litval|reflexivity]. }
  unfold joinF. cbn [fst snd]. split.
  - apply add_nan. right. apply sub_nan, mul_nan. right. exact V1.
  - apply add_nan. right. apply add_nan. right. apply mul_nan. right. exact V1.
Qed.

(** A NaN part makes the three phases of that sample NaN; a NaN phase, or an infinite first
    phase, makes both parts of that sample NaN. *)
Theorem C181_nan d root3 inv : any_order d ->
  (forall v t j k, Forall (fun row => length row = 3%nat) inv -> ctF_transform d root3 inv (VecF v) = Ok (MatF (length v) t) ->
     (j < length v)%nat -> (k < length inv)%nat -> nonnumber (fst (nth j v (0%float, 0%float))) \/ nonnumber (snd (nth j v (0%float, 0%float))) ->
     nonnumber (nth j (nth k t []) 0%float)) /\
  (forall n p y j, length p = 3%nat -> ctF_transform d root3 inv (MatF n p) = Ok (VecF y) -> (j < n)%nat ->
     Exists (fun r => nonnumber (nth j r 0%float)) p \/ ~ finite (nth j (nth 0 p []) 0%float) ->
     nonnumber (fst (nth j y (0%float, 0%float))) /\ nonnumber (snd (nth j y (0%float, 0%float)))).
Proof.
  intros Hd. split.
  - intros v t j k Hi Ht Hj Hk H. unfold ctF_transform in Ht. destruct (Nat.eqb (length v) 0); [discriminate|]. injection Ht; intros Et. subst t.
    rewrite nth_seq_map by exact Hk. rewrite (nth_map_in _ v j (0%float, 0%float)) by exact Hj. set (a := nth j v (0%float, 0%float)) in *. unfold phasesF. rewrite (nth_map_in _ inv k []) by exact Hk.
    pose proof (proj1 (Forall_forall _ _) Hi _ (nth_In inv [] Hk)) as L. destruct (nth k inv []) as [|c0 [|c1 [|c2 [|]]]]; try discriminate.
    eapply dots_nan; [apply Hd; reflexivity|]. cbn [combine]. destruct H as [H|H]; [apply Exists_cons_hd|apply Exists_cons_tl, Exists_cons_hd]; right; left; exact H.
  - intros n p y j Lp Hy Hj H. destruct p as [|p0 [|p1 [|p2 [|]]]]; try discriminate. rewrite mat_run in Hy by lia. injection Hy; intros Ey. subst y. rewrite nth_seq_map by exact Hj.
    apply join_nan; [exact Hd|]. destruct H as [H|H]; [|cbn [nth] in H; tauto].
    inversion H as [? ? Q|? ? H1]; subst; [tauto|]. inversion H1 as [? ? Q|? ? H2]; subst; [tauto|]. inversion H2 as [? ? Q|? ? H3]; subst; [tauto|]. inversion H3.
Qed.
Print Assumptions C181_nan.

(** ** The constants of a correctly rounded platform *)
Definition leftdot : list float -> list float -> float := dot_from PrimFloat.add PrimFloat.mul 0%float.
Definition r181 : float := 0x1.bb67ae8584caap0.
Definition h181 : float := 0x1.bb67ae8584caap-1.
Definition inv181 : list (list float) := [[1; 0; 0.5]; [-0.5; h181; 0.5]; [-0.5; - h181; 0.5]]%float.
Lemma root181 : root_ok r181.
Proof.
  split; [reflexivity|]. assert (V : val r181 = 3900231685776981 / 2251799813685248) by litval. rewrite V.
  pose proof sqrt3 as Q. pose proof sqrt3_pos as P. set (s := R_sqrt.sqrt 3) in *. assert (B : bpow radix2 (-52) = / 4503599627370496) by (cbn; lra). rewrite B. apply Rabs_le.
  assert (A : 3900231685776980 / 2251799813685248 <= s) by (apply Rnot_lt_le; intros L; nra).
  assert (D : s <= 3900231685776982 / 2251799813685248) by (apply Rnot_lt_le; intros L; nra).
  assert (A' : 7800463371553961 / 4503599627370496 <= s) by (apply Rnot_lt_le; intros L; nra).
  assert (D' : s <= 7800463371553963 / 4503599627370496) by (apply Rnot_lt_le; intros L; nra). lra.
Qed.
Lemma inv181_ok : inv_ok inv181.
Proof.
  destruct root181 as [_ R]. assert (V : val r181 = 3900231685776981 / 2251799813685248) by litval. rewrite V in R. apply Rabs_le_inv in R.
  assert (Vh : val h181 = 3900231685776981 / 4503599627370496) by litval. assert (Vn : val (- h181)%float = - (3900231685776981 / 4503599627370496)) by litval.
  assert (B : bpow radix2 (-52) = / 4503599627370496) by (cbn; lra). rewrite B in R. assert (B' : bpow radix2 (-50) = / 1125899906842624) by (cbn; lra).
  destruct val_lits as (V1 & _ & _ & _ & V5 & V6 & _ & _ & _ & _ & _ & V0 & _).
  unfold inv_ok. rewrite inv_coef. unfold inv181, near. rewrite B'.
  repeat (apply Forall2_cons || apply Forall2_nil); (split; [reflexivity|]); rewrite ?V1, ?V5, ?V6, ?V0, ?Vh, ?Vn; apply Rabs_le; lra.
Qed.

(** The exact round trip of C17's kind does not survive rounding. *)
Theorem C181_exact_refuted : ~ (forall d root3 inv v, any_order d -> root_ok root3 -> inv_ok inv -> v <> [] -> Forall (fun a => sized 1 (fst a) /\ sized 1 (snd a)) v ->
  exists t w, ctF_transform d root3 inv (VecF v) = Ok t /\ ctF_transform d root3 inv t = Ok (VecF w) /\ map cval w = map cval v).
Proof.
  intros H. assert (S : sized 1 1%float) by (split; [reflexivity|destruct val_lits as (V & _); rewrite V, Rabs_R1; lra]). assert (S0 : sized 1 0%float) by (split; [reflexivity|rewrite val_zero, Rabs_R0; lra]).
  assert (HF : Forall (fun a => sized 1 (fst a) /\ sized 1 (snd a)) [(1%float, 0%float)]) by (apply Forall_cons; [split; assumption|apply Forall_nil]).
  destruct (H leftdot r181 inv181 [(1%float, 0%float)] left_any_order root181 inv181_ok ltac:(discriminate) HF) as (t & w & E1 & E2 & E3).
  vm_compute in E1. injection E1; intros Et. subst t. vm_compute in E2. injection E2; intros Ew. subst w. apply (f_equal (fun l => fst (hd (RtoC 0) l))) in E3. cbn [map hd cval fst] in E3. rename E3 into K. destruct val_lits as (V & _). rewrite V in K.
  revert K. litval.
Qed.
Print Assumptions C181_exact_refuted.

(** Examples: two samples of size 4 at most, three phases of size 8 at most. *)
Definition x181 : list (float * float) := [(1, 0); (-3, 4)]%float.
Lemma sized_lit M v r : finite v -> val v = r -> Rabs r <= M -> sized M v.
Proof. intros F E H. split; [exact F|rewrite E; exact H]. Qed.
Example C181_phases_example : any_order leftdot /\ root_ok r181 /\ inv_ok inv181 /\ x181 <> [] /\ Forall (fun a => sized 4 (fst a) /\ sized 4 (snd a)) x181 /\
  bpow radix2 (-960) <= 4 <= bpow radix2 999 /\
  match ctF_transform leftdot r181 inv181 (VecF x181) with
  | Ok (MatF n [a; b; c]) => (n =? 2)%nat && PrimFloat.eqb (nth 0 a 0) 1 && PrimFloat.eqb (nth 1 a 0) (-3) && PrimFloat.eqb (nth 1 b 0) 0x1.3db3d742c2655p2
  | _ => false end%float = true.
Proof.
  split; [exact left_any_order|]. split; [exact root181|]. split; [exact inv181_ok|]. split; [discriminate|]. split; [|split; [|vm_compute; reflexivity]].
  - destruct val_lits as (V1 & _). assert (V3 : val (-3)%float = -3) by litval. assert (V4 : val 4%float = 4) by litval.
    apply Forall_cons; [|apply Forall_cons; [|apply Forall_nil]]; (split; eapply sized_lit; [reflexivity|first [exact V1|exact V3|exact V4|exact val_zero]|apply Rabs_le; lra|reflexivity|first [exact V1|exact V3|exact V4|exact val_zero]|apply Rabs_le; lra]).
  - assert (H4 : 4 = bpow radix2 2) by (cbn; lra). rewrite H4. split; apply bpow_le; lia.
Qed.
Example C181_complex_example : Forall (sized 8) [3; 1]%float /\ Forall (sized 8) [-1; 7]%float /\ Forall (sized 8) [4; -8]%float /\ bpow radix2 (-960) <= 8 <= bpow radix2 999 /\
  match ctF_transform leftdot r181 inv181 (MatF 2 [[3; 1]; [-1; 7]; [4; -8]]) with
  | Ok (VecF [(a, b); (c, e)]) => PrimFloat.ltb (PrimFloat.abs (a - 1)) 0x1p-50 && PrimFloat.ltb (PrimFloat.abs (c - 1)) 0x1p-50 && PrimFloat.ltb (PrimFloat.abs (b + 0x1.7181116f43fe4p1)) 0x1p-40
  | _ => false end%float = true.
Proof.
  assert (L : forall v z, finite v -> val v = z -> Rabs z <= 8 -> sized 8 v) by (intros; eapply sized_lit; eassumption).
  assert (H8 : 8 = bpow radix2 3) by (cbn; lra).
  repeat split; try (rewrite H8; apply bpow_le; lia); try (vm_compute; reflexivity);
    (apply Forall_cons; [eapply L; [reflexivity|litval; reflexivity|apply Rabs_le; lra]|apply Forall_cons; [eapply L; [reflexivity|litval; reflexivity|apply Rabs_le; lra]|apply Forall_nil]]).
Qed.
Example C181_columns_example : 
  match ctF_transform leftdot r181 inv181 (VecF x181), ctF_transform leftdot r181 inv181 (VecF [(nan, 5); (-3, 4); (1, infinity)]) with
  | Ok (MatF _ t), Ok (MatF _ u) => PrimFloat.eqb (nth 1 (nth 2 t []) 0) (nth 1 (nth 2 u []) 0) && PrimFloat.is_nan (nth 0 (nth 2 u []) 0)
  | _, _ => false end%float = true.
Proof. vm_compute. reflexivity. Qed.
Example C181_nan_example :
  match ctF_transform leftdot r181 inv181 (MatF 3 [[1; infinity; 1]; [2; 2; 2]; [nan; 3; 3]]) with
  | Ok (VecF [(a, b); (c, e); (f, g)]) => PrimFloat.is_nan a && PrimFloat.is_nan b && PrimFloat.is_nan c && PrimFloat.is_nan e && negb (PrimFloat.is_nan f) && negb (PrimFloat.is_nan g)
  | _ => false end%float = true.
Proof. vm_compute. reflexivity. Qed.
