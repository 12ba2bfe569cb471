(** C174: the Haar transform in IEEE doubles. *)
From Flocq Require Import Core BinarySingleNaN PrimFloat.
From Coq Require Import List Arith ZArith Lia Bool Reals Lra Psatz String Floats Permutation.
From Verif Require Import Base BaseLemmas Instances PyString CalculusModel FirModel FirSpec FirProofs WaveletModel WaveletProofs WaveletProps WaveletExactProps WaveletLift.
From Verif Require Import DoubleSpec DoubleProofs DoubleOps WaveletDoubleProofs.
Import ListNotations.
Close Scope string_scope.
Open Scope R_scope.
Set Asymmetric Patterns.

(** ** The Haar bank *)
Fixpoint fpos (p : positive) : float :=
  match p with
  | xH => 1%float
  | xO p' => let v := fpos p' in (v + v)%float
  | xI p' => let v := fpos p' in (1 + (v + v))%float
  end.
Lemma fpos_eq d p : @of_pos (FAd d) p = fpos p.
Proof. induction p as [p IH|p IH|]; cbn [of_pos fpos]; [rewrite IH|rewrite IH|]; reflexivity. Qed.
Lemma haar_row_d d : @wt_row (FAd d) [10000000000000000; 10000000000000000]%Z = [1; 1]%float.
Proof.
  unfold wt_row. cbn [map]. unfold of_Z, wt_scale. rewrite !fpos_eq. change (@div (FAd d)) with PrimFloat.div.
  assert (E : (fpos 10000000000000000 / fpos 10000000000000000)%float = 1%float) by (vm_compute; reflexivity). rewrite E. reflexivity.
Qed.
Lemma haar_bank_d d style bk : py_lower style = "haar"%string -> @wt_make (FAd d) style 1 = Ok bk ->
  ba0 bk = [0.5; 0.5]%float /\ ba1 bk = [0.5; -0.5]%float /\ bs0 bk = [0.5; 0.5]%float /\ bs1 bk = [-0.5; 0.5]%float.
Proof.
  intros Hs E. unfold wt_make in E. rewrite (proj2 (py_title_eq_iff style "Haar") Hs) in E.
  change (assoc_str (py_title "Haar") wt_table) with (Some [(1, [10000000000000000; 10000000000000000])]%Z) in E. cbv iota in E.
  change (assoc_Z 1 [(1, [10000000000000000; 10000000000000000])]%Z) with (Some [10000000000000000; 10000000000000000]%Z) in E. cbv iota in E.
  rewrite haar_row_d in E. injection E as <-. repeat split; vm_compute; reflexivity.
Qed.

(** Doubles close to real numbers. *)
Definition close (e : R) (v : float) (r : R) : Prop := finite v /\ Rabs (val v - r) <= e.
Definition same (v : float) (r : R) : Prop := finite v /\ val v = r.

Lemma Forall2_nth_iff {X Y} (P : X -> Y -> Prop) l m dx dy :
  Forall2 P l m <-> length l = length m /\ forall i, (i < length l)%nat -> P (nth i l dx) (nth i m dy).
Proof.
  split.
  - induction 1 as [|x y l m H _ [IH1 IH2]]; [split; [reflexivity|cbn; lia]|]. split; [cbn; congruence|].
    intros [|i] Hi; [exact H|]. apply IH2. cbn in Hi. lia.
  - revert m. induction l as [|x l IH]; intros [|y m] [H1 H2]; try discriminate; [constructor|]. constructor; [apply (H2 0%nat); cbn; lia|].
    apply IH. split; [cbn in H1; lia|]. intros i Hi. apply (H2 (S i)). cbn. lia.
Qed.
Lemma val_halves : val 0.5%float = / 2 /\ val (-0.5)%float = - / 2 /\ finite 0.5%float /\ finite (-0.5)%float.
Proof. repeat split; unfold val; vm_compute Prim2B; cbn [B2R SF2R]; unfold F2R; cbn; lra. Qed.

Definition half_tap (a : float) : Prop := finite a /\ (val a = / 2 \/ val a = - / 2).
Lemma half_tap_abs a : half_tap a -> Rabs (val a) = / 2.
Proof. intros [_ [->| ->]]; [|rewrite Rabs_Ropp]; apply Rabs_pos_eq; lra. Qed.
Lemma half_tap_grid a g x : half_tap a -> on_grid g x -> on_grid (g - 1) (val a * x).
Proof.
  intros [_ [->| ->]] H; [replace (/ 2 * x) with (x / 2) by field|replace (- / 2 * x) with ((- x) / 2) by field]; apply on_grid_half; [exact H|apply on_grid_opp, H].
Qed.
Lemma half_dot_grid d a b x y g : any_order d -> half_tap a -> half_tap b -> finite x -> finite y -> on_grid g (val x) -> on_grid g (val y) ->
  (-1073 <= g <= 971)%Z -> Rabs (val x) + Rabs (val y) <= bpow radix2 (53 + g) ->
  same (d [a; b] [x; y]) (val a * val x + val b * val y).
Proof.
  intros Hd Ha Hb Fx Fy Gx Gy Hg H. destruct (dots_grid (g - 1) _ _ (Hd [a; b] [x; y] eq_refl)) as [F V].
  - lia.
  - apply Forall_cons; [|apply Forall_cons; [|apply Forall_nil]].
    + split; [apply Ha|]. split; [exact Fx|]. apply half_tap_grid; assumption.
    + split; [apply Hb|]. split; [exact Fy|]. apply half_tap_grid; assumption.
  - cbn [combine mags fold_right fst snd]. rewrite (half_tap_abs a), (half_tap_abs b) by assumption. replace (53 + g)%Z with (53 + (g - 1) + 1)%Z in H by lia.
    rewrite bpow_plus in H. change (bpow radix2 1) with 2 in H. lra.
  - split; [exact F|]. rewrite V. cbn [combine exact fold_right fst snd]. ring.
Qed.
Lemma double_grid w g : finite w -> on_grid g (2 * val w) -> (-1074 <= g <= 970)%Z -> Rabs (2 * val w) <= bpow radix2 (53 + g) ->
  same ((1 + 1) * w)%float (2 * val w) /\ same (0 + (1 + 1) * w)%float (2 * val w).
Proof.
  intros F G Hg H. change (1 + 1)%float with 2%float. assert (V2 : val 2%float = 2) by (unfold val; vm_compute Prim2B; cbn [B2R SF2R]; unfold F2R; cbn; lra).
  destruct (grid_nearest g _ Hg G H) as [E1 E2]. destruct (mul_fin 2%float w eq_refl F) as [F1 V1]; [rewrite V2; exact E2|]. rewrite V2, E1 in V1.
  destruct (add_fin 0%float (2 * w)%float fin_zero F1) as [F3 V3]; [rewrite V1, val_zero, Rplus_0_l; exact E2|].
  split; [split; assumption|]. split; [exact F3|]. rewrite V3, V1, val_zero, Rplus_0_l. exact E1.
Qed.
Lemma half_split n h : (n < 2 * h)%nat -> exists j, (j < h)%nat /\ (n = 2 * j \/ n = 2 * j + 1)%nat.
Proof.
  intros H. exists (n / 2)%nat. pose proof (Nat.div_mod n 2 ltac:(lia)). pose proof (Nat.mod_upper_bound n 2 ltac:(lia)).
  split; [apply Nat.div_lt_upper_bound; lia|]. lia.
Qed.
Lemma side_split n h : (n < 2 * h)%nat -> exists j, (j < h)%nat /\ (n = j \/ n = h + j)%nat.
Proof. intros H. destruct (le_lt_dec h n); [exists (n - h)%nat|exists n]; lia. Qed.

Lemma tap_zero d1 (a b x : float) g : any_order d1 -> half_tap a -> half_tap b -> finite x -> on_grid g (val x) -> (-1073 <= g <= 970)%Z -> Rabs (val x) <= bpow radix2 (53 + g) ->
    (same ((1 + 1) * d1 [a; b] [x; 0])%float (2 * val a * val x) /\ same (0 + (1 + 1) * d1 [a; b] [x; 0])%float (2 * val a * val x)) /\
    (same ((1 + 1) * d1 [a; b] [0; x])%float (2 * val b * val x) /\ same (0 + (1 + 1) * d1 [a; b] [0; x])%float (2 * val b * val x)).
  Proof.
    intros H1 Ha Hb Fx Gx Hg Hx.
    assert (Hg' : (-1073 <= g <= 971)%Z) by lia.
    assert (Z0 : Rabs (val 0%float) = 0) by (rewrite val_zero; apply Rabs_R0).
    assert (T : forall t, half_tap t -> on_grid g (2 * (val t * val x)) /\ Rabs (2 * (val t * val x)) <= bpow radix2 (53 + g)).
    { intros t Ht. split.
      - destruct Ht as [_ [-> | ->]]; [replace (2 * (/ 2 * val x)) with (val x) by field; exact Gx|replace (2 * (- / 2 * val x)) with (- val x) by field; apply on_grid_opp, Gx].
      - rewrite !Rabs_mult, half_tap_abs, (Rabs_pos_eq 2) by (assumption || lra). lra. }
    split.
    - destruct (half_dot_grid d1 a b x 0%float g H1 Ha Hb Fx fin_zero Gx (on_grid_0 g) Hg') as [F V]; [rewrite Z0; lra|].
      rewrite val_zero, Rmult_0_r, Rplus_0_r in V. destruct (T a Ha) as [T1 T2]. destruct (double_grid _ g F) as [Sd Sz]; [rewrite V; exact T1|lia|rewrite V; exact T2|].
      rewrite V, <- Rmult_assoc in Sd, Sz. split; assumption.
    - destruct (half_dot_grid d1 a b 0%float x g H1 Ha Hb fin_zero Fx (on_grid_0 g) Gx Hg') as [F V]; [rewrite Z0; lra|].
      rewrite val_zero, Rmult_0_r, Rplus_0_l in V. destruct (T b Hb) as [T1 T2]. destruct (double_grid _ g F) as [Sd Sz]; [rewrite V; exact T1|lia|rewrite V; exact T2|].
      rewrite V, <- Rmult_assoc in Sd, Sz. split; assumption.
  Qed.

  Lemma tap_p : half_tap 0.5%float. Proof. destruct val_halves as (H1 & H2 & H3 & H4). split; [exact H3|left; exact H1]. Qed.
  Lemma tap_n : half_tap (-0.5)%float. Proof. destruct val_halves as (H1 & H2 & H3 & H4). split; [exact H4|right; exact H2]. Qed.

Section Exact.
  Variable d : list float -> list float -> float.
  Hypothesis Hd : any_order d.
  Variable bkR : wbank RA.
  Hypothesis HB : is_bank [1 / 2; 1 / 2] 1 bkR.
  Variable g0 : Z.
  Variable N : nat.
  Variable M : R.
  Hypothesis Hg0 : (g0 <= 971)%Z.
  Hypothesis HgN : (-1073 <= g0 - Z.of_nat N)%Z.
  Hypothesis HM : M <= bpow radix2 (53 + g0 - Z.of_nat N).
  Definition anF : list float -> list float := @pure_analysis (FAd d) DFloat [0.5; 0.5]%float [0.5; -0.5]%float.
  Definition syF : list float -> list float := @pure_synthesis (FAd d) DFloat [0.5; 0.5]%float [-0.5; 0.5]%float.
  Definition inG (n : nat) (r : R) : Prop := on_grid (g0 - Z.of_nat n) r /\ Rabs r <= M.

  Lemma bp_mono n : (n <= N)%nat -> M <= bpow radix2 (53 + (g0 - Z.of_nat n)).
  Proof. intros H. eapply Rle_trans; [exact HM|]. apply bpow_le. lia. Qed.
  Lemma bp_half n : (n < N)%nat -> M + M <= bpow radix2 (53 + (g0 - Z.of_nat n)).
  Proof.
    intros H. pose proof (bp_mono (S n) H) as K. replace (53 + (g0 - Z.of_nat n))%Z with (53 + (g0 - Z.of_nat (S n)) + 1)%Z by lia.
    rewrite bpow_plus. change (bpow radix2 1) with 2. lra.
  Qed.

  Lemma exact_f n (l : list float) (l' : list R) h : length l = (2 * S h)%nat -> length l' = (2 * S h)%nat -> (n < N)%nat ->
    (forall i, (i < 2 * S h)%nat -> same (nth i l 0%float) (nth i l' 0)) -> (forall i, (i < 2 * S h)%nat -> inG n (nth i l' 0)) ->
    forall i, (i < 2 * S h)%nat -> same (nth i (anF l) 0%float) (nth i (an bkR l') 0).
  Proof.
    intros Hl Hl' Hn H HG i Hi. destruct (side_split i (S h) Hi) as (j & Hj & C). destruct (haar_an bkR HB l' (S h) j Hl' Hj) as [R1 R2].
    destruct (H (2 * j)%nat ltac:(lia)) as [F0 V0]. destruct (H (2 * j + 1)%nat ltac:(lia)) as [F1 V1].
    destruct (HG (2 * j)%nat ltac:(lia)) as [G0 M0]. destruct (HG (2 * j + 1)%nat ltac:(lia)) as [G1 M1].
    pose proof (bp_half n Hn). destruct val_halves as (W1 & W2 & _).
    rewrite <- V0 in G0, M0. rewrite <- V1 in G1, M1.
    destruct C as [-> | ->].
    - rewrite R1. unfold anF. rewrite (an2_low d [0.5; 0.5]%float [0.5; -0.5]%float l (S h) j eq_refl Hl Hj).
      destruct (half_dot_grid d 0.5%float 0.5%float _ _ _ Hd tap_p tap_p F1 F0 G1 G0) as [F V]; [lia|lra|]. split; [exact F|]. rewrite V, W1, V0, V1. field.
    - rewrite R2. unfold anF. rewrite (an2_high d [0.5; 0.5]%float [0.5; -0.5]%float l (S h) j eq_refl Hl Hj).
      destruct (half_dot_grid d 0.5%float (-0.5)%float _ _ _ Hd tap_p tap_n F1 F0 G1 G0) as [F V]; [lia|lra|]. split; [exact F|]. rewrite V, W1, W2, V0, V1. field.
  Qed.
  Lemma exact_G n (l' : list R) h : length l' = (2 * S h)%nat -> (n < N)%nat -> (forall i, (i < 2 * S h)%nat -> inG n (nth i l' 0)) ->
    forall i, (i < 2 * S h)%nat -> inG (S n) (nth i (an bkR l') 0).
  Proof.
    intros Hl' Hn HG i Hi. destruct (side_split i (S h) Hi) as (j & Hj & C). destruct (haar_an bkR HB l' (S h) j Hl' Hj) as [R1 R2].
    destruct (HG (2 * j)%nat ltac:(lia)) as [G0 M0]. destruct (HG (2 * j + 1)%nat ltac:(lia)) as [G1 M1].
    assert (Hz : (g0 - Z.of_nat (S n) = g0 - Z.of_nat n - 1)%Z) by lia.
    destruct C as [-> | ->]; [rewrite R1|rewrite R2]; (split; [rewrite Hz; apply on_grid_half; (apply on_grid_sub; assumption) || (apply on_grid_add; assumption)|]);
      unfold Rdiv; rewrite Rabs_mult, (Rabs_pos_eq (/ 2)) by lra.
    - pose proof (Rabs_triang (nth (2 * j) l' 0) (nth (2 * j + 1) l' 0)). lra.
    - pose proof (Rabs_triang (nth (2 * j + 1) l' 0) (- nth (2 * j) l' 0)) as T. rewrite Rabs_Ropp in T. unfold Rminus. lra.
  Qed.
  Lemma exact_g n (y : list float) (x : list R) h : length y = (2 * S h)%nat -> length x = (2 * S h)%nat -> (n < N)%nat ->
    (forall i, (i < 2 * S h)%nat -> inG n (nth i x 0)) ->
    (forall i, (i < 2 * S h)%nat -> same (nth i y 0%float) (nth i (an bkR x) 0)) ->
    forall i, (i < 2 * S h)%nat -> same (nth i (syF y) 0%float) (nth i x 0).
  Proof.
    intros Hy Hx Hn HG H i Hi. pose proof (exact_G n x h Hx Hn HG) as HG'.
    destruct (half_split i (S h) Hi) as (j & Hj & C). destruct (haar_an bkR HB x (S h) j Hx Hj) as [R1 R2].
    destruct (H j ltac:(lia)) as [F0 V0]. destruct (H (S h + j)%nat ltac:(lia)) as [F1 V1].
    destruct (HG' j ltac:(lia)) as [G0 M0]. destruct (HG' (S h + j)%nat ltac:(lia)) as [G1 M1].
    rewrite <- V0 in G0, M0. rewrite <- V1 in G1, M1. rewrite R1 in V0. rewrite R2 in V1.
    set (g := (g0 - Z.of_nat (S n))%Z) in *. assert (Hg : (-1073 <= g <= 970)%Z) by (unfold g; lia).
    pose proof (bp_mono (S n) Hn) as Hb. fold g in Hb. destruct val_halves as (W1 & W2 & _).
    destruct (tap_zero d 0.5 0.5 _ g Hd tap_p tap_p F0 G0 Hg ltac:(lra)) as [[_ [A1 A2]] [_ [A3 A4]]].
    destruct (tap_zero d (-0.5) 0.5 _ g Hd tap_n tap_p F1 G1 Hg ltac:(lra)) as [[B1 _] [B3 _]].
    rewrite W1 in *. rewrite W2 in *.
    assert (Q : forall u t v, finite u -> finite t -> val u + val t = v -> inG n v -> same (u + t)%float v).
    { intros u t v Fu Ft E [Gv Mv]. assert (Gv' : on_grid g v) by (apply on_grid_finer with (g0 - Z.of_nat n)%Z; [unfold g; lia|exact Gv]).
      destruct (grid_nearest g v ltac:(lia) Gv' ltac:(lra)) as [E1 E2]. destruct (add_fin u t Fu Ft) as [Fs Vs]; [rewrite E; exact E2|].
      split; [exact Fs|]. rewrite Vs, E. exact E1. }
    destruct C as [-> | ->].
    - unfold syF. rewrite (sy2_even d [0.5; 0.5]%float [-0.5; 0.5]%float y (S h) j eq_refl eq_refl Hy Hj).
      apply Q; [exact A1|exact (proj1 B1)| |apply HG; lia]. etransitivity; [exact (f_equal2 Rplus A2 (proj2 B1))|]. rewrite V0, V1. field.
    - unfold syF. rewrite (sy2_odd d [0.5; 0.5]%float [-0.5; 0.5]%float y (S h) j eq_refl eq_refl Hy Hj).
      apply Q; [exact A3|exact (proj1 B3)| |apply HG; lia]. etransitivity; [exact (f_equal2 Rplus A4 (proj2 B3))|]. rewrite V0, V1. field.
  Qed.
End Exact.

(** ** Arbitrary doubles *)
Lemma uro_val : uro = bpow radix2 (-53). Proof. unfold uro. change (-53)%Z with (-1 + -52)%Z. rewrite bpow_plus. reflexivity. Qed.
Lemma eta_val : eta0 = bpow radix2 (-1075). Proof. unfold eta0. change (-1075)%Z with (-1 + -1074)%Z. rewrite bpow_plus. reflexivity. Qed.
Lemma uro_small : uro <= / 1000.
Proof.
  rewrite uro_val. apply Rle_trans with (bpow radix2 (-10)); [apply bpow_le; lia|]. cbn. lra.
Qed.
Lemma gam2_le : gam 2 <= 201 / 100 * uro.
Proof. unfold gam. cbn [pow]. pose proof uro_pos. pose proof uro_small. nra. Qed.
Lemma und2_le : und 2 <= 4 * eta0.
Proof. unfold und. replace (INR (2 * 2 - 1)) with 3 by (cbn; ring). cbn [pow]. pose proof uro_pos. pose proof uro_small. pose proof eta0_pos.
  assert (3 * ((1 + uro) * ((1 + uro) * 1)) <= 4) by nra. apply Rmult_le_compat_r; lra.
Qed.
Lemma bpow_scale a b c : (a + b <= c)%Z -> bpow radix2 a * bpow radix2 b <= bpow radix2 c.
Proof. intros H. rewrite <- bpow_plus. apply bpow_le, H. Qed.

Lemma dot2_err d a b x y X : any_order d -> half_tap a -> half_tap b -> finite x -> finite y -> Rabs (val x) + Rabs (val y) <= 2 * X -> X <= bpow radix2 1005 ->
  close (gam 2 * X + und 2) (d [a; b] [x; y]) (val a * val x + val b * val y).
Proof.
  intros Hd Ha Hb Fx Fy H HX. assert (Em : mags (combine [a; b] [x; y]) <= X).
  { cbn [combine mags fold_right fst snd]. rewrite (half_tap_abs a), (half_tap_abs b) by assumption. lra. }
  pose proof gam2_le. pose proof und2_le. pose proof uro_small. pose proof eta_uro. pose proof (mags_pos (combine [a; b] [x; y])). pose proof (gam_pos 2). pose proof uro_pos.
  assert (Hh : 2 * bpow radix2 1005 + 1 < huge).
  { unfold huge. apply Rle_lt_trans with (bpow radix2 1007); [|apply bpow_lt; lia]. change 1007%Z with (2 + 1005)%Z. rewrite bpow_plus.
    change (bpow radix2 2) with 4. assert (1 <= bpow radix2 1005) by (change 1 with (bpow radix2 0); apply bpow_le; lia). lra. }
  destruct (dots_good _ _ (Hd [a; b] [x; y] eq_refl)) as [F V].
  - apply Forall_cons; [|apply Forall_cons; [|apply Forall_nil]]; (split; [first [apply Ha|apply Hb]|assumption]).
  - cbn [length combine] in *. assert (gam 2 <= 1) by lra. eapply Rle_lt_trans; [|exact Hh]. nra.
  - split; [exact F|]. cbn [length combine] in V. cbn [exact fold_right fst snd] in V. rewrite Rplus_0_r in V. eapply Rle_trans; [exact V|].
    apply Rplus_le_compat_r. apply Rmult_le_compat_l; [apply gam_pos|exact Em].
Qed.
Lemma val_on_grid x : Rabs (val x) < bpow radix2 1010 -> exists g, (-1074 <= g <= 970)%Z /\ on_grid g (val x) /\ Rabs (val x) <= bpow radix2 (53 + g).
Proof.
  intros H. destruct (Req_dec (val x) 0) as [Z0|Z0].
  - exists 0%Z. split; [lia|]. rewrite Z0. split; [apply on_grid_0|]. rewrite Rabs_R0. apply bpow_ge_0.
  - set (g := cexp radix2 (FLT_exp (-1074) 53) (val x)). exists g.
    assert (Hg : g = Z.max (mag radix2 (val x) - 53) (-1074)) by reflexivity.
    assert (Hm : (mag radix2 (val x) <= 1010)%Z) by (apply mag_le_bpow; assumption).
    split; [lia|]. split; [exists (Ztrunc (scaled_mantissa radix2 (FLT_exp (-1074) 53) (val x))); exact (val_format x)|].
    eapply Rle_trans; [apply Rlt_le, bpow_mag_gt|]. apply bpow_le. lia.
Qed.
Lemma tap_zero_any d (a b x : float) : any_order d -> half_tap a -> half_tap b -> finite x -> Rabs (val x) < bpow radix2 1005 ->
  (close (20 * eta0) ((1 + 1) * d [a; b] [x; 0])%float (2 * val a * val x) /\ close (20 * eta0) (0 + (1 + 1) * d [a; b] [x; 0])%float (2 * val a * val x)) /\
  (close (20 * eta0) ((1 + 1) * d [a; b] [0; x])%float (2 * val b * val x) /\ close (20 * eta0) (0 + (1 + 1) * d [a; b] [0; x])%float (2 * val b * val x)).
Proof.
  intros Hd Ha Hb Fx Hx. pose proof eta0_pos as P0.
  destruct (val_on_grid x) as (g & Hg & Gx & Bx); [eapply Rlt_le_trans; [exact Hx|apply bpow_le; lia]|].
  assert (S : forall v r, same v r -> close (20 * eta0) v r) by (intros v r [F V]; split; [exact F|]; rewrite V; replace (r - r) with 0 by ring; rewrite Rabs_R0; lra).
  destruct (Z.eq_dec g (-1074)) as [C|C].
  - clear S. assert (Bs : Rabs (val x) <= bpow radix2 (-1021)) by (rewrite C in Bx; exact Bx). clear C Gx Bx Hg g.
    pose proof gam2_le as G2. pose proof und2_le as U2. pose proof uro_small as US. pose proof uro_pos as UP.
    assert (T1 : uro * bpow radix2 (-1021) = 2 * eta0).
    { rewrite uro_val, eta_val, <- bpow_plus. change (-53 + -1021)%Z with (1 + -1075)%Z. rewrite bpow_plus. reflexivity. }
    assert (Hs : bpow radix2 (-1021) <= bpow radix2 1005) by (apply bpow_le; lia).
    assert (Z0 : Rabs (val 0%float) = 0) by (rewrite val_zero; apply Rabs_R0).
    pose proof (bpow_gt_0 radix2 (-1021)) as BP. set (s := bpow radix2 (-1021)) in *. pose proof (Rabs_pos (val x)) as AP. pose proof (gam_pos 2) as GP.
    assert (K : forall w r, close (gam 2 * (s / 2) + und 2) w r -> Rabs r <= s / 2 ->
              close (20 * eta0) ((1 + 1) * w)%float (2 * r) /\ close (20 * eta0) (0 + (1 + 1) * w)%float (2 * r)).
    { intros w r [Fw Vw] Hr. change (1 + 1)%float with 2%float.
      assert (V2 : val 2%float = 2) by (unfold val; vm_compute Prim2B; cbn [B2R SF2R]; unfold F2R; cbn; lra).
      assert (E1 : gam 2 * (s / 2) + und 2 <= 7 * eta0) by nra.
      assert (E2 : Rabs (2 * val w - 2 * r) <= 14 * eta0) by (rewrite <- Rmult_minus_distr_l, Rabs_mult, (Rabs_pos_eq 2) by lra; lra).
      assert (E3 : Rabs (2 * r) <= s) by (rewrite Rabs_mult, (Rabs_pos_eq 2) by lra; lra).
      pose proof (round_err _ _ _ _ E2 E3) as E4. assert (E5 : Rabs (nearest (2 * val w) - 2 * r) <= 20 * eta0) by nra.
      assert (E6 : Rabs (nearest (2 * val w)) < huge).
      { eapply Rle_lt_trans; [apply (err_size _ _ _ _ E5 E3)|]. pose proof eta_uro. assert (s <= 1) by (change 1 with (bpow radix2 0); apply bpow_le; lia).
        pose proof huge_big. assert (IZR 2 < IZR (2 ^ 60)) by (apply IZR_lt; reflexivity). lra. }
      destruct (mul_fin 2%float w eq_refl Fw) as [F1 V1]; [rewrite V2; exact E6|]. rewrite V2 in V1.
      destruct (add_fin 0%float (2 * w)%float fin_zero F1) as [F3 V3]; [rewrite val_zero, Rplus_0_l, nearest_val, V1; exact E6|].
      rewrite val_zero, Rplus_0_l, nearest_val in V3.
      split; (split; [assumption|]); rewrite ?V3, V1; exact E5. }
    assert (Hr : forall t, half_tap t -> Rabs (val t * val x) <= s / 2) by (intros t Ht; rewrite Rabs_mult, half_tap_abs by exact Ht; lra).
    split.
    + pose proof (dot2_err d a b x 0%float (s / 2) Hd Ha Hb Fx fin_zero ltac:(rewrite Z0; lra) ltac:(lra)) as D.
      rewrite val_zero, Rmult_0_r, Rplus_0_r in D. rewrite Rmult_assoc. apply K; [exact D|apply Hr, Ha].
    + pose proof (dot2_err d a b 0%float x (s / 2) Hd Ha Hb fin_zero Fx ltac:(rewrite Z0; lra) ltac:(lra)) as D.
      rewrite val_zero, Rmult_0_r, Rplus_0_l in D. rewrite Rmult_assoc. apply K; [exact D|apply Hr, Hb].
  - destruct (tap_zero d a b x g Hd Ha Hb Fx Gx ltac:(lia) Bx) as [[A1 A2] [A3 A4]]. auto.
Qed.

Section Approx.
  Variable d : list float -> list float -> float.
  Hypothesis Hd : any_order d.
  Variable bkR : wbank RA.
  Hypothesis HB : is_bank [1 / 2; 1 / 2] 1 bkR.
  Variable M : R.
  Hypothesis HM1 : bpow radix2 (-1000) <= M.
  Hypothesis HM2 : M <= bpow radix2 1000.
  Lemma eta_M : 100 * eta0 <= / 10 * (uro * M).
  Proof.
    rewrite eta_val, uro_val. assert (E : bpow radix2 (-1053) <= bpow radix2 (-53) * M).
    { change (-1053)%Z with (-53 + -1000)%Z. rewrite bpow_plus. apply Rmult_le_compat_l; [apply bpow_ge_0|exact HM1]. }
    assert (1000 * bpow radix2 (-1075) <= bpow radix2 (-1053)); [|lra].
    change (-1053)%Z with (22 + -1075)%Z. rewrite bpow_plus. apply Rmult_le_compat_r; [apply bpow_ge_0|]. cbn. lra.
  Qed.
  Lemma M_pos : 0 < M. Proof. pose proof (bpow_gt_0 radix2 (-1000)). lra. Qed.
  Lemma M_top : 4 * M <= bpow radix2 1004.
  Proof. change 1004%Z with (4 + 1000)%Z. rewrite bpow_plus. change (bpow radix2 4) with 16. pose proof M_pos. pose proof (bpow_gt_0 radix2 1000). lra. Qed.

  Lemma approx_f e (l : list float) (l' : list R) h : length l = (2 * S h)%nat -> length l' = (2 * S h)%nat -> 0 <= e <= M / 4 ->
    (forall i, (i < 2 * S h)%nat -> close e (nth i l 0%float) (nth i l' 0)) -> (forall i, (i < 2 * S h)%nat -> Rabs (nth i l' 0) <= M) ->
    forall i, (i < 2 * S h)%nat -> close (e + 3 * uro * M) (nth i (anF d l) 0%float) (nth i (an bkR l') 0).
  Proof.
    intros Hl Hl' He H HG i Hi. destruct (side_split i (S h) Hi) as (j & Hj & C). destruct (haar_an bkR HB l' (S h) j Hl' Hj) as [R1 R2].
    destruct (H (2 * j)%nat ltac:(lia)) as [F0 V0]. destruct (H (2 * j + 1)%nat ltac:(lia)) as [F1 V1].
    pose proof (HG (2 * j)%nat ltac:(lia)) as M0. pose proof (HG (2 * j + 1)%nat ltac:(lia)) as M1.
    pose proof (err_size _ _ _ _ V0 M0) as S0. pose proof (err_size _ _ _ _ V1 M1) as S1. pose proof M_pos as MP. pose proof M_top as MT.
    pose proof eta_M as EM. pose proof gam2_le as G2. pose proof und2_le as U2. pose proof uro_pos as UP. pose proof (gam_pos 2) as GP.
    assert (T : bpow radix2 1004 <= bpow radix2 1005) by (apply bpow_le; lia). pose proof eta0_pos as EP.
    assert (HE : gam 2 * (5 / 4 * M) + und 2 <= 3 * uro * M).
    { assert (gam 2 * (5 / 4 * M) <= 201 / 100 * uro * (5 / 4 * M)) by (apply Rmult_le_compat_r; lra). nra. }
    destruct val_halves as (W1 & W2 & _).
    destruct C as [-> | ->].
    - rewrite R1. unfold anF. rewrite (an2_low d [0.5; 0.5]%float [0.5; -0.5]%float l (S h) j eq_refl Hl Hj).
      destruct (dot2_err d 0.5%float 0.5%float _ _ (5 / 4 * M) Hd tap_p tap_p F1 F0 ltac:(lra) ltac:(lra)) as [F V]. split; [exact F|].
      rewrite W1 in V. set (v := val _) in V |- *. set (x0 := val _) in *. set (x1 := val (nth (2 * j + 1) l 0%float)) in *.
      apply Rabs_le_inv in V0, V1, V. apply Rabs_le. lra.
    - rewrite R2. unfold anF. rewrite (an2_high d [0.5; 0.5]%float [0.5; -0.5]%float l (S h) j eq_refl Hl Hj).
      destruct (dot2_err d 0.5%float (-0.5)%float _ _ (5 / 4 * M) Hd tap_p tap_n F1 F0 ltac:(lra) ltac:(lra)) as [F V]. split; [exact F|].
      rewrite W1, W2 in V. apply Rabs_le_inv in V0, V1, V. apply Rabs_le. lra.
  Qed.
  Lemma approx_G (l' : list R) h : length l' = (2 * S h)%nat -> (forall i, (i < 2 * S h)%nat -> Rabs (nth i l' 0) <= M) ->
    forall i, (i < 2 * S h)%nat -> Rabs (nth i (an bkR l') 0) <= M.
  Proof.
    intros Hl' HG i Hi. destruct (side_split i (S h) Hi) as (j & Hj & C). destruct (haar_an bkR HB l' (S h) j Hl' Hj) as [R1 R2].
    pose proof (HG (2 * j)%nat ltac:(lia)) as M0. pose proof (HG (2 * j + 1)%nat ltac:(lia)) as M1. apply Rabs_le_inv in M0, M1.
    destruct C as [-> | ->]; [rewrite R1|rewrite R2]; apply Rabs_le; lra.
  Qed.
  Lemma approx_g e1 e2 (y : list float) (x : list R) h : length y = (2 * S h)%nat -> length x = (2 * S h)%nat -> 0 <= e1 <= M / 4 -> 0 <= e2 <= M / 4 ->
    (forall i, (i < 2 * S h)%nat -> Rabs (nth i x 0) <= M) ->
    (forall i, (i < S h)%nat -> close e1 (nth i y 0%float) (nth i (an bkR x) 0)) ->
    (forall i, (i < S h)%nat -> close e2 (nth (S h + i) y 0%float) (nth (S h + i) (an bkR x) 0)) ->
    forall i, (i < 2 * S h)%nat -> close (e1 + e2 + 2 * uro * M) (nth i (syF d y) 0%float) (nth i x 0).
  Proof.
    intros Hy Hx He1 He2 HG H1 H2 i Hi. pose proof (approx_G x h Hx HG) as HG'.
    destruct (half_split i (S h) Hi) as (j & Hj & C). destruct (haar_an bkR HB x (S h) j Hx Hj) as [R1 R2].
    destruct (H1 j Hj) as [F0 V0]. destruct (H2 j Hj) as [F1 V1].
    pose proof (HG' j ltac:(lia)) as M0. pose proof (HG' (S h + j)%nat ltac:(lia)) as M1.
    pose proof (err_size _ _ _ _ V0 M0) as S0. pose proof (err_size _ _ _ _ V1 M1) as S1. pose proof M_pos as MP. pose proof M_top as MT.
    pose proof eta_M as EM. pose proof uro_pos as UP. pose proof uro_small as US. pose proof eta0_pos as EP.
    assert (T : bpow radix2 1004 < bpow radix2 1005) by (apply bpow_lt; lia). destruct val_halves as (W1 & W2 & _).
    destruct (tap_zero_any d 0.5 0.5 _ Hd tap_p tap_p F0 ltac:(lra)) as [[_ [A1 A2]] [_ [A3 A4]]].
    destruct (tap_zero_any d (-0.5) 0.5 _ Hd tap_n tap_p F1 ltac:(lra)) as [[[B1 B2] _] [[B3 B4] _]].
    rewrite W1 in *. rewrite W2 in *. rewrite R1 in V0. rewrite R2 in V1.
    assert (Q : forall u t v, finite u -> finite t -> Rabs (val u + val t - v) <= e1 + e2 + 40 * eta0 -> Rabs v <= M -> close (e1 + e2 + 2 * uro * M) (u + t)%float v).
    { intros u t v Fu Ft E Mv. pose proof (round_err _ _ _ _ E Mv) as K.
      assert (K2 : Rabs (nearest (val u + val t) - v) <= e1 + e2 + 2 * uro * M) by nra.
      destruct (add_fin u t Fu Ft) as [Fs Vs]; [|split; [exact Fs|rewrite Vs; exact K2]].
      eapply Rle_lt_trans; [apply (err_size _ _ _ _ K2 Mv)|]. apply Rle_lt_trans with (4 * M); [nra|]. eapply Rle_lt_trans; [exact MT|]. apply bpow_lt. lia. }
    destruct C as [-> | ->].
    - unfold syF. rewrite (sy2_even d [0.5; 0.5]%float [-0.5; 0.5]%float y (S h) j eq_refl eq_refl Hy Hj).
      apply Q; [exact A1|exact B1| |apply HG; lia]. clear A4 B4. change (@add (FAd d) (@one (FAd d)) (@one (FAd d))) with (1 + 1)%float.
      apply Rabs_le_inv in V0, V1, A2, B2. apply Rabs_le. lra.
    - unfold syF. rewrite (sy2_odd d [0.5; 0.5]%float [-0.5; 0.5]%float y (S h) j eq_refl eq_refl Hy Hj).
      apply Q; [exact A3|exact B3| |apply HG; lia]. clear A2 B2. change (@add (FAd d) (@one (FAd d)) (@one (FAd d))) with (1 + 1)%float.
      apply Rabs_le_inv in V0, V1, A4, B4. apply Rabs_le. lra.
  Qed.
End Approx.

(** ** All levels *)
Section Levels.
  Variable d : list float -> list float -> float.
  Variables (style : string) (bk : wbank (FAd d)) (bkR : wbank RA) (k : nat).
  Hypothesis Hs : py_lower style = "haar"%string.
  Hypothesis Eb : @wt_make (FAd d) style 1 = Ok bk.
  Hypothesis EbR : makeR style 1 = Ok bkR.
  Variables (PA PS : float -> R -> Prop) (good0 : float -> Prop).
  Let getF (M : list (list float)) i j : float := nth j (nth i M []) 0%float.
  Hypothesis LA : forall r c (M : list (list float)), adm (S k) r -> adm (S k) c -> @wf (FAd d) r c M ->
    (forall i j, (i < r)%nat -> (j < c)%nat -> good0 (getF M i j)) ->
    (forall i j, (i < r)%nat -> (j < c)%nat -> PA (getF (@pureA (FAd d) (anF d) (S k) r c M) i j) (getR (@pureA RA (an bkR) (S k) r c (map (map val) M)) i j)) /\
    (forall i j, (i < r)%nat -> (j < c)%nat -> PS (getF (@pureS (FAd d) (syF d) (S k) r c (@pureA (FAd d) (anF d) (S k) r c M)) i j) (val (getF M i j))).

  Lemma pure_d inverse r c M : @pure_wt (FAd d) bk DFloat inverse (S k) r c M = if inverse then @pureS (FAd d) (syF d) (S k) r c M else @pureA (FAd d) (anF d) (S k) r c M.
  Proof.
    destruct (haar_bank_d d style bk Hs Eb) as (B1 & B2 & B3 & B4). unfold pure_wt. rewrite B1, B2, B3, B4. reflexivity.
  Qed.
  Lemma mat_Forall2 {P : float -> R -> Prop} r c (M : list (list float)) (X : list (list R)) : @wf (FAd d) r c M -> wfR r c X ->
    (forall i j, (i < r)%nat -> (j < c)%nat -> P (getF M i j) (getR X i j)) -> Forall2 (Forall2 P) M X.
  Proof.
    intros HM HX H. apply (Forall2_nth_iff _ M X [] []). split; [destruct HM as [H1 _], HX as [H2 _]; transitivity r; [exact H1|symmetry; exact H2]|].
    intros i Hi. assert (Hi' : (i < r)%nat) by (destruct HM as [H1 _]; eapply Nat.lt_le_trans; [exact Hi|apply Nat.eq_le_incl; exact H1]).
    pose proof (@wf_row (FAd d) r c M i HM Hi') as LM. pose proof (@wf_row RA r c X i HX Hi') as LX.
    apply (Forall2_nth_iff P _ _ 0%float 0). split; [transitivity c; [exact LM|symmetry; exact LX]|].
    intros j Hj. apply H; [exact Hi'|]. eapply Nat.lt_le_trans; [exact Hj|apply Nat.eq_le_incl; exact LM].
  Qed.
  Lemma map_val_wf r c (M : list (list float)) : @wf (FAd d) r c M -> wfR r c (map (map val) M).
  Proof.
    intros [H1 H2]. split; [rewrite map_length; exact H1|]. rewrite Forall_forall in *. intros l Hl. apply in_map_iff in Hl. destruct Hl as (l0 & <- & Hl0).
    rewrite map_length. apply H2, Hl0.
  Qed.
  Lemma map_val_get (M : list (list float)) i j : getR (map (map val) M) i j = val (getF M i j).
  Proof.
    unfold getR, getF. change (@nil R) with (map val []). rewrite map_nth. change 0 with (val 0%float). apply map_nth.
  Qed.

  Lemma levels2 r c (M : list (list float)) : r <> 0%nat -> c <> 0%nat -> length M = r -> Forall (fun row => length row = c) M ->
    good_dim (Z.of_nat (S k)) r -> good_dim (Z.of_nat (S k)) c -> Forall (Forall good0) M ->
    exists (N : list (list float)) (X : list (list R)) (Y : list (list float)), wt_transform bk DFloat (@ND2 (FAd d) c M) (Z.of_nat (S k)) false = Ok (@ND2 (FAd d) c N) /\
      transformR bkR (ND2 c (map (map val) M)) (Z.of_nat (S k)) false = Ok (ND2 c X) /\ Forall2 (Forall2 PA) N X /\
      wt_transform bk DFloat (@ND2 (FAd d) c N) (Z.of_nat (S k)) true = Ok (@ND2 (FAd d) c Y) /\ Forall2 (Forall2 PS) Y (map (map val) M).
  Proof.
    intros Hr Hc H1 H2 Gr Gc HG. assert (HM : @wf (FAd d) r c M) by (split; assumption). pose proof (good_adm _ _ Hr Gr) as Ar. pose proof (good_adm _ _ Hc Gc) as Ac.
    pose proof (wt_make_ok _ _ _ Eb) as Hb. pose proof (wt_make_ok _ _ _ EbR) as HbR. pose proof (map_val_wf r c M HM) as HX.
    assert (G0 : forall i j, (i < r)%nat -> (j < c)%nat -> good0 (getF M i j)).
    { intros i j Hi Hj. rewrite Forall_forall in HG. assert (Hr' : In (nth i M []) M) by (apply nth_In; lia). specialize (HG _ Hr'). rewrite Forall_forall in HG.
      apply HG. apply nth_In. rewrite Forall_forall in H2. rewrite (H2 _ Hr'). exact Hj. }
    destruct (LA r c M Ar Ac HM G0) as [L1 L2].
    assert (WA : @wf (FAd d) r c (@pureA (FAd d) (anF d) (S k) r c M)) by (apply pureA_wf; [apply keeps_analysis|assumption..]).
    assert (WX : wfR r c (@pureA RA (an bkR) (S k) r c (map (map val) M))) by (apply (@pureA_wf RA); [apply (@keeps_analysis RA)|assumption..]).
    assert (WS : @wf (FAd d) r c (@pureS (FAd d) (syF d) (S k) r c (@pureA (FAd d) (anF d) (S k) r c M))) by (apply pureS_wf; [apply keeps_synthesis|assumption..]).
    exists (@pureA (FAd d) (anF d) (S k) r c M), (@pureA RA (an bkR) (S k) r c (map (map val) M)), (@pureS (FAd d) (syF d) (S k) r c (@pureA (FAd d) (anF d) (S k) r c M)).
    split; [|split; [|split; [|split]]].
    - rewrite (transform2 bk Hb DFloat r c M k false Hr Hc HM Gr Gc), pure_d. reflexivity.
    - exact (transform2 bkR HbR DFloat r c (map (map val) M) k false Hr Hc HX Gr Gc).
    - apply (mat_Forall2 r c); assumption.
    - rewrite (transform2 bk Hb DFloat r c _ k true Hr Hc WA Gr Gc), pure_d. reflexivity.
    - apply (mat_Forall2 r c); [exact WS|exact HX|]. intros i j Hi Hj. rewrite map_val_get. apply L2; assumption.
  Qed.
  Lemma levels1 (x : list float) : x <> [] -> good_dim (Z.of_nat (S k)) (length x) -> Forall good0 x ->
    exists (y : list float) (y' : list R) (z : list float), wt_transform bk DFloat (@ND1 (FAd d) x) (Z.of_nat (S k)) false = Ok (@ND1 (FAd d) y) /\
      transformR bkR (ND1 (map val x)) (Z.of_nat (S k)) false = Ok (ND1 y') /\ Forall2 PA y y' /\
      wt_transform bk DFloat (@ND1 (FAd d) y) (Z.of_nat (S k)) true = Ok (@ND1 (FAd d) z) /\ Forall2 PS z (map val x).
  Proof.
    intros Hx Hg HG. pose proof (wt_make_ok _ _ _ Eb) as Hb. pose proof (wt_make_ok _ _ _ EbR) as HbR.
    assert (Hl : length x <> 0%nat) by (destruct x; cbn; congruence).
    assert (Hx' : map val x <> []) by (destruct x; cbn; congruence).
    assert (G1 : good_dim (Z.of_nat (S k)) 1) by (left; reflexivity).
    destruct (levels2 1 (length x) [x]) as (N & X & Y & T1 & T2 & T3 & T4 & T5); [lia|exact Hl|reflexivity|repeat constructor|exact G1|exact Hg|constructor; [exact HG|constructor]|].
    destruct (transform1 bk Hb DFloat x k false Hx Hg) as (y & E1 & E2).
    destruct (transform1 bkR HbR DFloat (map val x) k false Hx' ltac:(rewrite map_length; exact Hg)) as (y' & E3 & E4). rewrite map_length in E4.
    pose proof (transform2 bk Hb DFloat 1 (length x) [x] k false ltac:(lia) Hl ltac:(split; [reflexivity|repeat constructor]) G1 Hg) as U1. 
    assert (NE : N = [y]) by (pose proof (eq_trans (eq_sym T1) U1) as Q; injection Q as Q; exact (eq_trans Q E2)). subst N.
    pose proof (transform2 bkR HbR DFloat 1 (length x) [map val x] k false ltac:(lia) Hl ltac:(split; [reflexivity|constructor; [apply map_length|constructor]]) G1 Hg) as U2.
    assert (XE : X = [y']) by (pose proof (eq_trans (eq_sym T2) U2) as Q; injection Q as Q; exact (eq_trans Q E4)). subst X.
    inversion T3 as [|? ? ? ? Tr _]; subst.
    assert (Ly : length y = length x).
    { assert (P : @wf (FAd d) 1 (length x) (@pure_wt (FAd d) bk DFloat false (S k) 1 (length x) [x])).
      { apply pureA_wf; [apply keeps_analysis|left; reflexivity|apply good_adm; assumption|split; [reflexivity|repeat constructor]]. }
      pose proof (eq_ind _ (fun m => @wf (FAd d) 1 (length x) m) P _ E2) as [_ P']. inversion P'; subst; assumption. }
    assert (Hy : y <> []) by (intros ->; cbn in Ly; congruence).
    destruct (transform1 bk Hb DFloat y k true Hy ltac:(rewrite Ly; exact Hg)) as (z & E5 & E6). rewrite Ly in E6.
    pose proof (transform2 bk Hb DFloat 1 (length x) [y] k true ltac:(lia) Hl ltac:(split; [reflexivity|constructor; [exact Ly|constructor]]) G1 Hg) as U3.
    assert (YE : Y = [z]) by (pose proof (eq_trans (eq_sym T4) U3) as Q; injection Q as Q; exact (eq_trans Q E6)). subst Y. inversion T5 as [|? ? ? ? Tz _]; subst.
    exists y, y', z. auto 8.
  Qed.
End Levels.

Definition fixed (g : Z) (count : Z) (v : float) : Prop := finite v /\ on_grid g (val v) /\ Rabs (val v) <= bpow radix2 (53 + g - 2 * count).

(** Fixed-point data: multiples of 2^g with 53 - 2 count significant bits.  The doubles of the
    transform are the exact coefficients, and the inverse returns the data. *)
Theorem C174_exact d style (bk : wbank (FAd d)) (bkR : wbank RA) (count g : Z) : any_order d -> py_lower style = "haar"%string ->
  @wt_make (FAd d) style 1 = Ok bk -> makeR style 1 = Ok bkR -> (0 < count)%Z -> (g <= 971)%Z -> (-1073 <= g - 2 * count)%Z ->
  (forall x : list float, x <> [] -> good_dim count (length x) -> Forall (fixed g count) x ->
     exists (y : list float) (y' : list R) (z : list float),
       wt_transform bk DFloat (@ND1 (FAd d) x) count false = Ok (@ND1 (FAd d) y) /\ transformR bkR (ND1 (map val x)) count false = Ok (ND1 y') /\
       Forall2 same y y' /\
       wt_transform bk DFloat (@ND1 (FAd d) y) count true = Ok (@ND1 (FAd d) z) /\ Forall2 same z (map val x)) /\
  (forall r c (M : list (list float)), r <> 0%nat -> c <> 0%nat -> length M = r -> Forall (fun row => length row = c) M ->
     good_dim count r -> good_dim count c -> Forall (Forall (fixed g count)) M ->
     exists (N : list (list float)) (X : list (list R)) (Y : list (list float)),
       wt_transform bk DFloat (@ND2 (FAd d) c M) count false = Ok (@ND2 (FAd d) c N) /\ transformR bkR (ND2 c (map (map val) M)) count false = Ok (ND2 c X) /\
       Forall2 (Forall2 same) N X /\
       wt_transform bk DFloat (@ND2 (FAd d) c N) count true = Ok (@ND2 (FAd d) c Y) /\ Forall2 (Forall2 same) Y (map (map val) M)).
Proof.
  intros Hd Hs Eb EbR Hc Hg1 Hg2. destruct (to_nat_pos _ Hc) as [k Hk]. assert (Ec : count = Z.of_nat (S k)) by lia. subst count. clear Hc Hk.
  pose proof (haar_bank style bkR Hs EbR) as HB.
  set (L := bpow radix2 (53 + g - 2 * Z.of_nat (S k))).
  assert (LA : forall r c (M : list (list float)), adm (S k) r -> adm (S k) c -> @wf (FAd d) r c M ->
    (forall i j, (i < r)%nat -> (j < c)%nat -> fixed g (Z.of_nat (S k)) (nth j (nth i M []) 0%float)) ->
    (forall i j, (i < r)%nat -> (j < c)%nat -> same (nth j (nth i (@pureA (FAd d) (anF d) (S k) r c M) []) 0%float) (getR (@pureA RA (an bkR) (S k) r c (map (map val) M)) i j)) /\
    (forall i j, (i < r)%nat -> (j < c)%nat -> same (nth j (nth i (@pureS (FAd d) (syF d) (S k) r c (@pureA (FAd d) (anF d) (S k) r c M)) []) 0%float) (val (nth j (nth i M []) 0%float)))).
  { intros r c M Ar Ac HM HG. pose proof (map_val_wf d r c M HM) as HX.
    assert (G0 : mG (B := RA) (inG g L) 0 r c (map (map val) M)).
    { intros i j Hi Hj. change (@mget RA (map (map val) M) i j) with (getR (map (map val) M) i j). rewrite map_val_get.
      destruct (HG i j Hi Hj) as (_ & F2 & F3). split; [cbn [Z.of_nat]; rewrite Z.sub_0_r; exact F2|exact F3]. }
    assert (N0 : mnear (A := FAd d) (B := RA) (fun _ => same) 0 r c M (map (map val) M)).
    { intros i j Hi Hj. change (@mget RA (map (map val) M) i j) with (getR (map (map val) M) i j). rewrite map_val_get.
      destruct (HG i j Hi Hj) as (F1 & _ & _). split; [exact F1|reflexivity]. }
    assert (KA : forall n m v, (n <= m)%nat -> inG g L n v -> inG g L m v).
    { intros n m v H [H1 H2]. split; [|exact H2]. apply on_grid_finer with (g - Z.of_nat n)%Z; [lia|exact H1]. }
    assert (HL : L <= bpow radix2 (53 + g - Z.of_nat (2 * S k))) by (unfold L; apply bpow_le; lia).
    assert (HN : (-1073 <= g - Z.of_nat (2 * S k))%Z) by lia.
    assert (LF : forall e n (l : list (FAd d)) (l' : list RA) h, length l = (2 * S h)%nat -> length l' = (2 * S h)%nat -> (n < 2 * S k)%nat -> 0 <= e <= 0 ->
      (forall i, (i < 2 * S h)%nat -> same (nth i l zero) (nth i l' zero)) -> (forall i, (i < 2 * S h)%nat -> inG g L n (nth i l' zero)) ->
      forall i, (i < 2 * S h)%nat -> same (nth i (anF d l) (@zero (FAd d))) (nth i (an bkR l') (@zero RA))).
    { intros e n l l' h H1 H2 H3 _ H5 H6 i Hi. exact (exact_f d Hd bkR HB g (2 * S k) L Hg1 HN HL n l l' h H1 H2 H3 H5 H6 i Hi). }
    assert (LG : forall e1 e2 n (y : list (FAd d)) (x : list RA) h, length y = (2 * S h)%nat -> length x = (2 * S h)%nat -> (n < 2 * S k)%nat -> 0 <= e1 <= 0 -> 0 <= e2 <= 0 ->
      (forall i, (i < 2 * S h)%nat -> inG g L n (nth i x zero)) ->
      (forall i, (i < S h)%nat -> same (nth i y zero) (nth i (an bkR x) (@zero RA))) ->
      (forall i, (i < S h)%nat -> same (nth (S h + i) y zero) (nth (S h + i) (an bkR x) (@zero RA))) ->
      forall i, (i < 2 * S h)%nat -> same (nth i (syF d y) (@zero (FAd d))) (nth i x zero)).
    { intros e1 e2 n y x h H1 H2 H3 _ _ H6 H7 H8 i Hi. refine (exact_g d Hd bkR HB g (2 * S k) L Hg1 HN HL n y x h H1 H2 H3 H6 _ i Hi).
      intros q Hq. destruct (side_split q (S h) Hq) as (j & Hj & [-> | ->]); [apply H7|apply H8]; exact Hj. }
    pose proof (lift_A (A := FAd d) (B := RA) (fun _ => same) (inG g L) (anF d) (an bkR) 0 0 (2 * S k) (fun _ _ _ _ _ H => H) KA (keeps_analysis _ _ _) (@keeps_analysis RA _ _ _) (Rle_refl 0) LF
      (fun n l' h => exact_G bkR HB g (2 * S k) L n l' h)
      (S k) 0 0%nat r c M (map (map val) M) Ar Ac HM HX ltac:(lia) ltac:(lra) ltac:(lra) G0 N0) as NA.
    pose proof (lift_S (A := FAd d) (B := RA) (fun _ => same) (inG g L) (syF d) (an bkR) 0 0 (2 * S k) (fun _ _ _ _ _ H => H) KA (keeps_synthesis _ _ _) (@keeps_analysis RA _ _ _) (Rle_refl 0)
      (fun n l' h => exact_G bkR HB g (2 * S k) L n l' h) LG
      (S k) 0 0%nat r c (@pureA (FAd d) (anF d) (S k) r c M) (map (map val) M) Ar Ac ltac:(apply pureA_wf; [apply keeps_analysis|assumption..]) HX ltac:(lia) ltac:(lra) ltac:(lra) G0) as NS.
    split.
    - intros i j Hi Hj. exact (NA i j Hi Hj).
    - intros i j Hi Hj. rewrite <- (map_val_get M). exact (NS NA i j Hi Hj). }
  split.
  - intros x Hx Hgd HF. exact (levels1 d style bk bkR k Hs Eb EbR same same _ LA x Hx Hgd HF).
  - intros r c M Hr0 Hc0 H1 H2 H3 H4 H5. exact (levels2 d style bk bkR k Hs Eb EbR same same _ LA r c M Hr0 Hc0 H1 H2 H3 H4 H5).
Qed.
Print Assumptions C174_exact.

Definition bounded (M : R) (v : float) : Prop := finite v /\ Rabs (val v) <= M.

(** Any doubles of size at most M: coefficients within 6 count units of M, data within 30 count^2. *)
Theorem C174_accurate d style (bk : wbank (FAd d)) (bkR : wbank RA) (count : Z) (M : R) : any_order d -> py_lower style = "haar"%string ->
  @wt_make (FAd d) style 1 = Ok bk -> makeR style 1 = Ok bkR -> (0 < count <= 2 ^ 20)%Z -> bpow radix2 (-1000) <= M <= bpow radix2 1000 ->
  (forall x : list float, x <> [] -> good_dim count (length x) -> Forall (bounded M) x ->
     exists (y : list float) (y' : list R) (z : list float),
       wt_transform bk DFloat (@ND1 (FAd d) x) count false = Ok (@ND1 (FAd d) y) /\ transformR bkR (ND1 (map val x)) count false = Ok (ND1 y') /\
       Forall2 (close (6 * IZR count * (bpow radix2 (-53) * M))) y y' /\
       wt_transform bk DFloat (@ND1 (FAd d) y) count true = Ok (@ND1 (FAd d) z) /\
       Forall2 (close (30 * (IZR count * IZR count) * (bpow radix2 (-53) * M))) z (map val x)) /\
  (forall r c (X : list (list float)), r <> 0%nat -> c <> 0%nat -> length X = r -> Forall (fun row => length row = c) X ->
     good_dim count r -> good_dim count c -> Forall (Forall (bounded M)) X ->
     exists (N : list (list float)) (Y : list (list R)) (Z : list (list float)),
       wt_transform bk DFloat (@ND2 (FAd d) c X) count false = Ok (@ND2 (FAd d) c N) /\ transformR bkR (ND2 c (map (map val) X)) count false = Ok (ND2 c Y) /\
       Forall2 (Forall2 (close (6 * IZR count * (bpow radix2 (-53) * M)))) N Y /\
       wt_transform bk DFloat (@ND2 (FAd d) c N) count true = Ok (@ND2 (FAd d) c Z) /\
       Forall2 (Forall2 (close (30 * (IZR count * IZR count) * (bpow radix2 (-53) * M)))) Z (map (map val) X)).
Proof.
  intros Hd Hs Eb EbR [Hc Hc2] [HM1 HM2]. destruct (to_nat_pos _ Hc) as [k Hk]. assert (Ec : count = Z.of_nat (S k)) by lia. subst count. clear Hc Hk.
  pose proof (haar_bank style bkR Hs EbR) as HB. rewrite <- uro_val. rewrite <- INR_IZR_INZ. set (q := INR (S k)). pose proof (M_pos M HM1) as MP. pose proof uro_pos as UP.
  assert (Q1 : 1 <= q) by (unfold q; rewrite S_INR; pose proof (pos_INR k); lra).
  assert (Q2 : q <= IZR (2 ^ 20)) by (unfold q; rewrite INR_IZR_INZ; apply IZR_le; exact Hc2).
  assert (UM : 0 < uro * M) by (apply Rmult_lt_0_compat; assumption).
  assert (Q3 : 30 * (q * q) * (uro * M) <= M / 4).
  { assert (Hu : uro * IZR (2 ^ 53) = 1) by (rewrite uro_val, (IZR_Zpower radix2) by lia; rewrite <- bpow_plus; reflexivity).
    assert (q * q <= IZR (2 ^ 40)) by (change (2 ^ 40)%Z with (2 ^ 20 * 2 ^ 20)%Z; rewrite mult_IZR; apply Rmult_le_compat; lra).
    assert (K : 30 * (q * q) * uro <= / 4); [|replace (30 * (q * q) * (uro * M)) with (30 * (q * q) * uro * M) by ring; assert (30 * (q * q) * uro * M <= / 4 * M) by (apply Rmult_le_compat_r; lra); lra].
    assert (E53 : IZR (2 ^ 53) = IZR (2 ^ 40) * IZR (2 ^ 13)) by (rewrite <- mult_IZR; f_equal). rewrite E53 in Hu.
    assert (P40 : 0 < IZR (2 ^ 40)) by (apply IZR_lt; reflexivity).
    assert (E13 : IZR (2 ^ 13) = 8192) by reflexivity. rewrite E13 in Hu.
    assert (30 * (q * q) * uro <= 30 * IZR (2 ^ 40) * uro) by (apply Rmult_le_compat_r; lra). set (p := IZR (2 ^ 40)) in *. lra. }
  assert (QQ : q <= q * q) by nra.
  assert (Q5 : q * (uro * M) <= q * q * (uro * M)) by (apply Rmult_le_compat_r; lra).
  assert (Q6 : 0 < q * q * (uro * M)) by (apply Rmult_lt_0_compat; [nra|exact UM]).
  assert (LA : forall r c (X : list (list float)), adm (S k) r -> adm (S k) c -> @wf (FAd d) r c X ->
    (forall i j, (i < r)%nat -> (j < c)%nat -> bounded M (nth j (nth i X []) 0%float)) ->
    (forall i j, (i < r)%nat -> (j < c)%nat -> close (6 * q * (uro * M)) (nth j (nth i (@pureA (FAd d) (anF d) (S k) r c X) []) 0%float) (getR (@pureA RA (an bkR) (S k) r c (map (map val) X)) i j)) /\
    (forall i j, (i < r)%nat -> (j < c)%nat -> close (30 * (q * q) * (uro * M)) (nth j (nth i (@pureS (FAd d) (syF d) (S k) r c (@pureA (FAd d) (anF d) (S k) r c X)) []) 0%float) (val (nth j (nth i X []) 0%float)))).
  { intros r c X Ar Ac HX HG. pose proof (map_val_wf d r c X HX) as HY.
    set (G := fun (_ : nat) (v : RA) => Rabs v <= M).
    assert (G0 : mG (B := RA) G 0 r c (map (map val) X)).
    { intros i j Hi Hj. change (@mget RA (map (map val) X) i j) with (getR (map (map val) X) i j). rewrite map_val_get. apply (HG i j Hi Hj). }
    assert (N0 : mnear (A := FAd d) (B := RA) close 0 r c X (map (map val) X)).
    { intros i j Hi Hj. change (@mget RA (map (map val) X) i j) with (getR (map (map val) X) i j). rewrite map_val_get.
      destruct (HG i j Hi Hj) as [F1 _]. split; [exact F1|]. match goal with |- Rabs ?t <= 0 => replace t with 0; [rewrite Rabs_R0; lra|] end.
      unfold mget. change (@zero (FAd d)) with 0%float. symmetry. apply Rminus_diag_eq. reflexivity. }
    assert (KN : forall e1 e2 v w, e1 <= e2 -> close e1 v w -> close e2 v w) by (intros e1 e2 v w H [H1 H2]; split; [exact H1|lra]).
    assert (R0 : 0 <= 3 * uro * M) by lra. assert (S0 : 0 <= 2 * uro * M) by lra.
    assert (C1 : 0 + 2 * q * (3 * uro * M) <= M / 4) by (replace (0 + 2 * q * (3 * uro * M)) with (6 * (q * (uro * M))) by ring; lra).
    assert (C2 : 6 * q * (uro * M) + q * (3 * (6 * q * (uro * M)) + 3 * (2 * uro * M)) <= 30 * (q * q) * (uro * M)).
    { replace (6 * q * (uro * M) + q * (3 * (6 * q * (uro * M)) + 3 * (2 * uro * M))) with (18 * (q * q * (uro * M)) + 12 * (q * (uro * M))) by ring. lra. }
    assert (C3 : 6 * q * (uro * M) + q * (3 * (6 * q * (uro * M)) + 3 * (2 * uro * M)) <= M / 4) by lra.
    assert (C4 : 0 <= 6 * q * (uro * M)) by (replace (6 * q * (uro * M)) with (6 * (q * (uro * M))) by ring; nra).
    pose proof (lift_A (A := FAd d) (B := RA) close G (anF d) (an bkR) (3 * uro * M) (M / 4) (2 * S k) KN (fun _ _ _ _ H => H) (keeps_analysis _ _ _) (@keeps_analysis RA _ _ _) R0
      (fun e n l l' h H1 H2 _ H4 H5 H6 => approx_f d Hd bkR HB M HM1 HM2 e l l' h H1 H2 H4 H5 H6)
      (fun n l' h H1 _ H3 => approx_G bkR HB M l' h H1 H3)
      (S k) 0 0%nat r c X (map (map val) X) Ar Ac HX HY ltac:(lia) (Rle_refl 0) C1 G0 N0) as NA. fold q in NA.
    replace (0 + 2 * q * (3 * uro * M)) with (6 * q * (uro * M)) in NA by ring.
    pose proof (lift_S (A := FAd d) (B := RA) close G (syF d) (an bkR) (2 * uro * M) (M / 4) (2 * S k) KN (fun _ _ _ _ H => H) (keeps_synthesis _ _ _) (@keeps_analysis RA _ _ _) S0
      (fun n l' h H1 _ H3 => approx_G bkR HB M l' h H1 H3)
      (fun e1 e2 n y x h H1 H2 _ H4 H5 H6 H7 H8 => approx_g d Hd bkR HB M HM1 HM2 e1 e2 y x h H1 H2 H4 H5 H6 H7 H8)
      (S k) (6 * q * (uro * M)) 0%nat r c (@pureA (FAd d) (anF d) (S k) r c X) (map (map val) X) Ar Ac ltac:(apply pureA_wf; [apply keeps_analysis|assumption..]) HY ltac:(lia) C4 C3 G0 NA) as NS. fold q in NS.
    split.
    - intros i j Hi Hj. exact (NA i j Hi Hj).
    - intros i j Hi Hj. rewrite <- (map_val_get X). eapply KN; [exact C2|exact (NS i j Hi Hj)]. }
  split.
  - intros x Hx Hgd HF. exact (levels1 d style bk bkR k Hs Eb EbR _ _ _ LA x Hx Hgd HF).
  - intros r c X Hr0 Hc0 H1 H2 H3 H4 H5. exact (levels2 d style bk bkR k Hs Eb EbR _ _ _ LA r c X Hr0 Hc0 H1 H2 H3 H4 H5).
Qed.
Print Assumptions C174_accurate.

(** Without the limit on the bits the data are not returned: the smaller of two samples is lost entirely. *)
Definition dotL : list float -> list float -> float := dot_from PrimFloat.add PrimFloat.mul 0%float.
Definition haarD : wbank (FAd dotL) := @mkBank (FAd dotL) [0.5; 0.5]%float [0.5; -0.5]%float [0.5; 0.5]%float [-0.5; 0.5]%float.
Lemma haarD_make : @wt_make (FAd dotL) "HAAR" 1 = Ok haarD.
Proof.
  unfold wt_make. change (assoc_str (py_title "HAAR") wt_table) with (Some [(1, [10000000000000000; 10000000000000000])]%Z). cbv iota.
  change (assoc_Z 1 [(1, [10000000000000000; 10000000000000000])]%Z) with (Some [10000000000000000; 10000000000000000]%Z). cbv iota.
  rewrite haar_row_d. unfold wt_bank, haarD. change (Nat.odd (length [1; 1]%float - 1) || Nat.eqb (length [1; 1]%float - 1) 0)%bool with true. cbv iota zeta.
  assert (E : forall a b c e a' b' c' e', a = a' -> b = b' -> c = c' -> e = e' -> @Ok (wbank (FAd dotL)) (mkBank a b c e) = Ok (mkBank a' b' c' e')) by (intros; subst; reflexivity).
  apply E; vm_compute; reflexivity.
Qed.
Lemma nd_floats d (t : res (ndarr (FAd d))) (y : list float) : match t with Ok (ND1 z) => Some (z : list float) | _ => None end = Some y -> t = Ok (@ND1 (FAd d) y).
Proof. destruct t as [[z|? ?| |]|]; intros [= ->]; reflexivity. Qed.
Theorem C174_exact_refuted : exists d style (bk : wbank (FAd d)) (x y z : list float), any_order d /\ py_lower style = "haar"%string /\
  @wt_make (FAd d) style 1 = Ok bk /\ Forall finite x /\
  wt_transform bk DFloat (@ND1 (FAd d) x) 1 false = Ok (@ND1 (FAd d) y) /\ wt_transform bk DFloat (@ND1 (FAd d) y) 1 true = Ok (@ND1 (FAd d) z) /\
  length z = length x /\ exists i, (i < length x)%nat /\ val (nth i x 0%float) <> 0 /\ val (nth i z 0%float) = 0.
Proof.
  exists dotL, "HAAR"%string, haarD, [1; 0x1p-60]%float, [0.5; -0.5]%float, [1; 0]%float.
  split; [exact left_any_order|]. split; [reflexivity|]. split; [exact haarD_make|]. split; [repeat constructor|].
  split; [apply nd_floats; vm_compute; reflexivity|]. split; [apply nd_floats; vm_compute; reflexivity|]. split; [reflexivity|]. exists 1%nat. split; [cbn; lia|].
  split; [|reflexivity]. cbn [nth]. unfold val. vm_compute Prim2B. cbn [B2R SF2R]. unfold F2R. cbn [Fnum Fexp cond_Zopp]. apply Rgt_not_eq.
  apply Rmult_lt_0_compat; [apply IZR_lt; reflexivity|apply bpow_gt_0].
Qed.
Print Assumptions C174_exact_refuted.

Example C174_example : any_order dotL /\ py_lower "HAAR" = "haar"%string /\ @wt_make (FAd dotL) "HAAR" 1 = Ok haarD /\ is_ok (makeR "HAAR" 1) = true /\
  Forall (fixed 0 2) [3; -5; 1000000007; 0]%float /\ good_dim 2 4 /\ Forall (bounded 4) [1.5; 0x1p-60; 3; 0x1.999999999999ap-4]%float.
Proof.
  split; [exact left_any_order|]. split; [reflexivity|]. split; [exact haarD_make|]. split; [reflexivity|]. split; [|split; [right; reflexivity|]].
  - assert (F : forall v z, finite v -> val v = IZR z -> (Z.abs z <= 2 ^ 49)%Z -> fixed 0 2 v).
    { intros v z Fv E Hz. split; [exact Fv|]. split; [exists z; rewrite E; cbn; ring|]. rewrite E, <- abs_IZR.
      change (53 + 0 - 2 * 2)%Z with 49%Z. rewrite <- (IZR_Zpower radix2) by lia. apply IZR_le, Hz. }
    assert (V : forall v z, same v (IZR z) -> (Z.abs z <= 2 ^ 49)%Z -> fixed 0 2 v) by (intros v z [? ?] Hz; apply (F v z); assumption).
    repeat apply Forall_cons; [apply (V _ 3%Z)|apply (V _ (-5)%Z)|apply (V _ 1000000007%Z)|apply (V _ 0%Z)|apply Forall_nil]; try (cbn; lia);
      (split; [reflexivity|unfold val; vm_compute Prim2B; cbn [B2R SF2R]; unfold F2R; cbn; lra]).
  - repeat apply Forall_cons; try apply Forall_nil; (split; [reflexivity|unfold val; vm_compute Prim2B; cbn [B2R SF2R]; unfold F2R; cbn; apply Rabs_le; lra]).
Qed.
