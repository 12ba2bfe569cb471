(** A stable IirFilter in IEEE doubles: no overflow, and bounded distance to the exact run. *)
From Flocq Require Import Core BinarySingleNaN PrimFloat.
From Coq Require Import List Arith ZArith Reals Lra Lia Floats.
From Coquelicot Require Import Complex.
From Verif Require Import Base BaseLemmas Instances FirModel FirSpec FirProofs IirModel IirSpec IirProofs PolyC ZProofs AnalysisModel AnalysisProps StabilityProofs RoundingProofs DoubleSpec DoubleProofs.
Import ListNotations.
Set Asymmetric Patterns.
Open Scope R_scope.
Open Scope C_scope.
Local Arguments Cmod _%C.

(** The complex number of a double *)
Definition emb (x : float) : C := RtoC (val x).
Lemma emb_mod x : Cmod (emb x)%C = Rabs (val x). Proof. apply Cmod_R. Qed.
Lemma emb_zero : emb 0%float = RtoC 0. Proof. unfold emb. rewrite val_zero. reflexivity. Qed.
Lemma emb_fits dt x : dt <> DInt -> @fits CA dt (emb x).
Proof. destruct dt; intros H; [congruence|reflexivity|reflexivity]. Qed.
Lemma nth_emb i l : nth i (map emb l) (RtoC 0) = emb (nth i l 0%float).
Proof. rewrite <- emb_zero. apply map_nth. Qed.

Lemma exact_dot (l : list float) : forall m, length l = length m -> RtoC (exact (combine l m)) = @dot CA (map emb l) (map emb m).
Proof.
  induction l as [|x l IH]; intros [|y m] H; try discriminate; [reflexivity|]. cbn [combine map].
  rewrite dot_cons by (rewrite !map_length; cbn in H; congruence). rewrite <- IH by (cbn in H; congruence).
  unfold exact. cbn [fold_right fst snd]. unfold emb. rewrite RtoC_plus, RtoC_mult. reflexivity.
Qed.
Lemma mags_absdot (l : list float) : forall m, mags (combine l m) = absdot (map emb l) (map emb m).
Proof.
  induction l as [|x l IH]; intros [|y m]; try reflexivity. cbn [combine map absdot]. rewrite <- IH, !emb_mod. reflexivity.
Qed.

Lemma lagged_opp c V k : lagged c (fun m => - (1) * V m) k = - lagged c V k.
Proof. revert k. induction c as [|y q IH]; intros k; cbn [lagged]; [ring|]. rewrite IH. ring. Qed.

Section Run.
  Variable d : list float -> list float -> float.
  Hypothesis Hd : any_order d.
  Variables (dt : dtype) (a b s : list float) (x : nat -> float) (M : R).
  Hypotheses (Ht : dt <> DInt) (Hb : b <> []) (Ha : length a = length b) (Hs : length s = length b).
  Hypotheses (Fa : Forall finite a) (Fs : Forall finite s) (Fx : forall n, finite (x n)) (A0 : val (nth 0 a 0%float) = 0%R).
  Hypotheses (Ms : forall i, (Rabs (val (nth i s 0%float)) <= M)%R) (Mx : forall n, (Rabs (val (x n)) <= M)%R).
  Variable poles : list C.
  Hypotheses (Hp : Forall (fun z => (Cmod z < 1)%R) poles) (Hden : denominator (map emb a) = cpoly poles).
  Let N := length b.
  Let ca := map emb a.
  Let G := (/ margin poles)%R.
  Let l := l1 (tl ca).
  Definition d_rel : R := gam (N + 1).
  Definition d_abs : R := ((1 + uro) * und N + eta0)%R.
  Definition d_size : R := (2 * G * ((1 + l) * M + d_abs) + M)%R.
  Hypotheses (Hsmall : (2 * G * (1 + l) * d_rel <= 1)%R) (Hbig : ((1 + d_rel) * (M + l * d_size) + d_abs < huge)%R).
  Let S : nat -> list float := @st (FAd d) dt a s x.
  Let Rg : Z -> float := @regz (FAd d) dt a s x.
  Let W (m : Z) : C := emb (Rg m).

  Lemma d_cast (v : float) : @cast (FAd d) dt v = v.
  Proof. destruct dt; [congruence|reflexivity|reflexivity]. Qed.
  Lemma d_consts : (0 < G)%R /\ (0 <= l)%R /\ (0 <= M)%R /\ (0 <= d_rel)%R /\ (0 < d_abs)%R /\ (M <= d_size)%R.
  Proof.
    assert (G0 : (0 < G)%R) by apply Rinv_0_lt_compat, margin_pos, Hp. assert (l0 : (0 <= l)%R) by apply l1_nonneg.
    assert (M0 : (0 <= M)%R) by (eapply Rle_trans; [apply Rabs_pos|apply (Mx 0%nat)]).
    assert (A1 : (0 < d_abs)%R).
    { unfold d_abs. pose proof (und_pos N). pose proof eta0_pos. pose proof uro_pos. assert (0 <= (1 + uro) * und N)%R by (apply Rmult_le_pos; lra). lra. }
    split; [exact G0|]. split; [exact l0|]. split; [exact M0|]. split; [apply gam_pos|]. split; [exact A1|].
    unfold d_size. assert (0 <= (1 + l) * M)%R by (apply Rmult_le_pos; lra).
    assert (0 <= 2 * G * ((1 + l) * M + d_abs))%R by (apply Rmult_le_pos; lra). lra.
  Qed.
  Lemma S_len n : length (S n) = N.
  Proof. exact (@st_length (FAd d) dt a b s x Hb Ha Hs n). Qed.
  Lemma S_hist n i : (0 < i < N)%nat -> nth i (S n) 0%float = Rg (Z.of_nat n - Z.of_nat i).
  Proof. exact (@st_reg (FAd d) dt a b s x Hb Ha Hs n i). Qed.
  Lemma S_inp n : finite (nth 0 (S n) 0%float) /\ (Rabs (val (nth 0 (S n) 0%float)) <= M)%R.
  Proof.
    destruct n as [|n]; cbn [S st].
    - change (finite (nth 0 s 0%float) /\ (Rabs (val (nth 0 s 0%float)) <= M)%R). split; [|apply Ms].
      destruct s as [|s0 t]; [exact fin_zero|]. inversion Fs; assumption.
    - change (finite (@cast (FAd d) dt (x n)) /\ (Rabs (val (@cast (FAd d) dt (x n))) <= M)%R). rewrite d_cast. auto.
  Qed.
  Lemma R_past m : (m < 0)%Z -> finite (Rg m) /\ (Cmod (W m)%C <= M)%R.
  Proof.
    intros H. unfold W, Rg, regz. destruct (Z.ltb_spec m 0); [|lia]. rewrite emb_mod. change (@zero (FAd d)) with 0%float. split; [|apply Ms].
    destruct (Nat.lt_ge_cases (Z.to_nat (- m)) (length s)) as [L|L]; [|rewrite nth_overflow by exact L; exact fin_zero].
    apply (proj1 (Forall_forall _ _) Fs), nth_In, L.
  Qed.
  Lemma R_before m : (m < - Z.of_nat N)%Z -> W m = RtoC 0.
  Proof.
    intros H. unfold W, Rg. rewrite (@regz_before (FAd d) dt a b s x Hb Ha Hs) by exact (Z.lt_le_incl _ _ H). apply emb_zero.
  Qed.
  Lemma S_fin n B : (M <= B)%R -> (forall m, (m < Z.of_nat n)%Z -> finite (Rg m) /\ (Cmod (W m)%C <= B)%R) ->
    Forall finite (S n) /\ forall i, (Rabs (val (nth i (S n) 0%float)) <= B)%R.
  Proof.
    intros HB H. assert (K : forall i, finite (nth i (S n) 0%float) /\ (Rabs (val (nth i (S n) 0%float)) <= B)%R).
    { intros i. destruct (Nat.lt_ge_cases i N) as [L|L].
      - destruct i as [|i]; [destruct (S_inp n); split; [assumption|lra]|]. rewrite S_hist by lia. rewrite <- emb_mod. apply H. lia.
      - rewrite nth_overflow by (rewrite S_len; exact L). rewrite val_zero, Rabs_R0. split; [exact fin_zero|].
        destruct d_consts as (_ & _ & M0 & _). lra. }
    split; [|intros i; apply K]. apply Forall_forall. intros v Hv. destruct (In_nth _ _ 0%float Hv) as (i & _ & <-). apply K.
  Qed.
  Lemma S_dot n : RtoC (exact (combine a (S n))) = lagged (tl ca) W (Z.of_nat n - 1)%Z.
  Proof.
    pose proof (S_len n) as L. rewrite exact_dot by (rewrite L; exact Ha). apply dot_reg_gen.
    - unfold ca. rewrite nth_emb. unfold emb. rewrite A0. reflexivity.
    - unfold ca. rewrite !map_length, L. exact Ha.
    - intros i Hi. rewrite map_length, L in Hi. rewrite nth_emb, S_hist by exact Hi. reflexivity.
  Qed.
  (** One step: a new register value, finite and nearly the exact one. *)
  Lemma R_step n : (forall m, (m < Z.of_nat n)%Z -> finite (Rg m) /\ (Cmod (W m)%C <= d_size)%R) ->
    finite (Rg (Z.of_nat n)) /\
    (Cmod (W (Z.of_nat n) - (emb (nth 0 (S n) 0%float) + lagged (tl ca) W (Z.of_nat n - 1)%Z))%C <= d_rel * (M + l * d_size) + d_abs)%R.
  Proof.
    intros H. destruct d_consts as (G0 & l0 & M0 & r0 & a0 & MB). destruct (S_fin n d_size MB H) as [FS BS]. pose proof (S_len n) as L.
    destruct (S_inp n) as [F0 B0]. set (s0 := nth 0 (S n) 0%float) in *. set (v := d a (S n)).
    assert (Em : (mags (combine a (S n)) <= l * d_size)%R).
    { rewrite mags_absdot. apply absdot_reg_gen; [rewrite nth_emb; unfold emb; rewrite A0; reflexivity|lra|].
      intros i Hi. rewrite nth_emb, emb_mod. apply BS. }
    assert (Lc : length (combine a (S n)) = N) by (rewrite combine_length, L, Ha; apply Nat.min_id).
    pose proof (mags_pos (combine a (S n))) as mp. set (g := mags (combine a (S n))) in *.
    pose proof (gam_pos N) as gp. pose proof (und_pos N) as up. pose proof uro_pos as u0. pose proof eta0_pos as e0.
    assert (GN : d_rel = ((1 + uro) * gam N + uro)%R) by (unfold d_rel; replace (N + 1)%nat with (Datatypes.S N) by lia; apply gam_S).
    assert (gam N * g <= d_rel * g)%R by (apply Rmult_le_compat_r; [exact mp|]; rewrite GN; nra).
    assert (d_rel * g <= d_rel * (l * d_size))%R by (apply Rmult_le_compat_l; assumption).
    assert (0 <= d_rel * M)%R by (apply Rmult_le_pos; assumption).
    assert (und N <= d_abs)%R by (unfold d_abs; nra).
    destruct (dots_good (combine a (S n)) v) as [Fv Ev].
    { apply Hd. rewrite L. exact Ha. }
    { apply Forall_forall. intros [p q] Hin. cbn [fst snd]. split.
      - apply in_combine_l in Hin. exact (proj1 (Forall_forall _ _) Fa _ Hin).
      - apply in_combine_r in Hin. exact (proj1 (Forall_forall _ _) FS _ Hin). }
    { rewrite Lc. fold g. lra. }
    rewrite Lc in Ev. fold g in Ev. set (e := exact (combine a (S n))) in *. pose proof (exact_mags (combine a (S n))) as Ee. fold e g in Ee.
    assert (E1 : (Rabs (val s0 + val v - (val s0 + e)) <= gam N * g + und N)%R) by (replace (val s0 + val v - (val s0 + e))%R with (val v - e)%R by ring; exact Ev).
    assert (E2 : (Rabs (nearest (val s0 + val v) - (val s0 + e)) <= d_rel * (M + l * d_size) + d_abs)%R).
    { eapply Rle_trans; [apply (round_err _ _ _ (M + g) E1)|].
      - eapply Rle_trans; [apply Rabs_triang|]. lra.
      - assert ((1 + uro) * gam N * g + uro * g = d_rel * g)%R by (rewrite GN; ring). assert (uro * M <= d_rel * M)%R by (apply Rmult_le_compat_r; [exact M0|]; rewrite GN; nra).
        unfold d_abs. lra. }
    assert (E3 : (Rabs (nearest (val s0 + val v)) < huge)%R).
    { eapply Rle_lt_trans; [apply (err_size _ _ _ (M + l * d_size) E2)|lra]. eapply Rle_trans; [apply Rabs_triang|]. lra. }
    destruct (add_fin s0 v F0 Fv E3) as [Fr Vr].
    assert (Er : Rg (Z.of_nat n) = (s0 + v)%float) by (unfold Rg; rewrite (@regz_nat (FAd d) dt a b s x Ha Hs); unfold reg; rewrite d_cast; reflexivity).
    split; [rewrite Er; exact Fr|]. rewrite <- S_dot. fold e. unfold W. rewrite Er. unfold emb. rewrite Vr.
    rewrite <- RtoC_plus, <- RtoC_minus, Cmod_R. exact E2.
  Qed.
  Lemma R_good m : finite (Rg m) /\ (Cmod (W m)%C <= d_size)%R.
  Proof.
    destruct d_consts as (G0 & l0 & M0 & r0 & a0 & MB).
    assert (P : forall k, (k < 0)%Z -> finite (Rg k) /\ (Cmod (W k)%C <= d_size)%R) by (intros k Hk; destruct (R_past k Hk); split; [assumption|lra]).
    destruct (Z_lt_le_dec m 0) as [Hm|Hm]; [apply P, Hm|].
    replace m with (Z.of_nat (Z.to_nat m)) by lia. generalize (Z.to_nat m) as n. clear m Hm. intros n. induction n as [n IH] using lt_wf_ind.
    assert (Hlow : forall k, (k < Z.of_nat n)%Z -> finite (Rg k) /\ (Cmod (W k)%C <= d_size)%R).
    { intros k Hk. destruct (Z_lt_le_dec k 0) as [Hn|Hn]; [apply P, Hn|]. replace k with (Z.of_nat (Z.to_nat k)) by lia. apply IH. lia. }
    destruct (R_step n Hlow) as [F E]. split; [exact F|].
    assert (lB : (0 <= l * d_size)%R) by (apply Rmult_le_pos; lra).
    set (D := ((1 + l) * M + (d_rel * (M + l * d_size) + d_abs))%R).
    assert (Q : (0 <= d_rel * (M + l * d_size))%R) by (apply Rmult_le_pos; lra).
    assert (lM : (0 <= l * M)%R) by (apply Rmult_le_pos; lra).
    assert (D0 : (0 <= D)%R) by (unfold D; lra).
    assert (K : (Cmod (W (Z.of_nat n))%C <= D / margin poles)%R).
    { apply (poles_upto poles W D (- Z.of_nat N)%Z (Z.of_nat n) Hp D0 R_before); [|lia]. intros k Hk. rewrite <- Hden, lagged_denominator. fold ca.
      destruct (Z_lt_le_dec k 0) as [Hn|Hn].
      - eapply Rle_trans; [apply Cmod_triangle|]. rewrite Cmod_opp. pose proof (proj2 (R_past k Hn)).
        assert (Cmod (lagged (tl ca) W (k - 1))%C <= l * M)%R by (apply lagged_upto; [exact M0|]; intros j Hj; apply R_past; lia). unfold D. lra.
      - replace k with (Z.of_nat (Z.to_nat k)) by lia. set (j := Z.to_nat k). destruct (R_step j ltac:(intros; apply Hlow; lia)) as [_ Ej].
        destruct (S_inp j) as [_ Bj]. rewrite <- emb_mod in Bj.
        replace (W (Z.of_nat j) - lagged (tl ca) W (Z.of_nat j - 1)) with ((W (Z.of_nat j) - (emb (nth 0 (S j) 0%float) + lagged (tl ca) W (Z.of_nat j - 1)%Z)) + emb (nth 0 (S j) 0%float)) by ring.
        eapply Rle_trans; [apply Cmod_triangle|]. unfold D. lra. }
    eapply Rle_trans; [exact K|]. unfold Rdiv. fold G. unfold D.
    (* G (d_rel (M + l B)) <= (M + B) / 2 *)
    assert (X : (G * (d_rel * (M + l * d_size)) <= (M + d_size) / 2)%R).
    { assert (H1 : (M + l * d_size <= (1 + l) * d_size)%R) by lra.
      assert (H2 : (G * d_rel * (M + l * d_size) <= G * d_rel * ((1 + l) * d_size))%R) by (apply Rmult_le_compat_l; [apply Rmult_le_pos; lra|exact H1]).
      assert (H3 : (2 * G * (1 + l) * d_rel * d_size <= 1 * d_size)%R) by (apply Rmult_le_compat_r; lra). lra. }
    assert (Y : (d_size = 2 * (G * ((1 + l) * M + d_abs)) + M)%R) by (unfold d_size; ring). lra.
  Qed.

  (** ** Against the exact run *)
  Let V : Z -> C := @regz CA dt ca (map emb s) (fun n => emb (x n)).
  Let T : nat -> list C := @st CA dt ca (map emb s) (fun n => emb (x n)).
  Let cs := map emb s.
  Let cx (n : nat) := emb (x n).
  Let cb := map emb b.
  Let Hcb : cb <> []. Proof. intros E. apply Hb. apply (map_eq_nil emb). exact E. Qed.
  Let Hca : length ca = length cb. Proof. unfold ca, cb. rewrite !map_length. exact Ha. Qed.
  Let Hcs : length cs = length cb. Proof. unfold cs, cb. rewrite !map_length. exact Hs. Qed.
  Let Ncb : length cb = N. Proof. apply map_length. Qed.
  Lemma T_len n : length (T n) = N.
  Proof. rewrite <- Ncb. exact (@st_length CA dt ca cb cs cx Hcb Hca Hcs n). Qed.
  Lemma emb_all (v : list float) : Forall (@fits CA dt) (map emb v).
  Proof. apply Forall_forall. intros z Hz. apply in_map_iff in Hz. destruct Hz as (w & <- & _). apply emb_fits, Ht. Qed.
  Lemma T_fits n : Forall (@fits CA dt) (T n).
  Proof. apply st_fits; [apply emb_all|intros k; apply emb_fits, Ht]. Qed.
  Lemma T_hist n i : (0 < i < N)%nat -> nth i (T n) (RtoC 0) = V (Z.of_nat n - Z.of_nat i).
  Proof. intros H. apply (@st_reg CA dt ca cb cs cx Hcb Hca Hcs n i). exact (eq_ind_r (fun k => (0 < i < k)%nat) H Ncb). Qed.
  Lemma T_inp n : nth 0 (T n) (RtoC 0) = emb (nth 0 (S n) 0%float).
  Proof.
    destruct n as [|n]; [exact (nth_emb 0 s)|]. change (@cast CA dt (emb (x n)) = emb (@cast (FAd d) dt (x n))). rewrite d_cast. apply emb_fits, Ht.
  Qed.
  Lemma V_step n : V (Z.of_nat n) = emb (nth 0 (S n) 0%float) + lagged (tl ca) V (Z.of_nat n - 1)%Z.
  Proof.
    unfold V. rewrite (@regz_nat CA dt ca cb cs cx Hca Hcs). fold V. unfold reg. fold T. rewrite <- T_inp.
    assert (E : @dot CA ca (T n) = lagged (tl ca) V (Z.of_nat n - 1)%Z).
    { apply dot_reg_gen.
      - unfold ca. rewrite nth_emb. unfold emb. rewrite A0. reflexivity.
      - rewrite T_len. unfold ca. rewrite map_length. exact Ha.
      - intros i Hi. rewrite T_len in Hi. apply T_hist, Hi. }
    rewrite <- E. apply (law_fits_add CA_laws).
    - change (@fits CA dt (nth 0 (T n) (RtoC 0))). rewrite T_inp. apply emb_fits, Ht.
    - apply fits_dot; [apply emb_all|apply T_fits].
  Qed.
  Definition d_dev : R := (G * (d_rel * (M + l * d_size) + d_abs))%R.
  Lemma d_dev_pos : (0 <= d_dev)%R.
  Proof.
    destruct d_consts as (G0 & l0 & M0 & r0 & a0 & MB). unfold d_dev. assert (0 <= l * d_size)%R by (apply Rmult_le_pos; lra).
    assert (0 <= d_rel * (M + l * d_size))%R by (apply Rmult_le_pos; lra). apply Rmult_le_pos; lra.
  Qed.
  Lemma R_dev m : (Cmod (W m - V m)%C <= d_dev)%R.
  Proof.
    destruct d_consts as (G0 & l0 & M0 & r0 & a0 & MB). assert (lB : (0 <= l * d_size)%R) by (apply Rmult_le_pos; lra).
    assert (P : forall k, (k < 0)%Z -> W k = V k).
    { intros k Hk. unfold W, V, Rg, regz. destruct (Z.ltb_spec k 0); [|lia]. symmetry. exact (nth_emb (Z.to_nat (- k)) s). }
    set (D := (d_rel * (M + l * d_size) + d_abs)%R).
    assert (D0 : (0 <= D)%R) by (unfold D; assert (0 <= d_rel * (M + l * d_size))%R by (apply Rmult_le_pos; lra); lra).
    replace d_dev with (D / margin poles)%R by (unfold d_dev, D, Rdiv; fold G; ring).
    apply (poles_upto poles (fun k => W k - V k) D 0%Z (Z.max m 0) Hp D0); [| |lia].
    - intros k Hk. rewrite P by exact Hk. ring.
    - intros k _. rewrite <- Hden, lagged_denominator. fold ca.
      rewrite (lagged_ext (tl ca) (fun k => W k - V k) (fun k => W k + - (1) * V k)) by (intros; unfold Cminus; f_equal; ring).
      rewrite lagged_sum. replace (lagged (tl ca) (fun k => - (1) * V k) (k - 1)) with (- lagged (tl ca) V (k - 1)%Z).
      2:{ symmetry. apply lagged_opp. }
      destruct (Z_lt_le_dec k 0) as [Hn|Hn].
      + rewrite P by exact Hn. rewrite (lagged_ext (tl ca) W V) by (intros j Hj; apply P; lia).
        replace (V k - V k - (lagged (tl ca) V (k - 1) + - lagged (tl ca) V (k - 1))) with (RtoC 0) by ring. rewrite Cmod_0. exact D0.
      + replace k with (Z.of_nat (Z.to_nat k)) by lia. set (j := Z.to_nat k). destruct (R_step j (fun i _ => R_good i)) as [_ E].
        rewrite V_step. eapply Rle_trans; [right|exact E]. f_equal. ring.
  Qed.
  Lemma S_dev n i : (i < N)%nat -> (Rabs (val (nth i (S n) 0%float)) <= d_size)%R /\ (Cmod (nth i (map emb (S n)) (RtoC 0) - nth i (T n) (RtoC 0))%C <= d_dev)%R.
  Proof.
    intros Hi. destruct d_consts as (_ & _ & _ & _ & _ & MB). split; [apply (S_fin n d_size MB (fun m _ => R_good m))|]. rewrite nth_emb.
    destruct i as [|i].
    - rewrite T_inp. unfold Cminus. rewrite Cplus_opp_r, Cmod_0. apply d_dev_pos.
    - rewrite T_hist, S_hist by lia. apply R_dev.
  Qed.
  Lemma S_finite n : Forall finite (S n).
  Proof. destruct d_consts as (_ & _ & _ & _ & _ & MB). apply (S_fin n d_size MB (fun m _ => R_good m)). Qed.

  (** ** Outputs *)
  Hypothesis Fb : Forall finite b.
  Let b0 := nth 0 b 0%float.
  Let w := cw (emb b0) (combine ca cb).
  Let Fb0 : finite b0. Proof. apply (proj1 (Forall_forall _ _) Fb). apply nth_In. apply Nat.neq_0_lt_0. intros E. apply Hb, length_zero_iff_nil, E. Qed.
  Hypothesis Hco : ((1 + gam 2) * w + 3 * eta0 < huge)%R.
  Lemma coef_step p q : finite p -> finite q -> ((1 + gam 2) * (Rabs (val p) * Rabs (val b0) + Rabs (val q)) + 3 * eta0 < huge)%R ->
    finite (p * b0 + q)%float /\ (Rabs (val (p * b0 + q)%float - (val p * val b0 + val q)) <= gam 2 * (Rabs (val p) * Rabs (val b0) + Rabs (val q)) + 3 * eta0)%R.
  Proof.
    intros Fp Fq Hc. pose proof uro_pos as u0. pose proof eta0_pos as e0. rewrite <- Rabs_mult in *.
    set (z := (val p * val b0)%R) in *. pose proof (Rabs_pos z) as z0. pose proof (Rabs_pos (val q)) as q0. set (az := Rabs z) in *. set (aq := Rabs (val q)) in *.
    assert (G2 : gam 2 = (2 * uro + uro * uro)%R) by (unfold gam; ring).
    assert (U1 : (uro <= 1)%R) by (unfold uro; pose proof (bpow_le radix2 (-52) 0 ltac:(lia)) as K; change (bpow radix2 0) with 1%R in K; lra).
    assert (N1 : (Rabs (nearest z - z) <= uro * az + eta0)%R) by apply nearest_close.
    assert (uz : (0 <= uro * az)%R) by (apply Rmult_le_pos; lra). assert (uq : (0 <= uro * aq)%R) by (apply Rmult_le_pos; lra).
    assert (uuz : (0 <= uro * uro * az)%R) by (apply Rmult_le_pos; [nra|lra]). assert (uuq : (0 <= uro * uro * aq)%R) by (apply Rmult_le_pos; [nra|lra]).
    assert (X1 : (Rabs (nearest z) < huge)%R).
    { eapply Rle_lt_trans; [apply (err_size _ _ _ az N1); unfold az; lra|]. rewrite G2 in Hc. lra. }
    destruct (mul_fin p b0 Fp Fb0 X1) as [F1 V1].
    assert (E1 : (Rabs (val (p * b0)%float + val q - (z + val q)) <= uro * az + eta0)%R).
    { rewrite V1. replace (nearest (val p * val b0) + val q - (z + val q))%R with (nearest z - z)%R by (unfold z; ring). exact N1. }
    assert (E2 : (Rabs (nearest (val (p * b0)%float + val q) - (z + val q)) <= gam 2 * (az + aq) + 3 * eta0)%R).
    { eapply Rle_trans; [apply (round_err _ _ _ (az + aq) E1); apply Rabs_triang|]. rewrite G2. assert (uro * eta0 <= eta0)%R by nra. lra. }
    assert (X2 : (Rabs (nearest (val (p * b0)%float + val q)) < huge)%R).
    { eapply Rle_lt_trans; [apply (err_size _ _ _ (az + aq) E2); apply Rabs_triang|]. lra. }
    destruct (add_fin _ _ F1 Fq X2) as [F2 V2]. split; [exact F2|]. rewrite V2. exact E2.
  Qed.
  Lemma coef_vec (p : list (float * float)) : Forall (fun v => finite (fst v) /\ finite (snd v)) p ->
    let c := cw (emb b0) (map (fun v => (emb (fst v), emb (snd v))) p) in
    ((1 + gam 2) * c + 3 * eta0 < huge)%R ->
    let fl := map (fun v => (fst v * b0 + snd v)%float) p in
    let ex := map (fun v => emb (fst v) * emb b0 + emb (snd v)) p in
    Forall finite fl /\ (l1d (map emb fl) ex <= gam 2 * c + 3 * INR (length p) * eta0)%R /\ (l1 ex <= c)%R.
  Proof.
    pose proof (gam_pos 2) as g2. pose proof eta0_pos as e0.
    induction 1 as [|[p1 q1] p [F1 F2] _ IH]; intros c Hc fl ex; [cbn; split; [constructor|]; lra|]. cbn [fst snd] in *.
    unfold c in *. cbn [map cw fold_right fst snd] in *. fold (cw (emb b0) (map (fun v => (emb (fst v), emb (snd v))) p)) in *.
    set (c1 := cw (emb b0) (map (fun v => (emb (fst v), emb (snd v))) p)) in *. assert (c0 : (0 <= c1)%R) by apply cw_nonneg. rewrite !emb_mod in *.
    set (h := (Rabs (val p1) * Rabs (val b0) + Rabs (val q1))%R) in *.
    assert (h0 : (0 <= h)%R) by (unfold h; pose proof (Rmult_le_pos _ _ (Rabs_pos (val p1)) (Rabs_pos (val b0))); pose proof (Rabs_pos (val q1)); lra).
    assert (gh : (0 <= gam 2 * h)%R) by (apply Rmult_le_pos; lra). assert (gc : (0 <= gam 2 * c1)%R) by (apply Rmult_le_pos; lra).
    destruct (IH ltac:(lra)) as (I1 & I2 & I3). assert (Hh : ((1 + gam 2) * h + 3 * eta0 < huge)%R) by lra. destruct (coef_step p1 q1 F1 F2 Hh) as [C1 C2]. fold h in C2.
    unfold fl, ex. cbn [map l1 l1d fst snd length]. rewrite S_INR. split; [constructor; assumption|]. split.
    - assert (Cmod (emb (p1 * b0 + q1)%float - (emb p1 * emb b0 + emb q1))%C <= gam 2 * h + 3 * eta0)%R.
      { unfold emb. rewrite <- RtoC_mult, <- RtoC_plus, <- RtoC_minus, Cmod_R. exact C2. } lra.
    - assert (Cmod (emb p1 * emb b0 + emb q1)%C <= h)%R.
      { unfold emb. rewrite <- RtoC_mult, <- RtoC_plus, Cmod_R. unfold h. rewrite <- Rabs_mult. apply Rabs_triang. } lra.
  Qed.
  Let cf : list float := @cvec (FAd d) a b.
  Let ce : list C := @cvec CA ca cb.
  Definition d_co : R := (gam 2 * w + 3 * INR N * eta0)%R.
  Lemma combine_emb (p q : list float) : combine (map emb p) (map emb q) = map (fun v => (emb (fst v), emb (snd v))) (combine p q).
  Proof. revert q. induction p as [|y p IH]; intros [|z q]; try reflexivity. cbn [map combine fst snd]. rewrite IH. reflexivity. Qed.
  Lemma coefs : Forall finite cf /\ length cf = N /\ length ce = N /\ (l1d (map emb cf) ce <= d_co)%R /\ (l1 ce <= w)%R.
  Proof.
    assert (Fp : Forall (fun v => finite (fst v) /\ finite (snd v)) (combine a b)).
    { apply Forall_forall. intros [p q] Hin. split; cbn [fst snd].
      - apply in_combine_l in Hin. exact (proj1 (Forall_forall _ _) Fa _ Hin).
      - apply in_combine_r in Hin. exact (proj1 (Forall_forall _ _) Fb _ Hin). }
    assert (Ew : w = cw (emb b0) (map (fun v => (emb (fst v), emb (snd v))) (combine a b))) by (unfold w, ca, cb; rewrite combine_emb; reflexivity).
    destruct (coef_vec (combine a b) Fp) as (I1 & I2 & I3); [rewrite <- Ew; exact Hco|]. rewrite <- Ew in *.
    assert (Lc : length (combine a b) = N) by (rewrite combine_length, Ha; apply Nat.min_id). rewrite Lc in I2.
    assert (Ee : ce = map (fun v => emb (fst v) * emb b0 + emb (snd v)) (combine a b)).
    { change ce with (map (fun p => fst p * nth 0 cb (RtoC 0) + snd p) (combine ca cb)). unfold ca, cb. rewrite combine_emb, map_map. apply map_ext. intros v. cbn [fst snd]. rewrite nth_emb. reflexivity. }
    split; [exact I1|]. split; [unfold cf, cvec; rewrite map_length; exact Lc|]. split; [rewrite Ee, map_length; exact Lc|]. rewrite Ee. split; [exact I2|exact I3].
  Qed.
  Hypothesis Hout : ((1 + gam N) * ((w + d_co) * d_size) + und N < huge)%R.
  Definition d_err : R := (gam N * ((w + d_co) * d_size) + und N + (d_co * d_size + w * d_dev))%R.
  Lemma out_good n : finite (@outp (FAd d) dt a b s x n) /\ (Cmod (emb (@outp (FAd d) dt a b s x n) - @outp CA dt ca cb cs cx n)%C <= d_err)%R.
  Proof.
    destruct d_consts as (G0 & l0 & M0 & r0 & a0 & MB). destruct coefs as (Fc & Lf & Le & D1 & D2).
    pose proof (S_len (Datatypes.S n)) as LS. pose proof (T_len (Datatypes.S n)) as LT. pose proof d_dev_pos as dp.
    assert (E1 : @outp (FAd d) dt a b s x n = d cf (S (Datatypes.S n))) by (unfold outp; rewrite d_cast; reflexivity).
    assert (E2 : @outp CA dt ca cb cs cx n = @dot CA ce (T (Datatypes.S n))).
    { unfold outp. apply fits_dot; [|apply T_fits]. unfold cvec. apply Forall_forall. intros z Hz. apply in_map_iff in Hz. destruct Hz as ([p q] & <- & Hin).
      pose proof (in_combine_l _ _ _ _ Hin) as I1. pose proof (in_combine_r _ _ _ _ Hin) as I2. apply in_map_iff in I1. destruct I1 as (p' & <- & _). apply in_map_iff in I2. destruct I2 as (q' & <- & _).
      cbn [fst snd]. apply (law_fits_add CA_laws); [apply (law_fits_mul CA_laws)|]; try apply emb_fits, Ht.
      change (@fits CA dt (nth 0 cb (RtoC 0))). unfold cb. rewrite nth_emb. apply emb_fits, Ht. }
    rewrite E1, E2. set (t := S (Datatypes.S n)) in *. set (t' := T (Datatypes.S n)) in *.
    destruct (dot_dev (map emb cf) ce (map emb t) t' d_size d_dev) as [X1 X2]; try (rewrite ?map_length; congruence); try lra.
    { intros i Hi. rewrite Le in Hi. destruct (S_dev (Datatypes.S n) i Hi) as [Y1 Y2]. split; [rewrite nth_emb, emb_mod; exact Y1|exact Y2]. }
    rewrite <- mags_absdot in X2. rewrite <- exact_dot in X1 by congruence.
    pose proof (mags_pos (combine cf t)) as mp. set (g := mags (combine cf t)) in *. pose proof (l1d_nonneg (map emb cf) ce) as dn. pose proof (l1_nonneg ce) as ln.
    assert (X3 : (g <= (w + d_co) * d_size)%R) by (eapply Rle_trans; [exact X2|]; apply Rmult_le_compat_r; lra).
    pose proof (gam_pos N) as gp. assert (gam N * g <= gam N * ((w + d_co) * d_size))%R by (apply Rmult_le_compat_l; lra).
    assert (Lc : length (combine cf t) = N) by (rewrite combine_length, Lf, LS; apply Nat.min_id).
    destruct (dots_good (combine cf t) (d cf t)) as [Fv Ev].
    { apply Hd. congruence. }
    { apply Forall_forall. intros [p q] Hin. cbn [fst snd]. split.
      - apply in_combine_l in Hin. exact (proj1 (Forall_forall _ _) Fc _ Hin).
      - apply in_combine_r in Hin. exact (proj1 (Forall_forall _ _) (S_finite (Datatypes.S n)) _ Hin). }
    { rewrite Lc. fold g. lra. }
    split; [exact Fv|]. rewrite Lc in Ev. fold g in Ev.
    assert (Y1 : (Cmod (emb (d cf t) - RtoC (exact (combine cf t)))%C <= gam N * ((w + d_co) * d_size) + und N)%R) by (unfold emb; rewrite <- RtoC_minus, Cmod_R; lra).
    assert (l1d (map emb cf) ce * d_size <= d_co * d_size)%R by (apply Rmult_le_compat_r; lra). assert (l1 ce * d_dev <= w * d_dev)%R by (apply Rmult_le_compat_r; lra).
    set (o := @dot CA ce t' : C) in *. replace (emb (d cf t) - o) with ((emb (d cf t) - RtoC (exact (combine cf t))) + (RtoC (exact (combine cf t)) - o)) by ring.
    eapply Rle_trans; [apply Cmod_triangle|]. unfold d_err. lra.
  Qed.
End Run.
