(** Lemmas for C170: the loops of PolyphaseRateFilter in IEEE doubles. *)
From Flocq Require Import Core Relative BinarySingleNaN PrimFloat.
From Coq Require Import List Arith ZArith Bool Reals Lra Lia Floats.
From Verif Require Import Base BaseLemmas Instances CalculusModel CalculusProps RankModel Rounding PolyphaseModel PolyphaseProps DoubleSpec DoubleProofs DoubleOps.
Import ListNotations.
Set Asymmetric Patterns.
Local Open Scope R_scope.

(** Doubles with dot product [d]. *)
Definition FOd (d : list float -> list float -> float) : OArith :=
  {| oa := FAd d; oabs := PrimFloat.abs; oltb := PrimFloat.ltb; oleb := PrimFloat.leb; oltinf := fun v => PrimFloat.ltb v infinity |}.
(** int(numpy.round(.)) rounds to the nearest integer, ties to even. *)
Definition rounds (rnd : float -> Z) : Prop := forall v, finite v -> rnd v = rheR (val v).
Definition bank_okF (cc : nat) (B : list (list float)) : Prop := B <> [] /\ (0 < cc)%nat /\ Forall (fun row => length row = cc) B.
(** The cc most recent samples when the newest is x[m]; before the signal, the state. *)
Definition recentF (x s : list float) (m i : nat) : float := if (i <=? m)%nat then nth (m - i) x 0%float else nth (i - m) s 0%float.
Definition window (cc : nat) (x s : list float) (m : nat) : list float := map (recentF x s m) (seq 0 cc).
(** The output at position t, in rows from the start of the signal. *)
Definition output_double (d : list float -> list float -> float) (cc : nat) (B : list (list float)) (x s : list float) (t : R) (y : float) : Prop :=
  exists m : nat, (m < length x)%nat /\ INR m * INR (length B) <= t < INR (S m) * INR (length B) /\
    y = d (nth (Z.to_nat (Z.min (rheR (t - INR m * INR (length B))) (Z.of_nat (length B) - 1))) B []) (window cc x s m).

Lemma of_nat_double d n : (Z.of_nat n <= 2 ^ 53)%Z -> finite (@of_nat (FOd d) n) /\ val (@of_nat (FOd d) n) = INR n.
Proof.
  intros H. rewrite INR_IZR_INZ. assert (P : forall p, @CalculusModel.of_pos (FAd d) p = @CalculusModel.of_pos FA p).
  { induction p as [p IH|p IH|]; cbn [CalculusModel.of_pos]; rewrite ?IH; reflexivity. }
  assert (E : @of_nat (FOd d) n = @CalculusModel.of_Z FA (Z.of_nat n)).
  { unfold of_nat, CalculusModel.of_Z. destruct (Z.of_nat n); cbn [oa FOd]; rewrite ?P; reflexivity. }
  rewrite E. apply of_Z_double. lia.
Qed.
Lemma nearest_rel x : 1 <= Rabs x -> Rabs (nearest x - x) <= uro * Rabs x.
Proof.
  intros H. assert (P53 : Prec_gt_0 53) by reflexivity.
  pose proof (relative_error_N_FLT radix2 (-1074) 53 P53 (fun z => negb (Z.even z)) x) as K. unfold nearest, uro. replace (bpow radix2 (-52)) with (bpow radix2 (- (53) + 1)) by reflexivity.
  apply K. eapply Rle_trans; [|exact H]. change 1 with (bpow radix2 0). apply bpow_le. lia.
Qed.
(** Taking an integer off a larger number below 2^53 is exact. *)
Lemma sub_exact p (n : Z) : (0 <= n)%Z -> IZR n <= val p <= IZR (2 ^ 53) -> nearest (val p - IZR n) = val p - IZR n.
Proof.
  intros Hn H. destruct (Req_dec (val p) (IZR (2 ^ 53))) as [E|E].
  - rewrite E, <- minus_IZR. apply nearest_IZR. assert (n <= 2 ^ 53)%Z by (apply le_IZR; lra). lia.
  - destruct (Req_dec (val p) 0) as [Z|Z].
    { rewrite Z in *. assert (n <= 0)%Z by (apply le_IZR; lra). replace n with 0%Z by lia. rewrite Rminus_0_r. apply (nearest_IZR 0). cbn. lia. }
    assert (L : val p < IZR (2 ^ 53)) by lra. pose proof (val_format p) as F. unfold generic_format in F.
    set (m := Ztrunc (scaled_mantissa radix2 (FLT_exp (-1074) 53) (val p))) in F. set (e := cexp radix2 (FLT_exp (-1074) 53) (val p)) in F.
    assert (P : 0 <= val p) by (assert (0 <= IZR n) by (apply IZR_le; lia); lra).
    assert (He : (-1074 <= e <= 0)%Z).
    { unfold e, cexp, FLT_exp. split; [lia|]. assert (mag radix2 (val p) <= 53)%Z; [|lia]. 
      apply mag_le_bpow; [exact Z|]. rewrite Rabs_pos_eq by lra. exact L. }
    pose proof (bpow_gt_0 radix2 e) as Pe. unfold F2R in F. cbn [Fnum Fexp] in F.
    assert (Bk : IZR (2 ^ (- e)) * bpow radix2 e = 1).
    { change (2 ^ (- e))%Z with (radix2 ^ (- e))%Z. rewrite IZR_Zpower by lia. rewrite <- bpow_plus. replace (- e + e)%Z with 0%Z by lia. reflexivity. }
    assert (S : val p - IZR n = IZR (m - n * 2 ^ (- e)) * bpow radix2 e).
    { rewrite minus_IZR, mult_IZR, Rmult_minus_distr_r, <- F, Rmult_assoc, Bk. ring. }
    rewrite S. apply nearest_grid; [lia|].
    assert (B : IZR (m - n * 2 ^ (- e)) * bpow radix2 e <= IZR m * bpow radix2 e) by (rewrite <- S, <- F; assert (0 <= IZR n) by (apply IZR_le; lia); lra).
    apply Rmult_le_reg_r in B; [|exact Pe]. apply le_IZR in B.
    assert (B0 : 0 <= IZR (m - n * 2 ^ (- e)) * bpow radix2 e) by (rewrite <- S; lra).
    assert (B1 : (0 <= m - n * 2 ^ (- e))%Z).
    { apply le_IZR. apply Rmult_le_reg_r with (bpow radix2 e); [exact Pe|]. rewrite Rmult_0_l. exact B0. }
    assert (Bm : (m < 2 ^ 53)%Z); [|lia]. apply lt_IZR. apply Rmult_lt_reg_r with (bpow radix2 e); [exact Pe|]. rewrite <- F.
    eapply Rle_lt_trans; [apply Rle_abs|]. eapply Rlt_le_trans; [apply (bpow_mag_gt radix2)|]. change (IZR (2 ^ 53)) with (bpow radix2 53). rewrite <- bpow_plus.
    apply bpow_le. unfold e, cexp, FLT_exp. lia.
Qed.

Section Loop.
  Variables (d : list float -> list float -> float) (rnd : float -> Z).
  Hypothesis Hrnd : rounds rnd.
  Variables (cc : nat) (B : list (list float)) (x s0 : list float).
  Hypothesis HB : bank_okF cc B.
  Hypothesis HR : (Z.of_nat (length B) <= 2 ^ 49)%Z.
  Notation L := (length x).
  Notation RR := (INR (length B)).
  Notation rrF := (@of_nat (FOd d) (length B)).

  Definition consumedF (ii : nat) (s : list float) : Prop := length s = cc /\ forall i, (1 <= i < cc)%nat -> nth i s 0%float = recentF x s0 ii i.
  Lemma RR_posF : 1 <= RR.
  Proof. destruct HB as [H _]. destruct B; [congruence|]. apply (le_INR 1). cbn; lia. Qed.
  Lemma rr_val : finite rrF /\ val rrF = RR. Proof. apply of_nat_double. lia. Qed.
  Lemma RR_top : RR <= IZR (2 ^ 49). Proof. rewrite INR_IZR_INZ. apply IZR_le. exact HR. Qed.
  Lemma consumed_stepF ii (v : float) t : (ii < L)%nat -> nth ii x 0%float = v -> (exists u, consumedF ii (u :: t)) -> consumedF (S ii) (np_shift (v :: t)).
  Proof.
    intros Hi Hv [u [Hl H]]. cbn [length] in Hl. split.
    - cbn [np_shift]. cbn [length]. rewrite length_removelast. cbn [length]. lia.
    - intros i Hi2. cbn [np_shift]. destruct i as [|i]; [lia|]. cbn [nth]. rewrite removelast_firstn_eq. cbn [length].
      rewrite nth_firstn by lia.
      destruct i as [|i].
      + cbn [nth]. unfold recentF. cbn [Nat.leb]. replace (S ii - 1)%nat with ii by lia. symmetry; exact Hv.
      + change (nth (S i) (v :: t) 0%float) with (nth (S i) (u :: t) 0%float). rewrite H by lia. unfold recentF.
        destruct (Nat.leb_spec (S i) ii), (Nat.leb_spec (S (S i)) (S ii)); try lia; f_equal; lia.
  Qed.
  Lemma skipn_consF ii (v : float) xs : skipn ii x = v :: xs -> (ii < L)%nat /\ nth ii x 0%float = v /\ skipn (S ii) x = xs.
  Proof.
    revert ii. induction x as [|a l IH]; intros ii H; [destruct ii; discriminate|].
    destruct ii as [|ii]; cbn [skipn] in H.
    - injection H as H1 H2. subst. cbn. repeat split; lia.
    - apply IH in H. destruct H as (H1 & H2 & H3). cbn [length nth]. repeat split; [lia|exact H2|exact H3].
  Qed.
  Lemma window_cons ii (u v : float) t : consumedF ii (u :: t) -> nth ii x 0%float = v -> v :: t = window cc x s0 ii.
  Proof.
    intros [Hl H] Hv. cbn [length] in Hl. unfold window. apply nth_ext with 0%float 0%float; [cbn [length]; rewrite map_length, seq_length; exact Hl|].
    intros i Hi. cbn [length] in Hi. rewrite nth_map_lt with (d := 0%nat) by (rewrite seq_length; lia). rewrite seq_nth by lia. cbn [Nat.add]. destruct i as [|i].
    - cbn [nth]. unfold recentF. cbn [Nat.leb]. rewrite Nat.sub_0_r. symmetry. exact Hv.
    - rewrite <- H by lia. reflexivity.
  Qed.

  (** A property of positions kept by the loops. *)
  Variable D : R -> Prop.
  Hypothesis Hsub : forall v, D v -> D (v - RR).
  Definition position (p : float) : Prop := finite p /\ 0 <= val p <= IZR (2 ^ 53) /\ D (val p).

  Lemma consume_double : forall xs ii p s, skipn ii x = xs -> (ii <= L)%nat -> position p -> consumedF ii s -> s <> [] ->
    exists ii' p' s', @poly_consume (FOd d) (length B) xs p s = (p', s', Ok (skipn ii' x)) /\ (ii <= ii' <= L)%nat /\
      val p' + INR ii' * RR = val p + INR ii * RR /\ position p' /\ (val p' < RR \/ ii' = L) /\ consumedF ii' s' /\ s' <> [] /\ ((ii < L)%nat -> RR <= val p -> (ii < ii')%nat).
  Proof.
    pose proof RR_posF as HRp. destruct rr_val as [Fr Vr].
    induction xs as [|v xs IH]; intros ii p s Hx Hi Hp Hc Hs.
    - assert (ii = L). { apply (f_equal (@length float)) in Hx. rewrite skipn_length in Hx. cbn in Hx. lia. }
      exists ii, p, s. split; [rewrite Hx; reflexivity|]. split; [lia|]. split; [reflexivity|]. split; [exact Hp|]. split; [right; assumption|]. split; [exact Hc|]. split; [exact Hs|]. lia.
    - destruct (skipn_consF _ _ _ Hx) as (H1 & H2 & H3). cbn [poly_consume]. change (@oleb (FOd d) rrF p) with (PrimFloat.leb rrF p).
      destruct Hp as (Fp & Bp & Dp). destruct (PrimFloat.leb rrF p) eqn:E.
      + apply (leb_val _ _ Fr Fp) in E. rewrite Vr in E. destruct s as [|u t]; [congruence|]. cbn [np_set0].
        assert (N : nearest (val p - val rrF) = val p - RR) by (rewrite Vr, INR_IZR_INZ; apply sub_exact; [lia|rewrite <- INR_IZR_INZ; lra]).
        assert (Hh : Rabs (nearest (val p - val rrF)) < huge).
        { rewrite N. pose proof huge_big. assert (IZR (2 ^ 53) < IZR (2 ^ 60)) by (apply IZR_lt; reflexivity). rewrite Rabs_pos_eq; lra. }
        destruct (sub_fin p rrF Fp Fr Hh) as [F1 V1]. rewrite N in V1. change (@sub (FOd d) p rrF) with (p - rrF)%float.
        destruct (IH (S ii) (p - rrF)%float (np_shift (v :: t)) H3) as (ii' & p' & s' & E1 & E2 & E3 & E4 & E5 & E6 & E7 & E8).
        * lia.
        * split; [exact F1|]. rewrite V1. split; [lra|apply Hsub, Dp].
        * apply consumed_stepF; [exact H1|exact H2|exists u; exact Hc].
        * discriminate.
        * exists ii', p', s'. split; [exact E1|]. split; [lia|]. rewrite S_INR, V1 in E3. split; [lra|]. split; [exact E4|]. split; [exact E5|]. split; [exact E6|]. split; [exact E7|]. lia.
      + assert (N : ~ RR <= val p) by (rewrite <- Vr; intros C; apply (leb_val _ _ Fr Fp) in C; congruence).
        exists ii, p, s. split; [rewrite Hx; reflexivity|]. split; [lia|]. split; [reflexivity|]. split; [repeat split; try assumption; apply Bp|]. split; [left; lra|]. split; [exact Hc|]. split; [exact Hs|]. intros _ C. contradiction.
  Qed.

  Variable r : float.
  Variable E : R.
  Notation q := (rrF / r)%float.
  Notation step := (RR / val r).
  Hypotheses (Hr : 0 < val r) (Fq : finite q) (Bq : 0 <= val q <= IZR (2 ^ 51)).
  Hypothesis Hadd : forall p, position p -> val p < RR -> D (nearest (val p + val q)) /\ Rabs (nearest (val p + val q) - (val p + step)) <= E.

  Lemma row_double p : finite p -> 0 <= val p ->
    let kk := Z.min (rnd p) (Z.of_nat (length B) - 1) in
    (0 <= kk < Z.of_nat (length B))%Z /\ py_nth B kk = Ok (nth (Z.to_nat kk) B []) /\ length (nth (Z.to_nat kk) B []) = cc.
  Proof.
    intros Fp Hp kk. destruct HB as (H0 & _ & HF). assert (Hl : (0 < length B)%nat) by (destruct B; [congruence|cbn; lia]).
    pose proof (rheR_nonneg _ Hp) as H1. assert (Hk : (0 <= kk < Z.of_nat (length B))%Z) by (unfold kk; rewrite (Hrnd p Fp); lia).
    split; [exact Hk|]. split.
    - unfold py_nth. destruct (Z.ltb_spec kk 0); [lia|].
      replace ((0 <=? kk) && (kk <? Z.of_nat (length B)))%Z%bool with true by (symmetry; apply andb_true_intro; split; [apply Z.leb_le|apply Z.ltb_lt]; lia).
      rewrite (nth_error_nth' B []) by lia. reflexivity.
    - rewrite Forall_forall in HF. apply HF. apply nth_In. lia.
  Qed.

  Lemma loop_polyphase : forall fuel ii ny p s, (L - ii + ny <= fuel)%nat -> (ii <= L)%nat -> position p -> consumedF ii s -> s <> [] ->
    exists ii' p' s' ys ts, @poly_loop (FOd d) rnd B r fuel (skipn ii x) ny p s = Some (p', s', Ok ys) /\
      (ii <= ii' <= L)%nat /\ (length ys <= ny)%nat /\ length ts = length ys /\ position p' /\ consumedF ii' s' /\ s' <> [] /\
      (length ys < ny -> ii' = L)%nat /\
      Rabs (val p' + INR ii' * RR - (val p + INR ii * RR + INR (length ys) * step)) <= INR (length ys) * E /\
      forall n, (n < length ys)%nat -> Rabs (nth n ts 0 - (val p + INR ii * RR + INR n * step)) <= INR n * E /\ output_double d cc B x s0 (nth n ts 0) (nth n ys 0%float).
  Proof.
    pose proof RR_posF as HRp. pose proof RR_top as HRt. destruct rr_val as [Fr Vr].
    assert (None' : forall ii ny p s fuel, (ii <= L)%nat -> position p -> consumedF ii s -> s <> [] -> @poly_loop (FOd d) rnd B r fuel (skipn ii x) ny p s = Some (p, s, Ok []) -> (ny = 0 \/ ii = L)%nat ->
      exists ii' p' s' ys ts, @poly_loop (FOd d) rnd B r fuel (skipn ii x) ny p s = Some (p', s', Ok ys) /\
      (ii <= ii' <= L)%nat /\ (length ys <= ny)%nat /\ length ts = length ys /\ position p' /\ consumedF ii' s' /\ s' <> [] /\
      (length ys < ny -> ii' = L)%nat /\
      Rabs (val p' + INR ii' * RR - (val p + INR ii * RR + INR (length ys) * step)) <= INR (length ys) * E /\
      forall n, (n < length ys)%nat -> Rabs (nth n ts 0 - (val p + INR ii * RR + INR n * step)) <= INR n * E /\ output_double d cc B x s0 (nth n ts 0) (nth n ys 0%float)).
    { intros ii ny p s fuel Hi Hp Hc Hs H N. exists ii, p, s, [], []. cbn [length]. split; [exact H|]. split; [lia|]. split; [lia|]. split; [reflexivity|]. split; [exact Hp|]. split; [exact Hc|]. split; [exact Hs|].
      split; [lia|]. split; [|intros n Hn; lia]. cbn [INR]. rewrite !Rmult_0_l, Rplus_0_r. unfold Rminus. rewrite Rplus_opp_r, Rabs_R0. lra. }
    induction fuel as [|fuel IH]; intros ii ny p s Hf Hi Hp Hc Hs.
    - apply None'; try assumption; [|lia]. assert (ii = L) by lia. subst ii. rewrite skipn_all. reflexivity.
    - destruct (skipn ii x) as [|v xs] eqn:Hx.
      + assert (ii = L). { apply (f_equal (@length float)) in Hx. rewrite skipn_length in Hx. cbn in Hx. lia. }
        rewrite <- Hx. apply None'; try assumption; [|lia]. rewrite Hx. reflexivity.
      + destruct (skipn_consF _ _ _ Hx) as (H1 & H2 & H3). destruct ny as [|ny].
        { rewrite <- Hx. apply None'; try assumption; [|lia]. rewrite Hx. reflexivity. }
        cbn [poly_loop]. change (@oltb (FOd d) p rrF) with (PrimFloat.ltb p rrF). change (@length (list (carrier (FOd d))) B) with (@length (list float) B).
        destruct Hp as (Fp & Bp & Dp). destruct (PrimFloat.ltb p rrF) eqn:El.
        * apply (ltb_val _ _ Fp Fr) in El. rewrite Vr in El. destruct s as [|u t]; [congruence|]. cbn [np_set0].
          destruct (row_double p Fp (proj1 Bp)) as (K1 & K2 & K3). cbv zeta in K1, K2, K3. set (kk := Z.min (rnd p) (Z.of_nat (length B) - 1)) in *.
          change (@py_nth (list (carrier (FOd d)))) with (@py_nth (list float)).
          assert (Hdot : bind (py_nth B kk) (fun row => @np_dot (FOd d) row (v :: t)) = Ok (d (nth (Z.to_nat kk) B []) (window cc x s0 ii))).
          { rewrite K2. cbn [bind]. unfold np_dot. rewrite <- (window_cons ii u v t Hc H2). destruct Hc as [Hl _].
            assert (Eb : Nat.eqb (@length (carrier (FOd d)) (nth (Z.to_nat kk) B [])) (@length (carrier (FOd d)) (v :: t)) = true).
            { apply Nat.eqb_eq. etransitivity; [exact K3|symmetry; exact Hl]. }
            rewrite Eb. reflexivity. }
          match goal with |- context [@bind ?a ?b ?m ?f] => replace (@bind a b m f) with (@Ok b (d (nth (Z.to_nat kk) B []) (window cc x s0 ii))) by (symmetry; exact Hdot) end.
          destruct (Hadd p (conj Fp (conj Bp Dp)) El) as [Dn En].
          change (@add (FOd d) p (@div (FOd d) rrF r)) with (p + q)%float.
          assert (Bn : 0 <= nearest (val p + val q) <= IZR (2 ^ 53)).
          { split; [apply nearest_nonneg; lra|]. rewrite <- (nearest_IZR (2 ^ 53)) by (cbn; lia). apply nearest_le.
            apply Rle_trans with (IZR (2 ^ 49) + IZR (2 ^ 51)); [lra|]. rewrite <- plus_IZR. apply IZR_le. cbn. lia. }
          assert (Hh : Rabs (nearest (val p + val q)) < huge).
          { pose proof huge_big. assert (IZR (2 ^ 53) < IZR (2 ^ 60)) by (apply IZR_lt; reflexivity). rewrite Rabs_pos_eq; lra. }
          destruct (add_fin p q Fp Fq Hh) as [F1 V1].
          assert (P1 : position (p + q)%float) by (split; [exact F1|rewrite V1; split; [exact Bn|exact Dn]]).
          assert (Hc1 : consumedF ii (v :: t)).
          { destruct Hc as [Hl Hc]. split; [exact Hl|]. intros i Hi2. destruct i as [|i]; [lia|]. change (nth (S i) (v :: t) 0%float) with (nth (S i) (u :: t) 0%float). apply Hc, Hi2. }
          destruct (consume_double (v :: xs) ii (p + q)%float (v :: t) Hx Hi P1 Hc1 ltac:(discriminate)) as (i2 & p2 & s2 & C1 & C2 & C3 & C4 & C5 & C6 & C7 & _).
          match goal with |- context [@poly_consume ?o ?n ?l ?i ?w] => replace (@poly_consume o n l i w) with (p2, s2, Ok (skipn i2 x)) by (symmetry; exact C1) end.
          destruct (IH i2 ny p2 s2 ltac:(lia) ltac:(lia) C4 C6 C7) as (ii' & p' & s' & ys & ts & G1 & G2 & G3 & G4 & G5 & G6 & G7 & G8 & G9 & G10).
          rewrite G1. exists ii', p', s', (d (nth (Z.to_nat kk) B []) (window cc x s0 ii) :: ys), ((val p + INR ii * RR) :: ts). split; [reflexivity|]. cbn [length].
          split; [lia|]. split; [lia|]. split; [lia|]. split; [exact G5|]. split; [exact G6|]. split; [exact G7|]. split; [lia|].
          assert (Comb : forall a n, Rabs (a - (val p2 + INR i2 * RR + INR n * step)) <= INR n * E -> Rabs (a - (val p + INR ii * RR + INR (S n) * step)) <= INR (S n) * E).
          { intros a n H. rewrite C3, V1 in H. rewrite S_INR.
            replace (a - (val p + INR ii * RR + (INR n + 1) * step)) with ((a - (nearest (val p + val q) + INR ii * RR + INR n * step)) + (nearest (val p + val q) - (val p + step))) by ring.
            eapply Rle_trans; [apply Rabs_triang|]. lra. }
          split; [apply Comb, G9|]. intros [|n] Hn; cbn [nth].
          -- split; [cbn [INR]; rewrite !Rmult_0_l, Rplus_0_r; unfold Rminus; rewrite Rplus_opp_r, Rabs_R0; lra|].
             exists ii. split; [exact H1|]. split; [rewrite S_INR; lra|]. unfold kk. rewrite (Hrnd p Fp). replace (val p + INR ii * RR - INR ii * RR) with (val p) by ring. reflexivity.
          -- destruct (G10 n ltac:(lia)) as [G11 G12]. split; [apply Comb, G11|exact G12].
        * assert (Hge : RR <= val p).
          { destruct (Rle_lt_dec RR (val p)) as [G|G]; [exact G|]. rewrite <- Vr in G. apply (ltb_val _ _ Fp Fr) in G. congruence. }
          destruct (consume_double (v :: xs) ii p s Hx Hi (conj Fp (conj Bp Dp)) Hc Hs) as (i2 & p2 & s2 & C1 & C2 & C3 & C4 & C5 & C6 & C7 & C8).
          match goal with |- context [@poly_consume ?o ?n ?l ?i ?w] => replace (@poly_consume o n l i w) with (p2, s2, Ok (skipn i2 x)) by (symmetry; exact C1) end.
          specialize (C8 H1 Hge).
          destruct (IH i2 (S ny) p2 s2 ltac:(lia) ltac:(lia) C4 C6 C7) as (ii' & p' & s' & ys & ts & G1 & G2 & G3 & G4 & G5 & G6 & G7 & G8 & G9 & G10).
          rewrite C3 in G9, G10. exists ii', p', s', ys, ts. split; [exact G1|]. split; [lia|]. split; [exact G3|]. split; [exact G4|]. split; [exact G5|]. split; [exact G6|]. split; [exact G7|]. split; [exact G8|]. split; [exact G9|exact G10].
  Qed.
End Loop.
