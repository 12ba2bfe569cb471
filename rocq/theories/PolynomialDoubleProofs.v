(** Lemmas for C171: the loops of PolynomialRateFilter in IEEE doubles. *)
From Flocq Require Import Core Relative BinarySingleNaN PrimFloat.
From Coq Require Import List Arith ZArith Bool Reals Lra Lia Floats.
From Verif Require Import Base BaseLemmas Instances CalculusModel CalculusProps RankModel Rounding PolyphaseModel PolyphaseProps PolynomialModel DoubleSpec DoubleProofs DoubleOps PolyphaseDoubleProofs PolyphaseDoubleProps.
Import ListNotations.
Set Asymmetric Patterns.
Local Open Scope R_scope.

(** ** Specification *)
(** int(.) of a non-negative number rounds down. *)
Definition truncates (trunc : float -> Z) : Prop := forall v, finite v -> 0 <= val v -> IZR (trunc v) <= val v < IZR (trunc v) + 1.
(** The output of the filter of order two or more at position t: the polynomial fitted to the samples
    around t, evaluated at the offset of t from its sample. *)
Definition piece_double (d : list float -> list float -> float) (polyfit : list float -> list float -> Z -> list float) (order : Z) (x1 : list float) (cc : nat) (t : R) (y : float) : Prop :=
  exists (m : nat) (w : float), (m < cc)%nat /\ finite w /\ 0 <= val w < 1 /\ t = INR m + val w /\
    y = @polyval (FOd d) (polyfit [-1; 0; 1; 2]%float (firstn 4 (skipn m x1)) order) w.
(** Straight lines between the points (0, z0), (1, z1), ... *)
Definition lines (z : list R) (t : R) : R :=
  let m := Z.to_nat (Int_part t) in nth m z 0 + (t - INR m) * (nth (S m) z 0 - nth m z 0).

Lemma nearest_normal x : bpow radix2 (-1022) <= Rabs x -> Rabs (nearest x - x) <= uro * Rabs x.
Proof.
  intros H. assert (P53 : Prec_gt_0 53) by reflexivity.
  pose proof (relative_error_N_FLT radix2 (-1074) 53 P53 (fun z => negb (Z.even z)) x) as K. unfold nearest, uro. replace (bpow radix2 (-52)) with (bpow radix2 (- (53) + 1)) by reflexivity.
  apply K. exact H.
Qed.
Lemma sub_close x y : Rabs (nearest (val x - val y) - (val x - val y)) <= uro * Rabs (val x - val y).
Proof.
  pose proof (add_close x (- y)%float) as A. assert (E : val (- y)%float = - val y).
  { unfold val. rewrite opp_equiv. apply B2R_Bopp. }
  rewrite E in A. exact A.
Qed.

(** ** The loop of orders two and more *)
Section Loop.
  Variables (d : list float -> list float -> float) (polyfit : list float -> list float -> Z -> list float) (order : Z) (x1 : list float).
  Notation inner := (@prate_inner (FOd d)).
  Notation outer := (@prate_outer (FOd d) polyfit).
  Notation u := [-1; 0; 1; 2]%float.
  Variables (v : float) (step E : R) (D : R -> Prop).
  Hypotheses (Fv : finite v) (Bv : 0 <= val v <= IZR (2 ^ 51)) (E0 : 0 <= E).
  Hypothesis Hsub : forall w, D w -> D (w - 1).
  Definition place (p : float) : Prop := finite p /\ 0 <= val p <= IZR (2 ^ 53) /\ D (val p).
  Hypothesis Hadd : forall p, place p -> val p < 1 -> D (nearest (val p + val v)) /\ Rabs (nearest (val p + val v) - (val p + step)) <= E.

  Lemma one_fin : finite 1%float. Proof. reflexivity. Qed.
  Lemma one_val : val 1%float = 1. Proof. unfold val, B2R. cbn. unfold F2R. cbn. lra. Qed.

  Lemma place_add p : place p -> val p < 1 -> place (p + v)%float /\ val (p + v)%float = nearest (val p + val v).
  Proof.
    intros Hp L. destruct (Hadd p Hp L) as [Dn _]. destruct Hp as (Fp & Bp & Dp).
    assert (Bn : 0 <= nearest (val p + val v) <= IZR (2 ^ 53)).
    { split; [apply nearest_nonneg; lra|]. rewrite <- (nearest_IZR (2 ^ 53)) by (cbn; lia). apply nearest_le.
      apply Rle_trans with (IZR 1 + IZR (2 ^ 51)); [lra|]. rewrite <- plus_IZR. apply IZR_le. cbn. lia. }
    assert (Hh : Rabs (nearest (val p + val v)) < huge).
    { pose proof huge_big. assert (IZR (2 ^ 53) < IZR (2 ^ 60)) by (apply IZR_lt; reflexivity). rewrite Rabs_pos_eq; lra. }
    destruct (add_fin p v Fp Fv Hh) as [F1 V1]. split; [|exact V1]. split; [exact F1|]. rewrite V1. split; [exact Bn|exact Dn].
  Qed.

  Definition offsets (b : list float) (a : R) (ys : list float) (ts : list R) : Prop :=
    length ts = length ys /\ forall n, (n < length ys)%nat -> Rabs (nth n ts 0 - (a + INR n * step)) <= INR n * E /\
      exists w, finite w /\ 0 <= val w < 1 /\ nth n ts 0 = val w /\ nth n ys 0%float = @polyval (FOd d) b w.

  Lemma inner_double b : forall ny p, place p ->
    exists (ny' : nat) (p' : float) (ys : list float) (ts : list R), inner ny b v p = (ny', p', ys) /\ (length ys + ny' = ny)%nat /\ (ny' = 0%nat \/ 1 <= val p') /\ place p' /\
      Rabs (val p' - (val p + INR (length ys) * step)) <= INR (length ys) * E /\ offsets b (val p) ys ts.
  Proof.
    assert (Nil : forall ny p, place p -> inner ny b v p = (ny, p, []) -> (ny = 0%nat \/ 1 <= val p) ->
      exists (ny' : nat) (p' : float) (ys : list float) (ts : list R), inner ny b v p = (ny', p', ys) /\ (length ys + ny' = ny)%nat /\ (ny' = 0%nat \/ 1 <= val p') /\ place p' /\
      Rabs (val p' - (val p + INR (length ys) * step)) <= INR (length ys) * E /\ offsets b (val p) ys ts).
    { intros ny p Hp H C. exists ny, p, [], []. cbn [length]. split; [exact H|]. split; [lia|]. split; [exact C|]. split; [exact Hp|]. split.
      - cbn [INR]. rewrite !Rmult_0_l, Rplus_0_r. unfold Rminus. rewrite Rplus_opp_r, Rabs_R0. lra.
      - split; [reflexivity|]. intros n Hn. cbn in Hn. lia. }
    induction ny as [|ny IH]; intros p Hp.
    - apply Nil; [exact Hp|reflexivity|left; reflexivity].
    - destruct (PrimFloat.ltb p 1) eqn:L.
      + assert (Lp : val p < 1) by (rewrite <- one_val; apply ltb_val; [apply Hp|apply one_fin|exact L]).
        destruct (place_add p Hp Lp) as [P1 V1]. destruct (Hadd p Hp Lp) as [_ En].
        destruct (IH (p + v)%float P1) as (ny' & p' & ys & ts & G1 & G2 & G3 & G4 & G5 & G6 & G7).
        exists ny', p', (@polyval (FOd d) b p :: ys), (val p :: ts). split.
        { cbn [prate_inner]. change (@oltb (FOd d) p one) with (PrimFloat.ltb p 1). rewrite L. change (@add (FOd d) p v) with (p + v)%float.
          match goal with |- context [@prate_inner ?o ?a ?b ?c ?e] => replace (@prate_inner o a b c e) with (ny', p', ys) by (symmetry; exact G1) end. reflexivity. }
        cbn [length]. split; [lia|]. split; [exact G3|]. split; [exact G4|].
        assert (Comb : forall a n, Rabs (a - (val (p + v)%float + INR n * step)) <= INR n * E -> Rabs (a - (val p + INR (S n) * step)) <= INR (S n) * E).
        { intros a n H. rewrite V1 in H. rewrite S_INR.
          replace (a - (val p + (INR n + 1) * step)) with ((a - (nearest (val p + val v) + INR n * step)) + (nearest (val p + val v) - (val p + step))) by ring.
          eapply Rle_trans; [apply Rabs_triang|]. lra. }
        split; [apply Comb, G5|]. split; [cbn [length]; lia|]. intros [|n] Hn; cbn [nth].
        * split; [cbn [INR]; rewrite !Rmult_0_l, Rplus_0_r; unfold Rminus; rewrite Rplus_opp_r, Rabs_R0; lra|].
          exists p. destruct Hp as (Fp & Bp & _). repeat split; try assumption; apply Bp.
        * cbn [length] in Hn. destruct (G7 n ltac:(lia)) as [G8 G9]. split; [apply Comb, G8|exact G9].
      + apply Nil; [exact Hp| |].
        * cbn [prate_inner]. change (@oltb (FOd d) p one) with (PrimFloat.ltb p 1). rewrite L. reflexivity.
        * right. destruct (Rle_lt_dec 1 (val p)) as [C|C]; [exact C|]. rewrite <- one_val in C. apply (ltb_val p 1%float ltac:(apply Hp) one_fin) in C. congruence.
  Qed.

  Lemma outer_done : forall c xs p, outer u order c xs 0 v p = [].
  Proof.
    induction c as [|c IH]; intros xs p; [reflexivity|]. cbn [prate_outer]. destruct (@oltb (FOd d) p one); cbn [prate_inner app]; apply IH.
  Qed.
  Lemma place_sub p : place p -> 1 <= val p -> place (p - 1)%float /\ val (p - 1)%float = val p - 1.
  Proof.
    intros (Fp & Bp & Dp) H1. assert (N : nearest (val p - val 1%float) = val p - 1) by (rewrite one_val; apply (sub_exact p 1); [lia|lra]).
    assert (Hh : Rabs (nearest (val p - val 1%float)) < huge).
    { rewrite N. pose proof huge_big. assert (IZR (2 ^ 53) < IZR (2 ^ 60)) by (apply IZR_lt; reflexivity). rewrite Rabs_pos_eq; lra. }
    destruct (sub_fin p 1%float Fp one_fin Hh) as [F1 V1]. rewrite N in V1. split; [|exact V1]. split; [exact F1|]. rewrite V1. split; [lra|apply Hsub, Dp].
  Qed.

  Variable cc : nat.
  Lemma outer_double : forall c m ny p, (m + c = cc)%nat -> place p ->
    exists (ys : list float) (ts : list R) (a : R), outer u order c (skipn m x1) ny v p = ys /\ length ts = length ys /\ (length ys <= ny)%nat /\
      ((length ys < ny)%nat -> INR cc <= a) /\ Rabs (a - (val p + INR m + INR (length ys) * step)) <= INR (length ys) * E /\
      forall n, (n < length ys)%nat -> Rabs (nth n ts 0 - (val p + INR m + INR n * step)) <= INR n * E /\ piece_double d polyfit order x1 cc (nth n ts 0) (nth n ys 0%float).
  Proof.
    induction c as [|c IH]; intros m ny p Hm Hp.
    - exists [], [], (val p + INR m). split; [reflexivity|]. cbn [length INR]. split; [reflexivity|]. split; [lia|]. split; [|split; [|intros; lia]].
      + intros _. replace cc with m by lia. destruct Hp as (_ & Bp & _). lra.
      + rewrite !Rmult_0_l, Rplus_0_r. unfold Rminus. rewrite Rplus_opp_r, Rabs_R0. lra.
    - assert (Tl : tl (skipn m x1) = skipn (S m) x1).
      { clear. revert m. induction x1 as [|y l IHl]; intros m; [rewrite !skipn_nil; reflexivity|]. destruct m as [|m]; [reflexivity|]. cbn [skipn]. apply IHl. }
      cbn [prate_outer]. match goal with |- context [@tl ?t ?l] => replace (@tl t l) with (skipn (S m) x1) by (symmetry; exact Tl) end. change (@oltb (FOd d) p one) with (PrimFloat.ltb p 1).
      destruct (PrimFloat.ltb p 1) eqn:L.
      + set (b := polyfit u (firstn 4 (skipn m x1)) order).
        destruct (inner_double b ny p Hp) as (ny' & p' & ys & ts & G1 & G2 & G3 & G4 & G5 & G6 & G7).
        match goal with |- context [@prate_inner ?o ?a ?b ?c ?e] => replace (@prate_inner o a b c e) with (ny', p', ys) by (symmetry; exact G1) end.
        assert (Here : forall n, (n < length ys)%nat -> Rabs (INR m + nth n ts 0 - (val p + INR m + INR n * step)) <= INR n * E /\ piece_double d polyfit order x1 cc (INR m + nth n ts 0) (nth n ys 0%float)).
        { intros n Hn. destruct (G7 n Hn) as [G8 (w & W1 & W2 & W3 & W4)]. split.
          - replace (INR m + nth n ts 0 - (val p + INR m + INR n * step)) with (nth n ts 0 - (val p + INR n * step)) by ring. exact G8.
          - exists m, w. split; [lia|]. split; [exact W1|]. split; [exact W2|]. split; [rewrite W3; reflexivity|exact W4]. }
        change (@length (carrier (FOd d)) ys) with (@length float ys) in *.
        destruct G3 as [-> | G3].
        * rewrite outer_done, app_nil_r. exists ys, (map (Rplus (INR m)) ts), (val p' + INR m). split; [reflexivity|]. rewrite map_length.
          split; [exact G6|]. split; [lia|]. split; [lia|]. split.
          -- replace (val p' + INR m - (val p + INR m + INR (length ys) * step)) with (val p' - (val p + INR (length ys) * step)) by ring. exact G5.
          -- intros n Hn. rewrite nth_map_lt with (d := 0) by lia. apply Here, Hn.
        * destruct (place_sub p' G4 G3) as [P2 V2]. change (@sub (FOd d) p' one) with (p' - 1)%float.
          destruct (IH (S m) ny' (p' - 1)%float ltac:(lia) P2) as (zs & rs & a & I1 & I2 & I3 & I4 & I5 & I6).
          match goal with |- context [@prate_outer ?o ?a ?b ?c ?e ?f ?g ?h ?i] => replace (@prate_outer o a b c e f g h i) with zs by (symmetry; exact I1) end.
          rewrite V2, S_INR in I5, I6. replace (val p' - 1 + (INR m + 1)) with (val p' + INR m) in I5, I6 by ring.
          assert (Comb : forall a n, Rabs (a - (val p' + INR m + INR n * step)) <= INR n * E -> Rabs (a - (val p + INR m + INR (length ys + n) * step)) <= INR (length ys + n) * E).
          { intros a0 n H. rewrite plus_INR.
            replace (a0 - (val p + INR m + (INR (length ys) + INR n) * step)) with ((a0 - (val p' + INR m + INR n * step)) + (val p' - (val p + INR (length ys) * step))) by ring.
            eapply Rle_trans; [apply Rabs_triang|]. lra. }
          change (@app (carrier (FOd d))) with (@app float). change (list (carrier (FOd d))) with (list float) in zs.
          exists (ys ++ zs), (map (Rplus (INR m)) ts ++ rs), a. rewrite !app_length, map_length. split; [reflexivity|]. split; [lia|]. split; [lia|]. split; [intros; apply I4; lia|].
          split; [apply Comb, I5|]. intros n Hn. destruct (Nat.lt_ge_cases n (length ys)) as [C|C].
          -- rewrite !app_nth1 by (rewrite ?map_length; lia). rewrite nth_map_lt with (d := 0) by lia. apply Here, C.
          -- rewrite (app_nth2 ys) by lia. rewrite app_nth2 by (rewrite map_length; lia). rewrite map_length, G6. destruct (I6 (n - length ys)%nat ltac:(lia)) as [J1 J2].
             split; [|exact J2]. replace n with (length ys + (n - length ys))%nat at 2 3 by lia. apply Comb, J1.
      + assert (G3 : 1 <= val p).
        { destruct (Rle_lt_dec 1 (val p)) as [C|C]; [exact C|]. rewrite <- one_val in C. apply (ltb_val p 1%float ltac:(apply Hp) one_fin) in C. congruence. }
        destruct (place_sub p Hp G3) as [P2 V2]. change (@sub (FOd d) p one) with (p - 1)%float. cbn [app].
        destruct (IH (S m) ny (p - 1)%float ltac:(lia) P2) as (zs & rs & a & I1 & I2 & I3 & I4 & I5 & I6).
        rewrite V2, S_INR in I5, I6. replace (val p - 1 + (INR m + 1)) with (val p + INR m) in I5, I6 by ring.
        exists zs, rs, a. split; [exact I1|]. repeat split; assumption || (apply I6; assumption).
  Qed.
End Loop.

(** ** Interpolation on lines *)
Section Lines.
  Variable d : list float -> list float -> float.
  Notation nat_ := (@of_nat (FOd d)).
  (** What numpy.interp computes between samples m and m+1. *)
  Definition chord (m : nat) (z0 z1 w : float) : float := ((z1 - z0) / (nat_ (S m) - nat_ m) * (w - nat_ m) + z0)%float.

  Lemma interp_chord : forall (zs : list float) (z0 w : float) m, (Z.of_nat (m + length zs) < 2 ^ 53)%Z -> finite w -> INR m <= val w <= INR (m + length zs) ->
    exists k, (m <= k <= m + length zs)%nat /\ INR k <= val w /\
      ((k = (m + length zs)%nat /\ val w = INR k /\ @interp_from (FOd d) (nat_ m) z0 (combine (map nat_ (seq (S m) (length zs))) zs) w = nth (k - m) (z0 :: zs) 0%float) \/
       ((k < m + length zs)%nat /\ val w < INR (S k) /\
        @interp_from (FOd d) (nat_ m) z0 (combine (map nat_ (seq (S m) (length zs))) zs) w = chord k (nth (k - m) (z0 :: zs) 0%float) (nth (S (k - m)) (z0 :: zs) 0%float) w)).
  Proof.
    induction zs as [|z1 zs IH]; intros z0 w m Hm Fw Hw.
    - exists m. cbn [length] in *. rewrite Nat.add_0_r in *. split; [lia|]. split; [apply Hw|]. left. split; [reflexivity|]. split; [lra|]. rewrite Nat.sub_diag. reflexivity.
    - cbn [length seq map combine interp_from] in *. change (@oltb (FOd d) w (nat_ (S m))) with (PrimFloat.ltb w (nat_ (S m))).
      destruct (of_nat_double d (S m)) as [F1 V1]; [lia|].
      destruct (PrimFloat.ltb w (nat_ (S m))) eqn:L.
      + apply (ltb_val _ _ Fw F1) in L. rewrite V1 in L. exists m. split; [lia|]. split; [apply Hw|]. right. split; [lia|]. split; [exact L|]. rewrite Nat.sub_diag. reflexivity.
      + assert (Ge : INR (S m) <= val w).
        { destruct (Rle_lt_dec (INR (S m)) (val w)) as [C|C]; [exact C|]. rewrite <- V1 in C. apply (ltb_val _ _ Fw F1) in C. congruence. }
        replace (m + S (length zs))%nat with (S m + length zs)%nat in * by lia.
        destruct (IH z1 w (S m) Hm Fw (conj Ge (proj2 Hw))) as (k & K1 & K2 & [(K3 & K4 & K5)|(K3 & K4 & K5)]); exists k; (split; [lia|]); (split; [exact K2|]).
        * left. split; [exact K3|]. split; [exact K4|]. replace (k - m)%nat with (S (k - S m)) by lia. exact K5.
        * right. split; [exact K3|]. split; [exact K4|]. replace (k - m)%nat with (S (k - S m)) by lia. exact K5.
  Qed.

  Lemma chord_double (k : nat) (z0 z1 w : float) (M : R) : (Z.of_nat (S k) <= 2 ^ 53)%Z -> finite w -> INR k <= val w < INR (S k) -> finite z0 -> finite z1 ->
    Rabs (val z0) <= M -> Rabs (val z1) <= M -> M <= bpow radix2 1000 ->
    finite (chord k z0 z1 w) /\ Rabs (val (chord k z0 z1 w) - (val z0 + (val w - INR k) * (val z1 - val z0))) <= 8 * uro * M + 2 * eta0.
  Proof.
    intros Hk Fw Hw F0 F1 B0 B1 HM. destruct (of_nat_double d k) as [Fk Vk]; [lia|]. destruct (of_nat_double d (S k)) as [Fs Vs]; [lia|].
    assert (PM : 0 <= M) by (eapply Rle_trans; [apply Rabs_pos|exact B0]).
    assert (U : 0 < uro) by apply uro_pos. assert (Ub : uro <= 1 / 1000).
    { unfold uro. pose proof (bpow_le radix2 (-52) (-10) ltac:(lia)) as H. change (bpow radix2 (-10)) with (/ 1024) in H. lra. }
    assert (Et : 0 < eta0) by apply eta0_pos. assert (Eu : eta0 <= uro) by apply eta_uro.
    assert (Hg : 100 * bpow radix2 1000 + 100 < huge).
    { assert (A : huge = bpow radix2 24 * bpow radix2 1000) by (unfold huge; rewrite <- bpow_plus; reflexivity).
      pose proof (bpow_le radix2 0 1000 ltac:(lia)) as C. change (bpow radix2 0) with 1 in C. assert (bpow radix2 24 = 16777216) by (cbn; lra). nra. }
    assert (Small : forall r, Rabs r <= 4 * M + 1 -> Rabs (nearest r) < huge).
    { intros r Hr. pose proof (nearest_bound r) as K. assert (Rabs (nearest r) <= (1 + 1) * (4 * M + 1) + 1); [|lra]. eapply Rle_trans; [exact K|]. pose proof (Rabs_pos r). nra. }
    (* differences *)
    assert (Bd : Rabs (val z1 - val z0) <= 2 * M). { eapply Rle_trans; [apply Rabs_triang|]. rewrite Rabs_Ropp. lra. }
    destruct (sub_fin z1 z0 F1 F0 ltac:(apply Small; lra)) as [Fd Vd]. pose proof (sub_close z1 z0) as Cd. rewrite <- Vd in Cd.
    set (dz := val z1 - val z0) in *. set (a := (z1 - z0)%float) in *.
    assert (One : nearest (val (nat_ (S k)) - val (nat_ k)) = 1).
    { rewrite Vk, Vs, S_INR. replace (INR k + 1 - INR k) with 1 by ring. apply (nearest_IZR 1). cbn. lia. }
    destruct (sub_fin (nat_ (S k)) (nat_ k) Fs Fk) as [Fo Vo]. { rewrite One, Rabs_R1. pose proof (bpow_gt_0 radix2 1000). lra. } rewrite One in Vo.
    set (o := (nat_ (S k) - nat_ k)%float) in *.
    assert (Ab : Rabs (val a) <= 2 * M * (1 + uro)).
    { replace (val a) with ((val a - dz) + dz) by ring. eapply Rle_trans; [apply Rabs_triang|]. pose proof (Rabs_pos dz). nra. }
    assert (Nd : nearest (val a / val o) = val a) by (rewrite Vo; replace (val a / 1) with (val a) by field; apply nearest_val).
    destruct (div_fin a o Fd ltac:(rewrite Vo; lra)) as [Fq Vq]. { rewrite Nd. rewrite <- (nearest_val a). apply Small. nra. } rewrite Nd in Vq.
    assert (Nw : nearest (val w - val (nat_ k)) = val w - INR k).
    { rewrite Vk, INR_IZR_INZ. apply sub_exact; [lia|]. rewrite <- INR_IZR_INZ. split; [apply Hw|]. apply Rle_trans with (INR (S k)); [lra|]. rewrite INR_IZR_INZ. apply IZR_le. exact Hk. }
    assert (Bw : 0 <= val w - INR k < 1) by (rewrite S_INR in Hw; lra).
    destruct (sub_fin w (nat_ k) Fw Fk) as [Fi Vi]. { rewrite Nw, Rabs_pos_eq by lra. pose proof (bpow_gt_0 radix2 1000). lra. } rewrite Nw in Vi.
    set (i := (w - nat_ k)%float) in *. set (t := val w - INR k) in *. set (q := (a / o)%float) in *.
    assert (Bp : Rabs (val q * val i) <= 2 * M * (1 + uro)).
    { rewrite Vq, Vi, Rabs_mult, (Rabs_pos_eq t) by lra. apply Rle_trans with (Rabs (val a) * 1); [apply Rmult_le_compat_l; [apply Rabs_pos|lra]|lra]. }
    destruct (mul_fin q i Fq Fi) as [Fp Vp]. { apply Small. nra. }
    pose proof (nearest_close (val q * val i)) as Cp. rewrite <- Vp in Cp. set (p := (q * i)%float) in *.
    assert (Pb : Rabs (val p) <= 2 * M * (1 + uro) * (1 + uro) + eta0).
    { replace (val p) with ((val p - val q * val i) + val q * val i) by ring. eapply Rle_trans; [apply Rabs_triang|]. nra. }
    assert (Bs : Rabs (val p + val z0) <= 2 * M * (1 + uro) * (1 + uro) + eta0 + M) by (eapply Rle_trans; [apply Rabs_triang|]; lra).
    assert (Q2 : 2 * M * (1 + uro) * (1 + uro) <= 2 * M * (101 / 100)).
    { rewrite Rmult_assoc. apply Rmult_le_compat_l; [lra|]. nra. }
    destruct (add_fin p z0 Fp F0) as [Fr Vr]. { apply Small. lra. }
    pose proof (add_close p z0) as Cr. rewrite <- Vr in Cr. change (p + z0)%float with (chord k z0 z1 w) in *. split; [exact Fr|].
    replace (val (chord k z0 z1 w) - (val z0 + t * dz)) with ((val (chord k z0 z1 w) - (val p + val z0)) + ((val p - val q * val i) + (val q * val i - t * dz))) by ring.
    assert (Ce : Rabs (val q * val i - t * dz) <= uro * (2 * M)).
    { rewrite Vq, Vi. replace (val a * t - t * dz) with ((val a - dz) * t) by ring. rewrite Rabs_mult, (Rabs_pos_eq t) by lra.
      apply Rle_trans with (uro * Rabs dz * 1); [apply Rmult_le_compat; [apply Rabs_pos|lra|exact Cd|lra]|]. rewrite Rmult_1_r. apply Rmult_le_compat_l; lra. }
    eapply Rle_trans; [apply Rabs_triang|]. eapply Rle_trans; [apply Rplus_le_compat_l, Rabs_triang|].
    assert (S1 : uro * Rabs (val p + val z0) <= uro * (2 * M * (1 + uro) * (1 + uro) + eta0 + M)) by (apply Rmult_le_compat_l; lra).
    assert (S2 : uro * Rabs (val q * val i) <= uro * (2 * M * (1 + uro))) by (apply Rmult_le_compat_l; lra).
    assert (UM : 0 <= uro * M) by (apply Rmult_le_pos; lra). assert (UUM : uro * (uro * M) <= / 1000 * (uro * M)) by (apply Rmult_le_compat_r; lra).
    assert (UUU : uro * (uro * (uro * M)) <= / 1000 * (uro * M)) by (apply Rle_trans with (uro * (1 * (uro * M))); [apply Rmult_le_compat_l; [lra|apply Rmult_le_compat_r; lra]|rewrite Rmult_1_l; exact UUM]).
    assert (UE : uro * eta0 <= eta0) by nra. nra.
  Qed.
End Lines.
