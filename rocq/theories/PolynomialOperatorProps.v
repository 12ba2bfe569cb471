(** Property C166: PolynomialRateFilter as an operator on signals: linearity, gain,
    locality, chunks. *)
From Coq Require Import List Arith ZArith Lia Bool Reals Lra.
From Verif Require Import Base BaseLemmas Instances CalculusModel CalculusSpec CalculusProps Rounding PolyphaseModel PolyphaseProps
  PolynomialModel PolynomialProps InterpolationProps.
Import ListNotations.
Set Asymmetric Patterns.
Open Scope R_scope.

Lemma same_floor (s : R) a b : INR a <= s < INR (S a) -> INR b <= s < INR (S b) -> a = b.
Proof.
  intros H1 H2. assert (INR a < INR (S b)) by lra. assert (INR b < INR (S a)) by lra.
  apply INR_lt in H, H0. lia.
Qed.

(** Weights over the four padded samples around the output, for orders one to three. *)
Definition weight4 (k : Z) (t : R) (i : nat) : R := if (k =? 1)%Z then nth i [0; 1 - t; t; 0] 0 else weight k t i.

Lemma prate_weights fit r k x : (1 <= k <= 3)%Z -> (k <> 1%Z -> is_lsq fit k) -> 0 < r -> (2 <= length x)%nat ->
  exists y, prateR fit (mkP r k) x = Ok y /\ Z.of_nat (length y) = rheR (INR (length x) * r) /\
    forall j, (j < length y)%nat -> exists m, (m < length x)%nat /\ INR m <= INR j / r < INR (S m) /\
      nth j y 0 = weight4 k (INR j / r - INR m) 0 * nth m (xpad x) 0 + weight4 k (INR j / r - INR m) 1 * nth (m + 1) (xpad x) 0 +
                  weight4 k (INR j / r - INR m) 2 * nth (m + 2) (xpad x) 0 + weight4 k (INR j / r - INR m) 3 * nth (m + 3) (xpad x) 0.
Proof.
  intros Hk Hf Hr Hl. destruct (Z.eq_dec k 1) as [->|Hk1].
  - destruct (prate_one fit r x Hr Hl) as (y & Y1 & Y2 & Y3). exists y. split; [exact Y1|]. split; [exact Y2|].
    intros j Hj. destruct (Y3 j Hj) as (K1 & K2 & K3). set (m := Z.to_nat (Int_part (INR j / r))) in *.
    exists m. split; [exact K1|]. split; [exact K2|]. rewrite K3. clear K3.
    assert (E : forall i, (i <= length x)%nat -> nth i (xext x) 0 = nth (i + 1) (xpad x) 0).
    { intros i Hi. rewrite nth_xpad by lia. destruct (Nat.eqb_spec (i + 1) 0); [lia|]. unfold xext.
      destruct (Nat.leb_spec (i + 1) (length x)); [rewrite app_nth1 by lia; f_equal; lia|].
      destruct (Nat.eqb_spec (i + 1) (S (length x))); [|lia]. rewrite app_nth2 by lia. replace (i - length x)%nat with 0%nat by lia. reflexivity. }
    rewrite !E by lia. replace (S m + 1)%nat with (m + 2)%nat by lia. unfold weight4. cbn [Z.eqb Pos.eqb nth]. ring.
  - destruct (prate_higher fit r k x Hr ltac:(lia) Hl) as (y & Y1 & Y2 & Y3). exists y. split; [exact Y1|]. split; [exact Y2|].
    intros j Hj. destruct (Y3 j Hj) as (m & K1 & K2 & K3). exists m. split; [exact K1|]. split; [exact K2|].
    rewrite K3, window_eq by lia. rewrite fit_weights by (lia || (apply Hf; exact Hk1)). unfold weight4. destruct (Z.eqb_spec k 1); [lia|].
    cbn [bigsum nth]. rr. ring.
Qed.

(** A linear combination of two signals of equal length. *)
Definition comb (a b : R) (x z : list R) : list R := map (fun i => a * nth i x 0 + b * nth i z 0) (seq 0 (length x)).
Lemma nth_comb a b x z i : length z = length x -> nth i (comb a b x z) 0 = a * nth i x 0 + b * nth i z 0.
Proof.
  intros H. unfold comb. destruct (Nat.lt_ge_cases i (length x)) as [C|C]; [rewrite nth_map_seq by exact C; reflexivity|].
  rewrite !nth_overflow; try (rewrite ?map_length, ?seq_length; lia). ring.
Qed.
Lemma xpad_comb a b x z n : length z = length x -> (2 <= length x)%nat -> (n < length x + 3)%nat ->
  nth n (xpad (comb a b x z)) 0 = a * nth n (xpad x) 0 + b * nth n (xpad z) 0.
Proof.
  intros H Hl Hn. assert (L : length (comb a b x z) = length x) by (unfold comb; rewrite map_length, seq_length; reflexivity).
  rewrite !nth_xpad by lia. rewrite L, H. rewrite !nth_comb by exact H.
  destruct (Nat.eqb n 0); [ring|]. destruct (Nat.leb n (length x)); [reflexivity|]. destruct (Nat.eqb n (S (length x))); ring.
Qed.

(** C166.  Superposition, for orders one to three. *)
Theorem C166_linear (fit : list R -> list R -> Z -> list R) (r : R) (k : Z) (a b : R) (x z : list R) :
  (1 <= k <= 3)%Z -> (k <> 1%Z -> is_lsq fit k) -> 0 < r -> (2 <= length x)%nat -> length z = length x ->
  exists y w, prateR fit (mkP r k) x = Ok y /\ prateR fit (mkP r k) z = Ok w /\
    length w = length y /\ prateR fit (mkP r k) (comb a b x z) = Ok (comb a b y w).
Proof.
  intros Hk Hf Hr Hl Hz. assert (L : length (comb a b x z) = length x) by (unfold comb; rewrite map_length, seq_length; reflexivity).
  destruct (prate_weights fit r k x Hk Hf Hr Hl) as (y & Y1 & Y2 & Y3).
  destruct (prate_weights fit r k z Hk Hf Hr ltac:(lia)) as (w & W1 & W2 & W3).
  destruct (prate_weights fit r k (comb a b x z) Hk Hf Hr ltac:(lia)) as (v & V1 & V2 & V3).
  rewrite Hz in W2. rewrite L in V2. assert (Ew : length w = length y) by lia. assert (Ev : length v = length y) by lia.
  exists y, w. split; [exact Y1|]. split; [exact W1|]. split; [exact Ew|]. rewrite V1. f_equal.
  apply (nth_ext _ _ 0 0); [unfold comb; rewrite map_length, seq_length; exact Ev|]. intros j Hj. rewrite nth_comb by exact Ew.
  destruct (Y3 j ltac:(lia)) as (m & M1 & M2 & M3). destruct (W3 j ltac:(lia)) as (m' & N1 & N2 & N3). destruct (V3 j Hj) as (m'' & P1 & P2 & P3).
  assert (m' = m) by (eapply same_floor; eassumption). assert (m'' = m) by (eapply same_floor; eassumption). subst m' m''.
  rewrite M3, N3, P3. rewrite !xpad_comb by lia. ring.
Qed.
Print Assumptions C166_linear.

(** Largest amplification between the samples. *)
Definition gain_bound (k : Z) : R := match k with 1%Z => 1 | 2%Z => 13 / 10 | _ => 5 / 4 end.
Lemma weight_gain k t : (1 <= k <= 3)%Z -> 0 <= t <= 1 ->
  Rabs (weight4 k t 0) + Rabs (weight4 k t 1) + Rabs (weight4 k t 2) + Rabs (weight4 k t 3) <= gain_bound k.
Proof.
  intros Hk Ht. assert (H4 : 0 <= t * (1 - t) <= 1 / 4).
  { split; [apply Rmult_le_pos; lra|]. pose proof (pow2_ge_0 (t - 1 / 2)). lra. }
  assert (P1 : 0 <= (1 + t) * (1 - t) * (2 - t)) by (repeat apply Rmult_le_pos; lra).
  assert (P2 : 0 <= (1 + t) * t * (2 - t)) by (repeat apply Rmult_le_pos; lra).
  assert (P3 : 0 <= t * (1 - t) * (2 - t)) by (repeat apply Rmult_le_pos; lra).
  assert (P4 : 0 <= (1 + t) * t * (1 - t)) by (repeat apply Rmult_le_pos; lra).
  assert (k = 1 \/ k = 2 \/ k = 3)%Z as Ck by lia. destruct Ck as [Ck|[Ck|Ck]]; subst k; unfold weight4; cbn [Z.eqb Pos.eqb nth weight gain_bound].
  - rewrite Rabs_R0, (Rabs_pos_eq (1 - t)), (Rabs_pos_eq t) by lra. lra.
  - set (s := t * (1 - t)) in *. rewrite (Rabs_pos_eq (1 / 2 + s / 4 - (t - 1 / 2) / 10)), (Rabs_pos_eq (1 / 2 + s / 4 + (t - 1 / 2) / 10)) by lra.
    assert (Q1 : 3 / 5 * (t - 1 / 2) <= 3 / 10 - s / 2).
    { pose proof (Rmult_le_pos (1 - t) (6 / 10 - 5 / 10 * t) ltac:(lra) ltac:(lra)). unfold s. lra. }
    assert (Q2 : - (3 / 5 * (t - 1 / 2)) <= 3 / 10 - s / 2).
    { pose proof (Rmult_le_pos t (1 / 10 + 5 / 10 * t) ltac:(lra) ltac:(lra)). unfold s. lra. }
    clearbody s. unfold Rabs. destruct (Rcase_abs (- s / 4 - 3 * (t - 1 / 2) / 10)), (Rcase_abs (- s / 4 + 3 * (t - 1 / 2) / 10)); lra.
  - rewrite (Rabs_left1 (t * (1 - t) * (t - 2) / 6)), (Rabs_left1 ((1 + t) * t * (t - 1) / 6)), (Rabs_pos_eq ((1 + t) * (1 - t) * (2 - t) / 2)),
      (Rabs_pos_eq ((1 + t) * t * (2 - t) / 2)) by lra. lra.
Qed.

(** C166.  A signal of magnitude at most M gives outputs of at most M, 1.3 M or 1.25 M for
    orders 1, 2, 3 between the samples used without padding, and at most 6.5 M anywhere. *)
Theorem C166_bounded (fit : list R -> list R -> Z -> list R) (r : R) (k : Z) (M : R) (x : list R) :
  (1 <= k <= 3)%Z -> (k <> 1%Z -> is_lsq fit k) -> 0 < r -> (2 <= length x)%nat ->
  (forall i, (i < length x)%nat -> Rabs (nth i x 0) <= M) ->
  exists y, prateR fit (mkP r k) x = Ok y /\
    forall j, (j < length y)%nat ->
      Rabs (nth j y 0) <= 13 / 2 * M /\
      (inside k (length x) (INR j / r) -> Rabs (nth j y 0) <= gain_bound k * M).
Proof.
  intros Hk Hf Hr Hl HM. destruct (prate_weights fit r k x Hk Hf Hr Hl) as (y & Y1 & Y2 & Y3).
  exists y. split; [exact Y1|]. intros j Hj. destruct (Y3 j Hj) as (m & M1 & M2 & M3). set (t := INR j / r - INR m) in *.
  assert (Ht : 0 <= t <= 1) by (unfold t; rewrite S_INR in M2; lra).
  assert (M0 : 0 <= M) by (eapply Rle_trans; [apply Rabs_pos|apply (HM 0%nat); lia]).
  pose proof (weight_gain k t Hk Ht) as WG.
  assert (Main : forall B, (forall i, (i < 4)%nat -> weight4 k t i = 0 \/ Rabs (nth (m + i) (xpad x) 0) <= B) -> 0 <= B -> Rabs (nth j y 0) <= gain_bound k * B).
  { intros B HB B0. rewrite M3.
    assert (T : forall i, (i < 4)%nat -> Rabs (weight4 k t i * nth (m + i) (xpad x) 0) <= Rabs (weight4 k t i) * B).
    { intros i Hi. rewrite Rabs_mult. destruct (HB i Hi) as [E|E]; [rewrite E, Rabs_R0; lra|]. apply Rmult_le_compat_l; [apply Rabs_pos|exact E]. }
    pose proof (T 0%nat ltac:(lia)) as T0. pose proof (T 1%nat ltac:(lia)) as T1. pose proof (T 2%nat ltac:(lia)) as T2. pose proof (T 3%nat ltac:(lia)) as T3.
    rewrite Nat.add_0_r in T0. pose proof (Rmult_le_compat_r B _ _ B0 WG) as WB.
    eapply Rle_trans; [apply Rabs_triang|].
    pose proof (Rabs_triang (weight4 k t 0 * nth m (xpad x) 0) (weight4 k t 1 * nth (m + 1) (xpad x) 0)).
    pose proof (Rabs_triang (weight4 k t 0 * nth m (xpad x) 0 + weight4 k t 1 * nth (m + 1) (xpad x) 0) (weight4 k t 2 * nth (m + 2) (xpad x) 0)).
    lra. }
  assert (HA : forall i, (i < length x)%nat -> - M <= nth i x 0 <= M) by (intros i Hi; specialize (HM i Hi); unfold Rabs in HM; destruct (Rcase_abs (nth i x 0)) in HM; lra).
  split.
  - assert (G5 : gain_bound k * (5 * M) <= 13 / 2 * M).
    { assert (k = 1 \/ k = 2 \/ k = 3)%Z as Ck by lia. destruct Ck as [Ck|[Ck|Ck]]; subst k; cbn [gain_bound]; lra. }
    eapply Rle_trans; [|exact G5]. apply Main; [|lra]. intros i Hi. right. rewrite nth_xpad by lia. apply Rabs_le.
    pose proof (HA 0%nat ltac:(lia)). pose proof (HA 1%nat ltac:(lia)). pose proof (HA (length x - 1)%nat ltac:(lia)). pose proof (HA (length x - 2)%nat ltac:(lia)).
    destruct (Nat.eqb_spec (m + i) 0); [lra|]. destruct (Nat.leb_spec (m + i) (length x)); [pose proof (HA (m + i - 1)%nat ltac:(lia)); lra|].
    destruct (Nat.eqb_spec (m + i) (S (length x))); lra.
  - intros Hin. apply Main; [|exact M0]. intros i Hi. unfold inside in Hin. unfold weight4. rewrite S_INR in M2. revert Hin. destruct (Z.eqb_spec k 1) as [E|E]; intros Hin.
    + assert (Hm : (m + 1 < length x)%nat) by (apply INR_lt; rewrite plus_INR; change (INR 1) with 1; lra).
      assert (Hp : forall a, (a = 1 \/ a = 2)%nat -> Rabs (nth (m + a) (xpad x) 0) <= M).
      { intros a Ha. rewrite nth_xpad by lia. destruct (Nat.eqb_spec (m + a) 0); [lia|].
        destruct (Nat.leb_spec (m + a) (length x)); [|lia]. apply HM. lia. }
      destruct i as [|[|[|[|i]]]]; [left; reflexivity|right; apply Hp; auto|right; apply Hp; auto|left; reflexivity|lia].
    + right. assert (Hm1 : (1 <= m)%nat) by (destruct m as [|m]; [cbn [INR] in M2; lra|lia]).
      assert (Hm2 : (m + 2 < length x)%nat) by (apply INR_lt; rewrite plus_INR; cbn [INR]; lra).
      rewrite nth_xpad by lia. destruct (Nat.eqb_spec (m + i) 0); [lia|]. destruct (Nat.leb_spec (m + i) (length x)); [|lia]. apply HM. lia.
Qed.
Print Assumptions C166_bounded.

(** C166.  Order one never overshoots: inside, every output lies between two neighbours. *)
Theorem C166_between (fit : list R -> list R -> Z -> list R) (r : R) (x : list R) :
  0 < r -> (2 <= length x)%nat ->
  exists y, prateR fit (mkP r 1) x = Ok y /\
    forall j m, (j < length y)%nat -> INR m <= INR j / r < INR (S m) -> (S m < length x)%nat ->
      Rmin (nth m x 0) (nth (S m) x 0) <= nth j y 0 <= Rmax (nth m x 0) (nth (S m) x 0).
Proof.
  intros Hr Hl. destruct (prate_one fit r x Hr Hl) as (y & Y1 & Y2 & Y3). exists y. split; [exact Y1|].
  intros j m Hj Hm HS. destruct (Y3 j Hj) as (K1 & K2 & K3). cbv zeta in *. rewrite (same_floor _ _ _ K2 Hm) in *. rewrite K3. unfold xext.
  rewrite !app_nth1 by lia. rewrite S_INR in Hm. set (t := INR j / r - INR m) in *. assert (Ht : 0 <= t <= 1) by (unfold t; lra).
  set (u := nth m x 0). set (v := nth (S m) x 0). clearbody t u v. unfold Rmin, Rmax.
  destruct (Rle_dec u v) as [C|C].
  - assert (0 <= t * (v - u)) by (apply Rmult_le_pos; lra). assert (t * (v - u) <= 1 * (v - u)) by (apply Rmult_le_compat_r; lra). lra.
  - assert (0 <= t * (u - v)) by (apply Rmult_le_pos; lra). assert (t * (u - v) <= 1 * (u - v)) by (apply Rmult_le_compat_r; lra). lra.
Qed.
Print Assumptions C166_between.

(** C166.  The same is false for order three: between 1 and 1 it returns 9/8. *)
Theorem C166_overshoot_refuted (fit : list R -> list R -> Z -> list R) : is_lsq fit 3 ->
  exists y, prateR fit (mkP 2 3) [0; 1; 1; 0] = Ok y /\ length y = 8%nat /\ nth 3 y 0 = 9 / 8.
Proof.
  intros Hf. destruct (prate_weights fit 2 3 [0; 1; 1; 0]) as (y & Y1 & Y2 & Y3); [lia|auto|lra|cbn; lia|].
  exists y. split; [exact Y1|]. assert (HN : rheR (INR (length [0; 1; 1; 0]) * 2) = 8%Z).
  { cbn [length INR]. replace ((1 + 1 + 1 + 1) * 2) with (IZR 8) by lra. apply rheR_IZR. }
  rewrite HN in Y2. assert (Ly : length y = 8%nat) by lia. split; [exact Ly|].
  destruct (Y3 3%nat ltac:(lia)) as (m & M1 & M2 & M3).
  assert (m = 1%nat). { apply (same_floor (INR 3 / 2)); [exact M2|]. cbn [INR]. lra. }
  subst m. rewrite M3. unfold xpad, weight4. cbn. field.
Qed.
Print Assumptions C166_overshoot_refuted.

(** Every output at or after position [t] samples into the signal. *)
Lemma prate_floor fit r k x : 0 < r -> (1 <= k)%Z -> (2 <= length x)%nat ->
  exists y, prateR fit (mkP r k) x = Ok y /\ Z.of_nat (length y) = rheR (INR (length x) * r) /\
    forall j, (j < length y)%nat -> exists m, (m < length x)%nat /\ INR m <= INR j / r < INR (S m) /\
      nth j y 0 = if (k =? 1)%Z then nth m (xext x) 0 + (INR j / r - INR m) * (nth (S m) (xext x) 0 - nth m (xext x) 0)
                  else pval (fit grid (window x m) k) (INR j / r - INR m).
Proof.
  intros Hr Hk Hl. destruct (Z.eqb_spec k 1) as [->|E].
  - destruct (prate_one fit r x Hr Hl) as (y & Y1 & Y2 & Y3). exists y. split; [exact Y1|]. split; [exact Y2|].
    intros j Hj. destruct (Y3 j Hj) as (K1 & K2 & K3). eexists. split; [exact K1|]. split; [exact K2|exact K3].
  - apply prate_higher; [exact Hr|lia|exact Hl].
Qed.

Lemma window_agree x z m : length z = length x -> (2 <= length x)%nat -> (m < length x)%nat ->
  (forall i, (m <= S i)%nat -> (i <= m + 2)%nat -> nth i z 0 = nth i x 0) -> window z m = window x m.
Proof.
  intros Hz Hl Hm H. rewrite !window_eq by lia.
  assert (P : forall i, (i < 4)%nat -> nth (m + i) (xpad z) 0 = nth (m + i) (xpad x) 0).
  { intros i Hi. rewrite !nth_xpad by lia. rewrite Hz. destruct (Nat.eqb_spec (m + i) 0); [rewrite !H by lia; reflexivity|].
    destruct (Nat.leb_spec (m + i) (length x)); [apply H; lia|]. destruct (Nat.eqb_spec (m + i) (S (length x))); rewrite !H by lia; reflexivity. }
  pose proof (P 0%nat ltac:(lia)) as P0. rewrite Nat.add_0_r in P0. rewrite P0, !P by lia. reflexivity.
Qed.

(** C166.  Locality, at any order: an output at position t (in samples) depends only on
    the samples i with t - 2 < i <= t + 2. *)
Theorem C166_local (fit : list R -> list R -> Z -> list R) (r : R) (k : Z) (x z : list R) :
  0 < r -> (1 <= k)%Z -> (2 <= length x)%nat -> length z = length x ->
  exists y w, prateR fit (mkP r k) x = Ok y /\ prateR fit (mkP r k) z = Ok w /\ length w = length y /\
    forall j, (j < length y)%nat ->
      (forall i, (i < length x)%nat -> INR j / r - 2 < INR i <= INR j / r + 2 -> nth i z 0 = nth i x 0) ->
      nth j w 0 = nth j y 0.
Proof.
  intros Hr Hk Hl Hz. destruct (prate_floor fit r k x Hr Hk Hl) as (y & Y1 & Y2 & Y3).
  destruct (prate_floor fit r k z Hr Hk ltac:(lia)) as (w & W1 & W2 & W3). rewrite Hz in W2.
  exists y, w. split; [exact Y1|]. split; [exact W1|]. assert (Lw : length w = length y) by lia. split; [exact Lw|].
  intros j Hj H. destruct (Y3 j Hj) as (m & M1 & M2 & M3). destruct (W3 j ltac:(lia)) as (m' & N1 & N2 & N3).
  rewrite (same_floor _ _ _ N2 M2) in *. rewrite M3, N3. clear N1 N2 N3 M3 m'.
  assert (A : forall i, (m <= S i)%nat -> (i <= m + 2)%nat -> nth i z 0 = nth i x 0).
  { intros i I1 I2. destruct (Nat.lt_ge_cases i (length x)) as [C|C]; [|rewrite !nth_overflow by lia; reflexivity].
    apply H; [exact C|]. apply le_INR in I1, I2. rewrite plus_INR in I2. change (INR 2) with (1 + 1) in I2. rewrite S_INR in I1. destruct M2 as [M2 M2']. rewrite S_INR in M2'. lra. }
  destruct (Z.eqb_spec k 1).
  - assert (E : forall i, (i = m \/ i = S m)%nat -> nth i (xext z) 0 = nth i (xext x) 0).
    { intros i Hi. unfold xext. rewrite Hz. destruct (Nat.lt_ge_cases i (length x)) as [C|C]; [rewrite !app_nth1 by lia; apply A; lia|].
      rewrite !app_nth2 by lia. rewrite Hz. replace (i - length x)%nat with 0%nat by lia. cbn [nth]. rewrite !A by lia. reflexivity. }
    rewrite !E by auto. reflexivity.
  - rewrite (window_agree x z m) by assumption. reflexivity.
Qed.
Print Assumptions C166_local.

(** ** Chunks at integer rates *)
Lemma prate_integer fit (p : nat) k x : (1 <= p)%nat -> (1 <= k)%Z -> (2 <= length x)%nat ->
  exists y, prateR fit (mkP (INR p) k) x = Ok y /\ length y = (length x * p)%nat /\
    forall m i, (m < length x)%nat -> (i < p)%nat ->
      nth (m * p + i) y 0 = if (k =? 1)%Z then nth m (xext x) 0 + INR i / INR p * (nth (S m) (xext x) 0 - nth m (xext x) 0)
                  else pval (fit grid (window x m) k) (INR i / INR p).
Proof.
  intros Hp Hk Hl. assert (P : 0 < INR p) by (apply lt_0_INR; lia).
  destruct (prate_floor fit (INR p) k x P Hk Hl) as (y & Y1 & Y2 & Y3). exists y. split; [exact Y1|].
  assert (Ly : length y = (length x * p)%nat).
  { rewrite <- mult_INR, INR_IZR_INZ, rheR_IZR in Y2. lia. }
  split; [exact Ly|]. intros m i Hm Hi.
  assert (Hj : (m * p + i < length y)%nat) by (rewrite Ly; assert (S m * p <= length x * p)%nat by (apply Nat.mul_le_mono_r; lia); cbn in H; lia).
  destruct (Y3 _ Hj) as (m' & M1 & M2 & M3).
  assert (Ei : 0 <= INR i / INR p < 1).
  { split; [apply Rmult_le_pos; [apply pos_INR|apply Rlt_le, Rinv_0_lt_compat; exact P]|]. apply (Rmult_lt_reg_r (INR p)); [exact P|].
    unfold Rdiv. rewrite Rmult_assoc, Rinv_l, Rmult_1_r, Rmult_1_l by lra. apply lt_INR. exact Hi. }
  assert (Ej : INR (m * p + i) / INR p = INR m + INR i / INR p) by (rewrite plus_INR, mult_INR; field; lra).
  rewrite Ej in *. assert (m' = m) by (eapply same_floor; [exact M2|rewrite S_INR; lra]). subst m'.
  rewrite M3. replace (INR m + INR i / INR p - INR m) with (INR i / INR p) by ring. reflexivity.
Qed.

(** C166.  At an integer rate p, filtering two parts of a signal one after the other gives
    as many outputs as filtering it in one call, and the same outputs except around the
    seam: the last interval of the first part at order one, its last two intervals and the
    first interval of the second part at higher orders. *)
Theorem C166_chunks (fit : list R -> list R -> Z -> list R) (p : nat) (k : Z) (x z : list R) :
  (1 <= p)%nat -> (1 <= k)%Z -> (2 <= length x)%nat -> (2 <= length z)%nat ->
  exists y w v, prateR fit (mkP (INR p) k) x = Ok y /\ prateR fit (mkP (INR p) k) z = Ok w /\
    prateR fit (mkP (INR p) k) (x ++ z) = Ok v /\ length v = length (y ++ w) /\
    forall m i, (m < length x + length z)%nat -> (i < p)%nat ->
      (if (k =? 1)%Z then m <> (length x - 1)%nat else (m < length x - 2 \/ length x < m)%nat) ->
      nth (m * p + i) v 0 = nth (m * p + i) (y ++ w) 0.
Proof.
  intros Hp Hk Hx Hz. destruct (prate_integer fit p k x Hp Hk Hx) as (y & Y1 & Y2 & Y3).
  destruct (prate_integer fit p k z Hp Hk Hz) as (w & W1 & W2 & W3).
  destruct (prate_integer fit p k (x ++ z) Hp Hk) as (v & V1 & V2 & V3); [rewrite app_length; lia|].
  exists y, w, v. split; [exact Y1|]. split; [exact W1|]. split; [exact V1|]. rewrite !app_length in *.
  split; [rewrite V2, Y2, W2; ring|]. intros m i Hm Hi Hc. rewrite V3 by assumption.
  destruct (Nat.lt_ge_cases m (length x)) as [C|C].
  - rewrite app_nth1 by (rewrite Y2; assert (S m * p <= length x * p)%nat by (apply Nat.mul_le_mono_r; lia); cbn in H; lia).
    rewrite Y3 by assumption. destruct (Z.eqb_spec k 1).
    + unfold xext. rewrite !(app_nth1 (x ++ z)) by (rewrite app_length; lia). rewrite !(app_nth1 x z) by lia.
      rewrite !(app_nth1 x [_]) by lia. reflexivity.
    + f_equal. f_equal. rewrite !window_eq by (rewrite ?app_length; lia).
      assert (P : forall a, (m + a <= length x)%nat -> (a < 4)%nat -> nth (m + a) (xpad (x ++ z)) 0 = nth (m + a) (xpad x) 0).
      { intros a Ha Ha4. rewrite !nth_xpad by (rewrite ?app_length; lia). rewrite app_length.
        destruct (Nat.eqb_spec (m + a) 0); [rewrite !app_nth1 by lia; reflexivity|]. destruct (Nat.leb_spec (m + a) (length x)); [|lia].
        destruct (Nat.leb_spec (m + a) (length x + length z)); [|lia]. apply app_nth1. lia. }
      pose proof (P 0%nat ltac:(lia) ltac:(lia)) as P0. rewrite Nat.add_0_r in P0. rewrite P0, !P by lia. reflexivity.
  - set (n := (m - length x)%nat). assert (Em : (m * p + i)%nat = (length y + (n * p + i))%nat).
    { rewrite Y2. replace m with (length x + n)%nat by (unfold n; lia). ring. }
    rewrite Em, app_nth2_plus. rewrite W3 by (unfold n; lia). clear Em. destruct (Z.eqb_spec k 1).
    + assert (E : forall a, (a = m \/ a = S m)%nat -> nth a (xext (x ++ z)) 0 = nth (a - length x) (xext z) 0).
      { intros a Ha. unfold xext. rewrite app_length. destruct (Nat.lt_ge_cases a (length x + length z)) as [D|D].
        - rewrite (app_nth1 (x ++ z)) by (rewrite app_length; lia). rewrite app_nth2 by lia. rewrite app_nth1 by lia. reflexivity.
        - rewrite (app_nth2 (x ++ z)) by (rewrite app_length; lia). rewrite app_length. rewrite (app_nth2 z) by lia.
          replace (a - (length x + length z))%nat with 0%nat by lia. replace (a - length x - length z)%nat with 0%nat by lia. cbn [nth].
          rewrite !(app_nth2 x) by lia. replace (length x + length z - 1 - length x)%nat with (length z - 1)%nat by lia.
          replace (length x + length z - 2 - length x)%nat with (length z - 2)%nat by lia. reflexivity. }
      rewrite !E by auto. replace (S m - length x)%nat with (S n) by (unfold n; lia). reflexivity.
    + f_equal. f_equal. rewrite !window_eq by (rewrite ?app_length; unfold n; lia).
      assert (P : forall a, (a < 4)%nat -> nth (m + a) (xpad (x ++ z)) 0 = nth (n + a) (xpad z) 0).
      { intros a Ha. rewrite !nth_xpad by (rewrite ?app_length; unfold n; lia). rewrite app_length.
        destruct (Nat.eqb_spec (m + a) 0); [lia|]. destruct (Nat.eqb_spec (n + a) 0); [unfold n in *; lia|].
        destruct (Nat.leb_spec (m + a) (length x + length z)); destruct (Nat.leb_spec (n + a) (length z)); try (unfold n in *; lia).
        - rewrite app_nth2 by lia. f_equal. unfold n. lia.
        - destruct (Nat.eqb_spec (m + a) (S (length x + length z))); destruct (Nat.eqb_spec (n + a) (S (length z))); try (unfold n in *; lia);
            rewrite !(app_nth2 x) by lia; replace (length x + length z - 1 - length x)%nat with (length z - 1)%nat by lia;
            replace (length x + length z - 2 - length x)%nat with (length z - 2)%nat by lia; reflexivity. }
      pose proof (P 0%nat ltac:(lia)) as P0. rewrite !Nat.add_0_r in P0. rewrite P0, !P by lia. reflexivity.
Qed.
Print Assumptions C166_chunks.

(** C166.  Equality of the whole outputs is false, even for order one. *)
Theorem C166_chunks_refuted (fit : list R -> list R -> Z -> list R) :
  exists y w v, prateR fit (mkP 2 1) [0; 1] = Ok y /\ prateR fit (mkP 2 1) [1; 1] = Ok w /\
    prateR fit (mkP 2 1) ([0; 1] ++ [1; 1]) = Ok v /\ nth 3 (y ++ w) 0 = 3 / 2 /\ nth 3 v 0 = 1.
Proof.
  change 2 with (INR 2).
  destruct (prate_integer fit 2 1 [0; 1]) as (y & Y1 & Y2 & Y3); [lia|lia|cbn; lia|].
  destruct (prate_integer fit 2 1 [1; 1]) as (w & W1 & W2 & W3); [lia|lia|cbn; lia|].
  destruct (prate_integer fit 2 1 ([0; 1] ++ [1; 1])) as (v & V1 & V2 & V3); [lia|lia|cbn; lia|].
  exists y, w, v. split; [exact Y1|]. split; [exact W1|]. split; [exact V1|]. cbn [length app Nat.mul Nat.add] in Y2, V2. split.
  - rewrite app_nth1 by lia. change 3%nat with (1 * 2 + 1)%nat; rewrite (Y3 1%nat 1%nat) by (cbn; lia). unfold xext. cbn. field.
  - change 3%nat with (1 * 2 + 1)%nat; rewrite (V3 1%nat 1%nat) by (cbn; lia). unfold xext. cbn. field.
Qed.
Print Assumptions C166_chunks_refuted.

Example C166_example : is_lsq some_fit 3 /\ prmake 2 3 = Ok (mkP 2 3) /\ comb 2 1 [1; 2] [5; 7] = [2 * 1 + 1 * 5; 2 * 2 + 1 * 7] /\
  inside 3 6 (3 / 2) /\ (forall i, (i < 4)%nat -> Rabs (nth i [1; -1; 1; 1] 0) <= 1).
Proof.
  split; [apply some_fit_lsq|]. split; [|split; [reflexivity|split]].
  - unfold prmake, prate_make. change (@oltb RO 2 zero) with (Rltb 2 0). destruct (Rltb 2 0) eqn:E; [apply Rltb_iff in E; lra|reflexivity].
  - unfold inside. cbn. lra.
  - intros i Hi. apply Rabs_le. destruct i as [|[|[|[|i]]]]; cbn; try lra. lia.
Qed.
