(** Power series: the product of signals, for the algebra of filters at rest. *)
From Coq Require Import List Arith ZArith Lia Bool Ring.
From Verif Require Import Base BaseLemmas CascadeSpec FirModel FirSpec FirProofs IirModel IirSpec IirProofs.
Import ListNotations.
Set Asymmetric Patterns.

Section P.
  Variable A : Arith.
  Hypothesis L : Laws A.
  Local Notation "0" := (@zero A).
  Local Notation "1" := (@one A).
  Local Infix "+" := (@add A).
  Local Infix "-" := (@sub A).
  Local Infix "*" := (@mul A).
  Let Rth := law_ring L.
  Add Ring Aring : Rth.
  Implicit Types (p q u v : nat -> A).

  Lemma bigsum_guard m n (f : nat -> A) : (m <= n)%nat ->
    bigsum m f = bigsum n (fun j => if j <? m then f j else 0).
  Proof.
    intros H. replace n with (m + (n - m))%nat by lia. rewrite (bigsum_app A L).
    rewrite (bigsum_zero A L (n - m)).
    - transitivity (bigsum m (fun j => if j <? m then f j else 0)); [|ring]. apply bigsum_ext.
      intros i Hi. destruct (Nat.ltb_spec i m); [reflexivity|lia].
    - intros i Hi. destruct (Nat.ltb_spec (m + i) m); [lia|reflexivity].
  Qed.
  Lemma bigsum_shift i m (f : nat -> A) :
    bigsum (i + m)%nat (fun k => if i <=? k then f (k - i)%nat else 0) = bigsum m f.
  Proof.
    rewrite (bigsum_app A L). rewrite (bigsum_zero A L i).
    - transitivity (bigsum m (fun k => if i <=? (i + k)%nat then f (i + k - i)%nat else 0)); [ring|]. apply bigsum_ext.
      intros k Hk. destruct (Nat.leb_spec i (i + k)%nat); [|lia]. f_equal; lia.
    - intros k Hk. destruct (Nat.leb_spec i k); [lia|reflexivity].
  Qed.

  Lemma cauchy_comm p u n : cauchy p u n = cauchy u p n.
  Proof.
    unfold cauchy. rewrite (bigsum_rev A L). apply bigsum_ext. intros i Hi.
    replace (S n - 1 - i)%nat with (n - i)%nat by lia. replace (n - (n - i))%nat with i by lia. ring.
  Qed.
  Lemma cauchy_assoc p q u n : cauchy (cauchy p q) u n = cauchy p (cauchy q u) n.
  Proof.
    transitivity (bigsum (S n) (fun k => bigsum (S n) (fun i => if i <=? k then p i * (q (k - i)%nat * u (n - k)%nat) else 0))).
    { unfold cauchy. apply bigsum_ext. intros k Hk. rewrite <- (bigsum_scal_r A L).
      rewrite (bigsum_guard (S k) (S n)) by lia. apply bigsum_ext. intros i Hi.
      destruct (Nat.ltb_spec i (S k)), (Nat.leb_spec i k); try lia; try reflexivity. ring. }
    rewrite (bigsum_swap A L). unfold cauchy. apply bigsum_ext. intros i Hi.
    rewrite <- (bigsum_scal A L). rewrite <- (bigsum_shift i (S (n - i))).
    replace (i + S (n - i))%nat with (S n) by lia. apply bigsum_ext. intros k Hk.
    destruct (Nat.leb_spec i k); [|reflexivity]. replace (n - i - (k - i))%nat with (n - k)%nat by lia. reflexivity.
  Qed.
  (** equality up to (excluding) index N *)
  Definition upto (N : nat) p q : Prop := forall n, (n < N)%nat -> p n = q n.
  Lemma cauchy_upto N p q u v : upto N p q -> upto N u v -> upto N (cauchy p u) (cauchy q v).
  Proof.
    intros H1 H2 n Hn. apply bigsum_ext. intros i Hi. rewrite H1, H2 by lia. reflexivity.
  Qed.
  Lemma upto_trans N p q u : upto N p q -> upto N q u -> upto N p u.
  Proof. intros H1 H2 n Hn. rewrite H1, H2 by lia. reflexivity. Qed.
  Lemma upto_sym N p q : upto N p q -> upto N q p.
  Proof. intros H n Hn. rewrite H by lia. reflexivity. Qed.
  Lemma upto_refl N p : upto N p p. Proof. intros n _. reflexivity. Qed.

  (** a leading coefficient one makes the product injective *)
  Lemma cauchy_inj N p u v : p O = 1 -> upto N (cauchy p u) (cauchy p v) -> upto N u v.
  Proof.
    intros Hp H n. induction n as [n IH] using lt_wf_ind. intros Hn. specialize (H n Hn). unfold cauchy in H.
    rewrite !(bigsum_S_l A L) in H. rewrite Hp, !Nat.sub_0_r in H.
    rewrite (bigsum_ext n (fun i => p (S i) * u (n - S i)%nat) (fun i => p (S i) * v (n - S i)%nat)) in H
      by (intros i Hi; rewrite IH by lia; reflexivity).
    set (s := bigsum n _) in H. transitivity ((1 * u n + s) - s); [ring|]. rewrite H. ring.
  Qed.

  (** ** Filters at rest *)
  Lemma sum_window m n (l x : list A) : (forall i, (m <= i)%nat -> nth i l 0 = 0) ->
    bigsum m (fun i => nth i l 0 * sig [] x (Z.of_nat n - Z.of_nat i)) = cauchy (coef l) (coef x) n.
  Proof.
    intros Hl. unfold cauchy, coef.
    rewrite (bigsum_guard m (m + S n)) by lia. rewrite (bigsum_guard (S n) (m + S n)) by lia.
    apply bigsum_ext. intros i Hi. unfold sig.
    destruct (Nat.ltb_spec i m), (Nat.ltb_spec i (S n)), (Z.ltb_spec (Z.of_nat n - Z.of_nat i) 0); try lia.
    - replace (Z.to_nat (Z.of_nat n - Z.of_nat i)) with (n - i)%nat by lia. reflexivity.
    - destruct (Z.to_nat _); cbn; ring.
    - rewrite (Hl i) by lia. ring.
    - reflexivity.
  Qed.
  Lemma conv_rest (b x : list A) n : convolution b [] x n = cauchy (coef b) (coef x) n.
  Proof. apply sum_window. intros i Hi. apply nth_overflow; auto. Qed.

  Lemma cauchy_den (a y : list A) n : cauchy (den a) (coef y) n =
    coef y n - bigsum (length a - 1)%nat (fun i => nth (S i) a 0 * sig [] y (Z.of_nat n - 1 - Z.of_nat i)).
  Proof.
    unfold cauchy. rewrite (bigsum_S_l A L). cbn [den]. rewrite Nat.sub_0_r.
    assert (E : bigsum n (fun i => opp (nth (S i) a 0) * coef y (n - S i)%nat) =
                opp (bigsum (length a - 1)%nat (fun i => nth (S i) a 0 * sig [] y (Z.of_nat n - 1 - Z.of_nat i)))).
    { transitivity (opp (bigsum n (fun i => nth (S i) a 0 * coef y (n - S i)%nat))).
      - transitivity (opp 1 * bigsum n (fun i => nth (S i) a 0 * coef y (n - S i)%nat)); [|ring].
        rewrite <- (bigsum_scal A L). apply bigsum_ext. intros; ring.
      - f_equal. unfold coef. set (m := (length a - 1)%nat).
        rewrite (bigsum_guard n (m + n)) by lia. rewrite (bigsum_guard m (m + n)) by lia.
        apply bigsum_ext. intros i Hi. unfold sig.
        destruct (Nat.ltb_spec i m), (Nat.ltb_spec i n), (Z.ltb_spec (Z.of_nat n - 1 - Z.of_nat i) 0); try lia.
        + replace (Z.to_nat (Z.of_nat n - 1 - Z.of_nat i)) with (n - S i)%nat by lia. reflexivity.
        + destruct (Z.to_nat _); cbn; ring.
        + rewrite (nth_overflow a) by (unfold m in *; lia). ring.
        + reflexivity. }
    rewrite E. ring.
  Qed.

  (** The difference equation in one line: den a * y = b * x. *)
  Lemma difference_series (a b y x : list A) : length y = length x ->
    satisfies_difference a b y x <-> upto (length x) (cauchy (den a) (coef y)) (cauchy (coef b) (coef x)).
  Proof.
    intros Hl. unfold satisfies_difference, difference_rhs. split.
    - intros [_ H] n Hn. rewrite cauchy_den. unfold coef at 1. rewrite (H n Hn).
      rewrite (sum_window (length b) n b x) by (intros; apply nth_overflow; auto). ring.
    - intros H. split; [exact Hl|]. intros n Hn. specialize (H n Hn). rewrite cauchy_den in H.
      rewrite (sum_window (length b) n b x) by (intros; apply nth_overflow; auto). rewrite <- H. unfold coef. ring.
  Qed.

  (** Two filters one after the other *)
  Lemma cascade_series (a1 b1 a2 b2 a3 b3 x y z : list A) : length y = length x -> length z = length x ->
    (forall n, den a3 n = cauchy (den a1) (den a2) n) -> (forall n, coef b3 n = cauchy (coef b1) (coef b2) n) ->
    satisfies_difference a1 b1 y x -> satisfies_difference a2 b2 z y -> satisfies_difference a3 b3 z x.
  Proof.
    intros Hy Hz Ha Hb H1 H2. apply difference_series in H1; [|auto]. apply difference_series in H2; [|congruence].
    rewrite Hy in H2. apply difference_series; [auto|]. intros n Hn.
    rewrite (cauchy_upto (length x) (den a3) (cauchy (den a1) (den a2)) (coef z) (coef z)) by (auto; intros ? _; auto).
    rewrite (cauchy_upto (length x) (coef b3) (cauchy (coef b1) (coef b2)) (coef x) (coef x)) by (auto; intros ? _; auto).
    rewrite cauchy_assoc.
    rewrite (cauchy_upto (length x) (den a1) (den a1) _ _ (upto_refl _ _) H2) by auto.
    rewrite <- cauchy_assoc.
    rewrite (cauchy_upto (length x) (cauchy (den a1) (coef b2)) (cauchy (coef b2) (den a1)) (coef y) (coef y))
      by (auto; intros ? _; apply cauchy_comm || reflexivity).
    rewrite cauchy_assoc.
    rewrite (cauchy_upto (length x) (coef b2) (coef b2) _ _ (upto_refl _ _) H1) by auto.
    rewrite <- cauchy_assoc.
    apply (cauchy_upto (length x)); auto; intros ? _; [apply cauchy_comm|reflexivity].
  Qed.

  (** A delayed input *)
  Lemma coef_delay d (x : list A) n : coef (zeros d ++ x) n = cauchy (coef (zeros d ++ [1])) (coef x) n.
  Proof.
    unfold cauchy, coef. destruct (Nat.lt_ge_cases n d) as [H|H].
    - rewrite app_nth1 by (unfold zeros; rewrite repeat_length; auto). rewrite nth_zeros. symmetry. apply (bigsum_zero A L).
      intros i Hi. rewrite app_nth1 by (unfold zeros; rewrite repeat_length; lia). rewrite nth_zeros. ring.
    - rewrite (bigsum_single A L (S n) d); [|lia|].
      2:{ intros i Hi Hd. destruct (Nat.lt_ge_cases i d).
          - rewrite app_nth1 by (unfold zeros; rewrite repeat_length; lia). rewrite nth_zeros. ring.
          - rewrite nth_overflow by (rewrite app_length; unfold zeros; rewrite repeat_length; cbn; lia). ring. }
      rewrite !app_nth2 by (unfold zeros; rewrite repeat_length; lia). unfold zeros; rewrite repeat_length, Nat.sub_diag. cbn. ring.
  Qed.
  Lemma delay_series (a b y x : list A) d : satisfies_difference a b y x ->
    satisfies_difference a b (zeros d ++ y) (zeros d ++ x).
  Proof.
    intros H. pose proof H as [Hl _]. apply difference_series in H; [|auto].
    apply difference_series; [rewrite !app_length; lia|].
    set (D := coef (zeros d ++ [1])).
    assert (E : forall l n, cauchy (coef l) (coef (zeros d ++ x)) n = cauchy D (cauchy (coef l) (coef x)) n).
    { intros l n. transitivity (cauchy (coef l) (cauchy D (coef x)) n).
      - apply (cauchy_upto (S n)); auto; [apply upto_refl|]. intros k _. apply coef_delay.
      - rewrite <- !cauchy_assoc. apply (cauchy_upto (S n)); auto; [|apply upto_refl]. intros k _. apply cauchy_comm. }
    intros n Hn. rewrite E.
    transitivity (cauchy (den a) (cauchy D (coef y)) n).
    { apply (cauchy_upto (S n)); auto; [apply upto_refl|]. intros k _. apply coef_delay. }
    transitivity (cauchy D (cauchy (den a) (coef y)) n).
    { rewrite <- !cauchy_assoc. apply (cauchy_upto (S n)); auto; [|apply upto_refl]. intros k _. apply cauchy_comm. }
    rewrite app_length in Hn. unfold zeros in Hn. rewrite repeat_length in Hn.
    unfold cauchy at 1 3. apply bigsum_ext. intros i Hi.
    destruct (Nat.lt_ge_cases i d) as [C|C].
    - unfold D, coef. rewrite app_nth1 by (unfold zeros; rewrite repeat_length; lia). rewrite nth_zeros. ring.
    - rewrite H by lia. reflexivity.
  Qed.

  Lemma cauchy_add_r p u v n : cauchy p (fun k => u k + v k) n = cauchy p u n + cauchy p v n.
  Proof. unfold cauchy. rewrite <- (bigsum_add A L). apply bigsum_ext. intros; ring. Qed.
  Lemma cauchy_add_l p q u n : cauchy (fun k => p k + q k) u n = cauchy p u n + cauchy q u n.
  Proof. unfold cauchy. rewrite <- (bigsum_add A L). apply bigsum_ext. intros; ring. Qed.
  Lemma cauchy_swap p q u n : cauchy p (cauchy q u) n = cauchy q (cauchy p u) n.
  Proof.
    rewrite <- !cauchy_assoc. apply (cauchy_upto (S n)); auto; [|apply upto_refl]. intros k _. apply cauchy_comm.
  Qed.
  Lemma cauchy_ext p q u v n : (forall k, p k = q k) -> (forall k, u k = v k) -> cauchy p u n = cauchy q v n.
  Proof. intros H1 H2. apply bigsum_ext. intros. rewrite H1, H2. reflexivity. Qed.

  (** Two filters side by side *)
  Lemma parallel_series (a1 b1 a2 b2 a3 b3 x y z w : list A) : length w = length x ->
    (forall n, den a3 n = cauchy (den a1) (den a2) n) ->
    (forall n, coef b3 n = cauchy (coef b1) (den a2) n + cauchy (coef b2) (den a1) n) ->
    satisfies_difference a1 b1 y x -> satisfies_difference a2 b2 z x ->
    (forall n, (n < length x)%nat -> nth n w 0 = nth n y 0 + nth n z 0) ->
    satisfies_difference a3 b3 w x.
  Proof.
    intros Hl Ha Hb H1 H2 Hw. pose proof H1 as [Ly _]. pose proof H2 as [Lz _].
    apply difference_series in H1; [|auto]. apply difference_series in H2; [|auto].
    apply difference_series; [auto|]. intros n Hn.
    rewrite (cauchy_ext (coef b3) (fun k => cauchy (coef b1) (den a2) k + cauchy (coef b2) (den a1) k) (coef x) (coef x)) by auto.
    rewrite (cauchy_ext (den a3) (cauchy (den a1) (den a2)) (coef w) (coef w)) by auto.
    rewrite (cauchy_upto (length x) _ (cauchy (den a1) (den a2)) (coef w) (fun k => coef y k + coef z k) (upto_refl _ _)) by auto.
    rewrite cauchy_add_r, cauchy_add_l. f_equal.
    - rewrite (cauchy_ext (cauchy (den a1) (den a2)) (cauchy (den a2) (den a1)) (coef y) (coef y)) by (auto; intros; apply cauchy_comm).
      rewrite (cauchy_ext (cauchy (coef b1) (den a2)) (cauchy (den a2) (coef b1)) (coef x) (coef x)) by (auto; intros; apply cauchy_comm).
      rewrite !cauchy_assoc. apply (cauchy_upto (length x)); auto. apply upto_refl.
    - rewrite (cauchy_ext (cauchy (coef b2) (den a1)) (cauchy (den a1) (coef b2)) (coef x) (coef x)) by (auto; intros; apply cauchy_comm).
      rewrite !cauchy_assoc. apply (cauchy_upto (length x)); auto. apply upto_refl.
  Qed.

  (** A filter and its inverse *)
  Lemma inverse_series (a1 b1 a2 b2 x y z : list A) :
    (forall n, cauchy (coef b1) (coef b2) n = cauchy (den a1) (den a2) n) ->
    satisfies_difference a1 b1 y x -> satisfies_difference a2 b2 z y -> z = x.
  Proof.
    intros Hab H1 H2. pose proof H1 as [Ly _]. pose proof H2 as [Lz _].
    apply (nth_ext _ _ 0 0); [congruence|]. rewrite Lz, Ly.
    apply difference_series in H1; [|auto]. apply difference_series in H2; [|auto]. rewrite Ly in H2.
    apply (cauchy_inj (length x) (den a2)); [reflexivity|]. apply (cauchy_inj (length x) (den a1)); [reflexivity|].
    intros n Hn. change (fun n0 => nth n0 z 0) with (coef z). change (fun n0 => nth n0 x 0) with (coef x).
    transitivity (cauchy (den a1) (cauchy (coef b2) (coef y)) n).
    { apply (cauchy_upto (length x)); auto. apply upto_refl. }
    rewrite cauchy_swap. transitivity (cauchy (coef b2) (cauchy (coef b1) (coef x)) n).
    { apply (cauchy_upto (length x)); auto. apply upto_refl. }
    rewrite cauchy_swap, <- !cauchy_assoc. apply cauchy_ext; auto.
  Qed.

  (** What solves the difference equation has the dtype of its data. *)
  Lemma difference_fits dt (a b y x : list A) : Forall (fits dt) a -> Forall (fits dt) b -> Forall (fits dt) x ->
    satisfies_difference a b y x -> Forall (fits dt) y.
  Proof.
    intros Ta Tb Tx [Hl H].
    assert (E : forall n, (n < length x)%nat -> fits dt (nth n y 0)).
    { intros n. induction n as [n IH] using lt_wf_ind. intros Hn. rewrite H by auto. unfold difference_rhs.
      apply (law_fits_add L); apply fits_bigsum; auto; intros i Hi; apply (law_fits_mul L); try (apply fits_nth; auto).
      - unfold sig. destruct (Z.ltb_spec (Z.of_nat n - 1 - Z.of_nat i) 0%Z).
        + destruct (Z.to_nat _); apply (law_fits_zero L).
        + apply IH; lia.
      - apply fits_sig; auto. }
    rewrite Forall_forall. intros v Hv. destruct (In_nth _ _ 0 Hv) as (n & Hn & <-). apply E. lia.
  Qed.
  Lemma sig_rest m (x : list A) k : sig (zeros m) x k = sig [] x k.
  Proof. unfold sig. destruct (k <? 0)%Z; [|reflexivity]. rewrite nth_zeros. destruct (Z.to_nat _); reflexivity. Qed.
  Lemma fir_difference m (b y x : list A) : length y = length x ->
    (forall n, (n < length x)%nat -> nth n y 0 = convolution b (zeros m) x n) -> satisfies_difference [] b y x.
  Proof.
    intros Hl H. split; [auto|]. intros n Hn. rewrite H by auto. unfold convolution, difference_rhs. cbn [length Nat.sub bigsum].
    rewrite (bigsum_ext (length b) _ (fun i => nth i b 0 * sig [] x (Z.of_nat n - Z.of_nat i))) by (intros; rewrite sig_rest; auto).
    ring.
  Qed.

  Lemma den_nil n : den [] n = coef [1] n.
  Proof. unfold coef. destruct n as [|[|n]]; cbn; ring. Qed.
  Lemma cauchy_one u n : cauchy (den []) u n = u n.
  Proof.
    unfold cauchy. rewrite (bigsum_S_l A L), (bigsum_zero A L), Nat.sub_0_r.
    - cbn. ring.
    - intros [|i] Hi; cbn; ring.
  Qed.

  Lemma coef_map (u : nat -> A) m n : (m <= n -> u n = 0) -> coef (map u (seq 0 m)) n = u n.
  Proof.
    intros H. unfold coef. destruct (Nat.lt_ge_cases n m) as [C|C].
    - rewrite (nth_map_lt _ _ n O) by (rewrite seq_length; auto). rewrite seq_nth by auto. reflexivity.
    - rewrite H by auto. apply nth_overflow. rewrite map_length, seq_length. auto.
  Qed.
  Lemma coef_poly_mul (p q : list A) n : coef (poly_mul p q) n = cauchy (coef p) (coef q) n.
  Proof.
    apply coef_map. intros H. apply (bigsum_zero A L). intros i Hi. unfold coef.
    destruct (Nat.lt_ge_cases i (length p)) as [C|C].
    - rewrite (nth_overflow q) by lia. ring.
    - rewrite (nth_overflow p) by auto. ring.
  Qed.
  Lemma coef_den_list (a : list A) n : a <> [] -> coef (den_list a) n = den a n.
  Proof.
    intros Ha. apply coef_map. intros H. destruct n as [|n].
    - destruct a; [congruence|cbn in H; lia].
    - cbn [den]. rewrite nth_overflow by auto. ring.
  Qed.
  Lemma den_feedback (d : list A) n : coef d O = 1 -> den (feedback d) n = coef d n.
  Proof.
    intros H. destruct n as [|n]; [auto|]. cbn [den]. change (nth (S n) (feedback d) 0) with (coef (feedback d) (S n)).
    unfold feedback. rewrite coef_map; [unfold coef; ring|]. intros C. rewrite nth_overflow by auto. ring.
  Qed.
  Lemma fits_opp dt (v : A) : fits dt (opp 1) -> fits dt v -> fits dt (opp v).
  Proof. intros H Hv. replace (opp v) with (opp 1 * v) by ring. apply (law_fits_mul L); auto. Qed.
  Lemma fits_one dt : fits dt (opp 1) -> fits dt 1.
  Proof. intros H. replace 1 with (opp 1 * opp 1) by ring. apply (law_fits_mul L); auto. Qed.
  Lemma Forall_map_seq dt (u : nat -> A) m : (forall n, fits dt (u n)) -> Forall (fits dt) (map u (seq 0 m)).
  Proof. intros H. rewrite Forall_forall. intros v Hv. apply in_map_iff in Hv. destruct Hv as (n & <- & _). apply H. Qed.
  Lemma fits_poly_mul dt (p q : list A) : Forall (fits dt) p -> Forall (fits dt) q -> Forall (fits dt) (poly_mul p q).
  Proof.
    intros Hp Hq. apply Forall_map_seq. intros n. apply fits_bigsum; auto. intros i Hi.
    apply (law_fits_mul L); apply fits_nth; auto.
  Qed.
  Lemma fits_den_list dt (a : list A) : fits dt (opp 1) -> Forall (fits dt) a -> Forall (fits dt) (den_list a).
  Proof.
    intros H1 H. apply Forall_map_seq. intros [|n]; cbn [den]; [apply fits_one; auto|].
    apply fits_opp; auto. apply fits_nth; auto.
  Qed.
  Lemma fits_feedback dt (a : list A) : fits dt (opp 1) -> Forall (fits dt) a -> Forall (fits dt) (feedback a).
  Proof.
    intros H1 H. apply Forall_map_seq. intros [|n]; [apply (law_fits_zero L)|].
    apply fits_opp; auto. apply fits_nth; auto.
  Qed.
  Lemma poly_mul_length (p q : list A) : length (poly_mul p q) = (length p + length q - 1)%nat.
  Proof. unfold poly_mul. rewrite map_length, seq_length. reflexivity. Qed.
End P.
