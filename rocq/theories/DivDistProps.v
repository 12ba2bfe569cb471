(** Property C95: the distances of DiversityModel over the reals. *)
From Coq Require Import String List Arith ZArith Bool Lia Reals Lra Psatz.
From Verif Require Import Base BaseLemmas Instances Sums DivModel.
Import ListNotations.
Set Asymmetric Patterns.
Local Open Scope R_scope.

(** Python's b ** e for floats with b >= 0. *)
Definition pypow (b e : R) : R := if Reqb b 0 then (if Reqb e 0 then 1 else 0) else Rpower b e.
Definition dist (style : string) : list R -> list R -> R := @distance_of RO pypow INR style.

(** Gap in coordinate i. *)
Definition gap (x y : list R) (i : nat) : R := Rabs (nth i x 0 - nth i y 0).
Fixpoint rprod (n : nat) (f : nat -> R) : R := match n with O => 1 | S k => rprod k f * f k end.
Definition metric (D : list R -> list R -> R) (n : nat) : Prop :=
  forall x y z, length x = n -> length y = n -> length z = n ->
    0 <= D x y /\ (D x y = 0 <-> x = y) /\ D x y = D y x /\ D x z <= D x y + D y z.

Ltac rring := match goal with |- @eq _ ?a ?b => change (@eq R a b) end; ring.
Lemma gap_nonneg x y i : 0 <= gap x y i. Proof. apply Rabs_pos. Qed.
Lemma gap_sym x y i : gap x y i = gap y x i. Proof. apply Rabs_minus_sym. Qed.
Lemma gap_tri x y z i : gap x z i <= gap x y i + gap y z i.
Proof. unfold gap. replace (nth i x 0 - nth i z 0) with ((nth i x 0 - nth i y 0) + (nth i y 0 - nth i z 0)) by ring. apply Rabs_triang. Qed.
Lemma gap_zero x y n : length x = n -> length y = n -> ((forall i, (i < n)%nat -> gap x y i = 0) <-> x = y).
Proof.
  intros Hx Hy. split.
  - intros H. apply nth_ext with (d := 0) (d' := 0); [congruence|]. intros i Hi. specialize (H i ltac:(lia)). unfold gap in H.
    destruct (Req_dec (nth i x 0 - nth i y 0) 0) as [E|E]; [lra|]. destruct (Rabs_no_R0 _ E H).
  - intros -> i _. unfold gap. rewrite Rminus_diag_eq by reflexivity. apply Rabs_R0.
Qed.
Lemma length_gaps (x y : list R) n : length x = n -> length y = n -> length (@gaps RO x y) = n.
Proof. intros Hx Hy. unfold gaps. etransitivity; [apply length_map2|]. change (Nat.min (@length R x) (@length R y) = n). lia. Qed.
Lemma nth_gaps (x y : list R) i n : length x = n -> length y = n -> (i < n)%nat -> nth i (@gaps RO x y) 0 = gap x y i.
Proof. intros Hx Hy Hi. unfold gaps. etransitivity; [apply (nth_map2 _ x y i 0 0 0); lia|]. reflexivity. Qed.

Lemma fold_add (l : list R) : forall a, fold_left (@add RO) l a = a + rsum (length l) (fun i => nth i l 0).
Proof. induction l as [|b l IH]; intros a; [cbn; lra|]. cbn [fold_left length]. etransitivity; [apply IH|]. rewrite rsum_S_l. cbn [nth]. change (@add RO a b) with (a + b). rring. Qed.
Lemma rprod_S_l n f : rprod (S n) f = f 0%nat * rprod n (fun i => f (S i)).
Proof. induction n as [|n IH]; [cbn; ring|]. change (rprod (S (S n)) f) with (rprod (S n) f * f (S n)). rewrite IH. cbn [rprod]. ring. Qed.
Lemma fold_mul (l : list R) : forall a, fold_left (@mul RO) l a = a * rprod (length l) (fun i => nth i l 0).
Proof. induction l as [|b l IH]; intros a; [cbn; lra|]. cbn [fold_left length]. etransitivity; [apply IH|]. rewrite rprod_S_l. cbn [nth]. change (@mul RO a b) with (a * b). rring. Qed.
Lemma rprod_ext n f g : (forall i, (i < n)%nat -> f i = g i) -> rprod n f = rprod n g.
Proof. induction n as [|n IH]; intros H; [reflexivity|]. cbn. rewrite IH, H by (intros; try apply H; lia). reflexivity. Qed.
Lemma rprod_nonneg n f : (forall i, 0 <= f i) -> 0 <= rprod n f.
Proof. intros H. induction n as [|n IH]; cbn; [lra|]. apply Rmult_le_pos; auto. Qed.
Lemma rprod_zero n f k : (k < n)%nat -> f k = 0 -> rprod n f = 0.
Proof. induction n as [|n IH]; intros Hk E; [lia|]. cbn. destruct (Nat.eq_dec k n) as [->|N]; [rewrite E; ring|]. rewrite IH by (lia || assumption). ring. Qed.

Lemma pypow_half s : 0 <= s -> pypow s (1 / (1 + 1)) = sqrt s.
Proof.
  intros H. unfold pypow. destruct (Reqb s 0) eqn:E.
  - apply Reqb_iff in E. subst s. rewrite sqrt_0. destruct (Reqb (1 / (1 + 1)) 0) eqn:E2; [apply Reqb_iff in E2; lra|reflexivity].
  - assert (s <> 0) by (intros Z; apply Reqb_iff in Z; congruence). rewrite <- Rpower_sqrt by lra. f_equal. lra.
Qed.
Lemma pypow_root s n : 0 <= s -> (0 < n)%nat -> 0 <= pypow s (1 / INR n) /\ pypow s (1 / INR n) ^ n = s /\ (s = 0 -> pypow s (1 / INR n) = 0).
Proof.
  intros H Hn. assert (Hi : 0 < INR n) by (apply lt_0_INR; lia). unfold pypow. destruct (Reqb s 0) eqn:E.
  - apply Reqb_iff in E. subst s. destruct (Reqb (1 / INR n) 0) eqn:E2.
    + apply Reqb_iff in E2. assert (0 < 1 / INR n) by (apply Rdiv_lt_0_compat; lra). lra.
    + split; [lra|]. split; [apply pow_ne_zero; lia|auto].
  - assert (N : s <> 0) by (intros Z; apply Reqb_iff in Z; congruence). split; [apply Rlt_le, exp_pos|]. split; [|contradiction].
    rewrite <- Rpower_pow by apply exp_pos. rewrite Rpower_mult. replace (1 / INR n * INR n) with 1 by (field; lra). apply Rpower_1. lra.
Qed.

(** C95.  What the four lambdas compute. *)
Theorem C95_manhattan_value (x y : list R) n : length x = n -> length y = n -> dist "Manhattan" x y = rsum n (gap x y).
Proof.
  intros Hx Hy. unfold dist, distance_of. cbn [String.eqb Ascii.eqb Bool.eqb]. unfold manhattan. etransitivity; [apply fold_add|]. cbn [zero RO oa RA]. rewrite Rplus_0_l.
  etransitivity; [apply (f_equal (fun k => rsum k _)), (length_gaps x y n Hx Hy)|]. apply rsum_ext. intros i Hi. apply (nth_gaps x y i n); assumption.
Qed.
Print Assumptions C95_manhattan_value.
Theorem C95_euclidean_value (x y : list R) n : length x = n -> length y = n -> dist "Euclidean" x y = sqrt (rsum n (fun i => (gap x y i) ^ 2)).
Proof.
  intros Hx Hy. unfold dist, distance_of. cbn [String.eqb Ascii.eqb Bool.eqb]. unfold euclidean.
  assert (E : fold_left (@add RO) (map2 (fun a b => @mul RO (@sub RO a b) (@sub RO a b)) x y) (@zero RO) = rsum n (fun i => (gap x y i) ^ 2)).
  { etransitivity; [apply fold_add|]. cbn [zero RO oa RA]. rewrite Rplus_0_l. assert (L : length (map2 (fun a b => @mul RO (@sub RO a b) (@sub RO a b)) x y) = n) by (etransitivity; [apply length_map2|]; change (Nat.min (@length R x) (@length R y) = n); lia).
    etransitivity; [apply (f_equal (fun k => rsum k _)), L|]. apply rsum_ext. intros i Hi. etransitivity; [apply (nth_map2 _ x y i 0 0 0); lia|].
    unfold gap. rewrite pow2_abs. cbn. rring. }
  etransitivity; [apply (f_equal (fun s => pypow s _) E)|]. apply pypow_half. apply rsum_nonneg. intros i _. apply pow2_ge_0.
Qed.
Print Assumptions C95_euclidean_value.
Lemma fold_max (l : list R) : forall a, let m := fold_left (fun m d : R => if Rltb m d then d else m) l a in a <= m /\ (forall b, In b l -> b <= m) /\ (m = a \/ In m l).
Proof.
  induction l as [|b l IH]; intros a; cbn zeta; cbn [fold_left].
  - split; [lra|]. split; [intros b []|auto].
  - destruct (Rltb a b) eqn:E.
    + apply Rltb_iff in E. destruct (IH b) as (I1 & I2 & I3). split; [lra|]. split; [intros c [<-|Hc]; [lra|auto]|]. right. destruct I3 as [I3|I3]; [left; auto|right; exact I3].
    + assert (b <= a) by (apply Rnot_lt_le; intros Z; apply Rltb_iff in Z; congruence). destruct (IH a) as (I1 & I2 & I3). split; [lra|]. split; [intros c [<-|Hc]; [lra|auto]|]. destruct I3 as [I3|I3]; [left; exact I3|right; right; exact I3].
Qed.
Theorem C95_chebyshev_value (x y : list R) n : (0 < n)%nat -> length x = n -> length y = n ->
  (forall i, (i < n)%nat -> gap x y i <= dist "Chebyshev" x y) /\ exists i, (i < n)%nat /\ dist "Chebyshev" x y = gap x y i.
Proof.
  intros Hn Hx Hy. unfold dist, distance_of. cbn [String.eqb Ascii.eqb Bool.eqb]. unfold chebyshev.
  pose proof (length_gaps x y n Hx Hy) as L. pose proof (fun i => nth_gaps x y i n Hx Hy) as N. destruct (@gaps RO x y) as [|d l]; [cbn in L; lia|].
  pose proof (fold_max l d) as (M1 & M2 & M3). cbn zeta in M1, M2, M3. set (m := fold_left _ l d) in *.
  assert (I : In m (d :: l)) by (destruct M3 as [M3|M3]; [left; symmetry; exact M3|right; exact M3]).
  assert (B : forall b, In b (d :: l) -> b <= m) by (intros b [<-|Hb]; [exact M1|apply M2; exact Hb]).
  split.
  - intros i Hi. rewrite <- N by exact Hi. apply B. apply nth_In. cbn in L |- *. lia.
  - destruct (In_nth _ _ 0 I) as (i & Hi & E). exists i. cbn in L, Hi. split; [lia|]. rewrite <- N by lia. symmetry. exact E.
Qed.
Print Assumptions C95_chebyshev_value.
Theorem C95_geometric_value (x y : list R) n : (0 < n)%nat -> length x = n -> length y = n ->
  0 <= dist "Geometric" x y /\ dist "Geometric" x y ^ n = rprod n (gap x y).
Proof.
  intros Hn Hx Hy. unfold dist, distance_of. cbn [String.eqb Ascii.eqb Bool.eqb]. unfold geometric.
  assert (E : fold_left (@mul RO) (@gaps RO x y) (@one RO) = rprod n (gap x y)).
  { etransitivity; [apply fold_mul|]. cbn [one RO oa RA]. rewrite Rmult_1_l. etransitivity; [apply (f_equal (fun k => rprod k _)), (length_gaps x y n Hx Hy)|].
    apply rprod_ext. intros i Hi. apply (nth_gaps x y i n); assumption. }
  set (p := fold_left _ _ _) in *. change (@div RO one (INR (length x))) with (1 / INR (length x)). rewrite Hx. change (p : R) with (p : R). 
  assert (P : 0 <= p) by (change (0 <= (p : R)); rewrite E; apply rprod_nonneg; intros i; apply gap_nonneg).
  destruct (pypow_root p n P Hn) as (R1 & R2 & _). split; [exact R1|]. etransitivity; [exact R2|exact E].
Qed.
Print Assumptions C95_geometric_value.

(** Chebyshev, Euclidean and Manhattan are metrics in every dimension. *)
Theorem C95_manhattan_metric n : metric (dist "Manhattan") n.
Proof.
  intros x y z Hx Hy Hz. rewrite !(C95_manhattan_value _ _ n) by assumption. split; [apply rsum_nonneg; intros; apply gap_nonneg|]. split; [|split].
  - rewrite <- (gap_zero x y n Hx Hy). split.
    + intros H. apply (rsum_nonneg_zero n _); [intros; apply gap_nonneg|exact H].
    + intros H. apply rsum_zero. exact H.
  - apply rsum_ext. intros. apply gap_sym.
  - rewrite <- rsum_add. apply rsum_le. intros. apply gap_tri.
Qed.
Print Assumptions C95_manhattan_metric.
Theorem C95_chebyshev_metric n : (0 < n)%nat -> metric (dist "Chebyshev") n.
Proof.
  intros Hn x y z Hx Hy Hz. destruct (C95_chebyshev_value x y n Hn Hx Hy) as (B & i & Hi & E). destruct (C95_chebyshev_value y x n Hn Hy Hx) as (B' & i' & Hi' & E').
  destruct (C95_chebyshev_value y z n Hn Hy Hz) as (B1 & _). destruct (C95_chebyshev_value x z n Hn Hx Hz) as (_ & i2 & Hi2 & E2).
  assert (P : 0 <= dist "Chebyshev" x y) by (rewrite E; apply gap_nonneg).
  split; [exact P|]. split; [|split].
  - rewrite <- (gap_zero x y n Hx Hy). split.
    + intros H j Hj. specialize (B j Hj). pose proof (gap_nonneg x y j). lra.
    + intros H. rewrite E. apply H. exact Hi.
  - apply Rle_antisym.
    + rewrite E, gap_sym. apply B'. exact Hi.
    + rewrite E', gap_sym. apply B. exact Hi'.
  - rewrite E2. pose proof (gap_tri x y z i2). specialize (B i2 Hi2). specialize (B1 i2 Hi2). lra.
Qed.
Print Assumptions C95_chebyshev_metric.
(** Cauchy-Schwarz. *)
Lemma cauchy n f g : (rsum n (fun i => f i * g i)) ^ 2 <= rsum n (fun i => f i ^ 2) * rsum n (fun i => g i ^ 2).
Proof.
  set (a := rsum n (fun i => f i ^ 2)). set (b := rsum n (fun i => f i * g i)). set (c := rsum n (fun i => g i ^ 2)).
  assert (Q : forall s t, 0 <= s ^ 2 * a + 2 * s * t * b + t ^ 2 * c).
  { intros s t. unfold a, b, c. rewrite <- !rsum_scal, <- !rsum_add. apply rsum_nonneg. intros i _. replace (_ + _) with ((s * f i + t * g i) ^ 2) by ring. apply pow2_ge_0. }
  assert (C : 0 <= c) by (apply rsum_nonneg; intros; apply pow2_ge_0).
  destruct (Req_dec c 0) as [Z|N].
  - assert (G : forall i, (i < n)%nat -> g i ^ 2 = 0) by (apply rsum_nonneg_zero; [intros; apply pow2_ge_0|exact Z]).
    assert (B : b = 0). { apply rsum_zero. intros i Hi. specialize (G i Hi). assert (g i = 0) by nra. rewrite H. ring. } rewrite B, Z. lra.
  - specialize (Q c (- b)). replace (c ^ 2 * a + 2 * c * - b * b + (- b) ^ 2 * c) with (c * (a * c - b ^ 2)) in Q by ring.
    assert (0 < c) by lra. apply Rmult_le_reg_l with c; [lra|]. lra.
Qed.
Theorem C95_euclidean_metric n : metric (dist "Euclidean") n.
Proof.
  intros x y z Hx Hy Hz. rewrite !(C95_euclidean_value _ _ n) by assumption. split; [apply sqrt_pos|]. split; [|split].
  - rewrite <- (gap_zero x y n Hx Hy). split.
    + intros H i Hi. apply sqrt_eq_0 in H; [|apply rsum_nonneg; intros; apply pow2_ge_0].
      pose proof (rsum_nonneg_zero n (fun i => gap x y i ^ 2) (fun i _ => pow2_ge_0 _) H i Hi) as G. cbn in G. pose proof (gap_nonneg x y i). nra.
    + intros H. rewrite rsum_zero; [apply sqrt_0|]. intros i Hi. rewrite H by exact Hi. ring.
  - f_equal. apply rsum_ext. intros. rewrite gap_sym. reflexivity.
  - set (a := rsum n (fun i => gap x y i ^ 2)). set (c := rsum n (fun i => gap y z i ^ 2)).
    assert (A : 0 <= a) by (apply rsum_nonneg; intros; apply pow2_ge_0). assert (C : 0 <= c) by (apply rsum_nonneg; intros; apply pow2_ge_0).
    set (b := rsum n (fun i => gap x y i * gap y z i)). assert (B : b <= sqrt a * sqrt c).
    { apply Rle_trans with (Rabs b); [apply Rle_abs|]. rewrite <- sqrt_mult by assumption. rewrite <- sqrt_Rsqr_abs. apply sqrt_le_1; [apply Rle_0_sqr|apply Rmult_le_pos; assumption|].
      unfold Rsqr. replace (b * b) with (b ^ 2) by ring. apply cauchy. }
    apply Rle_trans with (sqrt ((sqrt a + sqrt c) ^ 2)).
    + apply sqrt_le_1; [apply rsum_nonneg; intros; apply pow2_ge_0|apply pow2_ge_0|].
      apply Rle_trans with (a + 2 * b + c).
      * unfold a, b, c. rewrite <- rsum_scal, <- !rsum_add. apply rsum_le. intros i _. pose proof (gap_tri x y z i). pose proof (gap_nonneg x z i). replace (_ + _) with ((gap x y i + gap y z i) ^ 2) by ring. apply pow_incr. lra.
      * replace ((sqrt a + sqrt c) ^ 2) with (sqrt a * sqrt a + 2 * (sqrt a * sqrt c) + sqrt c * sqrt c) by ring. rewrite !sqrt_sqrt by assumption. lra.
    + pose proof (sqrt_pos a). pose proof (sqrt_pos c). rewrite sqrt_pow2; lra.
Qed.
Print Assumptions C95_euclidean_metric.

(** Geometric: symmetric and non-negative, a metric in dimension one, and in no higher
    dimension. *)
Lemma root_unique n a b : (0 < n)%nat -> 0 <= a -> 0 <= b -> a ^ n = b ^ n -> a = b.
Proof.
  intros Hn Ha Hb E. destruct (Rtotal_order a b) as [L|[L|L]]; [|exact L|].
  - exfalso. assert (a ^ n < b ^ n); [|lra]. clear -Hn Ha L. induction n as [|n IH]; [lia|]. destruct n as [|n]; [cbn; lra|].
    specialize (IH ltac:(lia)). change (a * a ^ S n < b * b ^ S n). assert (0 <= a ^ S n) by (apply pow_le; lra). nra.
  - exfalso. assert (b ^ n < a ^ n); [|lra]. clear -Hn Hb L. induction n as [|n IH]; [lia|]. destruct n as [|n]; [cbn; lra|].
    specialize (IH ltac:(lia)). change (b * b ^ S n < a * a ^ S n). assert (0 <= b ^ S n) by (apply pow_le; lra). nra.
Qed.
Theorem C95_geometric_symmetric (x y : list R) n : (0 < n)%nat -> length x = n -> length y = n ->
  0 <= dist "Geometric" x y /\ dist "Geometric" x y = dist "Geometric" y x /\
  (dist "Geometric" x y = 0 <-> exists i, (i < n)%nat /\ nth i x 0 = nth i y 0).
Proof.
  intros Hn Hx Hy. destruct (C95_geometric_value x y n Hn Hx Hy) as [P E]. destruct (C95_geometric_value y x n Hn Hy Hx) as [P' E'].
  split; [exact P|]. split.
  - apply (root_unique n); try assumption. rewrite E, E'. apply rprod_ext. intros. apply gap_sym.
  - split.
    + intros Z. rewrite Z, pow_ne_zero in E by lia. clear -E.
      induction n as [|n IH]; [cbn in E; lra|]. cbn [rprod] in E. symmetry in E. apply Rmult_integral in E. destruct E as [E|E].
      * destruct (IH (eq_sym E)) as (i & Hi & Ei). exists i. split; [lia|exact Ei].
      * exists n. split; [lia|]. unfold gap in E. destruct (Req_dec (nth n x 0 - nth n y 0) 0) as [Z|Z]; [lra|]. destruct (Rabs_no_R0 _ Z E).
    + intros (i & Hi & Ei). apply (root_unique n); try assumption; [lra|]. rewrite E, (pow_ne_zero n) by lia. apply (rprod_zero n _ i Hi). unfold gap. rewrite Ei, Rminus_diag_eq by reflexivity. apply Rabs_R0.
Qed.
Print Assumptions C95_geometric_symmetric.
Theorem C95_geometric_one : metric (dist "Geometric") 1.
Proof.
  assert (G : forall x y : list R, length x = 1%nat -> length y = 1%nat -> dist "Geometric" x y = dist "Manhattan" x y).
  { intros x y Hx Hy. destruct (C95_geometric_value x y 1 ltac:(lia) Hx Hy) as [_ E]. rewrite pow_1 in E. rewrite E, (C95_manhattan_value x y 1) by assumption. cbn. ring. }
  intros x y z Hx Hy Hz. rewrite !G by assumption. apply (C95_manhattan_metric 1); assumption.
Qed.
Print Assumptions C95_geometric_one.
Theorem C95_geometric_refuted n : (2 <= n)%nat -> exists x y z : list R,
  length x = n /\ length y = n /\ length z = n /\
  x <> y /\ dist "Geometric" x y = 0 /\ dist "Geometric" x z > dist "Geometric" x y + dist "Geometric" y z.
Proof.
  intros Hn. exists (repeat 0 n), (0 :: repeat 1 (n - 1)), (repeat 1 n). 
  assert (Lx : length (repeat 0 n) = n) by apply repeat_length. assert (Lz : length (repeat 1 n) = n) by apply repeat_length. assert (Ly : length (0 :: repeat 1 (n - 1)) = n) by (cbn; rewrite repeat_length; lia).
  assert (Z1 : dist "Geometric" (repeat 0 n) (0 :: repeat 1 (n - 1)) = 0).
  { apply (C95_geometric_symmetric _ _ n); [lia|assumption..|]. exists 0%nat. split; [lia|]. destruct n; [lia|reflexivity]. }
  assert (Z2 : dist "Geometric" (0 :: repeat 1 (n - 1)) (repeat 1 n) = 0).
  { apply (C95_geometric_symmetric _ _ n); [lia|assumption..|]. exists 1%nat. split; [lia|]. destruct n as [|[|n]]; [lia|lia|reflexivity]. }
  repeat (split; [assumption|]). split.
  - intros E. apply (f_equal (fun l => nth 1 l 0)) in E. destruct n as [|[|n]]; [lia|lia|]. cbn in E. lra.
  - split; [exact Z1|]. rewrite Z1, Z2. destruct (C95_geometric_value (repeat 0 n) (repeat 1 n) n ltac:(lia) Lx Lz) as [P E].
    destruct (Req_dec (dist "Geometric" (repeat 0 n) (repeat 1 n)) 0) as [Z|Z]; [|lra]. exfalso.
    apply (C95_geometric_symmetric _ _ n ltac:(lia) Lx Lz) in Z. destruct Z as (i & Hi & Ei). rewrite !nth_repeat_lt in Ei by exact Hi. lra.
Qed.
Print Assumptions C95_geometric_refuted.
Example C95_example : rprod 2 (gap [1; 2] [4; 0]) = 6 /\ rsum 2 (gap [1; 2] [4; 0]) = 5 /\ (2 <= 2)%nat.
Proof. unfold gap. cbn. rewrite (Rabs_left (1 - 4)), (Rabs_right (2 - 0)) by lra. repeat split; try lra; lia. Qed.
