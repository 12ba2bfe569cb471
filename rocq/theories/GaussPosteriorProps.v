(** Property C168: what GaussianModel and GaussianMixtureModel maximise. *)
From Coq Require Import List Arith ZArith Bool Permutation Sorting Reals Lra Lia.
From Verif Require Import Base BaseLemmas Instances Sums LinAlg RankModel RankProps GaussModel GaussProps GaussExactProps GaussInvarianceProps GmmModel GmmProps.
Import ListNotations.
Set Asymmetric Patterns.
Local Open Scope R_scope.

(** ** Specification *)
(** How far the rows of class c spread about their mean in direction v. *)
Definition spread (cols : nat) (c : Z) (rows : list (list R)) (labels : list Z) (v : nat -> R) : R :=
  total c rows labels (fun x => rsum cols (fun i => (nth i x 0 - cmean c rows labels i) * v i) ^ 2).
(** The normal density of mean m and variance v. *)
Definition normal (m v t : R) : R := exp (- (t - m) ^ 2 / (2 * v)) / sqrt (2 * PI * v).
(** The density of a mixture in n dimensions, D giving the determinants of the precisions. *)
Definition likelihood (D : list (list R) -> R) (n order : nat) (k : list (component RO)) (x : list R) : R :=
  rsum order (fun i => let c := nth i k ([], [], 0) in
    snd c * (sqrt (D (fst (fst c))) / sqrt ((2 * PI) ^ n)) * exp (- (1 / 2) * Rmax 0 (distance (fst (fst c)) (snd (fst c)) x))).
(** Class p stands before class q. *)
Definition before (p q : nat) (row : list nat) : Prop := exists a b, (a < b < length row)%nat /\ nth a row 0%nat = p /\ nth b row 0%nat = q.

(** ** Lemmas *)
Definition symmetric (n : nat) (M : nat -> nat -> R) : Prop := forall i j, (i < n)%nat -> (j < n)%nat -> M i j = M j i.
Lemma inner_sym n M u v : symmetric n M -> inner n u (mulv n M v) = inner n v (mulv n M u).
Proof.
  intros S. unfold inner, mulv. rewrite (rsum_ext n _ (fun i => rsum n (fun j => u i * (M i j * v j)))) by (intros; symmetry; apply rsum_scal).
  rewrite rsum_swap. apply rsum_ext. intros j Hj. rewrite <- rsum_scal. apply rsum_ext. intros i Hi. rewrite (S i j) by assumption. ring.
Qed.
Lemma quad_sub n M u v : symmetric n M -> quad n M (fun i => u i - v i) = quad n M u - 2 * inner n u (mulv n M v) + quad n M v.
Proof.
  intros S. unfold quad.
  assert (L : forall i, mulv n M (fun j => u j - v j) i = mulv n M u i - mulv n M v i).
  { intros i. unfold mulv. rewrite <- rsum_sub. apply rsum_ext. intros; ring. }
  assert (E : inner n (fun i => u i - v i) (mulv n M (fun j => u j - v j)) = inner n u (mulv n M u) - inner n u (mulv n M v) - inner n v (mulv n M u) + inner n v (mulv n M v)).
  { unfold inner. rewrite <- !rsum_sub, <- rsum_add. apply rsum_ext. intros i _. rewrite L. ring. }
  rewrite E, (inner_sym n M v u S). ring.
Qed.
(** A larger covariance has the smaller inverse. *)
Lemma inverse_antitone n M M' P P' d : symmetric n M -> pos_def n M -> right_inverse n M P -> right_inverse n M' P' ->
  quad n M (mulv n P' d) <= quad n M' (mulv n P' d) -> quad n P' d <= quad n P d /\
  (quad n M (mulv n P' d) < quad n M' (mulv n P' d) -> quad n P' d < quad n P d).
Proof.
  intros S Pd R R' H. destruct (quad_inverse n M P d R) as [E1 E2]. destruct (quad_inverse n M' P' d R') as [E3 E4].
  set (v := mulv n P' d) in *. set (w := mulv n P d) in *.
  assert (N : 0 <= quad n M (fun i => v i - w i)).
  { assert (Dz : (exists i, (i < n)%nat /\ v i - w i <> 0) \/ forall i, (i < n)%nat -> v i - w i = 0).
    { generalize v w. clear. intros v w. induction n as [|n IH]; [right; lia|]. destruct IH as [[i [Hi Ni]]|Z]; [left; exists i; split; [lia|exact Ni]|].
      destruct (Req_dec (v n - w n) 0) as [E|Ne]; [|left; exists n; split; [lia|exact Ne]]. right. intros i Hi. destruct (Nat.eq_dec i n) as [->|]; [exact E|apply Z; lia]. }
    destruct Dz as [Nz|Z]; [apply Rlt_le, Pd, Nz|]. right. unfold quad, inner. symmetry. apply rsum_zero. intros i Hi. rewrite Z by exact Hi. ring. }
  rewrite quad_sub in N by exact S.
  assert (C : inner n v (mulv n M w) = inner n v d) by (unfold inner; apply rsum_ext; intros i Hi; rewrite E2 by exact Hi; reflexivity).
  assert (C' : quad n M' v = inner n v d) by (unfold quad, inner; apply rsum_ext; intros i Hi; rewrite E4 by exact Hi; reflexivity).
  rewrite C in N. rewrite E3, E1. split; [|intros H']; lra.
Qed.
Lemma cov_symmetric c cols r rows labels : symmetric cols (ent (cov_list cols r (scatter c rows labels))).
Proof.
  intros i j Hi Hj. rewrite !cov_list_ent by assumption. assert (D : delta i j = delta j i) by (unfold delta; rewrite Nat.eqb_sym; reflexivity). rewrite D.
  do 2 f_equal. unfold scatter. rewrite !total_eq. apply lsum_ext. intros x _. ring.
Qed.
Lemma permuted_before (d : nat -> R) k row p q : Permutation row (seq 0 k) -> (p < k)%nat -> (q < k)%nat ->
  (forall a b, (a < b < k)%nat -> d (nth a row 0%nat) <= d (nth b row 0%nat)) ->
  (before p q row -> d p <= d q) /\ (d p < d q -> before p q row).
Proof.
  intros P Hp Hq S. assert (L : length row = k) by (rewrite (Permutation_length P); apply seq_length). split.
  - intros (a & b & Hab & <- & <-). apply S. lia.
  - intros Lt. assert (Ip : In p row) by (apply (Permutation_in _ (Permutation_sym P)), in_seq; lia).
    assert (Iq : In q row) by (apply (Permutation_in _ (Permutation_sym P)), in_seq; lia).
    destruct (In_nth _ _ 0%nat Ip) as [a [Ha Ea]]. destruct (In_nth _ _ 0%nat Iq) as [b [Hb Eb]]. exists a, b.
    split; [|split; assumption]. split; [|exact Hb]. destruct (lt_eq_lt_dec a b) as [[G|G]|G]; [exact G| |].
    + subst b. assert (p = q) by congruence. subst. lra.
    + specialize (S b a ltac:(lia)). rewrite Ea, Eb in S. lra.
Qed.

(** ** GaussianModel *)
(** A class whose mean is that of a class with a wider spread in every direction stands before the
    wider class only in ties; if the spread is strictly wider, every row but the common mean lists
    the wider class first. *)
Theorem C168_gauss_nested inv argsort (g : gauss RO) cols (rows : list (list R)) labels cs p q (x : list (list R)) : inverts inv cols -> @is_argsort RO argsort ->
  training cols rows labels -> classes_of labels cs -> 0 < gregularize g -> x <> [] -> Forall (fun r => length r = cols) x ->
  (p < length cs)%nat -> (q < length cs)%nat -> let c := nth p cs 0%Z in let e := nth q cs 0%Z in
  (forall j, (j < cols)%nat -> cmean c rows labels j = cmean e rows labels j) ->
  (forall v, spread cols c rows labels v <= spread cols e rows labels v) ->
  exists g' v, gauss_fit inv g (X2 cols rows) (YInt labels) = (g', Ok tt) /\ gauss_predict argsort g' (X2 cols x) = (g', Ok v) /\ length v = length x /\
    let dist := fun a r => distance (fst (nth a (gmodel g') ([], []))) (map (cmean (nth a cs 0%Z) rows labels) (seq 0 cols)) r in
    forall i, (i < length x)%nat ->
      dist q (nth i x []) <= dist p (nth i x []) /\
      (before p q (nth i v []) -> dist p (nth i x []) = dist q (nth i x [])) /\
      ((forall v, nonzero cols v -> spread cols c rows labels v < spread cols e rows labels v) ->
       nth i x [] <> map (cmean c rows labels) (seq 0 cols) -> before q p (nth i v [])).
Proof.
  intros Hinv Ha T Hcs Hr Nx Fx Hp Hq c e Hm Hs.
  destruct (C81_gauss_nearest inv argsort g cols rows labels cs x Hinv Ha T Hcs Hr Nx Fx) as (g' & v & E & Ev & Lv & Q). cbn zeta in Q.
  destruct (C87_gauss_distances inv g cols rows labels cs Hinv T Hcs Hr) as (g2 & E2 & Lm & Hd). assert (g2 = g') by congruence. subst g2.
  exists g', v. split; [exact E|]. split; [exact Ev|]. split; [exact Lv|]. intros dist i Hi. destruct (Q i Hi) as [P S]. clear Q.
  set (y := nth i x []) in *. assert (Ly : length y = cols) by (rewrite Forall_forall in Fx; apply Fx, nth_In, Hi).
  pose proof T as (Hc & _ & _ & _).
  destruct (Hd p Hp) as (Pp & Ep & Rp & Zp). destruct (Hd q Hq) as (Pq & Eq & Rq & Zq). fold c in Ep, Rp, Zp. fold e in Eq, Rq, Zq.
  assert (Mu : map (cmean e rows labels) (seq 0 cols) = map (cmean c rows labels) (seq 0 cols)).
  { apply map_ext_in. intros j Hj. apply in_seq in Hj. symmetry. apply Hm. lia. }
  set (u := map (cmean c rows labels) (seq 0 cols)) in *. set (d := fun j => nth j y 0 - nth j u 0).
  assert (Dp : dist p y = quad cols (ent Pp) d).
  { unfold dist. fold c. fold u. replace (fst (nth p (gmodel g') ([], []))) with Pp by (symmetry; exact (f_equal fst Ep)). unfold distance. rewrite Ly. reflexivity. }
  assert (Dq : dist q y = quad cols (ent Pq) d).
  { unfold dist. fold e. rewrite Mu. replace (fst (nth q (gmodel g') ([], []))) with Pq by (symmetry; exact (f_equal fst Eq)). unfold distance. rewrite Ly. reflexivity. }
  pose proof (cov_pos_def c cols (gregularize g) rows labels Hc Hr) as PdM. pose proof (cov_pos_def e cols (gregularize g) rows labels Hc Hr) as PdM'.
  assert (Pc : 0 < INR cols) by (apply lt_0_INR; exact Hc).
  assert (Cmp : quad cols (ent (cov_list cols (gregularize g) (scatter c rows labels))) (mulv cols (ent Pq) d) <=
                quad cols (ent (cov_list cols (gregularize g) (scatter e rows labels))) (mulv cols (ent Pq) d)).
  { rewrite !cov_quad by exact Hc. apply Rplus_le_compat_r. apply Rmult_le_compat_r; [apply Rlt_le, Rinv_0_lt_compat, Pc|]. apply (Hs (mulv cols (ent Pq) d)). }
  destruct (inverse_antitone cols _ _ _ _ d (cov_symmetric c cols _ rows labels) PdM Rp Rq Cmp) as [Le Lt].
  destruct (permuted_before (fun a => dist a y) (length cs) (nth i v []) p q P Hp Hq S) as [B1 _].
  destruct (permuted_before (fun a => dist a y) (length cs) (nth i v []) q p P Hq Hp S) as [_ B2]. cbn beta in B1, B2.
  split; [rewrite Dp, Dq; exact Le|]. split; [intros B; specialize (B1 B); rewrite Dp, Dq in *; lra|].
  intros St Ny. apply B2. rewrite Dp, Dq. apply Lt. rewrite !cov_quad by exact Hc. apply Rplus_lt_compat_r. apply Rmult_lt_compat_r; [apply Rinv_0_lt_compat, Pc|].
  apply (St (mulv cols (ent Pq) d)).
  (* P' d is nonzero: otherwise d = M' (P' d) would vanish *)
  destruct (quad_inverse cols _ _ d Rq) as [Eq1 _].
  pose proof (Zq y Ly) as Z. cbn zeta in Z. rewrite Mu in Z. destruct Z as (_ & N0 & Z0).
  assert (NZ : distance Pq u y <> 0) by (intros F; apply Z0 in F; contradiction).
  assert (Dz : nonzero cols (mulv cols (ent Pq) d) \/ forall j, (j < cols)%nat -> mulv cols (ent Pq) d j = 0).
  { generalize (mulv cols (ent Pq) d). clear. intros f. unfold nonzero. induction cols as [|n IH]; [right; lia|]. destruct IH as [[i [Hi Ni]]|Z]; [left; exists i; split; [lia|exact Ni]|].
    destruct (Req_dec (f n) 0) as [E|Ne]; [|left; exists n; split; [lia|exact Ne]]. right. intros i Hi. destruct (Nat.eq_dec i n) as [->|]; [exact E|apply Z; lia]. }
  destruct Dz as [Nz|Z]; [exact Nz|]. exfalso. apply NZ. unfold distance. rewrite Ly. fold d. unfold quad, inner. apply rsum_zero. intros j Hj. rewrite Z by exact Hj. ring.
Qed.
Print Assumptions C168_gauss_nested.

(** A class that holds the rows of another class k > 1 times over wins everywhere but at the mean. *)
Theorem C168_gauss_more_samples inv argsort (g : gauss RO) cols (rows : list (list R)) labels cs p q k (x : list (list R)) : inverts inv cols -> @is_argsort RO argsort ->
  training cols rows labels -> classes_of labels cs -> 0 < gregularize g -> x <> [] -> Forall (fun r => length r = cols) x ->
  (p < length cs)%nat -> (q < length cs)%nat -> let c := nth p cs 0%Z in let e := nth q cs 0%Z in
  1 < k -> (forall f, total e rows labels f = k * total c rows labels f) ->
  (forall v, nonzero cols v -> 0 < spread cols c rows labels v) ->
  exists g' v, gauss_fit inv g (X2 cols rows) (YInt labels) = (g', Ok tt) /\ gauss_predict argsort g' (X2 cols x) = (g', Ok v) /\ length v = length x /\
    forall i, (i < length x)%nat -> nth i x [] <> map (cmean c rows labels) (seq 0 cols) -> before q p (nth i v []).
Proof.
  intros Hinv Ha T Hcs Hr Nx Fx Hp Hq c e Hk Hf Hsp.
  assert (Ic : In c labels) by (apply (proj2 Hcs), nth_In, Hp). pose proof T as (_ & _ & L & _).
  pose proof (size_pos c rows labels L Ic) as Sc.
  assert (Me : forall j, cmean e rows labels j = cmean c rows labels j).
  { intros j. unfold cmean, size in *. rewrite !Hf. field. lra. }
  assert (Sp : forall v, spread cols e rows labels v = k * spread cols c rows labels v).
  { intros v. unfold spread. rewrite Hf. f_equal. rewrite !total_eq. apply lsum_ext. intros y _. f_equal. apply rsum_ext. intros j _. rewrite Me. reflexivity. }
  assert (Nn : forall v, 0 <= spread cols c rows labels v) by (intros v; unfold spread; rewrite total_eq; apply lsum_nonneg; intros; apply pow2_ge_0).
  destruct (C168_gauss_nested inv argsort g cols rows labels cs p q x Hinv Ha T Hcs Hr Nx Fx Hp Hq) as (g' & v & E & Ev & Lv & H).
  - intros j _. symmetry. apply Me.
  - intros v. fold c e. rewrite Sp. specialize (Nn v). nra.
  - exists g', v. split; [exact E|]. split; [exact Ev|]. split; [exact Lv|]. intros i Hi Ny. destruct (H i Hi) as (_ & _ & B). apply B; [|exact Ny].
    intros w Nw. fold c e. rewrite Sp. specialize (Hsp w Nw). nra.
Qed.
Print Assumptions C168_gauss_more_samples.

Lemma normal_narrow v w t : 0 < v -> 4 * v <= w -> t <> 0 -> t ^ 2 <= v -> normal 0 w t < normal 0 v t.
Proof.
  intros Hv Hw Ht Tv. unfold normal. rewrite Rminus_0_r. pose proof PI_RGT_0 as Pp.
  assert (Pt : 0 < t ^ 2) by (destruct (Rtotal_order t 0) as [|[|]]; [nra|contradiction|nra]).
  assert (A : 1 / 2 <= exp (- t ^ 2 / (2 * v))).
  { apply Rle_trans with (1 + - t ^ 2 / (2 * v)); [|apply exp_ineq1_le].
    assert (t ^ 2 / (2 * v) <= 1 / 2); [|unfold Rdiv in *; lra]. apply Rmult_le_reg_r with (2 * v); [lra|]. unfold Rdiv. rewrite Rmult_assoc, Rinv_l by lra. lra. }
  assert (B : exp (- t ^ 2 / (2 * w)) < 1).
  { rewrite <- exp_0. apply exp_increasing. assert (0 < t ^ 2 / (2 * w)) by (apply Rdiv_lt_0_compat; lra). unfold Rdiv in *. lra. }
  assert (Sv : 0 < sqrt (2 * PI * v)) by (apply sqrt_lt_R0; nra).
  assert (Sw : 2 * sqrt (2 * PI * v) <= sqrt (2 * PI * w)).
  { replace (2 * sqrt (2 * PI * v)) with (sqrt (4 * (2 * PI * v))); [apply sqrt_le_1_alt; nra|].
    rewrite sqrt_mult by nra. f_equal. replace 4 with (2 * 2) by ring. apply sqrt_square. lra. }
  apply Rlt_le_trans with (1 / sqrt (2 * PI * w)).
  - apply Rmult_lt_compat_r; [apply Rinv_0_lt_compat; lra|exact B].
  - apply Rle_trans with (1 / 2 / sqrt (2 * PI * v)).
    + unfold Rdiv. rewrite !Rmult_1_l. rewrite <- Rinv_mult. apply Rinv_le_contravar; lra.
    + apply Rmult_le_compat_r; [apply Rlt_le, Rinv_0_lt_compat, Sv|exact A].
Qed.
(** The claim that predict maximises the posterior probability is false: the rows -1 and 1 of class
    0 are more likely in class 0, by the fitted covariances and by the maximum likelihood ones, and
    yet no query at all but the mean is predicted to be in class 0. *)
Theorem C168_gauss_posterior_refuted inv argsort : inverts inv 1 -> @is_argsort RO argsort ->
  let rows := [[-1]; [1]; [-3]; [3]] in let labels := [0; 0; 1; 1]%Z in
  exists (g g' : gauss RO), @gauss_make RO (1 / 10) = Ok g /\ gauss_fit inv g (X2 1 rows) (YInt labels) = (g', Ok tt) /\
    (forall t, t <> 0 -> gauss_predict argsort g' (X2 1 [[t]]) = (g', Ok [[1; 0]%nat])) /\
    (forall t, t = -1 \/ t = 1 ->
       normal 0 (ent (cov_list 1 (1 / 10) (scatter 1 rows labels)) 0 0) t < normal 0 (ent (cov_list 1 (1 / 10) (scatter 0 rows labels)) 0 0) t /\
       normal 0 (scatter 1 rows labels 0 0 / 2) t < normal 0 (scatter 0 rows labels 0 0 / 2) t).
Proof.
  intros Hinv Ha rows labels. set (g := mkGauss [] (1 / 10) None : gauss RO).
  assert (T : training 1 rows labels) by (unfold training, rows, labels; repeat split; [lia|discriminate|repeat constructor]).
  assert (Hcs : classes_of labels [0; 1]%Z) by apply (sorted_set_ok labels).
  assert (Hr : 0 < gregularize g) by (cbn; lra).
  assert (m0 : cmean 0 rows labels 0 = 0) by (unfold cmean, size, total; cbn; field).
  assert (m1 : cmean 1 rows labels 0 = 0) by (unfold cmean, size, total; cbn; field).
  assert (s0 : scatter 0 rows labels 0 0 = 2) by (unfold scatter; rewrite m0; unfold total, rows, labels; cbn; field).
  assert (s1 : scatter 1 rows labels 0 0 = 18) by (unfold scatter; rewrite m1; unfold total, rows, labels; cbn; field).
  destruct (C87_gauss_distances inv g 1 rows labels [0; 1]%Z Hinv T Hcs Hr) as (g' & E & _).
  exists g, g'. split.
  { unfold gauss_make. change (@oltb RO (1 / 10) zero) with (Rltb (1 / 10) 0). destruct (Rltb (1 / 10) 0) eqn:F; [apply Rltb_iff in F; lra|reflexivity]. }
  split; [exact E|]. split.
  - intros t Ht. destruct (C168_gauss_nested inv argsort g 1 rows labels [0; 1]%Z 0 1 [[t]] Hinv Ha T Hcs Hr ltac:(discriminate) ltac:(repeat constructor) ltac:(cbn; lia) ltac:(cbn; lia)) as (g2 & v & E2 & Ev & Lv & H).
    + cbn [nth]. intros j Hj. replace j with 0%nat by lia. congruence.
    + cbn [nth]. intros v. unfold spread. cbn [rsum]. rewrite m0, m1. unfold total, rows, labels. cbn. nra.
    + assert (g2 = g') by congruence. subst g2. destruct v as [|row [|? ?]]; try discriminate Lv. rewrite Ev. do 3 f_equal.
      destruct (H 0%nat ltac:(cbn; lia)) as (_ & _ & B). cbn [nth] in B.
      destruct B as (a & b & Hab & Ea & Eb).
      * intros v [j [Hj Nz]]. replace j with 0%nat in Nz by lia. unfold spread. cbn [rsum]. rewrite m0, m1. unfold total, rows, labels. cbn.
        assert (0 < v 0%nat * v 0%nat) by nra. nra.
      * cbn [seq map]. rewrite m0. intros F. injection F as F. contradiction.
      * assert (P : Permutation row (seq 0 2)).
        { destruct (C81_gauss_nearest inv argsort g 1 rows labels [0; 1]%Z [[t]] Hinv Ha T Hcs Hr ltac:(discriminate) ltac:(repeat constructor)) as (g3 & v3 & E3 & Ev3 & _ & Q3).
          assert (g3 = g') by congruence. subst g3. rewrite Ev in Ev3. assert (v3 = [row]) by congruence. subst v3. apply (proj1 (Q3 0%nat ltac:(cbn; lia))). }
        cbn [seq] in P. apply Permutation_sym, Permutation_length_2_inv in P. destruct P as [->| ->]; [|reflexivity].
        cbn [length] in Hab. assert (a = 0%nat) by lia. assert (b = 1%nat) by lia. subst. discriminate.
  - intros t Ht. rewrite !cov_list_ent, s0, s1 by lia. unfold delta. cbn [Nat.eqb INR].
    assert (t <> 0 /\ t ^ 2 = 1) as [Nt Et] by (destruct Ht as [-> | ->]; split; lra).
    split; apply normal_narrow; try exact Nt; rewrite ?Et; lra.
Qed.
Print Assumptions C168_gauss_posterior_refuted.

(** ** GaussianMixtureModel *)
Lemma term_bounds lo hi d s w ex : 0 < s -> 0 <= w -> 0 < ex -> lo <= d <= hi ->
  sqrt lo * (w * ex) <= s * (w * (sqrt d / s) * ex) <= sqrt hi * (w * ex).
Proof.
  intros Hs Hw He [H1 H2]. replace (s * (w * (sqrt d / s) * ex)) with (sqrt d * (w * ex)) by (field; lra).
  split; apply Rmult_le_compat_r; try (apply Rmult_le_pos; [exact Hw|lra]); apply sqrt_le_1_alt; assumption.
Qed.
Lemma mixture_bounds (D : list (list R) -> R) n order (k : list (component RO)) (x : list R) lo hi : (order <= length k)%nat -> (forall c, In c k -> 0 <= snd c /\ lo <= D (fst (fst c)) <= hi) ->
  sqrt lo * mixture order k x <= sqrt ((2 * PI) ^ n) * likelihood D n order k x <= sqrt hi * mixture order k x.
Proof.
  intros Ho Hc. pose proof PI_RGT_0. assert (S : 0 < sqrt ((2 * PI) ^ n)) by (apply sqrt_lt_R0, pow_lt; lra).
  unfold likelihood, mixture. rewrite <- !rsum_scal. split; apply rsum_le; intros i Hi; cbn zeta.
  - assert (Ic : In (nth i k ([], [], 0)) k) by (apply nth_In; lia). destruct (Hc _ Ic) as (Hw & HD). apply (proj1 (term_bounds lo hi _ _ _ _ S Hw (exp_pos _) HD)).
  - assert (Ic : In (nth i k ([], [], 0)) k) by (apply nth_In; lia). destruct (Hc _ Ic) as (Hw & HD). apply (proj2 (term_bounds lo hi _ _ _ _ S Hw (exp_pos _) HD)).
Qed.
(** The score is the density up to the determinants of the precisions: a class whose score is more
    than sqrt (hi / lo) times that of another is more likely too, and with equal determinants the
    scores rank as the densities do. *)
Theorem C168_gmm_density (D : list (list R) -> R) n (order : Z) (k k' : list (component RO)) (x : list R) lo hi : 0 < lo -> (0 < order)%Z ->
  length k = Z.to_nat order -> length k' = Z.to_nat order -> length x = n ->
  Forall (fun c : component RO => length (fst (fst c)) = n /\ length (snd (fst c)) = n) (k ++ k') ->
  (forall c, In c (k ++ k') -> 0 <= snd c /\ lo <= D (fst (fst c)) <= hi) ->
  (sqrt (hi / lo) * @gmm_score RO exp order k x < @gmm_score RO exp order k' x ->
   likelihood D n (Z.to_nat order) k x < likelihood D n (Z.to_nat order) k' x) /\
  (lo = hi -> (@gmm_score RO exp order k x < @gmm_score RO exp order k' x <-> likelihood D n (Z.to_nat order) k x < likelihood D n (Z.to_nat order) k' x)).
Proof.
  intros Hlo Ho Lk Lk' Lx F Hc.
  assert (Fk : Forall (fun c : component RO => length (fst (fst c)) = n /\ length (snd (fst c)) = n) k) by (apply Forall_app in F; tauto).
  assert (Fk' : Forall (fun c : component RO => length (fst (fst c)) = n /\ length (snd (fst c)) = n) k') by (apply Forall_app in F; tauto).
  pose proof (gmm_score_R order k x n ltac:(lia) Lx Fk) as E. pose proof (gmm_score_R order k' x n ltac:(lia) Lx Fk') as E'.
  match goal with |- (_ * ?a < ?b -> _) /\ _ => change ((sqrt (hi / lo) * (a : R) < (b : R) -> likelihood D n (Z.to_nat order) k x < likelihood D n (Z.to_nat order) k' x) /\
     (lo = hi -> ((a : R) < (b : R) <-> likelihood D n (Z.to_nat order) k x < likelihood D n (Z.to_nat order) k' x))) end.
  rewrite E, E'. clear E E'. set (m := mixture _ k x). set (m' := mixture _ k' x).
  assert (Hhi : k <> [] -> lo <= hi).
  { intros Nk. destruct k as [|c0 k0]; [contradiction|]. destruct (Hc c0) as (_ & H1 & H2); [left; reflexivity|]. lra. }
  assert (Hh : lo <= hi) by (apply Hhi; intros Z; rewrite Z in Lk; cbn in Lk; lia).
  destruct (mixture_bounds D n (Z.to_nat order) k x lo hi ltac:(lia)) as [A1 A2]; [intros c I; apply Hc, in_or_app; left; exact I|].
  destruct (mixture_bounds D n (Z.to_nat order) k' x lo hi ltac:(lia)) as [B1 B2]; [intros c I; apply Hc, in_or_app; right; exact I|].
  fold m in A1, A2. fold m' in B1, B2. set (l := likelihood _ _ _ k x) in *. set (l' := likelihood _ _ _ k' x) in *.
  pose proof PI_RGT_0. assert (S : 0 < sqrt ((2 * PI) ^ n)) by (apply sqrt_lt_R0, pow_lt; lra).
  assert (Sl : 0 < sqrt lo) by (apply sqrt_lt_R0; exact Hlo).
  split.
  - intros H'. rewrite sqrt_div_alt in H' by exact Hlo. apply Rmult_lt_reg_l with (sqrt ((2 * PI) ^ n)); [exact S|].
    eapply Rle_lt_trans; [exact A2|]. eapply Rlt_le_trans; [|exact B1].
    apply (Rmult_lt_compat_l (sqrt lo)) in H'; [|exact Sl]. replace (sqrt lo * (sqrt hi / sqrt lo * m)) with (sqrt hi * m) in H' by (field; lra). exact H'.
  - intros Eq. rewrite <- Eq in *. assert (Em : sqrt ((2 * PI) ^ n) * l = sqrt lo * m) by lra. assert (Em' : sqrt ((2 * PI) ^ n) * l' = sqrt lo * m') by lra. split; intros H'.
    + apply Rmult_lt_reg_l with (sqrt ((2 * PI) ^ n)); [exact S|]. rewrite Em, Em'. apply Rmult_lt_compat_l; assumption.
    + apply Rmult_lt_reg_l with (sqrt lo); [exact Sl|]. rewrite <- Em, <- Em'. apply Rmult_lt_compat_l; assumption.
Qed.
Print Assumptions C168_gmm_density.

(** Two classes of one component about the same mean, variances 1 and 9: no query but the mean is
    predicted to be in the narrow class, although it is the more likely one for every query
    within one standard deviation. *)
Theorem C168_gmm_posterior_refuted argsort : @is_argsort RO argsort ->
  let g : gmm RO := mkGmm (O := RO) [[([[1]], [0], 1)]; [([[1 / 9]], [0], 1)]] 1 100 (1 / 10) (Some 1%nat) in
  forall t, t <> 0 -> @gmm_predict RO exp argsort g (X2 1 [[t]]) = (g, Ok [[1; 0]%nat]) /\ (t ^ 2 <= 1 -> normal 0 9 t < normal 0 1 t).
Proof.
  intros Ha g t Ht. split; [|intros H; apply normal_narrow; lra].
  assert (Pt : 0 < t ^ 2) by (destruct (Rtotal_order t 0) as [|[|]]; [nra|contradiction|nra]).
  assert (Ev : exists row, @gmm_predict RO exp argsort g (X2 1 [[t]]) = (g, Ok [row])) by (eexists; reflexivity).
  destruct Ev as [row Ev]. destruct (C88_gmm_ranking RO exp argsort g 1 [[t]] [row] Ha Ev) as [_ Q].
  destruct (Q 0%nat ltac:(cbn; lia)) as [P S]. cbn [nth length mmodel g] in P, S. specialize (S 0%nat 1%nat ltac:(lia)).
  rewrite Ev. do 3 f_equal. cbn [seq] in P. apply Permutation_sym, Permutation_length_2_inv in P. destruct P as [->| ->]; [|reflexivity]. exfalso.
  cbn [nth] in S.
  pose proof (gmm_score_R 1 [([[1]], [0], 1)] [t] 1 ltac:(cbn; lia) eq_refl ltac:(repeat constructor)) as E0.
  pose proof (gmm_score_R 1 [([[1 / 9]], [0], 1)] [t] 1 ltac:(cbn; lia) eq_refl ltac:(repeat constructor)) as E1.
  unfold mixture in E0, E1. change (Z.to_nat 1) with 1%nat in E0, E1. cbn [rsum nth fst snd] in E0, E1.
  unfold distance, quad, inner, mulv, ent in E0, E1. cbn [length rsum nth] in E0, E1.
  rewrite Rmax_right in E0 by nra. rewrite Rmax_right in E1 by nra.
  assert (Lt : 0 + 1 * exp (- (1 / 2) * (0 + (t - 0) * (0 + 1 * (t - 0)))) < 0 + 1 * exp (- (1 / 2) * (0 + (t - 0) * (0 + 1 / 9 * (t - 0))))).
  { rewrite !Rplus_0_l, !Rmult_1_l. apply exp_increasing. nra. }
  apply Rltb_iff in Lt. rewrite <- E0, <- E1 in Lt.
  match type of S with ?b = false => assert (T : b = true) by exact Lt end. congruence.
Qed.
Print Assumptions C168_gmm_posterior_refuted.

(** With an exponential that underflows below -T, all the rows that are far from every component
    get one and the same ranking, whatever the classes they are closest to. *)
Theorem C168_gmm_underflow (expf : R -> R) argsort (T : R) (g : gmm RO) cols (x y : list R) : (forall t, t <= - T -> expf t = 0) ->
  (0 < cols)%nat -> length x = cols -> length y = cols -> mmodel g <> [] -> mshape g = Some cols ->
  (forall k c, In k (mmodel g) -> In c k -> length (fst (fst c)) = cols /\ length (snd (fst c)) = cols /\
     2 * T <= Rmax 0 (distance (fst (fst c)) (snd (fst c)) x) /\ 2 * T <= Rmax 0 (distance (fst (fst c)) (snd (fst c)) y)) ->
  exists row, @gmm_predict RO expf argsort g (X2 cols [x; y]) = (g, Ok [row; row]) /\ row = rev (argsort (map (fun _ => 0) (mmodel g))).
Proof.
  intros He Hc Lx Ly Nm Sh Hk.
  assert (Z : forall z, length z = cols -> (forall k c, In k (mmodel g) -> In c k -> length (fst (fst c)) = cols /\ length (snd (fst c)) = cols /\ 2 * T <= Rmax 0 (distance (fst (fst c)) (snd (fst c)) z)) ->
     @gmm_row RO expf argsort g z = rev (argsort (map (fun _ => 0) (mmodel g)))).
  { intros z Lz H. unfold gmm_row. do 2 f_equal. apply map_ext_in. intros k Ik. unfold gmm_score.
    assert (G : forall l a, (forall c, In c l -> In c k) -> fold_left (fun acc (c : component RO) => @add RO acc (@mul RO (snd c) (expf (@mul RO (@opp RO (@div RO one (@add RO one one))) (@mahalanobis RO (fst c) z))))) l a = a).
    { induction l as [|c l IH]; intros a Hl; [reflexivity|]. cbn [fold_left]. rewrite IH by (intros; apply Hl; right; assumption).
      destruct (H k c Ik (Hl c (or_introl eq_refl))) as (F1 & F2 & F3). destruct c as [[P u] w]. cbn [fst snd] in *.
      assert (M : @mahalanobis RO (P, u) z = Rmax 0 (distance P u z)).
      { etransitivity; [apply (mahalanobis_R P u z cols Lz F2 F1)|]. destruct (Rltb (distance P u z) 0) eqn:El.
        - apply Rltb_iff in El. symmetry. apply Rmax_left. lra.
        - symmetry. apply Rmax_right. apply Rnot_lt_le. intros Zz. apply Rltb_iff in Zz. congruence. }
      rewrite M. rewrite He; [cbn; ring|]. cbn. lra. }
    apply G. intros c Ic. clear -Ic. revert Ic. generalize (Z.to_nat (morder g)). induction k as [|d k IH]; intros n Ic; destruct n; cbn in Ic; try contradiction. destruct Ic as [->|Ic]; [left; reflexivity|right; exact (IH n Ic)]. }
  eexists. split; [|reflexivity]. unfold gmm_predict. rewrite Sh.
  assert (Ln : (length (mmodel g) =? 0)%nat = false) by (destruct (mmodel g); [contradiction|reflexivity]). rewrite Ln. cbn [length Nat.eqb orb map].
  destruct (Nat.eqb_spec cols 0); [lia|]. rewrite Nat.eqb_refl. do 2 f_equal. f_equal; [|f_equal]; apply Z; try assumption; intros k c Ik Ic; destruct (Hk k c Ik Ic) as (H1 & H2 & H3 & H4); auto.
Qed.
Print Assumptions C168_gmm_underflow.

(** Changing the features by an invertible or any other affine map x -> A x + t, the means with
    them and the precisions so that the old ones are A^T P' A, changes no prediction. *)
Definition moved (n : nat) (A : nat -> nat -> R) (t x : list R) : list R := map (fun i => rsum n (fun j => A i j * nth j x 0) + nth i t 0) (seq 0 n).
Theorem C168_gmm_affine argsort (g h : gmm RO) n (A : nat -> nat -> R) (t : list R) (x : list (list R)) :
  morder g = morder h -> mshape g = Some n -> mshape h = Some n -> (0 < morder g)%Z -> Forall (fun r => length r = n) x ->
  Forall2 (Forall2 (fun c c' : component RO => snd c' = snd c /\ snd (fst c') = moved n A t (snd (fst c)) /\ length (fst (fst c)) = n /\ length (fst (fst c')) = n /\ length (snd (fst c)) = n /\
     forall i j, (i < n)%nat -> (j < n)%nat -> ent (fst (fst c)) i j = rsum n (fun a => rsum n (fun b => A a i * ent (fst (fst c')) a b * A b j)))) (mmodel g) (mmodel h) ->
  Forall (fun k => length k = Z.to_nat (morder g)) (mmodel g) ->
  snd (@gmm_predict RO exp argsort h (X2 n (map (moved n A t) x))) = snd (@gmm_predict RO exp argsort g (X2 n x)).
Proof.
  intros Eo Sg Sh Ho Fx F2 Fl.
  assert (Lm : forall z, length (moved n A t z) = n) by (intros z; unfold moved; rewrite map_length, seq_length; reflexivity).
  assert (Nm : forall z i, (i < n)%nat -> nth i (moved n A t z) 0 = rsum n (fun j => A i j * nth j z 0) + nth i t 0).
  { intros z i Hi. unfold moved. rewrite nth_map_lt with (d := 0%nat) by (rewrite seq_length; exact Hi). rewrite seq_nth by exact Hi. reflexivity. }
  assert (Dist : forall P P' u z, length z = n -> (forall i j, (i < n)%nat -> (j < n)%nat -> ent P i j = rsum n (fun a => rsum n (fun b => A a i * ent P' a b * A b j))) ->
     distance P' (moved n A t u) (moved n A t z) = distance P u z).
  { intros P P' u z Lz Hp. unfold distance. rewrite Lm, Lz. set (d := fun i => nth i z 0 - nth i u 0).
    assert (Dm : forall i, (i < n)%nat -> nth i (moved n A t z) 0 - nth i (moved n A t u) 0 = mulv n A d i).
    { intros i Hi. rewrite !Nm by exact Hi. unfold mulv, d. 
      transitivity (rsum n (fun j => A i j * nth j z 0) - rsum n (fun j => A i j * nth j u 0)); [ring|]. rewrite <- rsum_sub. apply rsum_ext. intros; ring. }
    transitivity (rsum n (fun a => mulv n A d a * mulv n (ent P') (mulv n A d) a)).
    { unfold quad, inner. apply rsum_ext. intros a Ha. rewrite Dm by exact Ha. f_equal. unfold mulv at 1 3. apply rsum_ext. intros b Hb. rewrite Dm by exact Hb. reflexivity. }
    change (inner n (mulv n A d) (mulv n (ent P') (mulv n A d)) = quad n (ent P) d). rewrite inner_trans. unfold quad, inner. apply rsum_ext. intros i Hi. f_equal.
    transitivity (rsum n (fun a => rsum n (fun b => rsum n (fun j => A a i * (ent P' a b * (A b j * d j)))))).
    { unfold mulv, trans. apply rsum_ext. intros a _. rewrite <- rsum_scal. apply rsum_ext. intros b _. rewrite !rsum_scal. reflexivity. }
    symmetry. transitivity (rsum n (fun j => rsum n (fun a => rsum n (fun b => A a i * (ent P' a b * (A b j * d j)))))).
    { unfold mulv. apply rsum_ext. intros j Hj. rewrite Hp by assumption. rewrite <- rsum_scal_r. apply rsum_ext. intros a _. rewrite <- rsum_scal_r. apply rsum_ext. intros b _. ring. }
    rewrite rsum_swap. apply rsum_ext. intros a _. apply rsum_swap. }
  assert (Score : forall k k' z, length z = n -> length k = Z.to_nat (morder g) ->
     Forall2 (fun c c' : component RO => snd c' = snd c /\ snd (fst c') = moved n A t (snd (fst c)) /\ length (fst (fst c)) = n /\ length (fst (fst c')) = n /\ length (snd (fst c)) = n /\
     forall i j, (i < n)%nat -> (j < n)%nat -> ent (fst (fst c)) i j = rsum n (fun a => rsum n (fun b => A a i * ent (fst (fst c')) a b * A b j))) k k' ->
     @gmm_score RO exp (morder h) k' (moved n A t z) = @gmm_score RO exp (morder g) k z).
  { intros k k' z Lz Lk Fk. rewrite <- Eo. assert (Lk' : length k' = length k) by (clear -Fk; induction Fk; cbn; congruence).
    etransitivity; [apply (gmm_score_R (morder g) k' (moved n A t z) n); [lia|apply Lm|]|].
    - clear -Fk Lm. induction Fk as [|c c' k k' (_ & H2 & _ & H4 & _) Fk IH]; constructor; [|exact IH]. split; [exact H4|]. rewrite H2. apply Lm.
    - symmetry. etransitivity; [apply (gmm_score_R (morder g) k z n); [lia|exact Lz|]|].
      + clear -Fk. induction Fk as [|c c' k k' (_ & _ & H3 & _ & H5 & _) Fk IH]; constructor; [|exact IH]. split; [exact H3|exact H5].
      + unfold mixture. apply rsum_ext. intros i Hi. cbn zeta.
        assert (Hn : (i < length k)%nat) by lia.
        assert (R : forall (l l' : list (component RO)) (Q : component RO -> component RO -> Prop) d, Forall2 Q l l' -> forall i, (i < length l)%nat -> Q (nth i l d) (nth i l' d)).
        { clear. intros l l' Q d H. induction H as [|c c' l l' H0 H IH]; intros i Hi; [cbn in Hi; lia|]. destruct i as [|i]; [exact H0|]. apply IH. cbn in Hi. lia. }
        pose proof (R k k' _ ([], [], 0) Fk i Hn) as (H1 & H2 & _ & _ & _ & H6). cbn beta in H1, H2, H6.
        set (c := nth i k ([], [], 0)) in *. set (c' := nth i k' ([], [], 0)) in *.
        rewrite <- (Dist (fst (fst c)) (fst (fst c')) (snd (fst c)) z Lz H6).
        change (snd c * exp (- (1 / 2) * Rmax 0 (distance (fst (fst c')) (moved n A t (snd (fst c))) (moved n A t z))) =
                snd c' * exp (- (1 / 2) * Rmax 0 (distance (fst (fst c')) (snd (fst c')) (moved n A t z)))).
        rewrite <- H2. f_equal. symmetry. exact H1. }
  assert (Row : forall z, length z = n -> @gmm_row RO exp argsort h (moved n A t z) = @gmm_row RO exp argsort g z).
  { intros z Lz. unfold gmm_row. do 2 f_equal. clear -F2 Fl Score Lz. induction F2 as [|k k' m m' Fk F2 IH]; [reflexivity|]. cbn [map]. pose proof (Forall_inv Fl) as Lk. pose proof (Forall_inv_tail Fl) as Fl'. cbn beta in Lk.
    f_equal; [apply Score; [exact Lz|exact Lk|exact Fk]|apply IH; exact Fl']. }
  assert (Rows : map (@gmm_row RO exp argsort h) (map (moved n A t) x) = map (@gmm_row RO exp argsort g) x).
  { rewrite map_map. apply map_ext_in. intros z Iz. apply Row. rewrite Forall_forall in Fx. apply Fx, Iz. }
  unfold gmm_predict. cbn [snd]. rewrite Sg, Sh. assert (Lg : length (mmodel h) = length (mmodel g)) by (clear -F2; induction F2; cbn; congruence). rewrite Lg.
  destruct (length (mmodel g) =? 0)%nat; [reflexivity|]. destruct x as [|z x]; [reflexivity|]. cbn [length map Nat.eqb orb]. destruct (n =? 0)%nat; [reflexivity|].
  destruct (n =? n)%nat; [|reflexivity]. f_equal. exact Rows.
Qed.
Print Assumptions C168_gmm_affine.

(** ** Examples *)
(** Class 1 holds the rows of class 0 twice: it is predicted for [5, 7] and for [1/10, 0] alike. *)
Example C168_gauss_example : let z := [[1; 0]; [-1; 0]; [0; 1]; [0; -1]] in let g : gauss RO := mkGauss [] (1 / 10) None in
  exists g' v, gauss_fit inv_schur g (X2 2 (z ++ z ++ z)) (YInt [0; 0; 0; 0; 1; 1; 1; 1; 1; 1; 1; 1]%Z) = (g', Ok tt) /\
    gauss_predict isort g' (X2 2 [[5; 7]; [1 / 10; 0]]) = (g', Ok v) /\ before 1 0 (nth 0 v []) /\ before 1 0 (nth 1 v []).
Proof.
  intros z g. set (labels := [0; 0; 0; 0; 1; 1; 1; 1; 1; 1; 1; 1]%Z). set (rows := z ++ z ++ z).
  assert (m : forall j, (j < 2)%nat -> cmean 0 rows labels j = 0).
  { intros j Hj. destruct j as [|[|j]]; [| |lia]; unfold cmean, size, total; cbn; field. }
  destruct (C168_gauss_more_samples inv_schur isort g 2 rows labels [0; 1]%Z 0 1 2 [[5; 7]; [1 / 10; 0]]) as (g' & v & E & Ev & Lv & H).
  - apply inv_schur_inverts.
  - apply isort_RO.
  - unfold training, rows, labels, z. repeat split; [lia|discriminate|repeat constructor].
  - apply (sorted_set_ok labels).
  - cbn. lra.
  - discriminate.
  - repeat constructor.
  - cbn; lia.
  - cbn; lia.
  - lra.
  - intros f. unfold total, rows, labels, z. cbn. ring.
  - intros v [i [Hi Nz]]. cbn [nth]. unfold spread. cbn [rsum]. rewrite !m by lia. unfold total, rows, labels, z. cbn.
    assert (0 <= v 0%nat * v 0%nat) by nra. assert (0 <= v 1%nat * v 1%nat) by nra.
    destruct i as [|[|i]]; [| |lia]; [assert (0 < v 0%nat * v 0%nat) by nra|assert (0 < v 1%nat * v 1%nat) by nra]; nra.
  - exists g', v. split; [exact E|]. split; [exact Ev|]. assert (Mz : map (cmean (nth 0 [0; 1]%Z 0%Z) rows labels) (seq 0 2) = [0; 0]) by (cbn [nth seq map]; rewrite !m by lia; reflexivity).
    rewrite Mz in H. split; [apply (H 0%nat ltac:(cbn; lia))|apply (H 1%nat ltac:(cbn; lia))]; cbn [nth]; intros F; injection F; lra.
Qed.
(** Two mixtures of two components of one feature, all of unit precision, compare as their densities. *)
Example C168_density_example : let k : list (component RO) := [([[1]], [0], 1 / 2); ([[1]], [1], 1 / 2)] in let k' : list (component RO) := [([[1]], [2], 1 / 4); ([[1]], [3], 3 / 4)] in forall x,
  @gmm_score RO exp 2 k [x] < @gmm_score RO exp 2 k' [x] <-> likelihood (fun P => ent P 0 0) 1 2 k [x] < likelihood (fun P => ent P 0 0) 1 2 k' [x].
Proof.
  intros k k' x. apply (C168_gmm_density (fun P => ent P 0 0) 1 2 k k' [x] 1 1); try reflexivity; [lra|repeat constructor|].
  intros c [<-|[<-|[<-|[<-|[]]]]]; cbn; lra.
Qed.
(** With the exponential zero below -745 the rows 100 and -100 rank alike, although the second class
    is much closer to the second row. *)
Example C168_underflow_example : let f := fun t => if Rleb t (-745) then 0 else exp t in
  let g : gmm RO := mkGmm (O := RO) [[([[1]], [0], 1)]; [([[1]], [-50], 1)]] 1 100 (1 / 10) (Some 1%nat) in
  exists row, @gmm_predict RO f isort g (X2 1 [[100]; [-100]]) = (g, Ok [row; row]).
Proof.
  intros f g. destruct (C168_gmm_underflow f isort 745 g 1 [100] [-100]) as (row & E & _); try reflexivity; [|lia|discriminate| |exists row; exact E].
  - intros t Ht. unfold f. destruct (Rleb t (-745)) eqn:F; [reflexivity|]. apply Bool.not_true_iff_false in F. exfalso. apply F, Rleb_iff. lra.
  - intros k c [<-|[<-|[]]] [<-|[]]; (split; [reflexivity|]; split; [reflexivity|]); cbn [fst snd]; unfold distance, quad, inner, mulv, ent; cbn [length rsum nth]; rewrite !Rmax_right by lra; lra.
Qed.
(** Degrees to another scale: 2 x + 3. *)
Example C168_affine_example : let g : gmm RO := mkGmm (O := RO) [[([[4]], [0], 1)]; [([[8]], [1], 1)]] 1 100 (1 / 10) (Some 1%nat) in
  let h : gmm RO := mkGmm (O := RO) [[([[1]], moved 1 (fun _ _ => 2) [3] [0], 1)]; [([[2]], moved 1 (fun _ _ => 2) [3] [1], 1)]] 1 100 (1 / 10) (Some 1%nat) in
  moved 1 (fun _ _ => 2) [3] [1] = [5] /\
  snd (@gmm_predict RO exp isort h (X2 1 (map (moved 1 (fun _ _ => 2) [3]) [[1 / 3]; [7]]))) = snd (@gmm_predict RO exp isort g (X2 1 [[1 / 3]; [7]])).
Proof.
  intros g h. split; [unfold moved; cbn; f_equal; lra|]. apply (C168_gmm_affine isort g h 1 (fun _ _ => 2) [3]); try reflexivity; [repeat constructor| |repeat constructor].
  cbn [mmodel g h]. constructor; [|constructor; [|constructor]]; (constructor; [|constructor]).
  all: do 5 (split; [reflexivity|]); intros i j Hi Hj; destruct i; [|lia]; destruct j; [|lia]; unfold ent; cbn; lra.
Qed.
