(** Properties C81, C83, C84, C87 and C114: GaussianModel in exact arithmetic. *)
From Coq Require Import List Arith ZArith Bool Permutation Sorting Reals Lra Lia.
From Verif Require Import Base BaseLemmas Instances Sums LinAlg RankModel RankProps GaussModel GaussProps.
Import ListNotations.
Set Asymmetric Patterns.
Open Scope R_scope.

(** The regularised covariance of a class with scatter S, as the code divides it: by the
    number of features. *)
Definition cov_list (cols : nat) (r : R) (S : nat -> nat -> R) : list (list R) :=
  map (fun i => map (fun j => S i j / INR cols + r * delta i j) (seq 0 cols)) (seq 0 cols).

(** ** Sums over the rows of a class *)
Definition lsum {X} (f : X -> R) (l : list X) : R := fold_right (fun a s => f a + s) 0 l.
Lemma lsum_select c (xs : list (list R)) ys f : lsum f (select c xs ys) = total c xs ys f.
Proof.
  unfold lsum, select, total. induction (combine xs ys) as [|p l IH]; [reflexivity|]. cbn [filter fold_right].
  destruct (snd p =? c)%Z; cbn [map fold_right]; rewrite IH; ring.
Qed.
Lemma sum_map_lsum {X} (f : X -> R) l : @Base.sum RA (map f l) = lsum f l.
Proof.
  pose proof (law_sum RA_laws (map f l)) as E. etransitivity; [exact E|]. rewrite map_length. etransitivity; [apply bigsum_rsum|].
  unfold lsum. induction l as [|a l IH]; [reflexivity|]. cbn [length]. rewrite rsum_S_l. cbn [map nth fold_right]. rewrite <- IH by (apply law_sum, RA_laws). reflexivity.
Qed.
Lemma dot_map_lsum {X} (f h : X -> R) l : @Base.dot RA (map f l) (map h l) = lsum (fun a => f a * h a) l.
Proof.
  pose proof (law_dot RA_laws (map f l) (map h l) ltac:(rewrite !map_length; reflexivity)) as E. etransitivity; [exact E|]. rewrite map_length. etransitivity; [apply bigsum_rsum|]. clear E.
  unfold lsum. induction l as [|a l IH]; [reflexivity|]. cbn [length]. rewrite rsum_S_l. cbn [map nth fold_right]. rewrite <- IH. reflexivity.
Qed.
Lemma count_INR n : @count RO n = INR n.
Proof.
  unfold count. pose proof (law_sum RA_laws (repeat 1 n)) as E. etransitivity; [exact E|]. rewrite repeat_length. etransitivity; [apply bigsum_rsum|].
  rewrite (rsum_ext n _ (fun _ => 1)) by (intros; apply nth_repeat_lt; assumption). rewrite rsum_const. apply Rmult_1_r.
Qed.
Lemma lsum_ext {X} (f h : X -> R) l : (forall a, In a l -> f a = h a) -> lsum f l = lsum h l.
Proof. induction l as [|a l IH]; intros H; [reflexivity|]. cbn. rewrite H by (left; reflexivity). f_equal. apply IH. intros; apply H; right; assumption. Qed.
Lemma lsum_one {X} (l : list X) : lsum (fun _ => 1) l = INR (length l).
Proof. induction l as [|a l IH]; [reflexivity|]. cbn [lsum fold_right length]. fold (lsum (fun _ : X => 1) l). rewrite IH, S_INR. ring. Qed.
Lemma lsum_scal {X} c (f : X -> R) l : lsum (fun a => c * f a) l = c * lsum f l.
Proof. induction l as [|a l IH]; cbn; [ring|]. fold (lsum (fun a => c * f a) l) (lsum f l). rewrite IH. ring. Qed.
Lemma lsum_add {X} (f h : X -> R) l : lsum (fun a => f a + h a) l = lsum f l + lsum h l.
Proof. induction l as [|a l IH]; cbn; [ring|]. fold (lsum (fun a => f a + h a) l) (lsum f l) (lsum h l). rewrite IH. ring. Qed.
Lemma lsum_rsum {X} n (F : nat -> X -> R) l : rsum n (fun i => lsum (F i) l) = lsum (fun a => rsum n (fun i => F i a)) l.
Proof.
  induction n as [|n IH]; cbn [rsum].
  - unfold lsum. induction l as [|a l IHl]; [reflexivity|]. cbn. rewrite <- IHl. ring.
  - rewrite IH, <- lsum_add. reflexivity.
Qed.
Lemma lsum_nonneg {X} (f : X -> R) l : (forall a, In a l -> 0 <= f a) -> 0 <= lsum f l.
Proof. induction l as [|a l IH]; intros H; cbn; [lra|]. fold (lsum f l). assert (0 <= f a) by (apply H; left; reflexivity). assert (0 <= lsum f l) by (apply IH; intros; apply H; right; assumption). lra. Qed.

Lemma select_in {A} c (xs : list (list A)) ys r : In r (select c xs ys) -> In r xs.
Proof.
  intros H. unfold select in H. apply in_map_iff in H. destruct H as [[a b] [<- H]]. apply filter_In in H. destruct H as [H _].
  apply in_combine_l in H. exact H.
Qed.
Lemma size_length c xs ys : size c xs ys = INR (length (select c xs ys)).
Proof. unfold size. rewrite <- lsum_select. apply lsum_one. Qed.
Lemma size_pos c xs ys : length ys = length xs -> In c ys -> 0 < size c xs ys.
Proof.
  intros L H. rewrite size_length. apply lt_0_INR. destruct (In_nth _ _ 0%Z H) as [k [Hk E]].
  assert (I : In (nth k xs []) (select c xs ys)).
  { unfold select. apply in_map_iff. exists (nth k xs [], nth k ys 0%Z). split; [reflexivity|]. apply filter_In. split.
    - rewrite <- combine_nth by (symmetry; exact L). apply nth_In. rewrite combine_length. lia.
    - cbn. rewrite E. apply Z.eqb_refl. }
  destruct (select c xs ys); [destruct I|cbn; lia].
Qed.
Lemma total_eq c xs ys f : total c xs ys f = lsum f (select c xs ys).
Proof. symmetry. apply lsum_select. Qed.

Lemma mean0_R c cols rows labels : @mean0 RO cols (select c rows labels) = map (cmean c rows labels) (seq 0 cols).
Proof.
  unfold mean0. apply map_ext. intros j. unfold cmean. rewrite size_length. apply (f_equal2 Rdiv); [|apply count_INR].
  rewrite <- lsum_select. unfold column. apply (sum_map_lsum (fun r : list R => nth j r 0)).
Qed.
Lemma column_centre (z : list (list R)) (u : list R) n i : (i < n)%nat -> length u = n -> Forall (fun r => length r = n) z ->
  @column RO (@centre RO z u) i = map (fun r => nth i r 0 - nth i u 0) z.
Proof.
  intros Hi Hu F. unfold column, centre. rewrite map_map. apply map_ext_in. intros r Hr. rewrite Forall_forall in F.
  rewrite nth_map2 with (dx := 0) (dy := 0) by (first [rewrite (F r Hr); exact Hi | rewrite Hu; exact Hi]). reflexivity.
Qed.
Lemma covariance_R c cols (r : R) (rows : list (list R)) labels : Forall (fun x => length x = cols) rows ->
  @covariance RO cols r (select c rows labels) (map (cmean c rows labels) (seq 0 cols)) = cov_list cols r (scatter c rows labels).
Proof.
  intros F. unfold covariance, cov_list. assert (Fs : Forall (fun x => length x = cols) (select c rows labels)).
  { rewrite Forall_forall in *. intros x Hx. apply F. exact (select_in _ _ _ _ Hx). }
  set (u := map (cmean c rows labels) (seq 0 cols)). assert (Lu : length u = cols) by (unfold u; rewrite map_length, seq_length; reflexivity).
  assert (Nu : forall i, (i < cols)%nat -> nth i u 0 = cmean c rows labels i).
  { intros i Hi. unfold u. rewrite nth_map_lt with (d := 0%nat) by (rewrite seq_length; exact Hi). rewrite seq_nth by exact Hi. reflexivity. }
  apply map_ext_in. intros i Hi. apply in_seq in Hi. apply map_ext_in. intros j Hj. apply in_seq in Hj.
  apply (f_equal2 Rplus); [apply (f_equal2 Rdiv); [|apply count_INR]|].
  - etransitivity; [apply (f_equal2 (@dot RO)); apply column_centre with (n := cols); try assumption; lia|].
    etransitivity; [apply dot_map_lsum|]. unfold scatter. rewrite total_eq. apply lsum_ext. intros a _. rewrite !Nu by lia. reflexivity.
  - reflexivity.
Qed.
Lemma class_fit_R (inv : list (list R) -> option (list (list R))) cols (r : R) (rows : list (list R)) labels c : training cols rows labels ->
  class_fit RO inv cols rows labels r c =
  match inv (cov_list cols r (scatter c rows labels)) with None => None | Some P => Some (P, map (cmean c rows labels) (seq 0 cols)) end.
Proof. intros (_ & _ & _ & F). unfold class_fit. rewrite mean0_R, covariance_R by exact F. reflexivity. Qed.

(** C84.  What fit learns for each class. *)
Theorem C84_gauss_fit inv (g g' : gauss RO) cols rows labels cs : training cols rows labels -> classes_of labels cs ->
  gauss_fit inv g (X2 cols rows) (YInt labels) = (g', Ok tt) ->
  (length (gmodel g') = length cs)%nat /\
  forall p, (p < length cs)%nat -> let c := nth p cs 0%Z in
    exists P, nth p (gmodel g') ([], []) = (P, map (cmean c rows labels) (seq 0 cols)) /\
      inv (cov_list cols (gregularize g) (scatter c rows labels)) = Some P.
Proof.
  intros T Hc E. destruct (C85_gauss_midway _ _ _ _ _ _ _ _ _ T Hc E) as (_ & _ & k & Hk & Lm & Hm & D).
  destruct D as [[_ ->]|[F _]]; [|discriminate]. split; [exact Lm|]. intros p Hp c. specialize (Hm p Hp). fold c in Hm.
  rewrite class_fit_R in Hm by exact T. destruct (inv _) as [P|] eqn:Ei; [|discriminate]. exists P. split; [|reflexivity].
  exact (f_equal (fun o => match o with Some a => a | None => ([], []) end) (eq_sym Hm)).
Qed.
Print Assumptions C84_gauss_fit.
Lemma cov_list_dims cols r S : length (cov_list cols r S) = cols /\ Forall (fun x => length x = cols) (cov_list cols r S).
Proof.
  unfold cov_list. rewrite map_length, seq_length. split; [reflexivity|]. apply Forall_forall. intros x Hx. apply in_map_iff in Hx. destruct Hx as [i [<- _]].
  rewrite map_length, seq_length. reflexivity.
Qed.
Lemma cov_list_ent cols r S i j : (i < cols)%nat -> (j < cols)%nat -> ent (cov_list cols r S) i j = S i j / INR cols + r * delta i j.
Proof.
  intros Hi Hj. unfold ent, cov_list. rewrite nth_map_lt with (d := 0%nat) by (rewrite seq_length; exact Hi). rewrite seq_nth by exact Hi.
  rewrite nth_map_lt with (d := 0%nat) by (rewrite seq_length; exact Hj). rewrite seq_nth by exact Hj. reflexivity.
Qed.
(** The code's covariance against the maximum likelihood estimate. *)
Lemma not_ml c cols rows labels : training cols rows labels -> In c labels ->
  (forall i j, (i < cols)%nat -> (j < cols)%nat -> scatter c rows labels i j / INR cols = scatter c rows labels i j / size c rows labels) <->
  size c rows labels = INR cols \/ forall i j, (i < cols)%nat -> (j < cols)%nat -> scatter c rows labels i j = 0.
Proof.
  intros (Hc & _ & L & _) Hin. pose proof (size_pos c rows labels L Hin) as Ps. assert (Pc : 0 < INR cols) by (apply lt_0_INR; exact Hc).
  split.
  - intros H. destruct (Req_dec (size c rows labels) (INR cols)) as [E|Ne]; [left; exact E|]. right. intros i j Hi Hj. specialize (H i j Hi Hj).
    assert (K : scatter c rows labels i j * (size c rows labels - INR cols) = 0).
    { replace (scatter c rows labels i j * (size c rows labels - INR cols)) with
        ((scatter c rows labels i j / INR cols - scatter c rows labels i j / size c rows labels) * (INR cols * size c rows labels)) by (field; lra). rewrite H. ring. }
    apply Rmult_integral in K. destruct K as [K|K]; [exact K|]. exfalso. apply Ne. lra.
  - intros [E|Z] i j Hi Hj; [rewrite E; reflexivity|]. rewrite Z by assumption. unfold Rdiv. ring.
Qed.
Theorem C84_gauss_not_ml inv (g g' : gauss RO) cols rows labels cs p : training cols rows labels -> classes_of labels cs ->
  gauss_fit inv g (X2 cols rows) (YInt labels) = (g', Ok tt) -> (p < length cs)%nat -> let c := nth p cs 0%Z in
  exists M, inv M = Some (fst (nth p (gmodel g') ([], []))) /\ length M = cols /\ Forall (fun r => length r = cols) M /\
    ((forall i j, (i < cols)%nat -> (j < cols)%nat -> ent M i j = scatter c rows labels i j / size c rows labels + gregularize g * delta i j) <->
     size c rows labels = INR cols \/ forall i j, (i < cols)%nat -> (j < cols)%nat -> scatter c rows labels i j = 0).
Proof.
  intros T Hc E Hp c. destruct (C84_gauss_fit _ _ _ _ _ _ _ T Hc E) as [_ F]. destruct (F p Hp) as (P & E1 & E2). fold c in E1, E2.
  exists (cov_list cols (gregularize g) (scatter c rows labels)). rewrite E1. split; [exact E2|]. destruct (cov_list_dims cols (gregularize g) (scatter c rows labels)) as [D1 D2].
  split; [exact D1|]. split; [exact D2|]. rewrite <- (not_ml c cols rows labels T) by (apply (proj2 Hc), nth_In, Hp).
  split; intros H i j Hi Hj; specialize (H i j Hi Hj); [rewrite cov_list_ent in H by assumption|rewrite cov_list_ent by assumption];
    match type of H with @eq ?C ?a ?b => change (@eq R a b) in H end; lra.
Qed.
Print Assumptions C84_gauss_not_ml.
Lemma combine_app {X Y} (a a' : list X) (b b' : list Y) : length a = length b -> combine (a ++ a') (b ++ b') = combine a b ++ combine a' b'.
Proof. revert b. induction a as [|x a IH]; intros [|y b] H; try discriminate; [reflexivity|]. cbn. f_equal. apply IH. injection H as H. exact H. Qed.
Lemma total_dup c xs ys f : length ys = length xs -> total c (xs ++ xs) (ys ++ ys) f = 2 * total c xs ys f.
Proof.
  intros L. unfold total. rewrite combine_app by (symmetry; exact L). rewrite fold_right_app.
  set (l := combine xs ys). set (F := fun p s => _).
  assert (G : forall a, fold_right F a l = fold_right F 0 l + a).
  { induction l as [|p l IH]; intros a; cbn; [ring|]. rewrite IH. unfold F. ring. }
  rewrite G. ring.
Qed.
Lemma dup_scatter c rows labels : length labels = length rows -> In c labels ->
  (forall j, cmean c (rows ++ rows) (labels ++ labels) j = cmean c rows labels j) /\
  (forall i j, scatter c (rows ++ rows) (labels ++ labels) i j = 2 * scatter c rows labels i j).
Proof.
  intros L Hin. pose proof (size_pos c rows labels L Hin) as Ps.
  assert (M : forall j, cmean c (rows ++ rows) (labels ++ labels) j = cmean c rows labels j).
  { intros j. unfold cmean, size. rewrite !total_dup by exact L. fold (size c rows labels). field. lra. }
  split; [exact M|]. intros i j. unfold scatter. rewrite total_dup by exact L. f_equal. rewrite !total_eq. apply lsum_ext. intros a _. rewrite !M. reflexivity.
Qed.
Theorem C84_gauss_duplicate inv (g g1 g2 : gauss RO) cols rows labels cs p : training cols rows labels -> classes_of labels cs ->
  gauss_fit inv g (X2 cols rows) (YInt labels) = (g1, Ok tt) ->
  gauss_fit inv g (X2 cols (rows ++ rows)) (YInt (labels ++ labels)) = (g2, Ok tt) -> (p < length cs)%nat ->
  length (gmodel g2) = length (gmodel g1) /\
  snd (nth p (gmodel g2) ([], [])) = snd (nth p (gmodel g1) ([], [])) /\
  exists M1 M2, inv M1 = Some (fst (nth p (gmodel g1) ([], []))) /\ inv M2 = Some (fst (nth p (gmodel g2) ([], []))) /\
    length M1 = cols /\ length M2 = cols /\ Forall (fun r => length r = cols) M1 /\ Forall (fun r => length r = cols) M2 /\
    forall i j, (i < cols)%nat -> (j < cols)%nat -> ent M2 i j - gregularize g * delta i j = 2 * (ent M1 i j - gregularize g * delta i j).
Proof.
  intros T Hc E1 E2 Hp. pose proof T as (Hcols & Hr & L & F).
  assert (T2 : training cols (rows ++ rows) (labels ++ labels)).
  { split; [exact Hcols|]. split; [destruct rows; [contradiction|discriminate]|]. split; [rewrite !app_length; lia|]. apply Forall_app. auto. }
  assert (Hc2 : classes_of (labels ++ labels) cs) by (split; [apply Hc|]; intros c; rewrite in_app_iff, (proj2 Hc); intuition).
  destruct (C84_gauss_fit _ _ _ _ _ _ _ T Hc E1) as [L1 F1]. destruct (F1 p Hp) as (P1 & A1 & B1).
  destruct (C84_gauss_fit _ _ _ _ _ _ _ T2 Hc2 E2) as [L2 F2]. destruct (F2 p Hp) as (P2 & A2 & B2).
  set (c := nth p cs 0%Z) in *. destruct (dup_scatter c rows labels L ltac:(apply (proj2 Hc), nth_In, Hp)) as [Dm Ds].
  split; [congruence|]. rewrite A1, A2. cbn [fst snd]. split; [apply map_ext; exact Dm|].
  eexists. eexists. split; [exact B1|]. split; [exact B2|]. split; [apply cov_list_dims|]. split; [apply cov_list_dims|]. split; [apply cov_list_dims|]. split; [apply cov_list_dims|].
  intros i j Hi Hj. rewrite !cov_list_ent by assumption. rewrite Ds. unfold Rdiv. ring.
Qed.
Print Assumptions C84_gauss_duplicate.

(** C86.  The p-th component of the model is the class of the p-th smallest label; the
    predicted numbers are such positions, and equal to the labels only for labels 0..k-1. *)
Theorem C86_gauss_positions inv argsort (g g' : gauss RO) cols rows labels cs (x : list (list R)) v i : @is_argsort RO argsort ->
  training cols rows labels -> classes_of labels cs ->
  gauss_fit inv g (X2 cols rows) (YInt labels) = (g', Ok tt) -> gauss_predict argsort g' (X2 cols x) = (g', Ok v) -> (i < length x)%nat ->
  let row := nth i v [] in
  Permutation row (seq 0 (length cs)) /\
  (forall p, In p row -> snd (nth p (gmodel g') ([], [])) = map (cmean (nth p cs 0%Z) rows labels) (seq 0 cols)) /\
  ((forall p, In p row -> nth p cs 0%Z = Z.of_nat p) <-> (forall c, In c labels <-> (0 <= c < Z.of_nat (length cs))%Z)).
Proof.
  intros Ha T Hc E Ep Hi row. destruct (C84_gauss_fit _ _ _ _ _ _ _ T Hc E) as [Lm F].
  destruct (C81_gauss_ranking RO argsort g' cols x v Ha Ep) as [_ Q]. destruct (Q i Hi) as [P _]. fold row in P. rewrite Lm in P.
  assert (In' : forall p, In p row <-> (p < length cs)%nat).
  { intros p. split; intros H; [apply (Permutation_in _ P) in H; apply in_seq in H; lia|apply (Permutation_in _ (Permutation_sym P)), in_seq; lia]. }
  split; [exact P|]. split.
  - intros p Hp. destruct (F p (proj1 (In' p) Hp)) as (P' & -> & _). reflexivity.
  - rewrite <- (positions_are_labels labels cs Hc). split; intros H p Hp; apply H, In', Hp.
Qed.
Print Assumptions C86_gauss_positions.

(** C83.  Sample order. *)
Lemma fit_loop_ext {O : OArith} (inv : list (list O) -> option (list (list O))) cols cols' rows rows' labels labels' r cs : forall m,
  (forall c, In c cs -> class_fit O inv cols rows labels r c = class_fit O inv cols' rows' labels' r c) ->
  fit_loop inv cols rows labels r cs m = fit_loop inv cols' rows' labels' r cs m.
Proof.
  induction cs as [|c cs IH]; intros m H; [reflexivity|]. cbn [fit_loop]. pose proof (H c (or_introl eq_refl)) as E. unfold class_fit in E.
  destruct (inv (covariance cols _ _ _)) as [P|]; destruct (inv (covariance cols' _ _ _)) as [P'|]; try discriminate; [|reflexivity].
  injection E as -> ->. apply IH. intros; apply H; right; assumption.
Qed.
Lemma total_perm c xs ys xs' ys' f : Permutation (combine xs ys) (combine xs' ys') -> total c xs ys f = total c xs' ys' f.
Proof. intros P. unfold total. induction P; cbn; lra. Qed.
Lemma combine_snd {X Y} (a : list X) (b : list Y) : length b = length a -> map snd (combine a b) = b.
Proof. revert b. induction a as [|x a IH]; intros [|y b] H; try discriminate; [reflexivity|]. cbn. f_equal. apply IH. injection H as H. exact H. Qed.
Lemma combine_fst {X Y} (a : list X) (b : list Y) : length b = length a -> map fst (combine a b) = a.
Proof. revert b. induction a as [|x a IH]; intros [|y b] H; try discriminate; [reflexivity|]. cbn. f_equal. apply IH. injection H as H. exact H. Qed.
Theorem C83_gauss_sample_order inv (g : gauss RO) cols rows labels rows' labels' :
  training cols rows labels -> length labels' = length rows' -> Permutation (combine rows labels) (combine rows' labels') ->
  gauss_fit inv g (X2 cols rows) (YInt labels) = gauss_fit inv g (X2 cols rows') (YInt labels').
Proof.
  intros T L' P. pose proof T as (Hc & Hr & L & F).
  assert (Pr : Permutation rows rows') by (rewrite <- (combine_fst rows labels L), <- (combine_fst rows' labels' L'); apply Permutation_map, P).
  assert (Pl : Permutation labels labels') by (rewrite <- (combine_snd rows labels L), <- (combine_snd rows' labels' L'); apply Permutation_map, P).
  assert (T' : training cols rows' labels').
  { split; [exact Hc|]. split; [intros ->; apply Permutation_sym, Permutation_nil in Pr; contradiction|]. split; [exact L'|].
    rewrite Forall_forall in *. intros r H. apply F. apply (Permutation_in _ (Permutation_sym Pr)), H. }
  rewrite !fit_eval by assumption.
  assert (Es : sorted_set labels' = sorted_set labels).
  { apply sorted_unique; try apply sorted_set_ok. intros c. rewrite !(proj2 (sorted_set_ok _)). split; apply Permutation_in; [apply Permutation_sym|]; exact Pl. }
  rewrite Es. rewrite (fit_loop_ext inv cols cols rows rows' labels labels'); [reflexivity|].
  intros c _. rewrite !class_fit_R by assumption.
  assert (Em : forall j, cmean c rows labels j = cmean c rows' labels' j) by (intros j; unfold cmean, size; rewrite !(total_perm _ _ _ _ _ _ P); reflexivity).
  assert (Ec : cov_list cols (gregularize g) (scatter c rows labels) = cov_list cols (gregularize g) (scatter c rows' labels')).
  { unfold cov_list. apply map_ext. intros i. apply map_ext. intros j. do 2 f_equal. unfold scatter. rewrite (total_perm _ _ _ _ _ _ P), !total_eq. apply lsum_ext. intros a _. rewrite !Em. reflexivity. }
  rewrite Ec. destruct (inv _); [|reflexivity]. do 2 f_equal. apply map_ext. exact Em.
Qed.
Print Assumptions C83_gauss_sample_order.

(** C87. *)
Lemma cov_quad c cols r rows labels v : (0 < cols)%nat ->
  quad cols (ent (cov_list cols r (scatter c rows labels))) v =
  total c rows labels (fun x => (rsum cols (fun i => (nth i x 0 - cmean c rows labels i) * v i)) ^ 2) / INR cols + r * rsum cols (fun i => v i * v i).
Proof.
  intros Hc. assert (Pc : 0 < INR cols) by (apply lt_0_INR; exact Hc). unfold quad, inner, mulv.
  set (m := cmean c rows labels).
  rewrite (rsum_ext cols _ (fun i => / INR cols * lsum (fun x => (nth i x 0 - m i) * v i * rsum cols (fun j => (nth j x 0 - m j) * v j)) (select c rows labels) + r * (v i * v i))).
  - rewrite rsum_add, !rsum_scal, lsum_rsum. unfold Rdiv. rewrite total_eq. rewrite (Rmult_comm (/ INR cols)). f_equal. f_equal. apply lsum_ext. intros x _.
    rewrite rsum_scal_r. ring.
  - intros i Hi. rewrite (rsum_ext cols _ (fun j => / INR cols * (lsum (fun x => (nth i x 0 - m i) * ((nth j x 0 - m j) * v j)) (select c rows labels)) + r * (delta j i * v j))).
    + rewrite rsum_add, !rsum_scal, rsum_delta by exact Hi. rewrite lsum_rsum.
      transitivity (/ INR cols * (v i * lsum (fun a => rsum cols (fun j => (nth i a 0 - m i) * ((nth j a 0 - m j) * v j))) (select c rows labels)) + r * (v i * v i)); [ring|].
      f_equal. f_equal. rewrite <- lsum_scal. apply lsum_ext. intros x _. rewrite rsum_scal. ring.
    + intros j Hj. rewrite cov_list_ent by assumption. unfold scatter. rewrite total_eq. fold m.
      assert (E : lsum (fun x => (nth i x 0 - m i) * ((nth j x 0 - m j) * v j)) (select c rows labels) = v j * lsum (fun x => (nth i x 0 - m i) * (nth j x 0 - m j)) (select c rows labels)).
      { rewrite <- lsum_scal. apply lsum_ext. intros x _. ring. }
      rewrite E. assert (D : delta i j = delta j i) by (unfold delta; rewrite Nat.eqb_sym; reflexivity). rewrite D. field. lra.
Qed.
Lemma cov_pos_def c cols r rows labels : (0 < cols)%nat -> 0 < r -> pos_def cols (ent (cov_list cols r (scatter c rows labels))).
Proof.
  intros Hc Hr v [i [Hi Nz]]. rewrite cov_quad by exact Hc. assert (Pc : 0 < INR cols) by (apply lt_0_INR; exact Hc).
  assert (A : 0 <= total c rows labels (fun x => rsum cols (fun i => (nth i x 0 - cmean c rows labels i) * v i) ^ 2) / INR cols).
  { apply Rmult_le_pos; [|apply Rlt_le, Rinv_0_lt_compat, Pc]. rewrite total_eq. apply lsum_nonneg. intros; apply pow2_ge_0. }
  assert (B : 0 < rsum cols (fun i => v i * v i)).
  { assert (N : forall j, (j < cols)%nat -> 0 <= v j * v j) by (intros; nra).
    destruct (Rle_lt_or_eq_dec 0 (rsum cols (fun i => v i * v i)) (rsum_nonneg _ _ N)) as [P|E]; [exact P|].
    exfalso. pose proof (rsum_nonneg_zero _ _ N (eq_sym E) i Hi) as Z. cbn beta in Z. nra. }
  nra.
Qed.
(** The scatter divided by the feature count plus r times the identity is positive
    definite, and has an inverse. *)
Lemma cov_invertible c cols r rows labels : (0 < cols)%nat -> 0 < r ->
  let M := ent (cov_list cols r (scatter c rows labels)) in
  pos_def cols M /\ exists P, right_inverse cols M P /\ forall i j, (i < cols)%nat -> (j < cols)%nat -> rsum cols (fun k => P i k * M k j) = delta i j.
Proof.
  intros Hc Hr M. pose proof (cov_pos_def c cols r rows labels Hc Hr) as Pd. fold M in Pd. split; [exact Pd|]. exists (schur_inv cols M).
  pose proof (schur_inv_ok cols M Pd) as R. split; [exact R|]. apply pos_def_left; assumption.
Qed.
(** fit inverts positive definite, invertible matrices only: what inv does elsewhere makes
    no difference. *)
Theorem C87_gauss_invertible inv inv' (g : gauss RO) cols rows labels : training cols rows labels -> 0 < gregularize g ->
  (forall M, length M = cols -> Forall (fun r => length r = cols) M -> pos_def cols (ent M) ->
     (exists P, right_inverse cols (ent M) P /\ forall i j, (i < cols)%nat -> (j < cols)%nat -> rsum cols (fun k => P i k * ent M k j) = delta i j) ->
     inv M = inv' M) ->
  gauss_fit inv g (X2 cols rows) (YInt labels) = gauss_fit inv' g (X2 cols rows) (YInt labels).
Proof.
  intros T Hr Hi. rewrite !fit_eval by exact T. pose proof T as (Hc & _).
  assert (G : forall cs m, fit_loop inv cols rows labels (gregularize g) cs m = fit_loop inv' cols rows labels (gregularize g) cs m).
  { induction cs as [|c cs IH]; intros m; [reflexivity|]. cbn [fit_loop].
    destruct (cov_list_dims cols (gregularize g) (scatter c rows labels)) as [D1 D2].
    pose proof (cov_invertible c cols _ rows labels Hc Hr) as [Pd Iv]. specialize (Hi _ D1 D2 Pd Iv).
    pose proof (class_fit_R inv cols (gregularize g) rows labels c T) as E1. pose proof (class_fit_R inv' cols (gregularize g) rows labels c T) as E2.
    rewrite Hi in E1. rewrite <- E2 in E1. clear E2. unfold class_fit in E1.
    destruct (inv (covariance _ _ _ _)) as [P|]; destruct (inv' (covariance _ _ _ _)) as [P'|]; try discriminate; [|reflexivity].
    injection E1 as ->. apply IH. }
  rewrite G. reflexivity.
Qed.
Print Assumptions C87_gauss_invertible.

Lemma mahalanobis_R (P : list (list R)) (u x : list R) n : length x = n -> length u = n -> length P = n ->
  @mahalanobis RO (P, u) x = if Rltb (distance P u x) 0 then 0 else distance P u x.
Proof.
  intros Hx Hu HP. unfold mahalanobis. cbn [fst snd]. set (d := map2 Rminus x u). change (map2 (@sub RO) x u) with d. assert (Ld : length d = n) by (unfold d; rewrite length_map2; lia).
  assert (Nd : forall i, (i < n)%nat -> nth i d 0 = nth i x 0 - nth i u 0) by (intros i Hi; unfold d; rewrite nth_map2 with (dx := 0) (dy := 0) by lia; reflexivity).
  assert (E : @dot RO (map (fun j => @dot RO d (@column RO P j)) (seq 0 (length d))) d = distance P u x).
  { pose proof (law_dot RA_laws (map (fun j => @dot RO d (@column RO P j)) (seq 0 (length d))) d ltac:(rewrite map_length, seq_length; reflexivity)) as E1.
    etransitivity; [exact E1|]. rewrite map_length, seq_length, Ld. etransitivity; [apply bigsum_rsum|]. unfold distance, quad, inner, mulv. rewrite Hx.
    rewrite (rsum_ext n (fun i => (nth i x 0 - nth i u 0) * rsum n (fun j => ent P i j * (nth j x 0 - nth j u 0)))
               (fun i => rsum n (fun j => (nth i d 0 * ent P i j) * nth j d 0))).
    2:{ intros i Hi. rewrite <- rsum_scal. apply rsum_ext. intros j Hj. rewrite !Nd by assumption. ring. }
    rewrite rsum_swap. apply rsum_ext. intros j Hj. rewrite rsum_scal_r. change (@mul RA) with Rmult. f_equal.
    rewrite nth_map_lt with (d := 0%nat) by (rewrite seq_length; exact Hj). rewrite seq_nth by exact Hj. cbn [Nat.add].
    pose proof (law_dot RA_laws d (@column RO P j) ltac:(unfold column; rewrite map_length; transitivity n; [exact Ld|symmetry; exact HP])) as E2. etransitivity; [exact E2|].
    transitivity (rsum (length d) (fun i => nth i d 0 * nth i (@column RO P j) 0)); [apply bigsum_rsum|]. rewrite Ld. apply rsum_ext. intros i Hi. f_equal. unfold column.
    rewrite nth_map_lt with (d := []) by (eapply Nat.lt_le_trans; [exact Hi|apply Nat.eq_le_incl; symmetry; exact HP]). reflexivity. }
  match type of E with ?lhs = _ => change ((if Rltb lhs 0 then 0 else lhs) = if Rltb (distance P u x) 0 then 0 else distance P u x) end.
  rewrite E. reflexivity.
Qed.

(** Facts about a model fitted with positive regularisation. *)
Theorem C87_gauss_distances inv (g : gauss RO) cols (rows : list (list R)) labels cs : inverts inv cols -> training cols rows labels -> classes_of labels cs -> 0 < gregularize g ->
  exists g', gauss_fit inv g (X2 cols rows) (YInt labels) = (g', Ok tt) /\ length (gmodel g') = length cs /\
    forall p, (p < length cs)%nat -> let c := nth p cs 0%Z in
      exists P, nth p (gmodel g') ([], []) = (P, map (cmean c rows labels) (seq 0 cols)) /\
        right_inverse cols (ent (cov_list cols (gregularize g) (scatter c rows labels))) (ent P) /\
        forall x : list R, length x = cols -> let u := map (cmean c rows labels) (seq 0 cols) in
          @mahalanobis RO (P, u) x = distance P u x /\ 0 <= distance P u x /\ (distance P u x = 0 <-> x = u).
Proof.
  intros Hinv T Hcs Hr. pose proof T as (Hc & _ & L & F).
  destruct (gauss_fit inv g (X2 cols rows) (YInt labels)) as [g' e] eqn:E.
  assert (Good : forall c, exists P, inv (cov_list cols (gregularize g) (scatter c rows labels)) = Some P /\ length P = cols /\ Forall (fun r => length r = cols) P /\
             right_inverse cols (ent (cov_list cols (gregularize g) (scatter c rows labels))) (ent P)).
  { intros c. destruct (cov_list_dims cols (gregularize g) (scatter c rows labels)) as [D1 D2]. apply Hinv; [exact D1|exact D2|]. apply cov_pos_def; assumption. }
  assert (Ee : e = Ok tt).
  { destruct (C85_gauss_midway _ _ _ _ _ _ _ _ _ T Hcs E) as (_ & _ & k & Hk & _ & _ & D). destruct D as [[D _]|(_ & _ & D)]; [exact D|]. exfalso.
    rewrite class_fit_R in D by exact T. destruct (Good (nth k cs 0%Z)) as (P & EP & _). change (@carrier (oa RO)) with R in D. rewrite EP in D. discriminate. }
  subst e. exists g'. split; [reflexivity|]. destruct (C84_gauss_fit inv g g' cols rows labels cs T Hcs E) as [Lm Hm]. split; [exact Lm|].
  intros p Hp c. destruct (Hm p Hp) as (P & Em & Ei). fold c in Em, Ei. exists P. split; [exact Em|].
  destruct (Good c) as (P' & EP & LP & _ & R). assert (P' = P) by congruence. subst P'. split; [exact R|].
  intros x Hx u. assert (Lu : length u = cols) by (unfold u; rewrite map_length, seq_length; reflexivity).
  assert (Pd : pos_def cols (ent P)) by (apply (inverse_pos_def cols _ _ (cov_pos_def c cols (gregularize g) rows labels Hc Hr) R)).
  assert (Dz : (exists i, (i < cols)%nat /\ nth i x 0 - nth i u 0 <> 0) \/ x = u).
  { destruct (list_eq_dec Req_EM_T x u) as [Ex|Nx]; [right; exact Ex|left].
    assert (K : exists i, (i < length x)%nat /\ nth i x 0 <> nth i u 0).
    { clearbody u. clear -Nx Hx Lu. revert u Lu Nx. revert cols Hx. induction x as [|a x IH]; intros cols Hx [|b u] Lu Nx; cbn in *; try lia; [contradiction|].
      destruct (Req_EM_T a b) as [->|Ne]; [|exists 0%nat; split; [lia|exact Ne]].
      destruct (IH (length x) eq_refl u ltac:(lia)) as [i [Hi Ni]]; [intros ->; contradiction|]. exists (S i). split; [lia|exact Ni]. }
    destruct K as [i [Hi Ni]]. exists i. split; [lia|]. intros Z. apply Ni. lra. }
  assert (Nn : 0 <= distance P u x /\ (distance P u x = 0 <-> x = u)).
  { unfold distance. rewrite Hx. destruct Dz as [Nz|Ex].
    - assert (Q : 0 < quad cols (ent P) (fun i => nth i x 0 - nth i u 0)) by (apply Pd; exact Nz). split; [lra|]. split; [lra|].
      intros ->. destruct Nz as [i [_ Ni]]. lra.
    - rewrite Ex. assert (Z : quad cols (ent P) (fun i => nth i u 0 - nth i u 0) = 0) by (unfold quad, inner; apply rsum_zero; intros; ring).
      rewrite Z. split; [lra|]. split; reflexivity. }
  split; [|exact Nn]. etransitivity; [exact (mahalanobis_R P u x cols Hx Lu LP)|]. destruct Nn as [Nn _].
  destruct (Rltb (distance P u x) 0) eqn:El; [|reflexivity]. apply Rltb_iff in El. lra.
Qed.
Print Assumptions C87_gauss_distances.

(** C81.  With positive regularisation each predicted row lists the classes in order of
    non-decreasing distance. *)
Theorem C81_gauss_nearest inv argsort (g : gauss RO) cols (rows : list (list R)) labels cs (x : list (list R)) : inverts inv cols -> @is_argsort RO argsort ->
  training cols rows labels -> classes_of labels cs -> 0 < gregularize g -> x <> [] -> Forall (fun r => length r = cols) x ->
  exists g' v, gauss_fit inv g (X2 cols rows) (YInt labels) = (g', Ok tt) /\ gauss_predict argsort g' (X2 cols x) = (g', Ok v) /\
    length v = length x /\
    let dist := fun q r => distance (fst (nth q (gmodel g') ([], []))) (map (cmean (nth q cs 0%Z) rows labels) (seq 0 cols)) r in
    forall i, (i < length x)%nat -> Permutation (nth i v []) (seq 0 (length cs)) /\
      forall a b, (a < b < length cs)%nat -> dist (nth a (nth i v []) 0%nat) (nth i x []) <= dist (nth b (nth i v []) 0%nat) (nth i x []).
Proof.
  intros Hinv Ha T Hcs Hr Nx Fx. destruct (C87_gauss_distances inv g cols rows labels cs Hinv T Hcs Hr) as (g' & E & Lm & Hm).
  assert (Ncs : (0 < length cs)%nat).
  { destruct T as (_ & Nr & L & _). destruct labels as [|c0 labels]; [destruct rows; [contradiction|discriminate]|].
    destruct cs; [|cbn; lia]. exfalso. apply (proj2 Hcs c0). left. reflexivity. }
  assert (Nm : gmodel g' <> []) by (intros Z; rewrite Z in Lm; cbn in Lm; lia).
  destruct (C85_gauss_predict_after_failure _ _ _ _ _ _ _ _ _ x Ha T E Nm Nx) as (v & Ev & Lv & _). exists g', v. split; [exact E|]. split; [exact Ev|]. split; [exact Lv|].
  intros dist i Hi. destruct (C81_gauss_ranking _ _ _ _ _ _ Ha Ev) as [_ H]. destruct (H i Hi) as [P Q]. cbn zeta in P, Q. rewrite Lm in P, Q. split; [exact P|].
  intros a b Hab. specialize (Q a b Hab). set (row := nth i v []) in *.
  assert (In : forall c, (c < length cs)%nat -> (nth c row 0 < length cs)%nat).
  { intros c Hc. assert (I : In (nth c row 0%nat) row) by (apply nth_In; rewrite (Permutation_length P), seq_length; exact Hc). apply (Permutation_in _ P) in I. apply in_seq in I. lia. }
  assert (Lx : length (nth i x []) = cols) by (rewrite Forall_forall in Fx; apply Fx, nth_In; exact Hi).
  assert (Md : forall q, (q < length cs)%nat -> @mahalanobis RO (nth q (gmodel g') ([], [])) (nth i x []) = dist q (nth i x [])).
  { intros q Hq. destruct (Hm q Hq) as (Pq & Eq & _ & D). cbn zeta in D. destruct (D _ Lx) as [D1 _]. unfold dist. rewrite Eq. cbn [fst]. exact D1. }
  rewrite !Md in Q by (apply In; lia). apply Rnot_lt_le. intros Lt. apply Rltb_iff in Lt. change (Rltb (dist (nth b row 0%nat) (nth i x [])) (dist (nth a row 0%nat) (nth i x [])) = false) in Q. congruence.
Qed.
Print Assumptions C81_gauss_nearest.

(** C114.  The mean of a class is predicted to be in that class, if no other class has
    the same mean. *)
Theorem C114_gauss_own_mean inv argsort (g : gauss RO) cols (rows : list (list R)) labels cs p : inverts inv cols -> @is_argsort RO argsort ->
  training cols rows labels -> classes_of labels cs -> 0 < gregularize g -> (p < length cs)%nat ->
  let u := fun q => map (cmean (nth q cs 0%Z) rows labels) (seq 0 cols) in
  (forall q, (q < length cs)%nat -> u q = u p -> q = p) ->
  exists g' row, gauss_fit inv g (X2 cols rows) (YInt labels) = (g', Ok tt) /\ gauss_predict argsort g' (X2 cols [u p]) = (g', Ok [row]) /\ nth 0 row 0%nat = p.
Proof.
  intros Hinv Ha T Hcs Hr Hp u Dist. assert (Lu : forall q, length (u q) = cols) by (intros q; unfold u; rewrite map_length, seq_length; reflexivity).
  destruct (C81_gauss_nearest inv argsort g cols rows labels cs [u p] Hinv Ha T Hcs Hr ltac:(discriminate)) as (g' & v & E & Ev & Lv & Q); [repeat constructor; apply Lu|].
  destruct v as [|row [|? ?]]; try discriminate. exists g', row. split; [exact E|]. split; [exact Ev|].
  destruct (Q 0%nat ltac:(cbn; lia)) as [P S]. cbn [nth] in P, S.
  destruct (C87_gauss_distances inv g cols rows labels cs Hinv T Hcs Hr) as (g2 & E2 & Lm & Hm). assert (g2 = g') by congruence. subst g2.
  assert (B : forall c, (c < length cs)%nat -> (nth c row 0 < length cs)%nat).
  { intros c Hc. assert (I : In (nth c row 0%nat) row) by (apply nth_In; rewrite (Permutation_length P), seq_length; exact Hc). apply (Permutation_in _ P) in I. apply in_seq in I. lia. }
  assert (I : In p row) by (apply (Permutation_in _ (Permutation_sym P)), in_seq; lia).
  destruct (In_nth _ _ 0%nat I) as [k [Hk Ek]]. rewrite (Permutation_length P), seq_length in Hk.
  destruct (Nat.eq_dec k 0) as [->|K0]; [exact Ek|].
  specialize (S 0%nat k ltac:(lia)). rewrite Ek in S.
  assert (H0 : (nth 0 row 0 < length cs)%nat) by (apply B; lia).
  destruct (Hm _ H0) as (P0 & E0 & _ & D0). cbn zeta in D0. destruct (D0 (u p) (Lu p)) as (_ & N0 & Z0).
  destruct (Hm _ Hp) as (Pp & Ep & _ & Dp). cbn zeta in Dp. destruct (Dp (u p) (Lu p)) as (_ & _ & Zp).
  apply Dist; [exact H0|]. symmetry. apply Z0. apply Rle_antisym; [|exact N0].
  rewrite E0, Ep in S. cbn [fst] in S. rewrite (proj2 Zp eq_refl) in S. exact S.
Qed.
Print Assumptions C114_gauss_own_mean.

(** Shifting all the data by one vector changes no prediction. *)
Definition shift (t r : list R) : list R := map2 Rplus r t.
Lemma shift_length t r : length t = length r -> length (shift t r) = length r.
Proof. intros H. unfold shift. rewrite length_map2. lia. Qed.
Lemma shift_nth t r i : length t = length r -> (i < length r)%nat -> nth i (shift t r) 0 = nth i r 0 + nth i t 0.
Proof. intros H Hi. unfold shift. apply nth_map2; lia. Qed.
Lemma select_map {X Y : Type} (h : list X -> list Y) c xs ys : select c (map h xs) ys = map h (select c xs ys).
Proof.
  unfold select. revert ys. induction xs as [|x xs IH]; intros [|y ys]; try reflexivity. cbn [map combine filter fst snd].
  destruct (y =? c)%Z; cbn [map fst]; rewrite IH; reflexivity.
Qed.
Lemma lsum_map {X Y} (h : X -> Y) f l : lsum f (map h l) = lsum (fun a => f (h a)) l.
Proof. unfold lsum. induction l as [|a l IH]; [reflexivity|]. cbn. rewrite IH. reflexivity. Qed.
Theorem C114_gauss_translation inv argsort (g : gauss RO) cols (rows : list (list R)) labels t g' e (x : list (list R)) : training cols rows labels -> length t = cols ->
  gauss_fit inv g (X2 cols rows) (YInt labels) = (g', e) -> Forall (fun r => length r = cols) x ->
  exists h, gauss_fit inv g (X2 cols (map (shift t) rows)) (YInt labels) = (h, e) /\
    snd (gauss_predict argsort h (X2 cols (map (shift t) x))) = snd (gauss_predict argsort g' (X2 cols x)).
Proof.
  intros T Ht E Fx. pose proof T as (Hc & Nr & L & F).
  assert (Tt : training cols (map (shift t) rows) labels).
  { split; [exact Hc|]. split; [destruct rows; [contradiction|discriminate]|]. split; [rewrite map_length; exact L|].
    rewrite Forall_forall in *. intros r Hr. apply in_map_iff in Hr. destruct Hr as [r0 [<- H0]]. specialize (F r0 H0). rewrite shift_length; lia. }
  assert (Fs : forall c r, In r (select c rows labels) -> length r = cols) by (intros c r Hr; rewrite Forall_forall in F; apply F; exact (select_in _ _ _ _ Hr)).
  assert (Em : forall c, In c labels -> forall j, (j < cols)%nat -> cmean c (map (shift t) rows) labels j = cmean c rows labels j + nth j t 0).
  { intros c Hin j Hj. pose proof (size_pos c rows labels L Hin) as Ps. unfold cmean. assert (Es : size c (map (shift t) rows) labels = size c rows labels).
    { rewrite !size_length, select_map, map_length. reflexivity. }
    rewrite Es, !total_eq, select_map, lsum_map. rewrite (lsum_ext _ (fun r => nth j r 0 + nth j t 0 * 1)).
    - rewrite lsum_add, lsum_scal, lsum_one, <- size_length. field. lra.
    - intros r Hr. specialize (Fs c r Hr). rewrite shift_nth by lia. ring. }
  assert (Ec : forall c, In c labels -> cov_list cols (gregularize g) (scatter c (map (shift t) rows) labels) = cov_list cols (gregularize g) (scatter c rows labels)).
  { intros c Hin. unfold cov_list. apply map_ext_in. intros i Hi. apply map_ext_in. intros j Hj. apply in_seq in Hi. apply in_seq in Hj. do 2 f_equal.
    unfold scatter. rewrite !total_eq, select_map, lsum_map. apply lsum_ext. intros r Hr. specialize (Fs c r Hr). rewrite !shift_nth by lia. rewrite !Em by (try exact Hin; lia). ring. }
  assert (Loop : forall cs (m m' : list (list (list RO) * list RO)), (forall c, In c cs -> In c labels) -> m' = map (fun q => (fst q, shift t (snd q))) m ->
     fit_loop inv cols (map (shift t) rows) labels (gregularize g) cs m' =
     (map (fun q => (fst q, shift t (snd q))) (fst (fit_loop inv cols rows labels (gregularize g) cs m)), snd (fit_loop inv cols rows labels (gregularize g) cs m)) /\
     (Forall (fun q => length (snd q) = cols) m -> Forall (fun q => length (snd q) = cols) (fst (fit_loop inv cols rows labels (gregularize g) cs m)))).
  { induction cs as [|c cs IH]; intros m m' Hin Hm; [subst m'; split; [reflexivity|auto]|]. cbn [fit_loop].
    assert (Hcl : In c labels) by (apply Hin; left; reflexivity).
    rewrite !mean0_R. rewrite (covariance_R c cols _ rows labels F). rewrite (covariance_R c cols _ _ labels (proj2 (proj2 (proj2 Tt)))). rewrite (Ec c Hcl).
    change (@carrier (oa RO)) with R. destruct (inv (cov_list cols (gregularize g) (scatter c rows labels))) as [P|].
    2:{ subst m'. split; [reflexivity|auto]. }
    assert (Lu : length (map (cmean c rows labels) (seq 0 cols)) = cols) by (rewrite map_length, seq_length; reflexivity).
    destruct (IH (m ++ [(P, map (cmean c rows labels) (seq 0 cols))]) (m' ++ [(P, map (cmean c (map (shift t) rows) labels) (seq 0 cols))])) as [IH1 IH2].
    - intros; apply Hin; right; assumption.
    - subst m'. rewrite map_app. f_equal. cbn [map fst snd]. do 2 f_equal. apply nth_ext with (d := 0) (d' := 0); [rewrite shift_length, map_length, Lu by lia; apply seq_length|].
      intros j Hj. rewrite map_length, seq_length in Hj. rewrite shift_nth by lia. rewrite !nth_map_lt with (d := 0%nat) by (rewrite seq_length; exact Hj). rewrite !seq_nth by exact Hj. apply Em; assumption.
    - split; [exact IH1|]. intros Fm. apply IH2. apply Forall_app. split; [exact Fm|]. repeat constructor. exact Lu. }
  rewrite fit_eval in E by exact T. destruct (fit_loop _ _ rows _ _ _ _) as [m e'] eqn:El. injection E as <- <-.
  destruct (Loop (sorted_set labels) [] []) as [L1 L2]; [intros c; apply (proj2 (sorted_set_ok labels))|reflexivity|]. rewrite El in L1, L2. cbn [fst snd] in L1, L2.
  eexists. split; [rewrite fit_eval by exact Tt; rewrite L1; reflexivity|]. 
  destruct m as [|q0 m0] eqn:Em0; [reflexivity|]. destruct x as [|x0 xs] eqn:Ex0; [reflexivity|]. rewrite <- Em0, <- Ex0 in *.
  assert (Pe : forall (m : list (list (list RO) * list RO)) (x : list (list RO)), m <> [] -> x <> [] ->
            snd (gauss_predict argsort (mkGauss m (gregularize g) (Some cols)) (X2 cols x)) = Ok (map (predict_row argsort m) x)).
  { intros m1 x1 N1 N2. unfold gauss_predict. cbn [snd gmodel gshape]. destruct m1; [contradiction|]. destruct x1; [contradiction|]. destruct cols; [lia|].
    cbn [length Nat.eqb orb]. rewrite Nat.eqb_refl. reflexivity. }
  etransitivity; [apply Pe; rewrite ?Em0, ?Ex0; discriminate|]. etransitivity; [|symmetry; apply Pe; rewrite ?Em0, ?Ex0; discriminate]. f_equal. clear Em0 Ex0.
  rewrite map_map. apply map_ext_in. intros r Hr. unfold predict_row. f_equal. rewrite map_map. apply map_ext_in. intros q Hq.
  assert (Lq : length (snd q) = cols) by (assert (Fm := L2 (Forall_nil _)); rewrite Forall_forall in Fm; exact (Fm q Hq)).
  assert (Lr : length r = cols) by (rewrite Forall_forall in Fx; exact (Fx r Hr)).
  unfold mahalanobis. cbn [fst snd].
  assert (Ed : forall a b : list R, length a = cols -> length b = cols -> map2 Rminus (shift t a) (shift t b) = map2 Rminus a b).
  { intros a b La Lb. apply nth_ext with (d := 0) (d' := 0); [rewrite !length_map2, !shift_length by lia; reflexivity|]. intros i Hi. rewrite length_map2, !shift_length in Hi by lia.
    rewrite !nth_map2 with (dx := 0) (dy := 0) by (rewrite ?shift_length; lia). rewrite !shift_nth by lia. ring. }
  exact (f_equal (fun d : list RO => let w := map (fun j => @dot RO d (@column RO (fst q) j)) (seq 0 (length d)) in
                  if @oltb RO (@dot RO w d) zero then zero else @dot RO w d) (Ed r (snd q) Lr Lq)).
Qed.
Print Assumptions C114_gauss_translation.

(** An inverse meeting the contract, and data meeting the hypotheses. *)
Definition inv_schur (M : list (list R)) : option (list (list R)) :=
  let n := length M in Some (map (fun i => map (fun j => schur_inv n (ent M) i j) (seq 0 n)) (seq 0 n)).
Example inv_schur_inverts n : inverts inv_schur n.
Proof.
  intros M HM _ Pd. unfold inv_schur. rewrite HM. eexists. split; [reflexivity|]. rewrite map_length, seq_length. split; [reflexivity|]. split.
  - apply Forall_forall. intros r Hr. apply in_map_iff in Hr. destruct Hr as [i [<- _]]. rewrite map_length, seq_length. reflexivity.
  - intros i j Hi Hj. rewrite <- (schur_inv_ok n (ent M) Pd i j Hi Hj). apply rsum_ext. intros k Hk. f_equal. unfold ent at 1.
    rewrite nth_map_lt with (d := 0%nat) by (rewrite seq_length; exact Hk). rewrite seq_nth by exact Hk.
    rewrite nth_map_lt with (d := 0%nat) by (rewrite seq_length; exact Hj). rewrite seq_nth by exact Hj. reflexivity.
Qed.
Example C81_C87_example : inverts inv_schur 2 /\ @is_argsort RO (@isort RO) /\ training 2 [[1; 2]; [3; 5]; [7; 11]]%R [4; 9; 4]%Z /\
  classes_of [4; 9; 4]%Z [4; 9]%Z /\ 0 < 1 / 10 /\ exists g, @gauss_make RO (1 / 10) = Ok g /\ gregularize g = 1 / 10.
Proof.
  split; [apply inv_schur_inverts|]. split; [exact isort_RO|]. split; [unfold training; repeat split; [lia|discriminate|repeat constructor]|].
  split; [apply (sorted_set_ok [4; 9; 4]%Z)|]. split; [lra|]. exists (mkGauss [] (1 / 10) None).
  unfold gauss_make. split; [|reflexivity]. change (@oltb RO (1 / 10) zero) with (Rltb (1 / 10) 0).
  destruct (Rltb (1 / 10) 0) eqn:E; [apply Rltb_iff in E; lra|reflexivity].
Qed.
(** The means of the two classes are distinct, as C114_gauss_own_mean asks. *)
Example C114_example : let u := fun c => map (cmean c [[1; 2]; [3; 5]; [7; 11]] [4; 9; 4]%Z) (seq 0 2) in u 4%Z <> u 9%Z.
Proof. cbn. unfold cmean, size, total. cbn. intros E. injection E as E _. lra. Qed.
