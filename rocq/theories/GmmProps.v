(** Properties C88, C89 and C115: GaussianMixtureModel. *)
From Coq Require Import List Arith ZArith Bool Permutation Sorting Reals Lra Lia.
From Verif Require Import Base BaseLemmas Instances Sums LinAlg RankModel RankProps GaussModel GaussProps GaussExactProps GmmModel.
Import ListNotations.
Set Asymmetric Patterns.

Local Open Scope nat_scope.
Section AnyArith.
  Context (O : OArith).
  Variable sk_fit : Z -> Z -> O -> list (list O) -> res (list (component O)).
  Variable expf : O -> O.
  Variable argsort : list O -> list nat.
  Implicit Types (g : gmm O).

  (** C89. *)
  Theorem C89_gmm_validation g x y :
    (match x with XRank _ => True | X2 cols rows => rows = [] \/ cols = 0 \/
       match y with YInt l => length l <> length rows | YIntHigh n => n <> length rows | YOther _ | YScalar => True end end) ->
    exists e, gmm_fit sk_fit g x y = (g, Err e).
  Proof.
    destruct x as [cols rows|n]; intros H; [|exists ValueError; reflexivity]. unfold gmm_fit.
    destruct (Nat.eqb_spec (length rows) 0) as [|Hr]; [eexists; reflexivity|]. destruct (Nat.eqb_spec cols 0) as [|Hc]; [eexists; reflexivity|]. cbn [orb].
    destruct H as [->|[H|H]]; [destruct Hr; reflexivity|contradiction|].
    destruct y as [l|n|n|]; cbn [ylen]; try (eexists; reflexivity).
    - destruct (Nat.eqb_spec (length l) (length rows)); [contradiction|]. eexists; reflexivity.
    - destruct (Nat.eqb_spec n (length rows)); [contradiction|]. eexists; reflexivity.
    - destruct (Nat.eqb_spec n (length rows)); eexists; reflexivity.
  Qed.

  Lemma gmm_loop_spec fit rows labels cs : forall m m' e,
    @gmm_loop O fit rows labels cs m = (m', e) ->
    exists k, k <= length cs /\ map (@Ok _) m' = map (@Ok _) m ++ map (fun c => fit (select c rows labels)) (firstn k cs) /\
      ((e = Ok tt /\ k = length cs) \/ exists c x, e = Err x /\ nth_error cs k = Some c /\ fit (select c rows labels) = Err x).
  Proof.
    induction cs as [|c cs IH]; intros m m' e E; cbn in E.
    - injection E as <- <-. exists 0. cbn. rewrite app_nil_r. split; [lia|]. split; [reflexivity|]. left. auto.
    - destruct (fit (select c rows labels)) as [i|x] eqn:Ei.
      + destruct (IH _ _ _ E) as (k & Hk & Em & D). exists (S k). cbn [length firstn map]. split; [lia|]. split.
        * rewrite Em, map_app, <- app_assoc. cbn. rewrite Ei. reflexivity.
        * destruct D as [[-> ->]|(c' & x & -> & Hc & F)]; [left; auto|]. right. exists c', x. auto.
      + injection E as <- <-. exists 0. cbn. rewrite app_nil_r. split; [lia|]. split; [reflexivity|]. right. exists c, x. auto.
  Qed.
  (** Each class is fitted, in increasing order of label, on its own rows with the
      order, index and regularisation of the object; a failure keeps the classes before it
      and the new shape. *)
  Theorem C89_gmm_midway g cols rows labels cs g' e : training cols rows labels -> classes_of labels cs ->
    gmm_fit sk_fit g (X2 cols rows) (YInt labels) = (g', e) ->
    mshape g' = Some cols /\ morder g' = morder g /\ mindex g' = mindex g /\ mregularize g' = mregularize g /\
    let learn := fun c => sk_fit (morder g) (mindex g) (mregularize g) (map fst (filter (fun p => (snd p =? c)%Z) (combine rows labels))) in
    exists k, k <= length cs /\ length (mmodel g') = k /\
      (forall p, p < k -> learn (nth p cs 0%Z) = Ok (nth p (mmodel g') [])) /\
      ((e = Ok tt /\ k = length cs) \/ (exists x, e = Err x /\ k < length cs /\ learn (nth k cs 0%Z) = Err x)).
  Proof.
    intros (Hc & Hr & Hl & _) Hcs E. rewrite (classes_unique _ _ _ Hcs (sorted_set_ok labels)).
    unfold gmm_fit in E. destruct rows as [|r0 rows]; [contradiction|]. set (rs := r0 :: rows) in *. destruct cols as [|cols]; [lia|].
    unfold ylen in E. rewrite Hl, Nat.eqb_refl in E. cbn [length rs Nat.eqb orb negb] in E.
    destruct (gmm_loop _ _ _ _ _) as [m e'] eqn:El. injection E as <- <-. cbn [mshape morder mindex mregularize mmodel].
    do 4 (split; [reflexivity|]).
    destruct (gmm_loop_spec _ _ _ _ _ _ _ El) as (k & Hk & Em & D). cbn in Em.
    assert (Lm : length m = k) by (apply (f_equal (@length _)) in Em; rewrite !map_length, firstn_length_le in Em by exact Hk; exact Em).
    exists k. split; [exact Hk|]. split; [exact Lm|]. split.
    - intros p Hp. transitivity (nth p (map (@Ok _) m) (Err OtherError)).
      + rewrite Em, nth_map_lt with (d := 0%Z) by (rewrite firstn_length_le; assumption). rewrite nth_firstn by exact Hp. reflexivity.
      + rewrite nth_map_lt with (d := []) by lia. reflexivity.
    - destruct D as [[-> ->]|(c & x & -> & Hn & F)]; [left; auto|]. right. exists x. split; [reflexivity|]. split; [apply nth_error_Some; congruence|].
      rewrite (nth_error_nth _ _ 0%Z Hn). exact F.
  Qed.

  (** The estimator refuses fewer rows than components, so a class with fewer rows than
      the order makes fit fail. *)
  Theorem C89_gmm_too_few g cols rows labels c : training cols rows labels -> In c labels ->
    (forall o i r z, (Z.of_nat (length z) < o)%Z -> is_ok (sk_fit o i r z) = false) ->
    (Z.of_nat (count_occ Z.eq_dec labels c) < morder g)%Z ->
    exists g' e, gmm_fit sk_fit g (X2 cols rows) (YInt labels) = (g', Err e) /\ length (mmodel g') < length (nodup Z.eq_dec labels).
  Proof.
    intros Ht Hc Hk Ho. destruct (gmm_fit sk_fit g (X2 cols rows) (YInt labels)) as [g' e] eqn:E. pose proof (sorted_set_ok labels) as Hs.
    destruct (C89_gmm_midway g cols rows labels _ g' e Ht Hs E) as (_ & _ & _ & _ & M). cbn zeta in M. destruct M as (k & Hk' & Lm & Hp & D).
    assert (Len : length (sorted_set labels) = length (nodup Z.eq_dec labels)).
    { apply Permutation_length. apply NoDup_Permutation.
      - destruct Hs as [Hs _]. clear -Hs. induction Hs as [|a l _ IH F]; constructor; [|exact IH]. intros I. rewrite Forall_forall in F. specialize (F a I). lia.
      - apply NoDup_nodup.
      - intros a. rewrite nodup_In. apply Hs. }
    destruct D as [[-> ->]|(x & -> & Hlt & _)]; [|exists g', x; split; [reflexivity|lia]]. exfalso.
    apply Hs in Hc. destruct (In_nth _ _ 0%Z Hc) as (p & Hp1 & Hp2). specialize (Hp p Hp1). rewrite Hp2 in Hp.
    assert (F : is_ok (sk_fit (morder g) (mindex g) (mregularize g) (map fst (filter (fun q => (snd q =? c)%Z) (combine rows labels)))) = false).
    { apply Hk. rewrite map_length. destruct Ht as (_ & _ & Hl & _).
      replace (length (filter (fun q => (snd q =? c)%Z) (combine rows labels))) with (count_occ Z.eq_dec labels c); [exact Ho|].
      clear -Hl. revert rows Hl. induction labels as [|a l IH]; intros [|r rows] Hl; try discriminate; [reflexivity|]. cbn in Hl |- *.
      destruct (Z.eq_dec a c) as [->|N]; [rewrite Z.eqb_refl; cbn; f_equal; apply IH; lia|].
      destruct (Z.eqb_spec a c); [contradiction|]. apply IH. lia. }
    rewrite Hp in F. discriminate.
  Qed.

  (** C88.  For every arithmetic: every class once, no later class scoring above an
      earlier one. *)
  Theorem C88_gmm_ranking g cols rows v : is_argsort argsort -> gmm_predict expf argsort g (X2 cols rows) = (g, Ok v) ->
    let k := length (mmodel g) in
    length v = length rows /\
    forall i, i < length rows -> let row := nth i v [] in
      let score := fun q => gmm_score expf (morder g) (nth q (mmodel g) []) (nth i rows []) in
      Permutation row (seq 0 k) /\
      forall a b, a < b < k -> oltb (score (nth a row 0)) (score (nth b row 0)) = false.
  Proof.
    intros Ha E k. unfold gmm_predict in E. assert (Ev : v = map (gmm_row expf argsort g) rows).
    { destruct (length (mmodel g) =? 0); [discriminate|]. destruct ((length rows =? 0) || (cols =? 0))%bool; [discriminate|].
      destruct (mshape g) as [c|]; [|discriminate]. destruct (c =? cols); [|discriminate]. congruence. }
    subst v. rewrite map_length. split; [reflexivity|]. intros i Hi row score. set (l := map (fun k => gmm_score expf (morder g) k (nth i rows [])) (mmodel g)).
    assert (Er : row = rev (argsort l)) by (unfold row; rewrite nth_map_lt with (d := []) by exact Hi; reflexivity).
    destruct (Ha l) as [P Q]. assert (Ll : length l = k) by (unfold l; apply map_length). rewrite Ll in P, Q.
    assert (La : length (argsort l) = k) by (rewrite (Permutation_length P); apply seq_length).
    split; [rewrite Er; etransitivity; [apply Permutation_sym, Permutation_rev|exact P]|].
    intros a b Hab. assert (In : forall c, c < k -> nth c (argsort l) 0 < k).
    { intros c Hc. assert (I : In (nth c (argsort l) 0) (argsort l)) by (apply nth_In; lia). apply (Permutation_in _ P) in I. apply in_seq in I. lia. }
    rewrite Er, !rev_nth by lia. rewrite La.
    assert (S : forall q, q < k -> score q = nth q l zero) by (intros q Hq; unfold l, score; rewrite nth_map_lt with (d := []) by exact Hq; reflexivity).
    rewrite !S by (apply In; lia). apply Q. lia.
  Qed.
  Theorem C88_gmm_predict_pure g x : fst (gmm_predict expf argsort g x) = g.
  Proof. reflexivity. Qed.
  Theorem C88_gmm_predict_rows g cols rows :
    mmodel g <> [] -> rows <> [] -> (0 < cols)%nat -> mshape g = Some cols ->
    exists f : list O -> list nat, (forall r, gmm_predict expf argsort g (X2 cols [r]) = (g, Ok [f r])) /\
      gmm_predict expf argsort g (X2 cols rows) = (g, Ok (map f rows)).
  Proof.
    intros Hm Hr Hc Hs. exists (gmm_row expf argsort g). unfold gmm_predict. rewrite Hs.
    destruct (mmodel g); [contradiction|]. destruct rows; [contradiction|]. destruct cols; [lia|]. cbn [length Nat.eqb orb]. rewrite Nat.eqb_refl. auto.
  Qed.
End AnyArith.
Print Assumptions C89_gmm_validation.
Print Assumptions C89_gmm_midway.
Print Assumptions C89_gmm_too_few.
Print Assumptions C88_gmm_ranking.
Print Assumptions C88_gmm_predict_pure.
Print Assumptions C88_gmm_predict_rows.

Local Open Scope R_scope.
(** The mixture density without its normalisation, clipped distances. *)
Definition mixture (order : nat) (k : list (component RO)) (x : list R) : R :=
  rsum order (fun i => let c := nth i k ([], [], 0) in snd c * exp (- (1 / 2) * Rmax 0 (distance (fst (fst c)) (snd (fst c)) x))).
Lemma gmm_score_R order k (x : list R) n : (Z.to_nat order <= length k)%nat -> length x = n ->
  Forall (fun c : component RO => length (fst (fst c)) = n /\ length (snd (fst c)) = n) k ->
  @gmm_score RO exp order k x = mixture (Z.to_nat order) k x.
Proof.
  intros Ho Hx F. unfold gmm_score, mixture.
  assert (G : forall m a, (m <= length k)%nat -> fold_left (fun acc (c : component RO) => @add RO acc (@mul RO (snd c) (exp (@mul RO (@opp RO (@div RO one (@add RO one one))) (@mahalanobis RO (fst c) x))))) (firstn m k) a =
     a + rsum m (fun i => snd (nth i k ([], [], 0)) * exp (- (1 / 2) * Rmax 0 (distance (fst (fst (nth i k ([], [], 0)))) (snd (fst (nth i k ([], [], 0)))) x)))).
  { clear Ho. induction m as [|m IH]; intros a Hm; [cbn; lra|].
    assert (E : firstn (S m) k = firstn m k ++ [nth m k ([], [], 0)]).
    { clear -Hm. revert m Hm. induction k as [|c k IH]; intros m Hm; cbn in Hm; [lia|]. destruct m as [|m]; [reflexivity|]. cbn [firstn nth app]. rewrite <- IH by lia. reflexivity. }
    rewrite E, fold_left_app. cbn [fold_left]. rewrite IH by lia. cbn [rsum]. rewrite <- Rplus_assoc. apply (f_equal2 Rplus); [reflexivity|]. apply (f_equal2 Rmult); [reflexivity|]. apply (f_equal exp).
    apply (f_equal2 Rmult); [cbn; lra|]. set (c := nth m k ([], [], 0)). assert (Hc : In c k) by (apply nth_In; lia). rewrite Forall_forall in F. destruct (F c Hc) as [F1 F2].
    destruct c as [[P u] w]. cbn [fst snd] in *. etransitivity; [apply (mahalanobis_R P u x n Hx F2 F1)|].
    destruct (Rltb (distance P u x) 0) eqn:El.
    - apply Rltb_iff in El. symmetry. apply Rmax_left. lra.
    - symmetry. apply Rmax_right. apply Rnot_lt_le. intros Z. apply Rltb_iff in Z. congruence. }
  rewrite G by exact Ho. apply Rplus_0_l.
Qed.
(** C88.  The scores are the unnormalised mixture densities, and lie in [0, 1]. *)
Theorem C88_gmm_score (order : Z) (k : list (component RO)) (x : list R) n : (0 < order)%Z -> length k = Z.to_nat order -> length x = n ->
  Forall (fun c : component RO => length (fst (fst c)) = n /\ length (snd (fst c)) = n) k ->
  @gmm_score RO exp order k x = mixture (Z.to_nat order) k x /\
  ((forall c, In c k -> 0 <= snd c) -> fold_right (fun c s => snd c + s) 0 k = 1 -> 0 <= @gmm_score RO exp order k x <= 1).
Proof.
  intros Ho Lk Hx F. assert (E : @gmm_score RO exp order k x = mixture (Z.to_nat order) k x) by (apply (gmm_score_R order k x n); [lia|assumption..]).
  split; [exact E|]. intros Hw Sw. match goal with |- 0 <= ?a <= 1 => change (0 <= (a : R) <= 1) end. rewrite E. unfold mixture.
  assert (B : forall r, 0 < exp (- (1 / 2) * Rmax 0 r) <= 1).
  { intros r. split; [apply exp_pos|]. apply Rle_trans with (exp 0); [|right; apply exp_0]. destruct (Rle_lt_or_eq_dec 0 (Rmax 0 r) (Rmax_l 0 r)) as [P|Z].
    - apply Rlt_le, exp_increasing. lra.
    - rewrite <- Z. right. f_equal. ring. }
  split.
  - apply rsum_nonneg. intros i Hi. cbn zeta. assert (W : 0 <= snd (nth i k ([], [], 0))) by (apply Hw, nth_In; lia).
    apply Rmult_le_pos; [exact W|]. apply Rlt_le, B.
  - apply Rle_trans with (rsum (Z.to_nat order) (fun i => snd (nth i k ([], [], 0)))).
    + apply rsum_le. intros i Hi. cbn zeta. assert (W : 0 <= snd (nth i k ([], [], 0))) by (apply Hw, nth_In; lia).
      rewrite <- (Rmult_1_r (snd (nth i k ([], [], 0)))) at 2. apply Rmult_le_compat_l; [exact W|]. apply B.
    + rewrite <- Lk. right. rewrite <- Sw. clear. induction k as [|c k IH]; [reflexivity|]. cbn [length]. rewrite rsum_S_l. cbn [nth fold_right]. rewrite IH. reflexivity.
Qed.
Print Assumptions C88_gmm_score.
Example C88_example : let k : list (component RO) := [([[2]], [1], 1 / 4); ([[3]], [5], 3 / 4)] in
  length k = Z.to_nat 2 /\ Forall (fun c : component RO => length (fst (fst c)) = 1%nat /\ length (snd (fst c)) = 1%nat) k /\
  (forall c, In c k -> 0 <= snd c) /\ fold_right (fun c s => snd c + s) 0 k = 1.
Proof.
  cbn zeta. split; [reflexivity|]. split; [repeat constructor|]. split; [|change (1 / 4 + (3 / 4 + 0) = 1); lra].
  intros c [<-|[<-|[]]]; [change (0 <= 1 / 4)|change (0 <= 3 / 4)]; lra.
Qed.
(** C115.  Constructor and setters keep order and index positive and regularize
    non-negative. *)
Theorem C115_gmm_parameters (order index : Z) (r : R) :
  ((0 < order)%Z /\ (0 < index)%Z /\ 0 <= r -> @gmm_make RO order index r = Ok (mkGmm [] order index r None)) /\
  (~ ((0 < order)%Z /\ (0 < index)%Z /\ 0 <= r) -> @gmm_make RO order index r = Err ValueError).
Proof.
  unfold gmm_make. change (@oltb RO r zero) with (Rltb r 0). assert (D : Rltb r 0 = true <-> r < 0) by apply Rltb_iff.
  destruct (Z.leb_spec order 0); [split; [intros; lia|reflexivity]|]. destruct (Z.leb_spec index 0); [split; [intros; lia|reflexivity]|].
  destruct (Rltb r 0).
  - split; [intros (_ & _ & H1); assert (r < 0) by (apply D; reflexivity); lra|reflexivity].
  - split; [reflexivity|]. intros N. exfalso. apply N. repeat split; try lia. apply Rnot_lt_le. intros Z. apply D in Z. discriminate.
Qed.
Print Assumptions C115_gmm_parameters.
Theorem C115_gmm_setters (g : gmm RO) (index : Z) (r : R) :

  ((0 < index)%Z -> gmm_set_index g index = (mkGmm (mmodel g) (morder g) index (mregularize g) (mshape g), Ok tt)) /\
  ((index <= 0)%Z -> gmm_set_index g index = (g, Err ValueError)) /\
  (0 <= r -> gmm_set_regularize g r = (mkGmm (mmodel g) (morder g) (mindex g) r (mshape g), Ok tt)) /\
  (r < 0 -> gmm_set_regularize g r = (g, Err ValueError)).
Proof.
  unfold gmm_set_index, gmm_set_regularize. change (@oltb RO r zero) with (Rltb r 0). assert (D : Rltb r 0 = true <-> r < 0) by apply Rltb_iff.
  split; [|split; [|split]].
  - intros H. destruct (Z.leb_spec index 0); [lia|reflexivity].
  - intros H. destruct (Z.leb_spec index 0); [reflexivity|lia].
  - intros H. destruct (Rltb r 0); [assert (r < 0) by (apply D; reflexivity); lra|reflexivity].
  - intros H. apply D in H. rewrite H. reflexivity.
Qed.
Print Assumptions C115_gmm_setters.
Theorem C115_gauss_parameters (g : gauss RO) (r : R) :
  (0 <= r -> @gauss_make RO r = Ok (mkGauss [] r None) /\ gauss_set_regularize g r = (mkGauss (gmodel g) r (gshape g), Ok tt)) /\
  (r < 0 -> @gauss_make RO r = Err ValueError /\ gauss_set_regularize g r = (g, Err ValueError)).
Proof.
  unfold gauss_make, gauss_set_regularize. change (@oltb RO r zero) with (Rltb r 0). assert (D : Rltb r 0 = true <-> r < 0) by apply Rltb_iff.
  split; intros H.
  - destruct (Rltb r 0); [assert (r < 0) by (apply D; reflexivity); lra|split; reflexivity].
  - apply D in H. rewrite H. split; reflexivity.
Qed.
Print Assumptions C115_gauss_parameters.

(** C116.  One component of weight one per class: the ranking is by Mahalanobis distance. *)
Theorem C116_gmm_single (P P' : list (list R)) (u u' x : list R) n : length x = n ->
  length P = n -> length u = n -> length P' = n -> length u' = n ->
  (@gmm_score RO exp 1 [(P, u, 1)] x < @gmm_score RO exp 1 [(P', u', 1)] x <->
   Rmax 0 (distance P' u' x) < Rmax 0 (distance P u x)).
Proof.
  intros Hx HP Hu HP' Hu'.
  assert (G : forall Q w, length Q = n -> length w = n -> @gmm_score RO exp 1 [(Q, w, 1)] x = exp (- (1 / 2) * Rmax 0 (distance Q w x))).
  { intros Q w HQ Hw. etransitivity; [apply (gmm_score_R 1 [(Q, w, 1)] x n); [cbn; lia|exact Hx|repeat constructor; assumption]|].
    unfold mixture. change (Z.to_nat 1) with 1%nat. cbn [rsum nth fst snd]. rewrite Rplus_0_l, Rmult_1_l. reflexivity. }
  assert (G1 := G P u HP Hu). assert (G2 := G P' u' HP' Hu').
  match type of G1 with ?a = _ => match type of G2 with ?b = _ => change ((a : R) < (b : R) <-> Rmax 0 (distance P' u' x) < Rmax 0 (distance P u x)) end end. rewrite G1, G2. clear.
  set (a := Rmax 0 _). set (b := Rmax 0 _). split; intros H.
  - apply exp_lt_inv in H. lra.
  - apply exp_increasing. lra.
Qed.
Print Assumptions C116_gmm_single.
Lemma ssorted_unique {A} (Rl : A -> A -> Prop) (As : forall a b, Rl a b -> Rl b a -> False) l : StronglySorted Rl l ->
  forall l', StronglySorted Rl l' -> Permutation l l' -> l = l'.
Proof.
  induction 1 as [|a l S IH F]; intros l' S' P; [apply Permutation_nil in P; congruence|].
  destruct S' as [|b l' S' F']; [symmetry in P; apply Permutation_nil in P; discriminate|].
  rewrite Forall_forall in F, F'. assert (E : a = b).
  { assert (Ia : In a (b :: l')) by (apply (Permutation_in _ P); left; reflexivity).
    assert (Ib : In b (a :: l)) by (apply (Permutation_in _ (Permutation_sym P)); left; reflexivity).
    destruct Ia as [Ia|Ia]; [congruence|]. destruct Ib as [Ib|Ib]; [congruence|]. exfalso. exact (As a b (F b Ib) (F' a Ia)). }
  subst b. f_equal. apply IH; [exact S'|]. apply Permutation_cons_inv in P. exact P.
Qed.
Lemma ssorted_nth {A} (Rl : A -> A -> Prop) d l : (forall a b, (a < b < length l)%nat -> Rl (nth a l d) (nth b l d)) -> StronglySorted Rl l.
Proof.
  induction l as [|x l IH]; intros H; constructor.
  - apply IH. intros a b Hab. apply (H (S a) (S b)). cbn. lia.
  - apply Forall_forall. intros y Hy. destruct (In_nth _ _ d Hy) as [n [Hn <-]]. apply (H 0%nat (S n)). cbn. lia.
Qed.
(** A mixture model with one component of weight one per class predicts what the Gaussian
    model with the same precisions and means predicts, as long as no two classes are at the
    same clipped distance. *)
Theorem C116_gmm_like_gauss argsort argsort' (g : gmm RO) (h : gauss RO) cols (rows : list (list R)) v w : @is_argsort RO argsort -> @is_argsort RO argsort' ->
  morder g = 1%Z -> mmodel g = map (fun pu => [(pu, 1)]) (gmodel h) ->
  Forall (fun pu => length (fst pu) = cols /\ length (snd pu) = cols) (gmodel h) -> Forall (fun r => length r = cols) rows ->
  @gmm_predict RO exp argsort g (X2 cols rows) = (g, Ok v) -> @gauss_predict RO argsort' h (X2 cols rows) = (h, Ok w) ->
  let far := fun q r => Rmax 0 (distance (fst (nth q (gmodel h) ([], []))) (snd (nth q (gmodel h) ([], []))) r) in
  (forall r, In r rows -> forall a b, (a < length (gmodel h))%nat -> (b < length (gmodel h))%nat -> a <> b -> far a r <> far b r) ->
  v = w.
Proof.
  intros Ha Ha' Ho Em Fm Fr Ev Ew far Nt. destruct (C88_gmm_ranking RO exp argsort g cols rows v Ha Ev) as [Lv Qv].
  destruct (C81_gauss_ranking RO argsort' h cols rows w Ha' Ew) as [Lw Qw].
  assert (Lk : length (mmodel g) = length (gmodel h)) by (rewrite Em; apply map_length). rewrite Lk in Qv.
  set (k := length (gmodel h)) in *. apply nth_ext with (d := []) (d' := []); [congruence|]. intros i Hi. rewrite Lv in Hi.
  destruct (Qv i Hi) as [Pv Sv]. destruct (Qw i Hi) as [Pw Sw]. cbn zeta in Sv. set (x := nth i rows []) in *.
  assert (Ix : In x rows) by (apply nth_In, Hi). assert (Lx : length x = cols) by (rewrite Forall_forall in Fr; apply Fr, Ix).
  assert (D : forall q, (q < k)%nat -> @mahalanobis RO (nth q (gmodel h) ([], [])) x = far q x).
  { intros q Hq. unfold far. rewrite Forall_forall in Fm. destruct (Fm (nth q (gmodel h) ([], [])) ltac:(apply nth_In, Hq)) as [A B].
    destruct (nth q (gmodel h) ([], [])) as [P u]. cbn [fst snd] in *. etransitivity; [apply (mahalanobis_R P u x cols Lx B A)|].
    destruct (Rltb (distance P u x) 0) eqn:El.
    - apply Rltb_iff in El. symmetry. apply Rmax_left. lra.
    - symmetry. apply Rmax_right. apply Rnot_lt_le. intros Z. apply Rltb_iff in Z. congruence. }
  assert (G : forall q, (q < k)%nat -> @gmm_score RO exp (morder g) (nth q (mmodel g) []) x = exp (- (1 / 2) * far q x)).
  { intros q Hq. rewrite Em, nth_map_lt with (d := ([], [])) by exact Hq. rewrite Ho. unfold far. rewrite Forall_forall in Fm. destruct (Fm (nth q (gmodel h) ([], [])) ltac:(apply nth_In, Hq)) as [A B].
    destruct (nth q (gmodel h) ([], [])) as [P u]. cbn [fst snd] in *.
    etransitivity; [apply (gmm_score_R 1 [(P, u, 1)] x cols); [cbn; lia|exact Lx|repeat constructor; assumption]|].
    unfold mixture. change (Z.to_nat 1) with 1%nat. cbn [rsum nth fst snd]. rewrite Rplus_0_l, Rmult_1_l. reflexivity. }
  assert (Nd : forall l, Permutation l (seq 0 k) -> length l = k /\ NoDup l /\ forall a, (a < k)%nat -> (nth a l 0 < k)%nat).
  { intros l P. assert (Ll : length l = k) by (rewrite (Permutation_length P); apply seq_length). split; [exact Ll|]. split.
    - apply (Permutation_NoDup (Permutation_sym P)), seq_NoDup.
    - intros a Hl. assert (I : In (nth a l 0%nat) l) by (apply nth_In; lia). apply (Permutation_in _ P), in_seq in I. lia. }
  destruct (Nd _ Pv) as (L1 & N1 & B1). destruct (Nd _ Pw) as (L2 & N2 & B2).
  apply (ssorted_unique (fun a b => far a x < far b x)); [intros; lra| | |etransitivity; [exact Pv|symmetry; exact Pw]].
  - apply ssorted_nth with (d := 0%nat). intros a b Hab. rewrite L1 in Hab. specialize (Sv a b Hab).
    set (qa := nth a (nth i v []) 0%nat) in *. set (qb := nth b (nth i v []) 0%nat) in *.
    assert (Hqa : (qa < k)%nat) by (apply B1; lia). assert (Hqb : (qb < k)%nat) by (apply B1; lia).
    assert (Ne : qa <> qb) by (intros E; apply (NoDup_nth (nth i v []) 0%nat) in E; [lia|exact N1|lia|lia]).
    pose proof (Nt x Ix qa qb Hqa Hqb Ne) as Nf.
    assert (Ge : ~ exp (- (1 / 2) * far qa x) < exp (- (1 / 2) * far qb x)).
    { intros Z. pose proof (proj2 (Rltb_iff _ _) Z) as Z'. rewrite <- (G qa Hqa), <- (G qb Hqb) in Z'.
      match type of Sv with ?b = false => assert (T : b = true) by exact Z' end. congruence. }
    destruct (Rtotal_order (far qa x) (far qb x)) as [L|[E|Gt]]; [exact L|contradiction|]. exfalso. apply Ge, exp_increasing. lra.
  - apply ssorted_nth with (d := 0%nat). intros a b Hab. rewrite L2 in Hab. specialize (Sw a b Hab).
    set (qa := nth a (nth i w []) 0%nat) in *. set (qb := nth b (nth i w []) 0%nat) in *.
    assert (Hqa : (qa < k)%nat) by (apply B2; lia). assert (Hqb : (qb < k)%nat) by (apply B2; lia).
    assert (Ne : qa <> qb) by (intros E; apply (NoDup_nth (nth i w []) 0%nat) in E; [lia|exact N2|lia|lia]).
    pose proof (Nt x Ix qa qb Hqa Hqb Ne) as Nf.
    assert (Ge : ~ far qb x < far qa x).
    { intros Z. pose proof (proj2 (Rltb_iff _ _) Z) as Z'. rewrite <- (D qa Hqa), <- (D qb Hqb) in Z'.
      match type of Sw with ?b = false => assert (T : b = true) by exact Z' end. congruence. }
    destruct (Rtotal_order (far qa x) (far qb x)) as [L|[E|Gt]]; [exact L|contradiction|]. contradiction.
Qed.
Print Assumptions C116_gmm_like_gauss.
(** Two classes at distances 4 and 1 from the row [2]. *)
Example C116_example : let h : gauss RO := mkGauss (O := RO) [([[1]], [0]); ([[1]], [3])] 0 (Some 1%nat) in
  let far := fun q r => Rmax 0 (distance (fst (nth q (gmodel h) ([], []))) (snd (nth q (gmodel h) ([], []))) r) in
  far 0%nat [2] = 4 /\ far 1%nat [2] = 1 /\ Forall (fun pu => length (fst pu) = 1%nat /\ length (snd pu) = 1%nat) (gmodel h).
Proof.
  cbn zeta. unfold distance, quad, inner, mulv, ent. cbn [rsum length nth fst snd gmodel]. split; [|split].
  - rewrite Rmax_right; lra.
  - rewrite Rmax_right; lra.
  - apply Forall_cons; [split; reflexivity|]. apply Forall_cons; [split; reflexivity|]. apply Forall_nil.
Qed.

(** A run: the second class has one row, two components are asked for. *)
Definition toy_fit (o i : Z) (r : Qcanon.Qc) (z : list (list Qcanon.Qc)) : res (list (component QO)) :=
  if (Z.of_nat (length z) <? o)%Z then Err ValueError else Ok (repeat ([[q 1 1]], [q 0 1], q 1 2) (Z.to_nat o)).
Example C89_example :
  let g := mkGmm (O := QO) [] 2 100 (q 1 10) None in
  let rows := [[q 1 1]; [q 2 1]; [q 7 1]] in
  training 1 rows [4; 4; 9]%Z /\ classes_of [4; 4; 9]%Z [4; 9]%Z /\
  (forall o i r z, (Z.of_nat (length z) < o)%Z -> is_ok (toy_fit o i r z) = false) /\
  (Z.of_nat (count_occ Z.eq_dec [4; 4; 9]%Z 9%Z) < morder g)%Z /\
  length (mmodel (fst (gmm_fit toy_fit g (X2 1 rows) (YInt [4; 4; 9]%Z)))) = 1%nat /\
  snd (gmm_fit toy_fit g (X2 1 rows) (YInt [4; 4; 9]%Z)) = Err ValueError.
Proof.
  cbn zeta. split; [unfold training; repeat split; [lia|discriminate|repeat constructor]|]. split; [apply (sorted_set_ok [4; 4; 9]%Z)|]. split.
  - intros o i r z H. unfold toy_fit. destruct (Z.ltb_spec (Z.of_nat (length z)) o); [reflexivity|lia].
  - split; [cbn; lia|]. split; reflexivity.
Qed.
