(** Properties C81-C87 and C114: GaussianModel. *)
From Coq Require Import List Arith ZArith Bool Permutation Sorting Reals Lra Lia.
From Verif Require Import Base BaseLemmas Instances Sums LinAlg RankModel RankProps GaussModel.
Import ListNotations.
Set Asymmetric Patterns.

(** ** Specification *)
Definition ent (M : list (list R)) (i j : nat) : R := nth j (nth i M []) 0%R.
(** Sum of f over the rows with label c. *)
Definition total (c : Z) (xs : list (list R)) (ys : list Z) (f : list R -> R) : R :=
  fold_right (fun p s => (if (snd p =? c)%Z then f (fst p) else 0) + s)%R 0%R (combine xs ys).
Definition size (c : Z) xs ys : R := total c xs ys (fun _ => 1%R).
Definition cmean (c : Z) xs ys (j : nat) : R := (total c xs ys (fun r => nth j r 0%R) / size c xs ys)%R.
Definition scatter (c : Z) xs ys (i j : nat) : R :=
  total c xs ys (fun r => (nth i r 0 - cmean c xs ys i) * (nth j r 0 - cmean c xs ys j))%R.
(** Well-formed training data. *)
Definition training {A} (cols : nat) (rows : list (list A)) (labels : list Z) : Prop :=
  (0 < cols)%nat /\ rows <> [] /\ length labels = length rows /\ Forall (fun r => length r = cols) rows.
(** The distinct labels in increasing order. *)
Definition classes_of (labels cs : list Z) : Prop :=
  StronglySorted Z.lt cs /\ forall c, In c cs <-> In c labels.
(** numpy.linalg.inv inverts positive definite n by n matrices. *)
Definition inverts (inv : list (list R) -> option (list (list R))) (n : nat) : Prop :=
  forall M, length M = n -> Forall (fun r => length r = n) M -> pos_def n (ent M) ->
  exists P, inv M = Some P /\ length P = n /\ Forall (fun r => length r = n) P /\ right_inverse n (ent M) (ent P).
(** Squared Mahalanobis distance. *)
Definition distance (P : list (list R)) (u x : list R) : R :=
  quad (length x) (ent P) (fun i => nth i x 0 - nth i u 0)%R.

(** ** Labels *)
Lemma insert_label_in a l c : In c (insert_label a l) <-> c = a \/ In c l.
Proof.
  induction l as [|b l IH]; cbn; [intuition|]. destruct (Z.ltb_spec a b); [cbn; intuition|].
  destruct (Z.eqb_spec a b) as [->|]; [cbn; intuition|]. cbn. rewrite IH. intuition.
Qed.
Lemma insert_label_sorted a l : StronglySorted Z.lt l -> StronglySorted Z.lt (insert_label a l).
Proof.
  induction 1 as [|b l S IH F]; cbn; [repeat constructor|]. destruct (Z.ltb_spec a b).
  - constructor; [constructor; assumption|]. constructor; [assumption|]. rewrite Forall_forall in *. intros c Hc. specialize (F c Hc). lia.
  - destruct (Z.eqb_spec a b) as [->|]; [constructor; assumption|]. constructor; [exact IH|].
    apply Forall_forall. intros c Hc. apply insert_label_in in Hc. rewrite Forall_forall in F. destruct Hc as [->|Hc]; [lia|exact (F c Hc)].
Qed.
Lemma sorted_set_ok l : classes_of l (sorted_set l).
Proof.
  unfold sorted_set. induction l as [|a l [S I]]; cbn [fold_right]; [split; [constructor|intuition]|].
  split; [apply insert_label_sorted, S|]. intros c. rewrite insert_label_in, I. cbn. intuition.
Qed.
Lemma sorted_unique l l' : StronglySorted Z.lt l -> StronglySorted Z.lt l' -> (forall c, In c l <-> In c l') -> l = l'.
Proof.
  intros S. revert l'. induction S as [|a l S IH F]; intros l' S' I.
  - destruct l' as [|b l']; [reflexivity|]. exfalso. apply (I b). left. reflexivity.
  - destruct S' as [|b l' S' F'].
    + exfalso. apply (I a). left. reflexivity.
    + rewrite Forall_forall in F, F'.
      assert (E : a = b).
      { destruct (proj1 (I a) (or_introl eq_refl)) as [E|E]; [symmetry; exact E|]. destruct (proj2 (I b) (or_introl eq_refl)) as [G|G]; [exact G|].
        specialize (F b G). specialize (F' a E). lia. }
      subst b. f_equal. apply IH; [exact S'|]. intros c. split; intros Hc.
      * destruct (proj1 (I c) (or_intror Hc)) as [E|E]; [|exact E]. subst c. specialize (F a Hc). lia.
      * destruct (proj2 (I c) (or_intror Hc)) as [E|E]; [|exact E]. subst c. specialize (F' a Hc). lia.
Qed.
Lemma classes_unique l cs cs' : classes_of l cs -> classes_of l cs' -> cs = cs'.
Proof. intros [S I] [S' I']. apply sorted_unique; [assumption..|]. intros c. rewrite I, I'. reflexivity. Qed.
Lemma sorted_set_nonempty l : l <> [] -> sorted_set l <> [].
Proof. destruct l as [|a l]; [intros []; reflexivity|]. intros _ E. pose proof (proj2 (proj2 (sorted_set_ok (a :: l)) a) (or_introl eq_refl)) as H. rewrite E in H. exact H. Qed.

(** ** fit and predict, any arithmetic *)
Section AnyArith.
  Context (O : OArith).
  Variable inv : list (list O) -> option (list (list O)).
  Variable argsort : list O -> list nat.
  Implicit Types (g : gauss O) (m : list (list (list O) * list O)).

  (** What one class contributes to the model: the inverse of its regularised
      covariance and its mean, or nothing when the inversion fails. *)
  Definition class_fit cols rows labels (r : O) (c : Z) : option (list (list O) * list O) :=
    let z := select c rows labels in let u := mean0 cols z in
    match inv (covariance cols r z u) with None => None | Some i => Some (i, u) end.

  Lemma fit_loop_spec cols rows labels r cs : forall m m' e,
    fit_loop inv cols rows labels r cs m = (m', e) ->
    exists k, k <= length cs /\ map Some m' = map Some m ++ map (class_fit cols rows labels r) (firstn k cs) /\
      ((e = Ok tt /\ k = length cs) \/ (e = Err LinAlgError /\ exists c, nth_error cs k = Some c /\ class_fit cols rows labels r c = None)).
  Proof.
    induction cs as [|c cs IH]; intros m m' e E; cbn in E.
    - injection E as <- <-. exists 0. cbn. rewrite app_nil_r. split; [lia|]. split; [reflexivity|]. left. auto.
    - destruct (inv _) as [i|] eqn:Ei.
      + destruct (IH _ _ _ E) as (k & Hk & Em & D). exists (S k). cbn [length firstn map]. split; [lia|]. split.
        * rewrite Em, map_app, <- app_assoc. cbn. unfold class_fit at 2. rewrite Ei. reflexivity.
        * destruct D as [[-> ->]|[-> (c' & Hc & F)]]; [left; auto|]. right. split; [reflexivity|]. exists c'. auto.
      + injection E as <- <-. exists 0. cbn. rewrite app_nil_r. split; [lia|]. split; [reflexivity|]. right. split; [reflexivity|].
        exists c. split; [reflexivity|]. unfold class_fit. rewrite Ei. reflexivity.
  Qed.

  Lemma fit_eval g cols rows labels : training cols rows labels ->
    gauss_fit inv g (X2 cols rows) (YInt labels) =
    (let (m, e) := fit_loop inv cols rows labels (gregularize g) (sorted_set labels) [] in (mkGauss m (gregularize g) (Some cols), e)).
  Proof.
    intros (Hc & Hr & Hl & _). unfold gauss_fit. destruct rows as [|r0 rows]; [contradiction|]. destruct cols as [|cols]; [lia|].
    cbn [length Nat.eqb orb ylen]. rewrite Hl. cbn [length]. rewrite Nat.eqb_refl. reflexivity.
  Qed.

  (** C81, C82.  Prediction. *)
  Theorem C82_gauss_predict_rows g cols rows :
    gmodel g <> [] -> rows <> [] -> (0 < cols)%nat -> gshape g = Some cols ->
    exists f : list O -> list nat, (forall r, gauss_predict argsort g (X2 cols [r]) = (g, Ok [f r])) /\
      gauss_predict argsort g (X2 cols rows) = (g, Ok (map f rows)).
  Proof.
    intros Hm Hr Hc Hs. exists (predict_row argsort (gmodel g)). unfold gauss_predict. rewrite Hs.
    destruct (gmodel g); [contradiction|]. destruct rows; [contradiction|]. destruct cols; [lia|]. cbn [length Nat.eqb orb]. rewrite Nat.eqb_refl. auto.
  Qed.
  Theorem C82_gauss_predict_pure g x : fst (gauss_predict argsort g x) = g.
  Proof. reflexivity. Qed.
  Theorem C82_gauss_predict_rejects g x e : snd (gauss_predict argsort g x) = Err e ->
    e = ValueError /\ (gmodel g = [] \/ (exists n, x = XRank n) \/
      exists cols rows, x = X2 cols rows /\ (rows = [] \/ cols = 0 \/ gshape g <> Some cols)).
  Proof.
    unfold gauss_predict. cbn [snd]. destruct (gmodel g); cbn [length Nat.eqb]; [intros E; split; [congruence|left; reflexivity]|].
    destruct x as [cols rows|n].
    - destruct rows as [|r rows]; cbn [length Nat.eqb orb]; [intros E; split; [congruence|right; right; exists cols, []; auto]|].
      destruct cols as [|cols]; cbn [Nat.eqb]; [intros E; split; [congruence|right; right; exists 0, (r :: rows); auto]|].
      destruct (gshape g) as [c|] eqn:Es; [destruct (Nat.eqb_spec c (S cols)); [discriminate|]|];
        (intros E; split; [congruence|right; right; exists (S cols), (r :: rows); split; [reflexivity|]; right; right; congruence]).
    - intros E. split; [congruence|]. right. left. exists n. reflexivity.
  Qed.

  (** C85.  Arguments rejected by validation leave the model alone; integer labels of
      higher rank pass validation and fail after the model has been cleared. *)
  Theorem C85_gauss_validation g x y :
    (match x with XRank _ => True | X2 cols rows => rows = [] \/ cols = 0 \/
       match y with YInt l => length l <> length rows | YIntHigh n => n <> length rows | YOther _ | YScalar => True end end) ->
    exists e, gauss_fit inv g x y = (g, Err e).
  Proof.
    destruct x as [cols rows|n]; intros H; [|exists ValueError; reflexivity]. unfold gauss_fit.
    destruct (Nat.eqb_spec (length rows) 0) as [|Hr]; [eexists; reflexivity|]. destruct (Nat.eqb_spec cols 0) as [|Hc]; [eexists; reflexivity|]. cbn [orb].
    destruct H as [->|[H|H]]; [destruct Hr; reflexivity|contradiction|].
    destruct y as [l|n|n|]; cbn [ylen]; try (eexists; reflexivity).
    - destruct (Nat.eqb_spec (length l) (length rows)); [contradiction|]. eexists; reflexivity.
    - destruct (Nat.eqb_spec n (length rows)); [contradiction|]. eexists; reflexivity.
    - destruct (Nat.eqb_spec n (length rows)); eexists; reflexivity.
  Qed.
  Theorem C85_gauss_unhashable g cols rows : rows <> [] -> (0 < cols)%nat ->
    gauss_fit inv g (X2 cols rows) (YIntHigh (length rows)) = (mkGauss [] (gregularize g) (Some cols), Err TypeError).
  Proof. intros Hr Hc. unfold gauss_fit. destruct rows; [contradiction|]. destruct cols; [lia|]. cbn. rewrite Nat.eqb_refl. reflexivity. Qed.

  (** A failing inversion: the classes before the failing one stay in the model. *)
  Theorem C85_gauss_midway g cols rows labels cs g' e : training cols rows labels -> classes_of labels cs ->
    gauss_fit inv g (X2 cols rows) (YInt labels) = (g', e) ->
    gshape g' = Some cols /\ gregularize g' = gregularize g /\
    exists k, k <= length cs /\ length (gmodel g') = k /\
      (forall p, p < k -> class_fit cols rows labels (gregularize g) (nth p cs 0%Z) = Some (nth p (gmodel g') ([], []))) /\
      ((e = Ok tt /\ k = length cs) \/
       (e = Err LinAlgError /\ k < length cs /\ class_fit cols rows labels (gregularize g) (nth k cs 0%Z) = None)).
  Proof.
    intros T Hcs E. rewrite (classes_unique _ _ _ Hcs (sorted_set_ok labels)). rewrite fit_eval in E by exact T.
    destruct (fit_loop _ _ _ _ _ _ _) as [m e'] eqn:El. injection E as <- <-. cbn [gshape gregularize gmodel]. split; [reflexivity|]. split; [reflexivity|].
    destruct (fit_loop_spec _ _ _ _ _ _ _ _ El) as (k & Hk & Em & D). cbn in Em.
    assert (Lm : length m = k) by (apply (f_equal (@length _)) in Em; rewrite !map_length, firstn_length_le in Em by exact Hk; exact Em).
    exists k. split; [exact Hk|]. split; [exact Lm|]. split.
    - intros p Hp. transitivity (nth p (map Some m) None).
      + rewrite Em, nth_map_lt with (d := 0%Z) by (rewrite firstn_length_le; assumption). rewrite nth_firstn by exact Hp. reflexivity.
      + rewrite nth_map_lt with (d := ([], [])) by lia. reflexivity.
    - destruct D as [[-> ->]|[-> (c & Hc & F)]]; [left; auto|]. right. split; [reflexivity|]. split; [apply nth_error_Some; congruence|].
      rewrite (nth_error_nth _ _ 0%Z Hc). exact F.
  Qed.
  (** ... and predict goes on working with them, ranking only those classes. *)
  Theorem C85_gauss_predict_after_failure g cols rows labels g' e x : is_argsort argsort -> training cols rows labels ->
    gauss_fit inv g (X2 cols rows) (YInt labels) = (g', e) -> gmodel g' <> [] -> x <> [] ->
    exists v, gauss_predict argsort g' (X2 cols x) = (g', Ok v) /\ length v = length x /\
      Forall (fun row => Permutation row (seq 0 (length (gmodel g')))) v.
  Proof.
    intros Ha T E Hm Hx. destruct (C85_gauss_midway _ _ _ _ _ _ _ T (sorted_set_ok labels) E) as (Hs & _ & _).
    destruct T as (Hc & _). eexists. split.
    - unfold gauss_predict. rewrite Hs. destruct (gmodel g') eqn:Eg; [contradiction|]. destruct x; [contradiction|]. destruct cols; [lia|].
      cbn [length Nat.eqb orb]. rewrite Nat.eqb_refl. rewrite <- Eg. reflexivity.
    - rewrite map_length. split; [reflexivity|]. apply Forall_forall. intros row Hr. apply in_map_iff in Hr. destruct Hr as [r [<- _]].
      unfold predict_row. destruct (Ha (map (fun p => mahalanobis p r) (gmodel g'))) as [P _]. rewrite map_length in P. exact P.
  Qed.

  (** C81.  For every arithmetic: each row lists every class once, no later class being
      closer than an earlier one. *)
  Theorem C81_gauss_ranking g cols rows v : is_argsort argsort -> gauss_predict argsort g (X2 cols rows) = (g, Ok v) ->
    let k := length (gmodel g) in
    length v = length rows /\
    forall i, i < length rows -> let row := nth i v [] in
      Permutation row (seq 0 k) /\
      forall a b, a < b < k ->
        oltb (mahalanobis (nth (nth b row 0) (gmodel g) ([], [])) (nth i rows []))
             (mahalanobis (nth (nth a row 0) (gmodel g) ([], [])) (nth i rows [])) = false.
  Proof.
    intros Ha E k. unfold gauss_predict in E. assert (Ev : v = map (predict_row argsort (gmodel g)) rows).
    { destruct (length (gmodel g) =? 0); [discriminate|]. destruct ((length rows =? 0) || (cols =? 0))%bool; [discriminate|].
      destruct (gshape g) as [c|]; [|discriminate]. destruct (c =? cols); [|discriminate]. congruence. }
    subst v. rewrite map_length. split; [reflexivity|]. intros i Hi row.
    assert (Er : row = argsort (map (fun p => mahalanobis p (nth i rows [])) (gmodel g))).
    { unfold row. rewrite nth_map_lt with (d := []) by exact Hi. reflexivity. }
    destruct (Ha (map (fun p => mahalanobis p (nth i rows [])) (gmodel g))) as [P Q]. rewrite <- Er in P, Q. rewrite map_length in P, Q. fold k in P, Q.
    split; [exact P|]. intros a b Hab. specialize (Q a b Hab).
    assert (In : forall c, c < k -> nth c row 0 < k).
    { intros c Hc. assert (I : In (nth c row 0) row) by (apply nth_In; rewrite (Permutation_length P), seq_length; exact Hc).
      apply (Permutation_in _ P) in I. apply in_seq in I. lia. }
    rewrite !nth_map_lt with (d := ([], [])) in Q by (apply In; lia). exact Q.
  Qed.

  (** C83.  The result of fit depends on the old object only through regularize. *)
  Theorem C83_gauss_fit_replaces g h cols rows y : gregularize g = gregularize h -> rows <> [] -> (0 < cols)%nat ->
    (exists l, y = YInt l /\ length l = length rows) \/ y = YIntHigh (length rows) ->
    gauss_fit inv g (X2 cols rows) y = gauss_fit inv h (X2 cols rows) y.
  Proof.
    intros Hr Nr Hc Hy. unfold gauss_fit. destruct rows as [|r0 rows]; [contradiction|]. destruct cols; [lia|]. cbn [length Nat.eqb orb].
    destruct Hy as [(l & -> & Hl)| ->]; cbn [ylen]; [rewrite Hl|]; cbn [length]; rewrite Nat.eqb_refl, Hr; reflexivity.
  Qed.
End AnyArith.
Print Assumptions C82_gauss_predict_rows.
Print Assumptions C82_gauss_predict_pure.
Print Assumptions C82_gauss_predict_rejects.
Print Assumptions C85_gauss_validation.
Print Assumptions C85_gauss_unhashable.
Print Assumptions C85_gauss_midway.
Print Assumptions C85_gauss_predict_after_failure.
Print Assumptions C81_gauss_ranking.
Print Assumptions C83_gauss_fit_replaces.

(** C86.  Positions and labels coincide exactly when the labels are 0, ..., k - 1. *)
Lemma positions_are_labels labels cs : classes_of labels cs ->
  (forall p, p < length cs -> nth p cs 0%Z = Z.of_nat p) <->
  (forall c, In c labels <-> (0 <= c < Z.of_nat (length cs))%Z).
Proof.
  intros [S I]. split.
  - intros H c. rewrite <- I. split.
    + intros Hc. destruct (In_nth _ _ 0%Z Hc) as [p [Hp <-]]. rewrite H by exact Hp. lia.
    + intros Hc. replace c with (nth (Z.to_nat c) cs 0%Z); [apply nth_In; lia|]. rewrite H by lia. lia.
  - intros H. assert (E : cs = map Z.of_nat (seq 0 (length cs))).
    { apply sorted_unique; [exact S| |].
      - clear. generalize 0. induction (length cs) as [|n IH]; intros a; cbn; constructor; [apply IH|].
        apply Forall_forall. intros c Hc. apply in_map_iff in Hc. destruct Hc as [j [<- Hj]]. apply in_seq in Hj. lia.
      - intros c. rewrite I, H. rewrite in_map_iff. split.
        + intros Hc. exists (Z.to_nat c). split; [lia|]. apply in_seq. lia.
        + intros [j [<- Hj]]. apply in_seq in Hj. lia. }
    intros p Hp. rewrite E, nth_map_lt with (d := 0) by (rewrite seq_length; exact Hp). rewrite seq_nth by exact Hp. reflexivity.
Qed.
Example C86_example : classes_of [7; 3; 7; 5]%Z [3; 5; 7]%Z /\ nth 0 [3; 5; 7]%Z 0%Z <> Z.of_nat 0.
Proof. split; [apply (sorted_set_ok [7; 3; 7; 5]%Z)|discriminate]. Qed.
(** A run of C85: class 4 is fitted, class 9 has a single row and its covariance is not
    inverted. *)
Example C85_example_run :
  let inv := fun M : list (list Qcanon.Qc) => match M with [[v]] => if Qcanon.Qc_eq_bool v (q 0 1) then None else Some [[Qcanon.Qcinv v]] | _ => None end in
  let rows := [[q 1 1]; [q 3 1]; [q 7 1]] in
  let r := gauss_fit inv (mkGauss (O := QO) [] (q 0 1) None) (X2 1 rows) (YInt [4; 4; 9]%Z) in
  training 1 rows [4; 4; 9]%Z /\ length (gmodel (fst r)) = 1%nat /\ gshape (fst r) = Some 1%nat /\ snd r = Err LinAlgError.
Proof.
  cbn zeta. split; [unfold training; repeat split; [lia|discriminate|repeat constructor]|].
  split; [|split]; vm_compute; reflexivity.
Qed.
