(** GaussianModel with NaN and infinite samples, in IEEE doubles. *)
From Flocq Require Import Core BinarySingleNaN PrimFloat.
From Coq Require Import List Arith ZArith Lia Bool Permutation Reals Lra Floats.
From Verif Require Import Base BaseLemmas Instances RankModel RankProps RankProps2 CalculusModel GaussModel GaussProps RankDoubleProps DoubleSpec DoubleProofs DoubleOps AdaptDoubleModel
  AdaptDoubleProps CExpDoubleProps PolyphaseDoubleProofs.
Import ListNotations.
Set Asymmetric Patterns.
Close Scope R_scope. Open Scope nat_scope.

(** numpy.linalg.inv keeps the shape, and never turns a NaN into numbers only: a matrix with a
    NaN in it has no inverse, or an inverse with a NaN in it. *)
Definition inv_nan (inv : list (list float) -> option (list (list float))) : Prop :=
  forall n M P, length M = n -> Forall (fun r => length r = n) M -> inv M = Some P ->
    length P = n /\ Forall (fun r => length r = n) P /\
    ((exists r v, In r M /\ In v r /\ nonnumber v) -> exists r v, In r P /\ In v r /\ nonnumber v).
(** [a] is listed before [b]. *)
Definition before (l : list nat) (a b : nat) : Prop := exists i j, i < j < length l /\ nth i l 0 = a /\ nth j l 0 = b.

(** ** Infinities *)
(** A NaN, or the infinity of sign [s]. *)
Definition lost (s : bool) (v : float) : Prop := Prim2B v = B754_nan \/ Prim2B v = B754_infinity s.
Lemma bad_lost v : ~ finite v -> exists s, lost s v.
Proof.
  unfold finite, lost. rewrite is_finite_equiv. destruct (Prim2B v) as [s|s| |s m e p]; cbn; intros H; try (exfalso; apply H; reflexivity); [exists s; auto|exists true; auto].
Qed.
Lemma add_lost s a b : lost s a -> lost s (a + b)%float.
Proof.
  unfold lost. rewrite add_equiv. intros [-> | ->]; [left; destruct (Prim2B b); reflexivity|]. destruct (Prim2B b) as [t|t| |t m e p]; cbn; auto.
  destruct (Bool.eqb s t); auto.
Qed.
Lemma add_lost_r s a b : lost s b -> lost s (a + b)%float.
Proof.
  unfold lost. rewrite add_equiv. intros [-> | ->]; [left; destruct (Prim2B a); reflexivity|]. destruct (Prim2B a) as [t|t| |t m e p]; cbn; auto.
  destruct (Bool.eqb t s) eqn:E; [apply Bool.eqb_prop in E; subst; auto|auto].
Qed.
Lemma sub_lost s a b : lost s a -> lost s b -> nonnumber (a - b)%float.
Proof.
  unfold lost, nonnumber. rewrite is_nan_equiv, sub_equiv. intros [-> | ->] [-> | ->]; try reflexivity. cbn. destruct s; reflexivity.
Qed.
Lemma div_lost s a n : lost s a -> finite n -> (1 <= val n)%R -> lost s (a / n)%float.
Proof.
  unfold lost, finite, val. rewrite div_equiv, is_finite_equiv. intros Ha Fn Vn. destruct (Prim2B n) as [t|t| |t m e p]; try discriminate; [cbn in Vn; lra|].
  destruct t; [exfalso; revert Vn; cbn [B2R]; unfold F2R; cbn; pose proof (bpow_gt_0 radix2 e); pose proof (IZR_lt _ _ (Pos2Z.neg_is_neg m)); nra|].
  destruct Ha as [-> | ->]; [left; reflexivity|]. right. cbn. destruct s; reflexivity.
Qed.
Lemma sum_lost s l : forall a, lost s a \/ Exists (lost s) l -> lost s (sum_from PrimFloat.add a l).
Proof.
  induction l as [|v l IH]; intros a H; cbn [sum_from]; [destruct H as [H|H]; [exact H|inversion H]|]. apply IH.
  destruct H as [H|H]; [left; apply add_lost, H|]. inversion H; subst; [left; apply add_lost_r; assumption|auto].
Qed.
(** 1 + ... + 1 *)
Lemma ones_double n : forall a, finite a -> (1 <= val a <= IZR (2 ^ 53))%R ->
  finite (sum_from PrimFloat.add a (repeat 1%float n)) /\ (1 <= val (sum_from PrimFloat.add a (repeat 1%float n)) <= IZR (2 ^ 53))%R.
Proof.
  assert (V1 : val 1%float = 1%R) by (unfold val; vm_compute Prim2B; unfold B2R, F2R; cbn; lra).
  induction n as [|n IH]; intros a Fa Va; [auto|]. cbn [repeat sum_from]. assert (B : (IZR (2 ^ 53) < huge)%R) by (eapply Rlt_trans; [|exact huge_big]; apply IZR_lt; reflexivity).
  assert (N : (Rabs (nearest (val a + 1)) <= IZR (2 ^ 53))%R) by (apply saturate; rewrite Rabs_pos_eq by lra; lra).
  destruct (add_fin a 1 Fa eq_refl) as [F E]; [rewrite V1; lra|]. rewrite V1 in E. apply IH; [exact F|]. rewrite E. split.
  - apply Rle_trans with (nearest 1); [rewrite (nearest_IZR 1) by (cbn; lia); lra|apply nearest_le; lra].
  - apply Rle_trans with (2 := N). apply Rle_abs.
Qed.

Section Bad.
  Variables (d : list float -> list float -> float) (inv : list (list float) -> option (list (list float))) (argsort : list float -> list nat).
  Hypotheses (Hd : any_order d) (Hi : inv_nan inv) (Ha : @is_argsort FS argsort).
  Let O := FOd d.

  Lemma column_nth (z : list (list O)) i j : i < length z -> nth i (column z j) 0%float = nth j (nth i z []) 0%float.
  Proof. intros H. unfold column. rewrite nth_map_lt with (d := []) by exact H. reflexivity. Qed.
  Lemma mean_lost s cols (z : list (list O)) i j : j < cols -> i < length z -> lost s (nth j (nth i z []) 0%float) ->
    lost s (nth j (mean0 (O := O) cols z) 0%float).
  Proof.
    intros Hj Hl H. unfold mean0. rewrite nth_map_lt with (d := 0) by (rewrite seq_length; exact Hj). rewrite seq_nth by exact Hj. cbn [Nat.add].
    assert (N : finite (count (O := O) (length z)) /\ (1 <= val (count (O := O) (length z)))%R).
    { destruct z as [|z0 z]; [cbn in Hl; lia|]. cbn [length]. unfold count. cbn [repeat].
      assert (V : finite (0 + 1)%float /\ (1 <= val (0 + 1)%float <= IZR (2 ^ 53))%R).
      { split; [reflexivity|]. unfold val. vm_compute Prim2B. unfold B2R, F2R. cbn. lra. }
      destruct (ones_double (length z) (0 + 1)%float (proj1 V) (proj2 V)) as [Q1 Q2]. split; [exact Q1|apply Q2]. }
    apply div_lost; [|apply N|apply N]. apply sum_lost. right. apply Exists_exists. exists (nth i (column z j) 0%float). split.
    - apply nth_In. unfold column. rewrite map_length. exact Hl.
    - rewrite column_nth by exact Hl. exact H.
  Qed.
  Lemma centre_nan cols (z : list (list O)) i j : Forall (fun r => length r = cols) z -> j < cols -> i < length z -> ~ finite (nth j (nth i z []) 0%float) ->
    nonnumber (nth j (nth i (centre z (mean0 (O := O) cols z)) []) 0%float).
  Proof.
    intros Hz Hj Hl H. destruct (bad_lost _ H) as [s Hs]. unfold centre. rewrite nth_map_lt with (d := []) by exact Hl.
    assert (L : length (nth i z []) = cols) by (apply (proj1 (Forall_forall _ _) Hz), nth_In, Hl).
    rewrite nth_map2 with (dx := 0%float) (dy := 0%float); [|exact (eq_ind_r (fun n => j < n) Hj L)|unfold mean0; rewrite map_length, seq_length; exact Hj].
    apply (sub_lost s); [exact Hs|]. exact (mean_lost s cols z i j Hj Hl Hs).
  Qed.
  Lemma poison_in (l m : list float) i : length l = length m -> i < length l -> nonnumber (nth i l 0%float) \/ nonnumber (nth i m 0%float) -> nonnumber (d l m).
  Proof.
    intros L H N. apply (dots_nan _ _ (Hd l m L)). apply Exists_exists. exists (nth i l 0%float, nth i m 0%float). split.
    - rewrite <- combine_nth by exact L. apply nth_In. rewrite combine_length. lia.
    - unfold poison. cbn [fst snd]. tauto.
  Qed.
  Lemma covariance_nan cols r (z : list (list O)) i j : Forall (fun r => length r = cols) z -> j < cols -> i < length z -> ~ finite (nth j (nth i z []) 0%float) ->
    exists row v, In row (covariance (O := O) cols r z (mean0 cols z)) /\ In v row /\ nonnumber v.
  Proof.
    intros Hz Hj Hl H. pose proof (centre_nan cols z i j Hz Hj Hl H) as N. unfold covariance. cbv zeta. set (e := centre z (mean0 cols z)) in *.
    assert (Le : length e = length z) by (unfold e, centre; apply map_length).
    eexists _, _. split; [apply in_map_iff; exists j; split; [reflexivity|apply in_seq; lia]|]. split; [apply in_map_iff; exists j; split; [reflexivity|apply in_seq; lia]|].
    apply add_nan. left. apply div_nans. left. apply (poison_in (column e j) (column e j) i); [reflexivity|unfold column; rewrite map_length, Le; exact Hl|].
    left. rewrite column_nth by (rewrite Le; exact Hl). exact N.
  Qed.

  Lemma class_nan cols (r : O) rows labels c p i j : Forall (fun r => length r = cols) rows -> length labels = length rows ->
    i < length rows -> nth i labels 0%Z = c -> j < cols -> ~ finite (nth j (nth i rows []) 0%float) ->
    class_fit O inv cols rows labels r c = Some p ->
    length (fst p) = cols /\ Forall (fun r => length r = cols) (fst p) /\ length (snd p) = cols /\ exists r v, In r (fst p) /\ In v r /\ nonnumber v.
  Proof.
    intros Hz Hl Hr Hc Hj Hb. unfold class_fit. cbv zeta. set (z := select c rows labels). set (u := mean0 cols z).
    assert (Fz : Forall (fun r => length r = cols) z).
    { apply Forall_forall. intros w Hw. unfold z, select in Hw. apply in_map_iff in Hw. destruct Hw as ((w' & l') & <- & Hw). apply filter_In in Hw. destruct Hw as [Hw _].
      apply in_combine_l in Hw. exact (proj1 (Forall_forall _ _) Hz _ Hw). }
    assert (Iz : In (nth i rows []) z).
    { unfold z, select. apply in_map_iff. exists (nth i rows [], nth i labels 0%Z). split; [reflexivity|]. apply filter_In. split; [|cbn [snd]; rewrite Hc; apply Z.eqb_refl].
      rewrite <- combine_nth by (symmetry; exact Hl). apply nth_In. rewrite combine_length. lia. }
    apply (In_nth _ _ []) in Iz. destruct Iz as (k & Hk & Ek). rewrite <- Ek in Hb.
    match goal with |- match inv ?M with _ => _ end = _ -> _ => change M with (covariance (O := O) cols r z u) end.
    destruct (inv (covariance (O := O) cols r z u)) as [P|] eqn:E; [|discriminate]. intros Q. apply (f_equal (fun o => match o with Some a => a | None => p end)) in Q. cbv beta iota in Q. rewrite <- Q. cbn [fst snd].
    destruct (Hi cols (covariance (O := O) cols r z u) P) as (L1 & L2 & L3); [unfold covariance; rewrite map_length, seq_length; reflexivity| |exact E|].
    - apply Forall_forall. intros w Hw. unfold covariance in Hw. cbv zeta in Hw. apply in_map_iff in Hw. destruct Hw as (m & <- & _). rewrite map_length, seq_length. reflexivity.
    - split; [exact L1|]. split; [exact L2|]. split; [unfold u, mean0; rewrite map_length, seq_length; reflexivity|].
      apply L3. exact (covariance_nan cols r z k j Fz Hj Hk Hb).
  Qed.
  Lemma distance_nan cols (p : list (list O) * list O) (x : list O) : length x = cols -> length (fst p) = cols -> Forall (fun r => length r = cols) (fst p) -> length (snd p) = cols ->
    ((exists r v, In r (fst p) /\ In v r /\ nonnumber v) \/ (exists j, j < cols /\ nonnumber (nth j x 0%float))) ->
    nonnumber (mahalanobis (O := O) p x).
  Proof.
    intros Lx L1 L2 L3 H. unfold mahalanobis. cbv zeta. set (e := map2 sub x (snd p)).
    assert (Le : length e = cols) by (unfold e; rewrite length_map2, Lx, L3; apply Nat.min_id). set (t := map _ (seq 0 (length e))).
    assert (N : nonnumber (d t e)).
    { assert (K : exists k, k < cols /\ nonnumber (nth k t 0%float)).
      { destruct H as [(r & v & Hr & Hv & N)|(j & Hj & N)].
        - apply (In_nth _ _ []) in Hr. destruct Hr as (m & Hm & Em). pose proof (proj1 (Forall_forall _ _) L2 _ (nth_In _ [] Hm)) as Lr. rewrite Em in Lr.
          apply (In_nth _ _ 0%float) in Hv. destruct Hv as (k & Hk & Ek). exists k. split; [rewrite <- Lr; exact Hk|].
          unfold t. rewrite nth_map_lt with (d := 0) by (rewrite seq_length, Le, <- Lr; exact Hk). rewrite seq_nth by (rewrite Le, <- Lr; exact Hk). cbn [Nat.add].
          apply (poison_in e (column (fst p) k) m); [unfold column; rewrite map_length; transitivity cols; [exact Le|symmetry; exact L1]|exact (eq_ind_r (fun n => m < n) (eq_ind _ (fun n => m < n) Hm _ L1) Le)|].
          right. rewrite column_nth by exact Hm. rewrite Em. exact (eq_ind_r nonnumber N Ek).
        - exists j. split; [exact Hj|]. unfold t. rewrite nth_map_lt with (d := 0) by (rewrite seq_length, Le; exact Hj). rewrite seq_nth by (rewrite Le; exact Hj). cbn [Nat.add].
          apply (poison_in e (column (fst p) j) j); [unfold column; rewrite map_length; transitivity cols; [exact Le|symmetry; exact L1]|exact (eq_ind_r (fun n => j < n) Hj Le)|].
          left. unfold e. rewrite nth_map2 with (dx := 0%float) (dy := 0%float) by (eapply eq_ind_r with (P := fun n => j < n); [exact Hj|assumption]). apply sub_nans. left. exact N. }
      destruct K as (k & Hk & N). apply (poison_in t e k); [unfold t; rewrite map_length, seq_length; reflexivity|unfold t; rewrite map_length, seq_length, Le; exact Hk|]. left. exact N. }
    change (@oltb O) with PrimFloat.ltb. change (@dot O t e) with (d t e). replace (PrimFloat.ltb (d t e) (@zero O)) with false; [exact N|].
    symmetry. rewrite ltb_equiv. unfold nonnumber in N. rewrite is_nan_equiv in N. destruct (Prim2B (d t e)); try discriminate. reflexivity.
  Qed.
  (** Sorting puts keys that are not numbers last, and smaller keys first. *)
  Lemma sorted_before (keys : list float) a b : a < length keys -> b < length keys -> nless (nth a keys 0%float) (nth b keys 0%float) = true -> before (argsort keys) a b.
  Proof.
    intros Ka Kb H. destruct (Ha keys) as [P Q]. change (@length (carrier (oa FS)) keys) with (@length float keys) in P, Q. assert (L : length (argsort keys) = length keys) by (rewrite (Permutation_length P), seq_length; reflexivity).
    assert (In1 : forall c, c < length keys -> exists i, i < length keys /\ nth i (argsort keys) 0 = c).
    { intros c Hc. assert (I : In c (argsort keys)) by (apply (Permutation_in _ (Permutation_sym P)), in_seq; lia). apply (In_nth _ _ 0) in I. rewrite L in I. exact I. }
    destruct (In1 a Ka) as (i & Hi1 & Ei), (In1 b Kb) as (j & Hj & Ej). exists i, j. rewrite L. split; [|auto]. destruct (Nat.lt_total i j) as [C|[C|C]]; [lia| |].
    - subst j. rewrite Ei in Ej. subst b. rewrite nless_irr in H. discriminate.
    - specialize (Q j i (conj C Hi1)). rewrite Ei, Ej in Q.
      assert (Q1 : nless (nth a keys 0%float) (nth b keys 0%float) = false) by exact Q. congruence.
  Qed.
  Lemma class_dims cols (r : O) rows labels c p : class_fit O inv cols rows labels r c = Some p ->
    length (fst p) = cols /\ Forall (fun r => length r = cols) (fst p) /\ length (snd p) = cols.
  Proof.
    unfold class_fit. cbv zeta. match goal with |- match inv ?M with _ => _ end = _ -> _ => destruct (inv M) as [P|] eqn:E; [|discriminate] end.
    intros Q. apply (f_equal (fun o => match o with Some a => a | None => p end)) in Q. cbv beta iota in Q. rewrite <- Q. cbn [fst snd].
    assert (D := fun H1 H2 => Hi cols _ P H1 H2 E). destruct D as (L1 & L2 & _); [unfold covariance; rewrite map_length, seq_length; reflexivity| |].
    - apply Forall_forall. intros w Hw. unfold covariance in Hw. cbv zeta in Hw. apply in_map_iff in Hw. destruct Hw as (m & <- & _). rewrite map_length, seq_length. reflexivity.
    - split; [exact L1|]. split; [exact L2|]. unfold mean0. rewrite map_length, seq_length. reflexivity.
  Qed.
  Lemma nless_nan_last a b : ~ nonnumber a -> nonnumber b -> nless a b = true.
  Proof. unfold nonnumber, nless. intros Ha' ->. destruct (PrimFloat.is_nan a); [contradiction Ha'; reflexivity|]. apply orb_true_r. Qed.
End Bad.

Lemma select_local {A} c (labels : list Z) : forall rows rows' : list (list A), length rows = length labels -> length rows' = length labels ->
  (forall i, i < length rows -> nth i labels 0%Z = c -> nth i rows [] = nth i rows' []) -> select c rows labels = select c rows' labels.
Proof.
  induction labels as [|l labels IH]; intros [|r rows] [|r' rows'] H H' E; try discriminate; [reflexivity|]. injection H as H. injection H' as H'.
  unfold select in *. cbn [combine filter snd]. assert (IE := IH rows rows' H H' (fun i Hi => E (S i) (proj1 (Nat.succ_lt_mono _ _) Hi))).
  destruct (l =? c)%Z eqn:F; [|exact IE]. cbn [map fst]. rewrite IE. f_equal. apply (E 0); [cbn; lia|]. apply Z.eqb_eq, F.
Qed.

(** ** C190 *)
(** Bad samples of one class leave what fit keeps of every other class as it is, in any arithmetic. *)
Theorem C190_other_classes (O : OArith) inv (g g1 g2 : gauss O) cols rows rows' labels cs k :
  training cols rows labels -> training cols rows' labels -> classes_of labels cs -> k < length cs ->
  (forall i, i < length rows -> nth i labels 0%Z = nth k cs 0%Z -> nth i rows [] = nth i rows' []) ->
  gauss_fit inv g (X2 cols rows) (YInt labels) = (g1, Ok tt) -> gauss_fit inv g (X2 cols rows') (YInt labels) = (g2, Ok tt) ->
  nth k (gmodel g1) ([], []) = nth k (gmodel g2) ([], []).
Proof.
  intros T T' Hcs Hk H E1 E2. destruct (C85_gauss_midway _ _ _ _ _ _ _ _ _ T Hcs E1) as (_ & _ & k1 & _ & _ & M1 & D1).
  destruct (C85_gauss_midway _ _ _ _ _ _ _ _ _ T' Hcs E2) as (_ & _ & k2 & _ & _ & M2 & D2).
  destruct D1 as [[_ ->]|[F _]]; [|discriminate]. destruct D2 as [[_ ->]|[F _]]; [|discriminate]. specialize (M1 k Hk). specialize (M2 k Hk).
  unfold class_fit in M1, M2. rewrite (select_local _ labels rows rows') in M1; [|symmetry; apply T|symmetry; apply T'|exact H]. congruence.
Qed.
Print Assumptions C190_other_classes.

Lemma fitted d (inv : list (list float) -> option (list (list float))) (argsort : list float -> list nat) (g g' : gauss (FOd d)) cols rows labels cs (x : list float) : @is_argsort FS argsort -> training cols rows labels -> classes_of labels cs ->
  gauss_fit (O := FOd d) inv g (X2 cols rows) (YInt labels) = (g', Ok tt) -> length (gmodel g') = length cs /\
  (forall k, k < length cs -> class_fit (FOd d) inv cols rows labels (gregularize g) (nth k cs 0%Z) = Some (nth k (gmodel g') ([], []))) /\
  gauss_predict (O := FOd d) argsort g' (X2 cols [x]) = (g', Ok [argsort (map (fun p => mahalanobis (O := FOd d) p x) (gmodel g'))]).
Proof.
  intros Ha T Hcs E. destruct (C85_gauss_midway _ _ _ _ _ _ _ _ _ T Hcs E) as (Sh & _ & k & _ & Lm & M & D). destruct D as [[_ ->]|[F _]]; [|discriminate].
  split; [exact Lm|]. split; [exact M|]. unfold gauss_predict. rewrite Sh, Nat.eqb_refl. destruct T as (Hc & Hr & Hl & _).
  replace (length (gmodel g') =? 0) with false; [|symmetry; apply Nat.eqb_neq; change (length (gmodel g') <> 0); rewrite Lm; destruct rows as [|r rows]; [contradiction|];
    destruct labels as [|l labels]; [discriminate|]; intros Z; apply length_zero_iff_nil in Z; subst cs; exact (proj2 (proj2 Hcs l) (or_introl eq_refl))].
  destruct cols; [lia|]. reflexivity.
Qed.
(** A NaN or an infinity in a sample of a class: the class has no distance to any query, and
    is listed after every class that has one. *)
Theorem C190_bad_class d (inv : list (list float) -> option (list (list float))) (argsort : list float -> list nat) (g g' : gauss (FOd d)) cols (rows : list (list float)) labels cs i j k :
  any_order d -> inv_nan inv -> @is_argsort FS argsort -> training cols rows labels -> classes_of labels cs ->
  gauss_fit (O := FOd d) inv g (X2 cols rows) (YInt labels) = (g', Ok tt) ->
  i < length rows -> j < cols -> ~ finite (nth j (nth i rows []) 0%float) -> k < length cs -> nth k cs 0%Z = nth i labels 0%Z ->
  forall x : list float, length x = cols -> exists row, gauss_predict (O := FOd d) argsort g' (X2 cols [x]) = (g', Ok [row]) /\ Permutation row (seq 0 (length cs)) /\
    nonnumber (mahalanobis (O := FOd d) (nth k (gmodel g') ([], [])) x) /\
    forall m, m < length cs -> ~ nonnumber (mahalanobis (O := FOd d) (nth m (gmodel g') ([], [])) x) -> before row m k.
Proof.
  intros Hd Hi Ha T Hcs E Hr Hj Hb Hk Ec x Hx. destruct (fitted d inv argsort g g' cols rows labels cs x Ha T Hcs E) as (Lm & M & P).
  eexists. split; [exact P|]. assert (N : nonnumber (mahalanobis (O := FOd d) (nth k (gmodel g') ([], [])) x)).
  { pose proof (M k Hk) as Mk. destruct T as (_ & _ & Hl & Hz).
    destruct (class_nan d inv Hd Hi cols (gregularize g) rows labels _ _ i j Hz Hl Hr (eq_sym Ec) Hj Hb Mk) as (L1 & L2 & L3 & L4).
    exact (distance_nan d Hd cols _ x Hx L1 L2 L3 (or_introl L4)). }
  split; [|split; [exact N|]].
  - rewrite <- Lm. destruct (Ha (map (fun p => mahalanobis (O := FOd d) p x) (gmodel g'))) as [Q _].
    match type of Q with Permutation _ (seq 0 ?l) => replace l with (length (gmodel g')) in Q by (symmetry; apply map_length) end. exact Q.
  - intros m Hm Nm. assert (Key : forall a, a < length cs -> nth a (map (fun p => mahalanobis (O := FOd d) p x) (gmodel g')) 0%float = mahalanobis (O := FOd d) (nth a (gmodel g') ([], [])) x)
      by (intros a Ha'; rewrite nth_map_lt with (d := ([], [])) by (rewrite Lm; exact Ha'); reflexivity).
    apply (sorted_before argsort Ha); [rewrite map_length, Lm; exact Hm|rewrite map_length, Lm; exact Hk|].
    rewrite !Key by assumption. apply nless_nan_last; assumption.
Qed.
Print Assumptions C190_bad_class.
(** A NaN in a query: no class has a distance, and predict still answers with a ranking. *)
Theorem C190_nan_query d (inv : list (list float) -> option (list (list float))) (argsort : list float -> list nat) (g g' : gauss (FOd d)) cols (rows : list (list float)) labels cs j (x : list float) :
  any_order d -> inv_nan inv -> @is_argsort FS argsort -> training cols rows labels -> classes_of labels cs ->
  gauss_fit (O := FOd d) inv g (X2 cols rows) (YInt labels) = (g', Ok tt) -> length x = cols -> j < cols -> nonnumber (nth j x 0%float) ->
  (forall k, k < length cs -> nonnumber (mahalanobis (O := FOd d) (nth k (gmodel g') ([], [])) x)) /\
  exists row, gauss_predict (O := FOd d) argsort g' (X2 cols [x]) = (g', Ok [row]) /\ Permutation row (seq 0 (length cs)).
Proof.
  intros Hd Hi Ha T Hcs E Hx Hj N. destruct (fitted d inv argsort g g' cols rows labels cs x Ha T Hcs E) as (Lm & M & P). split.
  - intros k Hk. destruct (class_dims d inv Hi cols (gregularize g) rows labels _ _ (M k Hk)) as (L1 & L2 & L3).
    exact (distance_nan d Hd cols _ x Hx L1 L2 L3 (or_intror (ex_intro _ j (conj Hj N)))).
  - eexists. split; [exact P|]. rewrite <- Lm. destruct (Ha (map (fun p => mahalanobis (O := FOd d) p x) (gmodel g'))) as [Q _].
    match type of Q with Permutation _ (seq 0 ?l) => replace l with (length (gmodel g')) in Q by (symmetry; apply map_length) end. exact Q.
Qed.
Print Assumptions C190_nan_query.

(** numpy.linalg.inv of one feature. *)
Definition inv1 (M : list (list float)) : option (list (list float)) := match M with [[v]] => Some [[1 / v]]%float | _ => None end.
Lemma inv1_nan : inv_nan inv1.
Proof.
  intros n M P L F E. unfold inv1 in E. destruct M as [|[|v [|]] [|]]; try discriminate. injection E as <-. cbn in L. subst n. split; [reflexivity|]. split; [repeat constructor|].
  intros (r & w & [<-|[]] & [<-|[]] & N). exists [(1 / v)%float], (1 / v)%float. split; [left; reflexivity|]. split; [left; reflexivity|]. apply div_nans. right. exact N.
Qed.
Definition gd (rows : list (list float)) : gauss (FOd (@dot FA)) * res unit :=
  gauss_fit (O := FOd (@dot FA)) inv1 (mkGauss (O := FOd (@dot FA)) [] 0.125%float None) (X2 1 rows) (YInt [4; 9; 4; 9; 2]%Z).
Definition gfirst (rows : list (list float)) (x : list float) : list nat :=
  match snd (gauss_predict (O := FOd (@dot FA)) (@isort FS) (fst (gd rows)) (X2 1 [x])) with Ok (row :: _) => row | _ => [] end.
Definition gok (r : gauss (FOd (@dot FA)) * res unit) : bool := match snd r with Ok _ => true | _ => false end.
(** Classes 2, 4, 9.  The query 6 is nearest to class 9, and an infinite or NaN sample of that
    class moves it to the end.  A NaN query is still ranked. *)
Example C190_example : any_order (@dot FA) /\ inv_nan inv1 /\ @is_argsort FS (@isort FS) /\
  training 1 [[1]; [5]; [2]; [PrimFloat.infinity]; [0]]%float [4; 9; 4; 9; 2]%Z /\ classes_of [4; 9; 4; 9; 2]%Z [2; 4; 9]%Z /\
  gok (gd [[1]; [5]; [2]; [PrimFloat.infinity]; [0]]%float) = true /\
  gfirst [[1]; [5]; [2]; [7]; [0]]%float [6]%float = [2; 1; 0] /\ gfirst [[1]; [5]; [2]; [PrimFloat.infinity]; [0]]%float [6]%float = [1; 0; 2] /\
  gfirst [[1]; [5]; [2]; [PrimFloat.nan]; [0]]%float [6]%float = [1; 0; 2] /\ gfirst [[1]; [5]; [2]; [7]; [0]]%float [PrimFloat.nan]%float = [0; 1; 2].
Proof.
  split; [exact left_any_order|]. split; [exact inv1_nan|]. split; [exact isort_FS|]. split; [repeat split; try lia; try discriminate; repeat constructor|].
  split; [exact (sorted_set_ok [4; 9; 4; 9; 2]%Z)|]. vm_compute. auto.
Qed.
