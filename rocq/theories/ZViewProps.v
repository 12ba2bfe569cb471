(** C179: ZTransform with two views of one array. *)
From Coq Require Import List Arith ZArith Lia Bool Reals Lra.
From Coquelicot Require Import Complex.
From Verif Require Import Base BaseLemmas Instances PolyC ZModel ZViewModel.
Import ListNotations.
Set Asymmetric Patterns.
Open Scope R_scope.

(** The same call on copies. *)
Definition copy (w : list R) (i n : nat) : zarg := mkZ true DFloat (slice w i n).
(** The views have no element in common. *)
Definition apart (iu nu iv nv : nat) : Prop := (iu + nu <= iv \/ iv + nv <= iu)%nat.

Lemma length_slice w i n : (i + n <= length w)%nat -> length (slice w i n) = n.
Proof. intros H. unfold slice. rewrite firstn_length, skipn_length. lia. Qed.
Lemma length_put w i l : (i + length l <= length w)%nat -> length (put w i l) = length w.
Proof. intros H. unfold put. rewrite !app_length, firstn_length, skipn_length. lia. Qed.
Lemma nth_slice w i n k : (k < n)%nat -> nth k (slice w i n) 0 = nth (i + k) w 0.
Proof.
  intros H. unfold slice. rewrite nth_firstn by exact H.
  revert w. induction i as [|i IH]; intros w; [reflexivity|]. destruct w as [|a w]; [destruct k; reflexivity|]. exact (IH w).
Qed.
Lemma nth_put w i l k : (i + length l <= length w)%nat ->
  nth k (put w i l) 0 = if (i <=? k)%nat && (k <? i + length l)%nat then nth (k - i) l 0 else nth k w 0.
Proof.
  intros H. unfold put. destruct (Nat.leb_spec i k) as [H1|H1]; cbn [andb].
  - rewrite app_nth2 by (rewrite firstn_length; lia). rewrite firstn_length, Nat.min_l by lia.
    destruct (Nat.ltb_spec k (i + length l)) as [H2|H2].
    + apply app_nth1. lia.
    + rewrite app_nth2 by lia. 
      transitivity (nth (i + length l + (k - i - length l)) w 0); [|f_equal; lia].
      generalize (i + length l)%nat. intros m. generalize (k - i - length l)%nat. intros j. clear.
      revert w. induction m as [|m IH]; intros w; [reflexivity|]. destruct w as [|a w]; [destruct j; reflexivity|]. exact (IH w).
  - rewrite app_nth1 by (rewrite firstn_length; lia). apply nth_firstn. exact H1.
Qed.
Lemma slice_put_apart w i l j n : (i + length l <= length w)%nat -> (j + n <= length w)%nat ->
  apart j n i (length l) -> slice (put w i l) j n = slice w j n.
Proof.
  intros H1 H2 Ha. apply (nth_ext _ _ 0 0).
  - rewrite !length_slice by (rewrite ?length_put; assumption). reflexivity.
  - intros k Hk. rewrite length_slice in Hk by (rewrite length_put; assumption).
    rewrite !nth_slice by exact Hk. rewrite nth_put by exact H1.
    destruct Ha; destruct (Nat.leb_spec i (j + k)), (Nat.ltb_spec (j + k) (i + length l)); cbn [andb]; try reflexivity; lia.
Qed.
Lemma slice_put w i l : (i + length l <= length w)%nat -> slice (put w i l) i (length l) = l.
Proof.
  intros H. apply (nth_ext _ _ 0 0).
  - rewrite length_slice by (rewrite length_put; assumption). reflexivity.
  - intros k Hk. rewrite length_slice in Hk by (rewrite length_put; assumption).
    rewrite nth_slice by exact Hk. rewrite nth_put by exact H.
    destruct (Nat.leb_spec i (i + k)), (Nat.ltb_spec (i + k) (i + length l)); cbn [andb]; try lia. f_equal. lia.
Qed.
Lemma shared_strip u : shared u = true -> strip0 (zels u) = zels u.
Proof.
  unfold shared. destruct (zels u) as [|a l]; [reflexivity|]. cbn [strip0]. destruct (isz a); [rewrite andb_comm; discriminate|reflexivity].
Qed.
Lemma last_div l d : last (map (fun x => x / d) l) 0 = last l 0 / d.
Proof.
  induction l as [|a [|b l] IH]; [cbn; unfold Rdiv; ring|reflexivity|]. exact IH.
Qed.
Lemma div_one (l : list R) : map (fun x => x / 1) l = l.
Proof. rewrite <- (map_id l) at 2. apply map_ext. intros a. field. Qed.
Lemma shared_div u d : d <> 0 -> shared u = true -> shared (mkZ true DFloat (map (fun x => x / d) (zels u))) = true.
Proof.
  intros Hd. unfold shared. cbn [zarr zels andb]. destruct (zels u) as [|a l]; cbn [map]; [reflexivity|].
  unfold isz. destruct (Reqb a 0) eqn:E; [rewrite andb_comm; discriminate|]. intros _.
  destruct (Reqb (a / d) 0) eqn:E'; [|reflexivity]. apply Reqb_iff in E'.
  assert (a = 0). { replace a with (a / d * d) by (field; exact Hd). rewrite E'. ring. }
  apply Reqb_iff in H. congruence.
Qed.

Section P.
  Variable roots : list R -> list C.
  Variable residue : list R -> list R -> list C * list C.

  (** Views without common elements: the result and the views afterwards are those of
      separate arrays, and nothing else in w changes. *)
  Lemma views_apart w iu nu iv nv f bil : (iu + nu <= length w)%nat -> (iv + nv <= length w)%nat ->
    apart iu nu iv nv ->
    exists w', z_views roots residue w iu nu iv nv f bil =
      (w', snd (z_transform roots residue (copy w iu nu) (copy w iv nv) f bil)) /\
      copy w' iu nu = fst (fst (z_transform roots residue (copy w iu nu) (copy w iv nv) f bil)) /\
      copy w' iv nv = snd (fst (z_transform roots residue (copy w iu nu) (copy w iv nv) f bil)) /\
      length w' = length w /\
      forall k, (k < iu \/ iu + nu <= k)%nat -> (k < iv \/ iv + nv <= k)%nat -> nth k w' 0 = nth k w 0.
  Proof.
    intros Hu Hv Ha. unfold z_views, z_transform. fold (copy w iu nu) (copy w iv nv). cbv zeta.
    destruct (zempty (copy w iu nu)); [exists w; cbn [fst snd]; auto|].
    destruct (zempty (copy w iv nv)); [exists w; cbn [fst snd]; auto|].
    destruct (Rleb f 0); [exists w; cbn [fst snd]; auto|].
    change (is_int (copy w iv nv)) with false. change (is_int (copy w iu nu)) with false. cbv iota. cbn [fst snd].
    set (d := last (strip0 (zels (copy w iu nu))) 0).
    set (vs := map (fun x => x / d) (strip0 (zels (copy w iv nv)))).
    set (w1 := if shared (copy w iv nv) then put w iv vs else w).
    assert (Lv : shared (copy w iv nv) = true -> length vs = nv).
    { intros S. unfold vs. rewrite map_length, (shared_strip _ S). exact (length_slice w iv nv Hv). }
    assert (L1 : length w1 = length w).
    { unfold w1. destruct (shared (copy w iv nv)) eqn:S; [|reflexivity]. apply length_put. rewrite (Lv ltac:(first [exact S|reflexivity])). exact Hv. }
    assert (U1 : slice w1 iu nu = slice w iu nu).
    { unfold w1. destruct (shared (copy w iv nv)) eqn:S; [|reflexivity]. apply slice_put_apart; rewrite ?(Lv ltac:(first [exact S|reflexivity])); assumption. }
    assert (Us : (if shared (copy w iu nu) then slice w1 iu nu else strip0 (zels (copy w iu nu))) = strip0 (zels (copy w iu nu))).
    { destruct (shared (copy w iu nu)) eqn:S; [|reflexivity]. rewrite U1, (shared_strip _ S). reflexivity. }
    rewrite Us. fold d. set (us := map (fun x => x / d) (strip0 (zels (copy w iu nu)))).
    set (w2 := if shared (copy w iu nu) then put w1 iu us else w1).
    assert (Lu : shared (copy w iu nu) = true -> length us = nu).
    { intros S. unfold us. rewrite map_length, (shared_strip _ S). exact (length_slice w iu nu Hu). }
    assert (L2 : length w2 = length w).
    { unfold w2. destruct (shared (copy w iu nu)) eqn:S; [|exact L1]. rewrite length_put; [exact L1|]. rewrite (Lu ltac:(first [exact S|reflexivity])), L1. exact Hu. }
    assert (V2 : slice w2 iv nv = slice w1 iv nv).
    { unfold w2. destruct (shared (copy w iu nu)) eqn:S; [|reflexivity].
      apply slice_put_apart; rewrite ?(Lu ltac:(first [exact S|reflexivity])), ?L1; try assumption. destruct Ha; [right|left]; assumption. }
    assert (V1 : shared (copy w iv nv) = true -> slice w1 iv nv = vs).
    { intros S. unfold w1. rewrite S. rewrite <- (Lv ltac:(first [exact S|reflexivity])). apply slice_put. rewrite (Lv ltac:(first [exact S|reflexivity])). exact Hv. }
    assert (Vs : (if shared (copy w iv nv) then slice w2 iv nv else vs) = vs).
    { destruct (shared (copy w iv nv)) eqn:S; [|reflexivity]. rewrite V2. apply V1. reflexivity. }
    rewrite Vs. exists w2. split; [reflexivity|]. split; [|split; [|split; [exact L2|]]].
    - unfold w2, copy at 1. destruct (shared (copy w iu nu)) eqn:S.
      + rewrite <- (Lu ltac:(first [exact S|reflexivity])) at 1. rewrite slice_put by (rewrite (Lu ltac:(first [exact S|reflexivity])), L1; exact Hu). reflexivity.
      + rewrite U1. reflexivity.
    - unfold copy at 1. rewrite V2. destruct (shared (copy w iv nv)) eqn:S.
      + rewrite (V1 eq_refl). reflexivity.
      + unfold w1. try rewrite S. reflexivity.
    - intros k Ku Kv.
      assert (E1 : nth k w1 0 = nth k w 0).
      { unfold w1. destruct (shared (copy w iv nv)) eqn:S; [|reflexivity]. rewrite nth_put by (rewrite (Lv ltac:(first [exact S|reflexivity])); exact Hv). rewrite (Lv ltac:(first [exact S|reflexivity])).
        destruct (Nat.leb_spec iv k), (Nat.ltb_spec k (iv + nv)); cbn [andb]; try reflexivity; lia. }
      unfold w2. destruct (shared (copy w iu nu)) eqn:S; [|exact E1]. rewrite nth_put by (rewrite (Lu ltac:(first [exact S|reflexivity])), L1; exact Hu). rewrite (Lu ltac:(first [exact S|reflexivity])).
      destruct (Nat.leb_spec iu k), (Nat.ltb_spec k (iu + nu)); cbn [andb]; try exact E1; lia.
  Qed.

  (** The same view twice: the result is again that of separate arrays, and the array is
      divided once. *)
  Lemma views_same w i n f bil : (i + n <= length w)%nat -> last (slice w i n) 0 <> 0 ->
    exists w', z_views roots residue w i n i n f bil =
      (w', snd (z_transform roots residue (copy w i n) (copy w i n) f bil)) /\
      copy w' i n = fst (fst (z_transform roots residue (copy w i n) (copy w i n) f bil)).
  Proof.
    intros Hu Hd. unfold z_views, z_transform. fold (copy w i n). cbv zeta.
    destruct (zempty (copy w i n)) eqn:Ez; [exists w; cbn [fst snd]; auto|].
    destruct (Rleb f 0); [exists w; cbn [fst snd]; auto|].
    change (is_int (copy w i n)) with false. cbv iota. cbn [fst snd].
    destruct (shared (copy w i n)) eqn:S.
    2:{ eexists. split; reflexivity. }
    rewrite (shared_strip _ S). change (zels (copy w i n)) with (slice w i n). set (d := last (slice w i n) 0) in *.
    set (vs := map (fun x => x / d) (slice w i n)).
    assert (Lv : length vs = n) by (unfold vs; rewrite map_length; exact (length_slice w i n Hu)).
    assert (E1 : slice (put w i vs) i n = vs) by (rewrite <- Lv at 1; apply slice_put; rewrite Lv; exact Hu).
    rewrite E1. assert (L1 : last vs 0 = 1) by (unfold vs; rewrite last_div; fold d; field; exact Hd).
    rewrite L1, div_one.
    assert (E2 : slice (put (put w i vs) i vs) i n = vs).
    { rewrite <- Lv at 1. apply slice_put. rewrite length_put; rewrite Lv; exact Hu. }
    rewrite E2. eexists. split; [reflexivity|]. unfold copy at 1. rewrite E2. reflexivity.
  Qed.
End P.

Theorem C179_views roots residue w iu nu iv nv f (bil : bool) :
  (iu + nu <= length w)%nat -> (iv + nv <= length w)%nat -> apart iu nu iv nv ->
  exists w' u' v' r, z_views roots residue w iu nu iv nv f bil = (w', r) /\
    z_transform roots residue (copy w iu nu) (copy w iv nv) f bil = (u', v', r) /\
    copy w' iu nu = u' /\ copy w' iv nv = v' /\ length w' = length w /\
    forall k, (k < iu \/ iu + nu <= k)%nat -> (k < iv \/ iv + nv <= k)%nat -> nth k w' 0 = nth k w 0.
Proof.
  intros Hu Hv Ha. destruct (views_apart roots residue w iu nu iv nv f bil Hu Hv Ha) as (w' & E & H1 & H2 & H3 & H4).
  destruct (z_transform roots residue (copy w iu nu) (copy w iv nv) f bil) as [[u' v'] r]. cbn [fst snd] in *.
  exists w', u', v', r. repeat (split; [first [exact E|reflexivity|assumption]|]). exact H4.
Qed.
Print Assumptions C179_views.

Theorem C179_same_array roots residue w i n f (bil : bool) :
  (i + n <= length w)%nat -> last (slice w i n) 0 <> 0 ->
  exists w' u' v' r, z_views roots residue w i n i n f bil = (w', r) /\
    z_transform roots residue (copy w i n) (copy w i n) f bil = (u', v', r) /\ copy w' i n = u'.
Proof.
  intros Hu Hd. destruct (views_same roots residue w i n f bil Hu Hd) as (w' & E & H1).
  destruct (z_transform roots residue (copy w i n) (copy w i n) f bil) as [[u' v'] r]. cbn [fst snd] in *.
  exists w', u', v', r. split; [exact E|]. split; [reflexivity|exact H1].
Qed.
Print Assumptions C179_same_array.

(** Overlapping views u = w[1:3], v = w[0:2] of w = [1, 2, 3]: the division of v changes u, and
    the pole is wrong, whatever the routine for the roots does beyond linear polynomials. *)
Section Witness.
  Variable roots : list R -> list C.
  Variable residue : list R -> list R -> list C * list C.
  Hypothesis Hroots : forall a b, a <> 0 -> roots [a; b] = [RtoC (- b / a)].

  Lemma isz_no x : x <> 0 -> isz x = false.
  Proof. intros H. unfold isz. destruct (Reqb x 0) eqn:E; [apply Reqb_iff in E; congruence|reflexivity]. Qed.
  Lemma pos_no x : 0 < x -> Rleb x 0 = false.
  Proof. intros H. destruct (Rleb x 0) eqn:E; [apply Rleb_iff in E; lra|reflexivity]. Qed.

  (** The denominator [0, pole] of a first order result. *)
  Lemma first_order (p : R) z (b : list R) : 
    fst (z_normal (map fst (cpoly [RtoC p]), b)) = z -> z = [0; p].
  Proof.
    intros <-. cbn. apply (f_equal (cons 0)). apply (f_equal (fun x => [x])). field.
  Qed.

  Lemma views_overlap : let f := 2 / PI in
    exists b b', snd (z_views roots residue [1; 2; 3] 1 2 0 2 f true) = Ok ([0; - (7 / 11)], b) /\
      snd (z_transform roots residue (copy [1; 2; 3] 1 2) (copy [1; 2; 3] 0 2) f true) = Ok ([0; - (1 / 5)], b').
  Proof.
    intros f. assert (Hpi := PI_RGT_0).
    assert (Hf : 0 < f) by (unfold f; apply Rdiv_lt_0_compat; lra).
    assert (Ht : 1 / (PI * f) = 1 / 2) by (unfold f; field; lra).
    assert (B : forall x, 0 < x -> bil (1 / 2) (RtoC (- x)) = RtoC ((1 - x) / (1 + x))).
    { intros x Hx. unfold bil. replace (2 * (1 / 2)) with 1 by field.
      assert (X : RtoC (1 + x) <> RtoC 0) by (intros C; apply RtoC_inj in C; lra).
      replace (Cdiv (RtoC (- x)) (RtoC 1)) with (RtoC (- x)) by (rewrite <- RtoC_div by lra; f_equal; field).
      rewrite <- RtoC_plus, <- RtoC_minus, <- RtoC_div by lra. f_equal. field. lra. }
    assert (Sh : forall a l, a <> 0 -> shared (mkZ true DFloat (a :: l)) = true).
    { intros a l Ha. unfold shared. cbn [zarr zels andb]. rewrite isz_no by exact Ha. reflexivity. }
    assert (Ze : forall a l, a <> 0 -> zempty (mkZ true DFloat (a :: l)) = false).
    { intros a l Ha. unfold zempty. cbn [zels length Nat.eqb orb forallb]. rewrite isz_no by exact Ha. reflexivity. }
    assert (St : forall a l, a <> 0 -> strip0 (a :: l) = a :: l).
    { intros a l Ha. cbn [strip0]. rewrite isz_no by exact Ha. reflexivity. }
    assert (G : forall a b c d (x y : R), a <> 0 -> c <> 0 -> b / a = x -> d / c = y -> 0 < x -> 0 < y ->
       exists e, rmap z_normal (z_bilinear roots (1 / 2) [a; b] [c; d]) = Ok ([0; (1 - x) / (1 + x)], e)).
    { intros a b c d x y Ha Hc Ex Ey Hx Hy. unfold z_bilinear. rewrite !Hroots by assumption.
      cbn [map length Nat.sub repeat app Nat.eqb rmap].
      replace (- b / a) with (- x) by (rewrite <- Ex; field; exact Ha).
      replace (- d / c) with (- y) by (rewrite <- Ey; field; exact Hc). rewrite !B by assumption.
      destruct (z_normal (map fst (cpoly [RtoC ((1 - x) / (1 + x))]), map fst (cpoly [RtoC ((1 - y) / (1 + y))]))) as [az bz] eqn:E.
      exists bz. f_equal. f_equal. apply (first_order _ az (map fst (cpoly [RtoC ((1 - y) / (1 + y))]))). rewrite E. reflexivity. }
    unfold z_views, z_transform, copy. cbn [slice firstn skipn Nat.add].
    rewrite !Ze, pos_no, !Sh by lra. cbv zeta. cbn [zels is_int zdt]. rewrite !St by lra. rewrite Ht.
    cbn [last map put firstn skipn app length Nat.add slice]. cbn [snd].
    destruct (G (2 / 3 / 3) (3 / 3) (1 / 3) (2 / 3 / 3) (9 / 2) (2 / 3)) as [e Ee]; try lra; try field.
    destruct (G (2 / 3) (3 / 3) (1 / 3) (2 / 3) (3 / 2) 2) as [e' Ee']; try lra; try field.
    rewrite Ee, Ee'. exists e, e'. split; f_equal; f_equal; [|]; (apply (f_equal (cons 0)); apply (f_equal (fun x => [x])); field).
  Qed.
End Witness.

Theorem C179_overlap_refuted roots residue :
  (forall a b, a <> 0 -> roots [a; b] = [RtoC (- b / a)]) ->
  ~ (forall w iu nu iv nv f bil, (iu + nu <= length w)%nat -> (iv + nv <= length w)%nat ->
       snd (z_views roots residue w iu nu iv nv f bil) =
       snd (z_transform roots residue (copy w iu nu) (copy w iv nv) f bil)).
Proof.
  intros Hr H. destruct (views_overlap roots residue Hr) as (b & b' & E1 & E2).
  specialize (H [1; 2; 3] 1%nat 2%nat 0%nat 2%nat (2 / PI) true ltac:(cbn; lia) ltac:(cbn; lia)).
  rewrite E1, E2 in H. injection H as H _. lra.
Qed.
Print Assumptions C179_overlap_refuted.

Example C179_views_example : apart 0 2 3 2 /\ (3 + 2 <= length [1; 2; 7; 1; 4])%nat /\ last (slice [1; 2; 7; 1; 4] 3 2) 0 <> 0 /\
  copy [1; 2; 7; 1; 4] 3 2 = mkZ true DFloat [1; 4].
Proof. split; [left; lia|]. split; [cbn; lia|]. split; [cbn; lra|reflexivity]. Qed.
(** A routine meeting the hypothesis. *)
Example C179_roots_example : exists roots : list R -> list C, forall a b, a <> 0 -> roots [a; b] = [RtoC (- b / a)].
Proof. exists (fun l => match l with [a; b] => [RtoC (- b / a)] | _ => [] end). reflexivity. Qed.
