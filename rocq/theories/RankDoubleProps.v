(** Property C165: RankFilter in IEEE doubles, with NaN and infinite samples. *)
From Flocq Require Import Core BinarySingleNaN PrimFloat.
From Coq Require Import List Arith ZArith Lia Bool Permutation Reals Lra Floats.
From Verif Require Import Base BaseLemmas Instances FirModel FirSpec FirProofs RankModel RankProps RankProps2 DoubleSpec.
Import ListNotations.
Set Asymmetric Patterns.
Close Scope R_scope. Open Scope nat_scope.

(** The order by which numpy sorts doubles (npy::less): a < b, or b is not a number and a
    is.  So NaN comes last. *)
Definition nless (a b : float) : bool :=
  PrimFloat.ltb a b || (PrimFloat.is_nan b && negb (PrimFloat.is_nan a)).
(** Doubles with that order; [is_argsort] for this structure is the contract of
    numpy.argsort on an array of doubles. *)
Definition FS : OArith :=
  {| oa := FA; oabs := PrimFloat.abs; oltb := nless; oleb := PrimFloat.leb;
     oltinf := fun x => PrimFloat.ltb x PrimFloat.infinity |}.

(** The window of sample [n], newest first; [h] is the history before the signal. *)
Definition float_window (h x : list float) (order n : nat) : list float :=
  map (fun i => let k := (Z.of_nat n - Z.of_nat i)%Z in
       if (k <? 0)%Z then nth (Z.to_nat (- k - 1)) h 0%float else nth (Z.to_nat k) x 0%float) (seq 0 (S order)).

(** How many samples of a window are as described. *)
Definition many (p : float -> Prop) (w : list float) (m : nat) : Prop :=
  exists l, NoDup l /\ length l = m /\ forall i, In i l -> i < length w /\ p (nth i w 0%float).

Lemma prim_nan x : PrimFloat.is_nan x = true <-> Prim2B x = B754_nan.
Proof. rewrite is_nan_equiv. destruct (Prim2B x); split; intros H; try discriminate; reflexivity. Qed.

(** Key of the order: not a number, plus infinity, finite value, minus infinity. *)
Definition key (x : float) : nat * R :=
  match Prim2B x with
  | B754_nan => (3, 0%R)
  | B754_infinity false => (2, 0%R)
  | B754_infinity true => (0, 0%R)
  | f => (1, B2R f)
  end.
Definition klt (a b : nat * R) : Prop := fst a < fst b \/ (fst a = fst b /\ (snd a < snd b)%R).
Lemma nless_key x y : nless x y = true <-> klt (key x) (key y).
Proof.
  unfold nless, key, klt. rewrite ltb_equiv, !is_nan_equiv.
  set (a := Prim2B x). set (b := Prim2B y).
  assert (K : BinarySingleNaN.is_finite a = true -> BinarySingleNaN.is_finite b = true -> (Bltb a b = true <-> (B2R a < B2R b)%R)).
  { intros Fa Fb. rewrite Bltb_correct by assumption. destruct (Rlt_bool_spec (B2R a) (B2R b)); split; intros; auto; [discriminate|lra]. }
  destruct a as [sa|sa| |sa ma ea Ea], b as [sb|sb| |sb mb eb Eb]; try destruct sa; try destruct sb;
    try (specialize (K eq_refl eq_refl); cbn [BinarySingleNaN.is_nan negb andb orb fst snd] in *; rewrite orb_false_r, K; split; intros H; [right; split; [reflexivity|exact H]|destruct H as [H|[_ H]]; [lia|exact H]]);
    cbn; split; intros H; try reflexivity; try discriminate; try (left; lia); try (destruct H as [H|[H1 H]]; [lia|lra || lia]).
Qed.
Lemma nless_asym x y : nless x y = true -> nless y x = false.
Proof.
  intros H. destruct (nless y x) eqn:E; [|reflexivity]. apply nless_key in H, E. unfold klt in *.
  destruct H as [H|[H H']], E as [E|[E E']]; try lia. lra.
Qed.
Lemma nless_irr x : nless x x = false.
Proof. destruct (nless x x) eqn:E; [|reflexivity]. pose proof (nless_asym _ _ E). congruence. Qed.
Lemma nless_ge_trans x y z : nless y x = false -> nless z y = false -> nless z x = false.
Proof.
  intros H1 H2. destruct (nless z x) eqn:E; [|reflexivity]. apply nless_key in E. exfalso.
  assert (N1 : ~ klt (key y) (key x)) by (rewrite <- nless_key; congruence).
  assert (N2 : ~ klt (key z) (key y)) by (rewrite <- nless_key; congruence).
  unfold klt in *. destruct (key x) as [kx rx], (key y) as [ky ry], (key z) as [kz rz]; cbn [fst snd] in *.
  assert (kx <= ky) by lia. assert (ky <= kz) by lia.
  destruct E as [E|[E1 E2]]; [lia|]. assert (kx = ky) by lia. assert (ky = kz) by lia.
  apply N1. right. split; [lia|]. destruct (Rlt_le_dec ry rx) as [C|C]; [exact C|]. exfalso. apply N2. right. split; [lia|lra].
Qed.
Lemma isort_FS : @is_argsort FS (@isort FS).
Proof. apply isort_ok; [exact nless_asym|]. intros a b c. apply nless_ge_trans. Qed.

Lemma abs_nan x : PrimFloat.is_nan (PrimFloat.abs x) = PrimFloat.is_nan x.
Proof. rewrite !is_nan_equiv, abs_equiv. destruct (Prim2B x); reflexivity. Qed.

(** Sorted by magnitude: not a number last, then infinite, then by absolute value. *)
Lemma mag_key x : key (PrimFloat.abs x) =
  if PrimFloat.is_nan x then (3, 0%R) else if PrimFloat.is_finite x then (1, Rabs (val x)) else (2, 0%R).
Proof.
  unfold key, val. rewrite abs_equiv, is_nan_equiv, is_finite_equiv.
  assert (K := B2R_Babs _ _ (Prim2B x)).
  destruct (Prim2B x) as [s|s| |s m e E]; cbn [BinarySingleNaN.is_nan BinarySingleNaN.is_finite Babs] in *; try reflexivity; rewrite <- K; reflexivity.
Qed.

Definition below (v : float) (w : list float) : nat := length (filter (fun u => nless (PrimFloat.abs u) (PrimFloat.abs v)) w).
Definition upto (v : float) (w : list float) : nat := length (filter (fun u => negb (nless (PrimFloat.abs v) (PrimFloat.abs u))) w).

Lemma float_stat (l w : list float) k : Permutation l w ->
  (forall i j, i < j < length w -> nless (PrimFloat.abs (nth j l 0%float)) (PrimFloat.abs (nth i l 0%float)) = false) ->
  k < length w -> let v := nth k l 0%float in In v w /\ below v w <= k /\ k < upto v w.
Proof.
  intros Hp Hsorted Hk v. pose proof (Permutation_length Hp) as Hl.
  split; [|split].
  - eapply Permutation_in; [exact Hp|]. apply nth_In. lia.
  - unfold below. rewrite <- (filter_length_perm _ _ _ Hp).
    rewrite <- (firstn_skipn k l). rewrite filter_app, app_length.
    rewrite (filter_none _ (skipn k l)).
    + cbn [length]. rewrite Nat.add_0_r. etransitivity; [apply filter_length_le|].
      rewrite firstn_length. lia.
    + intros u Hu. destruct (In_nth _ _ 0%float Hu) as (i & Hi & Eu). subst u. rewrite skipn_length in Hi.
      rewrite nth_skipn_add. destruct i as [|i].
      * rewrite Nat.add_0_r. apply nless_irr.
      * apply Hsorted. lia.
  - unfold upto. rewrite <- (filter_length_perm _ _ _ Hp).
    rewrite <- (firstn_skipn (S k) l). rewrite filter_app, app_length.
    rewrite (filter_all _ (firstn (S k) l)).
    + rewrite firstn_length. lia.
    + intros u Hu. destruct (In_nth _ _ 0%float Hu) as (i & Hi & Eu). subst u. rewrite firstn_length in Hi.
      rewrite nth_firstn by lia. unfold v.
      destruct (Nat.eq_dec i k) as [->|]; [rewrite nless_irr; reflexivity|]. rewrite Hsorted by lia. reflexivity.
Qed.

Lemma float_window_at (s x : list float) n :
  @window_at FS DFloat s x n = float_window (tl s) x (length s - 1) n \/ s = [].
Proof.
  destruct s as [|s0 t]; [right; reflexivity|left]. unfold window_at, float_window. cbn [length tl].
  rewrite Nat.sub_succ, Nat.sub_0_r. apply map_ext. intros i. unfold sig. cbn zeta.
  assert (Em : forall l : list float, map (@cast FS DFloat) l = l).
  { intros l. rewrite <- (map_id l) at 2. apply map_ext. reflexivity. }
  rewrite Em. reflexivity.
Qed.

Lemma float_rank (argsort : list float -> list nat) index order ops (r : rank FS) (x : list float) :
  @is_argsort FS argsort -> @rank_used FS argsort index order ops r -> x <> [] ->
  exists r' y, @rank_filter FS argsort r DFloat x = (r', Ok y) /\ length y = length x /\
    forall n, n < length x ->
      let w := float_window (tl (fs (rfir r))) x (Z.to_nat order) n in
      let v := nth n y 0%float in
      In v w /\ below v w <= Z.to_nat (rindex r) /\ Z.to_nat (rindex r) < upto v w.
Proof.
  intros Hs Hu Hx. destruct (@rank_filter_eq FS argsort Hs _ _ _ _ DFloat x Hu Hx) as (r' & E).
  destruct (@rank_used_inv FS argsort Hs _ _ _ _ Hu) as (Hl & Hi & Hd).
  eexists r', _. split; [exact E|]. split; [rewrite map_length, seq_length; reflexivity|].
  intros n Hn w.
  assert (Ew : w = @window_at FS DFloat (fs (rfir r)) x n).
  { destruct (float_window_at (fs (rfir r)) x n) as [K|K].
    - rewrite K. unfold w. f_equal. change (@length (carrier FS) (fs (rfir r)) = S (Z.to_nat order)) in Hl.
      set (ll := @length (carrier FS) (fs (rfir r))) in *. change (Z.to_nat order = ll - 1). lia.
    - exfalso. assert (C : @length (carrier FS) (fs (rfir r)) = 0) by (rewrite K; reflexivity). congruence. }
  assert (En : nth n (map (fun n => @cast FS DFloat (nth (Z.to_nat (rindex r))
     (sorted_window argsort (window_at DFloat (fs (rfir r)) x n)) zero)) (seq 0 (length x))) 0%float =
     nth (Z.to_nat (rindex r)) (@sorted_window FS argsort w) 0%float).
  { rewrite nth_map_seq by exact Hn. rewrite Ew. reflexivity. }
  cbv zeta. refine (eq_ind_r (fun v => In v w /\ below v w <= Z.to_nat (rindex r) /\
    Z.to_nat (rindex r) < upto v w) _ En).
  apply float_stat.
  - exact (@sorted_window_perm FS argsort Hs w).
  - exact (@sorted_window_sorted FS argsort Hs w).
  - unfold w, float_window. rewrite map_length, seq_length. lia.
Qed.

Lemma many_filter (p : float -> bool) (q : float -> Prop) w m : (forall u, q u -> p u = true) -> many q w m -> m <= length (filter p w).
Proof.
  intros Hq (l & Hnd & <- & H). revert l Hnd H. induction w as [|u w IH]; intros l Hnd H.
  - destruct l as [|i l]; [apply le_n|]. destruct (H i (or_introl eq_refl)) as [C _]. cbn in C. lia.
  - set (l' := map Nat.pred (filter (fun i => negb (Nat.eqb i 0)) l)).
    assert (Hl' : length l' <= length (filter p w)).
    { apply IH.
      - unfold l'. apply NoDup_nth with (d := 0).
        assert (Hf : NoDup (filter (fun i => negb (Nat.eqb i 0)) l)) by (apply NoDup_filter; exact Hnd).
        assert (Hpos : forall i, In i (filter (fun i => negb (Nat.eqb i 0)) l) -> i <> 0).
        { intros i Hi. apply filter_In in Hi. destruct Hi as [_ Hi]. destruct (Nat.eqb_spec i 0); [discriminate|assumption]. }
        set (f := filter (fun i => negb (Nat.eqb i 0)) l) in *. rewrite map_length. intros i j Hi Hj Eij.
        change 0 with (Nat.pred 0) in Eij. rewrite !map_nth in Eij.
        apply (proj1 (NoDup_nth f 0) Hf i j Hi Hj).
        pose proof (Hpos _ (nth_In f 0 Hi)). pose proof (Hpos _ (nth_In f 0 Hj)). lia.
      - intros i Hi. unfold l' in Hi. apply in_map_iff in Hi. destruct Hi as (j & <- & Hj).
        apply filter_In in Hj. destruct Hj as [Hj Hz]. destruct (Nat.eqb_spec j 0) as [|Hz']; [discriminate|].
        destruct (H j Hj) as [Hlt Hqj]. destruct j as [|j]; [congruence|]. cbn in *. split; [lia|exact Hqj]. }
    assert (Hsplit : length l <= length l' + (if p u then 1 else 0)).
    { unfold l'. rewrite map_length.
      assert (Hz : length (filter (fun i => Nat.eqb i 0) l) <= if p u then 1 else 0).
      { destruct (in_dec Nat.eq_dec 0 l) as [Hin|Hnin].
        - destruct (H 0 Hin) as [_ Hq0]. cbn in Hq0. rewrite (Hq u Hq0).
          assert (HN : NoDup (filter (fun i => Nat.eqb i 0) l)) by (apply NoDup_filter; exact Hnd).
          assert (Hin1 : incl (filter (fun i => Nat.eqb i 0) l) [0]).
          { intros i Hi. apply filter_In in Hi. destruct Hi as [_ Hi]. apply Nat.eqb_eq in Hi. left. congruence. }
          apply (NoDup_incl_length HN Hin1).
        - rewrite filter_none; [cbn; lia|]. intros i Hi. destruct (Nat.eqb_spec i 0); [congruence|reflexivity]. }
      assert (Hc : length l = length (filter (fun i => Nat.eqb i 0) l) + length (filter (fun i => negb (Nat.eqb i 0)) l)).
      { clear. induction l as [|i l IH]; [reflexivity|]. cbn. destruct (Nat.eqb i 0); cbn; lia. }
      lia. }
    cbn [filter]. destruct (p u); cbn [length]; lia.
Qed.
Lemma filter_many (p : float -> bool) w : many (fun u => p u = true) w (length (filter p w)).
Proof.
  exists (filter (fun i => p (nth i w 0%float)) (seq 0 (length w))). split; [apply NoDup_filter, seq_NoDup|].
  split.
  - assert (G : forall s, length (filter (fun i => p (nth i w 0%float)) s) = length (filter p (map (fun i => nth i w 0%float) s))).
    { induction s as [|i s IH]; [reflexivity|]. cbn. destruct (p (nth i w 0%float)); cbn; rewrite IH; reflexivity. }
    rewrite G, map_nth_seq. reflexivity.
  - intros i Hi. apply filter_In in Hi. destruct Hi as [Hs Hp]. apply in_seq in Hs. split; [lia|exact Hp].
Qed.

Lemma In_first {X} (l : list X) : forall k a, In a (firstn k l) -> In a l.
Proof. induction l as [|b l IH]; intros [|k] a; cbn; try tauto. intros [H|H]; [left; exact H|right; eapply IH; exact H]. Qed.
Lemma NoDup_first {X} (l : list X) : NoDup l -> forall k, NoDup (firstn k l).
Proof.
  induction 1 as [|a l Ha _ IH]; intros [|k]; cbn; constructor; [|apply IH]. intros C. apply Ha. eapply In_first. exact C.
Qed.

(** C165.  The output is bit for bit one of the last order+1 samples, and the output is
    not a number exactly when at most [index] samples of the window are numbers. *)
Theorem C165_nan (argsort : list float -> list nat) index order ops (r : rank FS) (x : list float) :
  @is_argsort FS argsort -> @rank_used FS argsort index order ops r -> x <> [] ->
  exists r' y, @rank_filter FS argsort r DFloat x = (r', Ok y) /\ length y = length x /\
    forall n, n < length x ->
      let w := float_window (tl (fs (rfir r))) x (Z.to_nat order) n in
      In (nth n y 0%float) w /\
      (~ nonnumber (nth n y 0%float) <-> many (fun u => ~ nonnumber u) w (S (Z.to_nat (rindex r)))).
Proof.
  intros Hs Hu Hx. destruct (float_rank argsort _ _ _ _ x Hs Hu Hx) as (r' & y & E & Hl & H).
  exists r', y. split; [exact E|]. split; [exact Hl|]. intros n Hn w. destruct (H n Hn) as (Hin & Hb & Ht). fold w in Hin, Hb, Ht.
  set (v := nth n y 0%float) in *. split; [exact Hin|]. unfold nonnumber. split.
  - intros Hv. apply not_true_is_false in Hv.
    assert (Hle : S (Z.to_nat (rindex r)) <= length (filter (fun u => negb (PrimFloat.is_nan u)) w)).
    { eapply Nat.le_trans; [exact Ht|]. apply filter_le. intros u _ Hu'. unfold nless in Hu'. rewrite !abs_nan, Hv in Hu'.
      destruct (PrimFloat.is_nan u); [|reflexivity]. cbn in Hu'. rewrite orb_true_r in Hu'. discriminate. }
    destruct (filter_many (fun u => negb (PrimFloat.is_nan u)) w) as (l & Hnd & Hll & Hp).
    exists (firstn (S (Z.to_nat (rindex r))) l). split; [|split].
    + apply NoDup_first. exact Hnd.
    + rewrite firstn_length. lia.
    + intros i Hi. assert (Hi' : In i l) by (rewrite <- (firstn_skipn (S (Z.to_nat (rindex r))) l); apply in_or_app; left; exact Hi).
      destruct (Hp i Hi') as [Hlt Hn']. split; [exact Hlt|]. destruct (PrimFloat.is_nan (nth i w 0%float)); [discriminate|congruence].
  - intros Hm Hv. assert (S (Z.to_nat (rindex r)) <= below v w); [|lia].
    apply (many_filter _ (fun u => PrimFloat.is_nan u <> true)); [|exact Hm].
    intros u Hu'. unfold nless. rewrite !abs_nan, Hv. apply not_true_is_false in Hu'. rewrite Hu'. cbn. apply orb_true_r.
Qed.
Print Assumptions C165_nan.

(** C165.  The output is finite and at most [c] in magnitude as soon as more than [index]
    samples of the window are, whatever the others: NaN, infinite or huge.  It is at least
    [c] as soon as more than order-index samples are NaN, infinite or at least [c]. *)
Theorem C165_bursts (argsort : list float -> list nat) index order ops (r : rank FS) (x : list float) :
  @is_argsort FS argsort -> @rank_used FS argsort index order ops r -> x <> [] ->
  exists r' y, @rank_filter FS argsort r DFloat x = (r', Ok y) /\ length y = length x /\
    forall n c, n < length x ->
      let w := float_window (tl (fs (rfir r))) x (Z.to_nat order) n in
      let v := nth n y 0%float in
      (many (fun u => finite u /\ (Rabs (val u) <= c)%R) w (S (Z.to_nat (rindex r))) -> finite v /\ (Rabs (val v) <= c)%R) /\
      (many (fun u => finite u -> (c <= Rabs (val u))%R) w (S (Z.to_nat (order - rindex r))) -> finite v -> (c <= Rabs (val v))%R).
Proof.
  intros Hs Hu Hx. destruct (float_rank argsort _ _ _ _ x Hs Hu Hx) as (r' & y & E & Hl & H).
  destruct (C27_rank_index_in_window FS argsort _ _ _ _ Hs Hu) as (_ & Hi & _).
  exists r', y. split; [exact E|]. split; [exact Hl|]. intros n c Hn w v. destruct (H n Hn) as (Hin & Hb & Ht). fold w in Hin, Hb, Ht. fold v in Hin, Hb, Ht.
  assert (FN : forall u, finite u -> PrimFloat.is_nan u = false).
  { intros u. unfold finite. rewrite is_finite_equiv, is_nan_equiv. destruct (Prim2B u); cbn; intros; congruence || reflexivity. }
  split.
  - intros Hm. destruct (PrimFloat.is_finite v) eqn:Fv.
    + split; [exact Fv|]. destruct (Rle_lt_dec (Rabs (val v)) c) as [C|C]; [exact C|]. exfalso.
      assert (S (Z.to_nat (rindex r)) <= below v w); [|lia].
      apply (many_filter _ (fun u => finite u /\ (Rabs (val u) <= c)%R)); [|exact Hm].
      intros u [Fu Cu]. apply nless_key. rewrite !mag_key, (FN u Fu), (FN v Fv), Fv. unfold finite in Fu. rewrite Fu.
      right. split; [reflexivity|]. cbn [snd]. lra.
    + exfalso. assert (S (Z.to_nat (rindex r)) <= below v w); [|lia].
      apply (many_filter _ (fun u => finite u /\ (Rabs (val u) <= c)%R)); [|exact Hm].
      intros u [Fu Cu]. apply nless_key. rewrite !mag_key, (FN u Fu), Fv. unfold finite in Fu. rewrite Fu.
      left. destruct (PrimFloat.is_nan v); cbn; lia.
  - intros Hm Fv. destruct (Rle_lt_dec c (Rabs (val v))) as [C|C]; [exact C|]. exfalso.
    set (p := fun u => nless (PrimFloat.abs v) (PrimFloat.abs u)).
    assert (Hle : S (Z.to_nat (order - rindex r)) <= length (filter p w)).
    { apply (many_filter _ (fun u => finite u -> (c <= Rabs (val u))%R)); [|exact Hm].
      intros u Hu'. unfold p. apply nless_key. rewrite !mag_key, (FN v Fv). unfold finite in Fv. rewrite Fv.
      destruct (PrimFloat.is_finite u) eqn:Fu.
      - rewrite (FN u Fu). right. split; [reflexivity|]. cbn [snd]. specialize (Hu' Fu). lra.
      - left. destruct (PrimFloat.is_nan u); cbn; lia. }
    assert (Hc : length (filter p w) + upto v w <= length w).
    { apply filter_compl. intros u _ Hu'. fold (p u). rewrite Hu'. reflexivity. }
    assert (Lw : length w = S (Z.to_nat order)) by (unfold w, float_window; rewrite map_length, seq_length; reflexivity).
    lia.
Qed.
Print Assumptions C165_bursts.

(** C165.  A NaN leaves the filter after order further samples: once order+1 samples in
    a row are numbers, the outputs are numbers again.  (An IirFilter never recovers: C146.) *)
Theorem C165_recovers (argsort : list float -> list nat) index order ops (r : rank FS) (x : list float) :
  @is_argsort FS argsort -> @rank_used FS argsort index order ops r -> x <> [] ->
  exists r' y, @rank_filter FS argsort r DFloat x = (r', Ok y) /\
    forall n, n < length x -> Z.to_nat order <= n ->
      (forall i, n <= i + Z.to_nat order -> i <= n -> ~ nonnumber (nth i x 0%float)) ->
      ~ nonnumber (nth n y 0%float) /\ exists i, n <= i + Z.to_nat order /\ i <= n /\ nth n y 0%float = nth i x 0%float.
Proof.
  intros Hs Hu Hx. destruct (C165_nan argsort _ _ _ _ x Hs Hu Hx) as (r' & y & E & Hl & H).
  exists r', y. split; [exact E|]. intros n Hn Ho Hc. destruct (H n Hn) as [Hin _].
  apply in_map_iff in Hin. destruct Hin as (i & Ei & Hi). apply in_seq in Hi. cbv zeta in Ei.
  destruct (Z.ltb_spec (Z.of_nat n - Z.of_nat i) 0); [lia|].
  replace (Z.to_nat (Z.of_nat n - Z.of_nat i)) with (n - i) in Ei by lia. rewrite <- Ei. split; [apply Hc; lia|].
  exists (n - i). split; [lia|]. split; [lia|]. reflexivity.
Qed.
Print Assumptions C165_recovers.

(** C165.  With the largest rank a single NaN does reach the output: there
    every window with a NaN yields NaN. *)
Theorem C165_dilation (argsort : list float -> list nat) index order ops (r : rank FS) (x : list float) :
  @is_argsort FS argsort -> @rank_used FS argsort index order ops r -> rindex r = order -> x <> [] ->
  exists r' y, @rank_filter FS argsort r DFloat x = (r', Ok y) /\
    forall n i, n < length x -> n <= i + Z.to_nat order -> i <= n -> nonnumber (nth i x 0%float) -> nonnumber (nth n y 0%float).
Proof.
  intros Hs Hu Hr Hx. destruct (C165_nan argsort _ _ _ _ x Hs Hu Hx) as (r' & y & E & Hl & H).
  exists r', y. split; [exact E|]. intros n i Hn H1 H2 Hnan. destruct (H n Hn) as [_ HH].
  unfold nonnumber in *. destruct (PrimFloat.is_nan (nth n y 0%float)) eqn:Ev; [reflexivity|]. exfalso.
  destruct (proj1 HH ltac:(congruence)) as (l & Hnd & Hll & Hp). rewrite Hr in Hll.
  set (w := float_window (tl (fs (rfir r))) x (Z.to_nat order) n) in *.
  assert (Lw : length w = S (Z.to_nat order)) by (unfold w, float_window; rewrite map_length, seq_length; reflexivity).
  assert (Hin : In (n - i) l).
  { assert (Hincl : incl (seq 0 (S (Z.to_nat order))) l).
    { apply NoDup_length_incl; [exact Hnd|rewrite seq_length; lia|]. intros j Hj. destruct (Hp j Hj) as [C _]. apply in_seq. lia. }
    apply Hincl. apply in_seq. lia. }
  destruct (Hp _ Hin) as [_ C]. apply C. unfold w, float_window. rewrite nth_map_seq by lia. cbv zeta.
  destruct (Z.ltb_spec (Z.of_nat n - Z.of_nat (n - i)) 0); [lia|].
  replace (Z.to_nat (Z.of_nat n - Z.of_nat (n - i))) with i by lia. exact Hnan.
Qed.
Print Assumptions C165_dilation.

(** A magnitude median of order 4 passes over two bad samples in a row and a sign; with
    the largest rank of order 2 one NaN occupies three outputs. *)
Definition frank (index order : Z) : rank FS := @mkRank FS (@mkFir FS DFloat (repeat 0.25%float (Z.to_nat (order + 1)))
  (repeat 0%float (Z.to_nat (order + 1)))) index.
Definition shown (l : list float) (m : list float) : bool :=
  Nat.eqb (length l) (length m) &&
  forallb (fun p => (PrimFloat.eqb (fst p) (snd p)) || (PrimFloat.is_nan (fst p) && PrimFloat.is_nan (snd p))) (combine l m).
Definition shows (r : res (list float)) (m : list float) : bool := match r with Ok l => shown l m | Err _ => false end.
Example C165_example :
  shows (snd (@rank_filter FS (@isort FS) (frank 2 4) DFloat [1; 2; PrimFloat.nan; PrimFloat.infinity; -3; 4; 5]%float)) [0; 0; 1; 2; -3; 4; 5]%float = true /\
  shows (snd (@rank_filter FS (@isort FS) (frank 2 2) DFloat [1; PrimFloat.nan; 3; 4; 5]%float)) [1; PrimFloat.nan; PrimFloat.nan; PrimFloat.nan; 5]%float = true /\
  shows (snd (@rank_filter FS (@isort FS) (frank 0 2) DFloat [1; PrimFloat.nan; 3; 4; 5]%float)) [0; 0; 1; 3; 3]%float = true.
Proof. repeat split; vm_compute; reflexivity. Qed.
Example C165_hypotheses : exists r : rank FS,
  @rank_used FS (@isort FS) 2 2 [@RFilter FS DFloat [1; PrimFloat.nan]%float] r /\ @is_argsort FS (@isort FS) /\ rindex r = 2%Z /\
  [3; 4]%float <> [] /\ many (fun u => ~ nonnumber u) (float_window (tl (fs (rfir r))) [3; 4]%float 2 0) 2.
Proof.
  eexists. split; [eexists; split; reflexivity|]. split; [exact isort_FS|]. split; [reflexivity|]. split; [discriminate|].
  exists [0; 2]. split; [repeat constructor; cbn; intuition congruence|]. split; [reflexivity|].
  intros i [<-|[<-|[]]]; (split; [vm_compute; lia|]); vm_compute; discriminate.
Qed.
