(** Property C144: what RankFilter does to bursts, ramps and perturbations. *)
From Coq Require Import List Arith ZArith Lia Bool Permutation Reals Lra QArith Qcanon.
From Verif Require Import Base BaseLemmas Instances FirModel FirSpec FirProofs RankModel RankProps.
Import ListNotations.
Set Asymmetric Patterns.
Close Scope Q_scope. Close Scope R_scope. Open Scope nat_scope.

(** The number of samples of the window [w] with magnitude in [p]. *)
Definition count_mag (p : R -> bool) (w : list R) : nat := length (filter (fun u => p (Rabs u)) w).

Lemma filter_le {X} (p r : X -> bool) l : (forall u, In u l -> p u = true -> r u = true) ->
  length (filter p l) <= length (filter r l).
Proof.
  induction l as [|u l IH]; intros H; [apply le_n|]. cbn. specialize (IH (fun v Hv => H v (or_intror Hv))).
  pose proof (H u (or_introl eq_refl)). destruct (p u), (r u); cbn; try lia.
Qed.
Lemma filter_compl {X} (p r : X -> bool) l : (forall u, In u l -> p u = true -> r u = false) ->
  length (filter p l) + length (filter r l) <= length l.
Proof.
  induction l as [|u l IH]; intros H; [apply le_n|]. cbn. specialize (IH (fun v Hv => H v (or_intror Hv))).
  pose proof (H u (or_introl eq_refl)). destruct (p u), (r u); cbn; try lia.
Qed.
Lemma filter_cover {X} (p r : X -> bool) l : (forall u, In u l -> p u = false -> r u = true) ->
  length l <= length (filter p l) + length (filter r l).
Proof.
  induction l as [|u l IH]; intros H; [apply le_n|]. cbn. specialize (IH (fun v Hv => H v (or_intror Hv))).
  pose proof (H u (or_introl eq_refl)). destruct (p u), (r u); cbn; try lia.
Qed.

Lemma stat_upper (w : list R) k v c : count_below v w <= k -> k < count_mag (fun m => Rleb m c) w -> (Rabs v <= c)%R.
Proof.
  intros H1 H2. destruct (Rle_lt_dec (Rabs v) c) as [C|C]; [exact C|]. exfalso.
  assert (count_mag (fun m => Rleb m c) w <= count_below v w); [|lia].
  apply filter_le. intros u _ Hu. apply Rleb_iff in Hu. apply Rltb_iff. lra.
Qed.
Lemma stat_lower (w : list R) k v c : k < count_upto v w -> k < length w ->
  length w - k <= count_mag (fun m => Rleb c m) w -> (c <= Rabs v)%R.
Proof.
  intros H1 Hk H2. destruct (Rle_lt_dec c (Rabs v)) as [C|C]; [exact C|]. exfalso.
  assert (count_upto v w + count_mag (fun m => Rleb c m) w <= length w); [|lia].
  apply filter_compl. intros u _ Hu. apply Rleb_iff in Hu.
  destruct (Rleb c (Rabs u)) eqn:E; [|reflexivity]. apply Rleb_iff in E. lra.
Qed.

(** C144.  The output magnitude is bounded by any level that index+1 samples of the
    window do not exceed, and from below by any level that order-index+1 reach:
    a burst of up to order-index large samples cannot raise it. *)
Theorem C144_bursts (argsort : list R -> list nat) index order ops (r : rank RO) (x : list R) :
  @is_argsort RO argsort -> @rank_used RO argsort index order ops r -> x <> [] ->
  exists r' y, @rank_filter RO argsort r DFloat x = (r', Ok y) /\ length y = length x /\
    forall n c, n < length x ->
      let w := last_samples (tl (fs (rfir r))) x (Z.to_nat order) n in
      ((rindex r < Z.of_nat (count_mag (fun m => Rleb m c) w))%Z -> (Rabs (nth n y 0) <= c)%R) /\
      ((order - rindex r < Z.of_nat (count_mag (fun m => Rleb c m) w))%Z -> (c <= Rabs (nth n y 0))%R).
Proof.
  intros Hs Hu Hx. destruct (C23_rank_order_statistic argsort _ _ _ _ x Hs Hu Hx) as (r' & y & E & Hl & H).
  destruct (C27_rank_index_in_window RO argsort _ _ _ _ Hs Hu) as (_ & Hi & _).
  exists r', y. split; [exact E|]. split; [exact Hl|]. intros n c Hn w. destruct (H n Hn) as (_ & Hb & Ht). fold w in Hb, Ht.
  assert (Lw : length w = S (Z.to_nat order)) by (unfold w, last_samples; rewrite map_length, seq_length; reflexivity).
  split; intros Hc.
  - eapply stat_upper; [exact Hb|lia].
  - eapply stat_lower; [exact Ht|lia|lia].
Qed.
Print Assumptions C144_bursts.

(** C144.  A background of magnitude c passes if at most index samples of the window are
    smaller and at most order-index larger. *)
Theorem C144_background (argsort : list R -> list nat) index order ops (r : rank RO) (x : list R) :
  @is_argsort RO argsort -> @rank_used RO argsort index order ops r -> x <> [] ->
  exists r' y, @rank_filter RO argsort r DFloat x = (r', Ok y) /\ length y = length x /\
    forall n c, n < length x ->
      let w := last_samples (tl (fs (rfir r))) x (Z.to_nat order) n in
      (Z.of_nat (count_mag (fun m => Rltb m c) w) <= rindex r)%Z ->
      (Z.of_nat (count_mag (fun m => Rltb c m) w) <= order - rindex r)%Z -> Rabs (nth n y 0%R) = c.
Proof.
  intros Hs Hu Hx. destruct (C144_bursts argsort _ _ _ _ x Hs Hu Hx) as (r' & y & E & Hl & H).
  destruct (C27_rank_index_in_window RO argsort _ _ _ _ Hs Hu) as (_ & Hi & _).
  exists r', y. split; [exact E|]. split; [exact Hl|]. intros n c Hn w H1 H2. destruct (H n c Hn) as [Hup Hlo]. fold w in Hup, Hlo.
  assert (Lw : length w = S (Z.to_nat order)) by (unfold w, last_samples; rewrite map_length, seq_length; reflexivity).
  assert (C1 : length w <= count_mag (fun m => Rltb c m) w + count_mag (fun m => Rleb m c) w).
  { apply filter_cover. intros u _ Hf. apply Rleb_iff. destruct (Rle_lt_dec (Rabs u) c) as [C|C]; [exact C|].
    apply Rltb_iff in C. congruence. }
  assert (C2 : length w <= count_mag (fun m => Rltb m c) w + count_mag (fun m => Rleb c m) w).
  { apply filter_cover. intros u _ Hf. apply Rleb_iff. destruct (Rle_lt_dec c (Rabs u)) as [C|C]; [exact C|].
    apply Rltb_iff in C. congruence. }
  apply Rle_antisym; [apply Hup|apply Hlo]; lia.
Qed.
Print Assumptions C144_background.

Lemma count_range (p : R -> bool) (f : nat -> R) N a m : a + m <= N ->
  (forall i, a <= i < a + m -> p (Rabs (f i)) = true) -> m <= count_mag p (map f (seq 0 N)).
Proof.
  intros HN H. replace N with (a + (m + (N - a - m))) by lia.
  rewrite !seq_app, !map_app. unfold count_mag. rewrite !filter_app, !app_length. cbn [Nat.add].
  assert (E : length (filter (fun u => p (Rabs u)) (map f (seq a m))) = m).
  { clear HN. revert a H. induction m as [|m IH]; intros a H; [reflexivity|]. cbn.
    rewrite H by lia. cbn. rewrite IH; [reflexivity|]. intros i Hi. apply H. lia. }
  lia.
Qed.

(** C144.  A signal growing (or shrinking) in magnitude passes with a delay of
    order-index (or index) samples. *)
Theorem C144_ramps (argsort : list R -> list nat) index order ops (r : rank RO) (x : list R) :
  @is_argsort RO argsort -> @rank_used RO argsort index order ops r -> x <> [] ->
  exists r' y, @rank_filter RO argsort r DFloat x = (r', Ok y) /\ length y = length x /\
    forall n, n < length x -> Z.to_nat order <= n ->
      ((forall i j, i <= j <= n -> n <= i + Z.to_nat order -> (Rabs (nth i x 0) <= Rabs (nth j x 0))%R) ->
       Rabs (nth n y 0%R) = Rabs (nth (n - Z.to_nat (order - rindex r)) x 0%R)) /\
      ((forall i j, i <= j <= n -> n <= i + Z.to_nat order -> (Rabs (nth j x 0) <= Rabs (nth i x 0))%R) ->
       Rabs (nth n y 0%R) = Rabs (nth (n - Z.to_nat (rindex r)) x 0%R)).
Proof.
  intros Hs Hu Hx. destruct (C144_bursts argsort _ _ _ _ x Hs Hu Hx) as (r' & y & E & Hl & H).
  destruct (C27_rank_index_in_window RO argsort _ _ _ _ Hs Hu) as (_ & Hi & _).
  exists r', y. split; [exact E|]. split; [exact Hl|]. intros n Hn Ho.
  set (o := Z.to_nat order) in *. set (k := Z.to_nat (rindex r)).
  assert (Hk : k <= o) by (unfold k, o; lia).
  assert (Ek : Z.to_nat (order - rindex r) = o - k) by (unfold k, o; lia). rewrite Ek.
  assert (Es : forall i, i <= o -> @sig RA (tl (fs (rfir r))) x (Z.of_nat n - Z.of_nat i) = nth (n - i) x 0%R).
  { intros i Hio. unfold sig. destruct (Z.ltb_spec (Z.of_nat n - Z.of_nat i) 0); [lia|].
    replace (Z.to_nat (Z.of_nat n - Z.of_nat i)) with (n - i) by lia. reflexivity. }
  split; intros Hm.
  - destruct (H n (Rabs (nth (n - (o - k)) x 0%R)) Hn) as [Hup Hlo]. apply Rle_antisym; [apply Hup|apply Hlo]; unfold last_samples; fold o.
    + pose proof (count_range (fun m => Rleb m (Rabs (nth (n - (o - k)) x 0%R)))
        (fun i => @sig RA (tl (fs (rfir r))) x (Z.of_nat n - Z.of_nat i)) (S o) (o - k) (S k)) as C.
      specialize (C ltac:(lia)). cut (S k <= count_mag (fun m => Rleb m (Rabs (nth (n - (o - k)) x 0%R)))
        (map (fun i => @sig RA (tl (fs (rfir r))) x (Z.of_nat n - Z.of_nat i)) (seq 0 (S o)))); [intros; unfold k in *; lia|].
      apply C. intros i Hr. apply Rleb_iff. rewrite Es by lia. apply Hm; lia.
    + pose proof (count_range (fun m => Rleb (Rabs (nth (n - (o - k)) x 0%R)) m)
        (fun i => @sig RA (tl (fs (rfir r))) x (Z.of_nat n - Z.of_nat i)) (S o) 0 (S (o - k))) as C.
      specialize (C ltac:(lia)). cut (S (o - k) <= count_mag (fun m => Rleb (Rabs (nth (n - (o - k)) x 0%R)) m)
        (map (fun i => @sig RA (tl (fs (rfir r))) x (Z.of_nat n - Z.of_nat i)) (seq 0 (S o)))); [intros; unfold k, o in *; lia|].
      apply C. intros i Hr. apply Rleb_iff. rewrite Es by lia. apply Hm; lia.
  - destruct (H n (Rabs (nth (n - k) x 0%R)) Hn) as [Hup Hlo]. apply Rle_antisym; [apply Hup|apply Hlo]; unfold last_samples; fold o.
    + pose proof (count_range (fun m => Rleb m (Rabs (nth (n - k) x 0%R)))
        (fun i => @sig RA (tl (fs (rfir r))) x (Z.of_nat n - Z.of_nat i)) (S o) 0 (S k)) as C.
      specialize (C ltac:(lia)). cut (S k <= count_mag (fun m => Rleb m (Rabs (nth (n - k) x 0%R)))
        (map (fun i => @sig RA (tl (fs (rfir r))) x (Z.of_nat n - Z.of_nat i)) (seq 0 (S o)))); [intros; unfold k in *; lia|].
      apply C. intros i Hr. apply Rleb_iff. rewrite Es by lia. apply Hm; lia.
    + pose proof (count_range (fun m => Rleb (Rabs (nth (n - k) x 0%R)) m)
        (fun i => @sig RA (tl (fs (rfir r))) x (Z.of_nat n - Z.of_nat i)) (S o) k (S (o - k))) as C.
      specialize (C ltac:(lia)). cut (S (o - k) <= count_mag (fun m => Rleb (Rabs (nth (n - k) x 0%R)) m)
        (map (fun i => @sig RA (tl (fs (rfir r))) x (Z.of_nat n - Z.of_nat i)) (seq 0 (S o)))); [intros; unfold k, o in *; lia|].
      apply C. intros i Hr. apply Rleb_iff. rewrite Es by lia. apply Hm; lia.
Qed.
Print Assumptions C144_ramps.

(** ** Two signals *)
Lemma stat_le (f g : nat -> R) N k v w e :
  (forall i, i < N -> (Rabs (f i) <= Rabs (g i) + e)%R) ->
  count_below v (map f (seq 0 N)) <= k -> k < count_upto w (map g (seq 0 N)) -> (Rabs v <= Rabs w + e)%R.
Proof.
  intros H H1 H2. destruct (Rle_lt_dec (Rabs v) (Rabs w + e)) as [C|C]; [exact C|]. exfalso.
  assert (count_upto w (map g (seq 0 N)) <= count_below v (map f (seq 0 N))); [|lia].
  clear H1 H2. unfold count_upto, count_below.
  assert (G : forall l, (forall i, In i l -> i < N) ->
    length (filter (fun u => Rleb (Rabs u) (Rabs w)) (map g l)) <= length (filter (fun u => Rltb (Rabs u) (Rabs v)) (map f l))).
  { induction l as [|i l IH]; intros Hl; [apply le_n|]. cbn. specialize (IH (fun j Hj => Hl j (or_intror Hj))).
    destruct (Rleb (Rabs (g i)) (Rabs w)) eqn:E1, (Rltb (Rabs (f i)) (Rabs v)) eqn:E2; cbn; try lia.
    apply Rleb_iff in E1. pose proof (H i (Hl i (or_introl eq_refl))).
    assert (C2 : (Rabs (f i) < Rabs v)%R) by lra. apply Rltb_iff in C2. congruence. }
  apply G. intros i Hi. apply in_seq in Hi. lia.
Qed.

(** C144.  Changing every sample and every stored sample by at most e in magnitude changes
    no output by more than e in magnitude, whatever sorts the two filters use; with
    e = 0 in one direction, larger magnitudes in give larger magnitudes out. *)
Theorem C144_nonexpansive (sort1 sort2 : list R -> list nat) index1 index2 order ops1 ops2 (r1 r2 : rank RO) (x u : list R) (e : R) :
  @is_argsort RO sort1 -> @is_argsort RO sort2 ->
  @rank_used RO sort1 index1 order ops1 r1 -> @rank_used RO sort2 index2 order ops2 r2 -> rindex r1 = rindex r2 ->
  x <> [] -> length u = length x ->
  (forall i, (Rabs (nth i x 0) <= Rabs (nth i u 0) + e)%R) ->
  (forall i, (Rabs (nth i (tl (fs (rfir r1))) 0) <= Rabs (nth i (tl (fs (rfir r2))) 0) + e)%R) ->
  exists r1' r2' y v, @rank_filter RO sort1 r1 DFloat x = (r1', Ok y) /\ @rank_filter RO sort2 r2 DFloat u = (r2', Ok v) /\
    length y = length x /\ length v = length x /\
    forall n, n < length x -> (Rabs (nth n y 0) <= Rabs (nth n v 0) + e)%R.
Proof.
  intros S1 S2 U1 U2 Ei Hx Lu Hxu Hh.
  assert (Hu : u <> []) by (destruct u, x; try congruence; discriminate).
  destruct (C23_rank_order_statistic sort1 _ _ _ _ x S1 U1 Hx) as (r1' & y & E1 & L1 & H1).
  destruct (C23_rank_order_statistic sort2 _ _ _ _ u S2 U2 Hu) as (r2' & v & E2 & L2 & H2).
  exists r1', r2', y, v. split; [exact E1|]. split; [exact E2|]. split; [exact L1|]. split; [congruence|].
  intros n Hn. destruct (H1 n Hn) as (_ & Hb & _). destruct (H2 n ltac:(lia)) as (_ & _ & Ht).
  rewrite <- Ei in Ht. revert Hb Ht. unfold last_samples. apply stat_le. intros i Hi. unfold sig.
  destruct (Z.ltb _ _); [apply Hh|apply Hxu].
Qed.
Print Assumptions C144_nonexpansive.

(** Median of three: a single burst of 9 in a background of 1 is removed, a ramp comes
    out one sample late, and a filter of index 0 delays the growing ramp by two. *)
Example C144_example :
  rqs (snd (rank_filter (@isort QO) (qrank 1 2) DFloat [q 1 1; q 1 1; q 1 1; q 9 1; q 1 1; q 1 1])) = Ok [0; 1; 1; 1; 1; 1]%Q /\
  rqs (snd (rank_filter (@isort QO) (qrank 1 2) DFloat [q 1 1; q 2 1; q 3 1; q 4 1])) = Ok [0; 1; 2; 3]%Q /\
  rqs (snd (rank_filter (@isort QO) (qrank 0 2) DFloat [q 1 1; q 2 1; q 3 1; q 4 1])) = Ok [0; 0; 1; 2]%Q /\
  rqs (snd (rank_filter (@isort QO) (qrank 0 2) DFloat [q 4 1; q 3 1; q 2 1; q 1 1])) = Ok [0; 0; 2; 1]%Q.
Proof. split; [|split; [|split]]; vm_compute; reflexivity. Qed.
Example C144_hypotheses : exists r : rank RO,
  @rank_used RO (@isort RO) 1 2 [] r /\ @is_argsort RO (@isort RO) /\ rindex r = 1%Z /\
  (1 < Z.of_nat (count_mag (fun m => Rleb m 1) (last_samples (tl (fs (rfir r))) [1; 9; 1]%R 2 2)))%Z.
Proof.
  eexists. split; [eexists; split; reflexivity|]. split; [exact isort_RO|]. split; [reflexivity|].
  assert (E1 : Rleb (Rabs 1) 1 = true) by (apply Rleb_iff; rewrite Rabs_pos_eq; lra).
  change (last_samples _ _ _ _) with [1; 9; 1]%R. unfold count_mag. cbn [filter]. rewrite E1.
  destruct (Rleb (Rabs 9) 1); cbn; lia.
Qed.
