(** Properties C23-C27: RankFilter. *)
From Coq Require Import List Arith ZArith Lia Bool Permutation Reals Lra QArith Qcanon Floats.
From Verif Require Import Base BaseLemmas Instances FirModel FirSpec FirProofs RankModel.
Import ListNotations.
Set Asymmetric Patterns.
Close Scope Q_scope. Close Scope R_scope. Open Scope nat_scope.

(** ** Lemmas *)
Lemma np_take_ok {X} (l : list X) p d : Forall (fun i => i < length l) p ->
  np_take l p = Ok (map (fun i => nth i l d) p).
Proof.
  induction 1 as [|i p H _ IH]; [reflexivity|]. cbn [np_take map].
  rewrite (nth_error_nth' l d H), IH. reflexivity.
Qed.

Lemma py_nth_ok {X} (l : list X) (i : Z) d : (0 <= i < Z.of_nat (length l))%Z ->
  py_nth l i = Ok (nth (Z.to_nat i) l d).
Proof.
  intros H. unfold py_nth. destruct (Z.ltb_spec i 0); [lia|].
  destruct (Z.leb_spec 0 i); [|lia]. destruct (Z.ltb_spec i (Z.of_nat (length l))); [|lia].
  cbn [andb]. rewrite (nth_error_nth' l d) by lia. reflexivity.
Qed.

Lemma map_nth_seq {X} (l : list X) d : map (fun i => nth i l d) (seq 0 (length l)) = l.
Proof.
  apply (nth_ext _ _ d d); [rewrite map_length, seq_length; reflexivity|].
  intros i Hi. rewrite map_length, seq_length in Hi. rewrite nth_map_seq by exact Hi. reflexivity.
Qed.

Section Gen.
  Context {O : OArith}.
  Variable argsort : list O -> list nat.
  Hypothesis Hsort : is_argsort argsort.

  (** The window at one sample, in sorted order. *)
  Definition sorted_window (w : list O) : list O := map (fun i => nth i w zero) (argsort (map oabs w)).

  Lemma sorted_window_perm w : Permutation (sorted_window w) w.
  Proof.
    unfold sorted_window. destruct (Hsort (map oabs w)) as [Hp _].
    etransitivity; [apply Permutation_map; exact Hp|]. rewrite map_length, map_nth_seq. reflexivity.
  Qed.

  Lemma sorted_window_length w : length (sorted_window w) = length w.
  Proof. apply Permutation_length, sorted_window_perm. Qed.

  Lemma sorted_window_sorted w i j : i < j < length w ->
    oltb (oabs (nth j (sorted_window w) zero)) (oabs (nth i (sorted_window w) zero)) = false.
  Proof.
    intros H. destruct (Hsort (map oabs w)) as [Hp Hs]. rewrite map_length in *.
    assert (Hl : length (argsort (map oabs w)) = length w) by (rewrite Hp, seq_length; reflexivity).
    unfold sorted_window. rewrite !(nth_map_lt _ _ _ 0) by lia.
    specialize (Hs i j H).
    assert (Hr : forall k, k < length w -> nth k (argsort (map oabs w)) 0 < length w).
    { intros k Hk. assert (Hin : In (nth k (argsort (map oabs w)) 0) (seq 0 (length w))).
      { eapply Permutation_in; [exact Hp|]. apply nth_In. lia. }
      apply in_seq in Hin. lia. }
    rewrite !(nth_map_lt _ _ _ zero) in Hs by (apply Hr; lia). exact Hs.
  Qed.

  Lemma rank_step_eq dt dtx index s x :
    s <> [] -> (0 <= index < Z.of_nat (length s))%Z ->
    rank_step argsort dt dtx index s x =
    (np_shift_gt1 (cast dt x :: tl s),
     Ok (cast dtx (nth (Z.to_nat index) (sorted_window (cast dt x :: tl s)) zero))).
  Proof.
    intros Hs Hi. destruct s as [|s0 t]; [congruence|]. unfold rank_step. cbn [np_set0 tl].
    set (w := cast dt x :: t).
    rewrite (np_take_ok _ _ zero).
    - fold (sorted_window w). rewrite (py_nth_ok _ _ zero); [reflexivity|].
      rewrite sorted_window_length. exact Hi.
    - destruct (Hsort (map oabs w)) as [Hp _]. rewrite map_length in Hp.
      rewrite Forall_forall. intros k Hk. eapply Permutation_in in Hk; [|exact Hp].
      apply in_seq in Hk. lia.
  Qed.

  (** The window of sample n: x[n], x[n-1], ..., the history being all of the state but
      its first register (which the next sample overwrites). *)
  Definition window_at (dt : dtype) (s x : list O) (n : nat) : list O :=
    map (fun i => sig (tl s) (map (cast dt) x) (Z.of_nat n - Z.of_nat i)) (seq 0 (length s)).

  Lemma shift_tl (v : O) t : tl (np_shift_gt1 (v :: t)) = firstn (length t) (v :: t).
  Proof.
    unfold np_shift_gt1. destruct t as [|w t]; [reflexivity|].
    change (Nat.ltb 1 (length (v :: w :: t))) with true. cbv iota. cbn [np_shift tl].
    rewrite removelast_firstn_eq. reflexivity.
  Qed.

  Lemma sig_firstn_cons (v : O) t x k : (- Z.of_nat (length t) <= k)%Z ->
    sig (firstn (length t) (v :: t)) x k = sig (v :: t) x k.
  Proof.
    intros Hk. unfold sig. destruct (Z.ltb_spec k 0); [|reflexivity].
    apply nth_firstn. lia.
  Qed.

  Lemma sig_tl_cons (v : O) t x k : sig t (v :: x) (k + 1) = sig (v :: t) x k.
  Proof.
    unfold sig. destruct (Z.ltb_spec (k + 1) 0), (Z.ltb_spec k 0); try lia.
    - replace (Z.to_nat (- k - 1)) with (S (Z.to_nat (- (k + 1) - 1))) by lia. reflexivity.
    - replace (Z.to_nat (- k - 1)) with 0 by lia. replace (Z.to_nat (k + 1)) with 0 by lia. reflexivity.
    - replace (Z.to_nat (k + 1)) with (S (Z.to_nat k)) by lia. reflexivity.
  Qed.

  Lemma rank_run_eq dt dtx index : forall x s,
    s <> [] -> (0 <= index < Z.of_nat (length s))%Z ->
    exists s', run (rank_step argsort dt dtx index) s x =
      (s', Ok (map (fun n => cast dtx (nth (Z.to_nat index) (sorted_window (window_at dt s x n)) zero))
                   (seq 0 (length x)))) /\ length s' = length s.
  Proof.
    induction x as [|v x IH]; intros s Hs Hi; cbn [run].
    - exists s. split; reflexivity.
    - rewrite rank_step_eq by assumption. destruct s as [|s0 t]; [congruence|]. cbn [tl].
      set (s1 := np_shift_gt1 (cast dt v :: t)).
      assert (Hl1 : length s1 = length (s0 :: t)) by (unfold s1; rewrite length_np_shift_gt1; reflexivity).
      destruct (IH s1) as (s' & E & Hl).
      { destruct s1; cbn in *; congruence. } { rewrite Hl1. exact Hi. }
      rewrite E. exists s'. split; [|congruence]. f_equal. f_equal. cbn [length seq map]. f_equal.
      + f_equal. f_equal. f_equal. unfold window_at. cbn [tl length seq map]. f_equal.
        rewrite <- seq_shift, map_map. rewrite <- (map_nth_seq t zero) at 1. apply map_ext_in.
        intros i Hi'. apply in_seq in Hi'. unfold sig.
        destruct (Z.ltb_spec (Z.of_nat 0 - Z.of_nat (S i)) 0); [|lia]. f_equal. lia.
      + rewrite <- seq_shift, map_map. apply map_ext. intros n. f_equal. f_equal. f_equal.
        unfold window_at. rewrite Hl1. apply map_ext_in. intros i Hi'. apply in_seq in Hi'.
        unfold s1. rewrite shift_tl. cbn [tl length map] in *. rewrite sig_firstn_cons by lia.
        rewrite <- sig_tl_cons. f_equal. lia.
  Qed.

  Definition rank_inv (order : nat) (r : rank O) : Prop :=
    length (fs (rfir r)) = S order /\ (0 <= rindex r <= Z.of_nat order)%Z /\ fdt (rfir r) = DFloat.

  Lemma rank_make_inv index order r : rank_make index order = Ok r ->
    rank_inv (Z.to_nat order) r /\ (0 <= index <= order)%Z.
  Proof.
    unfold rank_make. destruct (Z.ltb_spec index 0); [discriminate|].
    destruct (Z.ltb_spec order index); [discriminate|]. cbn [orb].
    unfold fir_make. cbn [els adt length]. rewrite repeat_length.
    destruct (Nat.eqb_spec (Z.to_nat (order + 1)) 0) as [C|_]; [lia|].
    rewrite (proj2 (Nat.ltb_ge (Z.to_nat (order + 1)) 0)) by lia.
    intros E. injection E as <-. unfold rank_inv. cbn [rfir rindex fs fdt els adt].
    rewrite repeat_length. rewrite (proj2 (Nat.ltb_lt 0 (Z.to_nat (order + 1)))) by lia.
    rewrite map_length. cbn [app]. unfold zeros. rewrite repeat_length. repeat split; try lia.
  Qed.

  Lemma rank_exec_inv order r o : rank_inv order r -> rank_inv order (rank_exec argsort r o).
  Proof.
    intros (Hl & Hi & Hd). destruct o as [dtx x|[v|]|i]; cbn [rank_exec].
    - unfold rank_filter. destruct (Nat.eqb _ _); [split; auto|].
      destruct (rank_run_eq (fdt (rfir r)) dtx (rindex r) x (fs (rfir r))) as (s' & E & Hl').
      { destruct (fs (rfir r)); discriminate. } { rewrite Hl. lia. }
      rewrite E. unfold rank_inv. cbn [fst rfir rindex with_s fs fdt]. repeat split; try lia; congruence.
    - unfold rank_inv. cbn [rank_reset fir_reset fst rfir rindex with_s fs fdt]. rewrite map_length.
      repeat split; try lia; assumption.
    - split; auto.
    - unfold rank_set_index. destruct (Z.ltb_spec i 0); [split; auto|].
      destruct (Z.ltb_spec (Z.of_nat (length (fs (rfir r))) - 1) i); [split; auto|].
      unfold rank_inv. cbn [orb fst rfir rindex]. repeat split; try lia; assumption.
  Qed.

  (** A filter built by the constructor and then used in any way. *)
  Definition rank_used (index order : Z) (ops : list (rank_op O)) (r : rank O) : Prop :=
    exists r0, rank_make index order = Ok r0 /\ r = fold_left (rank_exec argsort) ops r0.

  Lemma rank_used_inv index order ops r : rank_used index order ops r -> rank_inv (Z.to_nat order) r.
  Proof.
    intros (r0 & E & ->). apply rank_make_inv in E. destruct E as [H _]. revert r0 H.
    induction ops as [|o ops IH]; intros r0 H; [exact H|]. apply IH. apply rank_exec_inv. exact H.
  Qed.

  Lemma rank_filter_eq index order ops r dtx x : rank_used index order ops r -> x <> [] ->
    exists r', rank_filter argsort r dtx x =
      (r', Ok (map (fun n => cast dtx (nth (Z.to_nat (rindex r))
                     (sorted_window (window_at DFloat (fs (rfir r)) x n)) zero)) (seq 0 (length x)))).
  Proof.
    intros Hu Hx. destruct (rank_used_inv _ _ _ _ Hu) as (Hl & Hi & Hd).
    unfold rank_filter. destruct (Nat.eqb_spec (length x) 0) as [C|_]; [destruct x; cbn in *; congruence|].
    destruct (rank_run_eq (fdt (rfir r)) dtx (rindex r) x (fs (rfir r))) as (s' & E & Hl').
    { destruct (fs (rfir r)); discriminate. } { rewrite Hl. lia. }
    rewrite E, Hd. eexists. reflexivity.
  Qed.
End Gen.

(** C24.  Every output is a sample of the current window (converted to the dtype of the
    signal); any arithmetic, any argsort. *)
Theorem C24_rank_from_window (O : OArith) (argsort : list O -> list nat) index order ops (r : rank O) dtx x :
  is_argsort argsort -> rank_used argsort index order ops r -> x <> [] ->
  exists r' y, rank_filter argsort r dtx x = (r', Ok y) /\ length y = length x /\
    forall n, n < length x -> exists v i, i <= Z.to_nat order /\
      v = sig (tl (fs (rfir r))) (map (cast DFloat) x) (Z.of_nat n - Z.of_nat i) /\
      nth n y zero = cast dtx v.
Proof.
  intros Hs Hu Hx. destruct (rank_filter_eq argsort Hs _ _ _ _ dtx x Hu Hx) as (r' & E).
  destruct (rank_used_inv argsort Hs _ _ _ _ Hu) as (Hl & Hi & Hd).
  eexists r', _. split; [exact E|]. split; [rewrite map_length, seq_length; reflexivity|].
  intros n Hn. rewrite nth_map_seq by exact Hn.
  set (w := window_at DFloat (fs (rfir r)) x n).
  assert (Hlw : length w = S (Z.to_nat order)) by (unfold w, window_at; rewrite map_length, seq_length; exact Hl).
  assert (Hin : In (nth (Z.to_nat (rindex r)) (sorted_window argsort w) zero) w).
  { eapply Permutation_in; [apply (sorted_window_perm argsort Hs)|]. apply nth_In.
    rewrite (sorted_window_length argsort Hs). lia. }
  unfold w in Hin at 2. unfold window_at in Hin. apply in_map_iff in Hin.
  destruct Hin as (i & Ev & Hin). apply in_seq in Hin.
  eexists _, i. split; [lia|]. split; [symmetry; exact Ev|]. reflexivity.
Qed.
Print Assumptions C24_rank_from_window.

(** After reset(c) the outputs are c or samples seen so far. *)
Theorem C24_rank_after_reset (O : OArith) (argsort : list O -> list nat) index order ops (r : rank O) c x :
  is_argsort argsort -> rank_used argsort index order ops r -> x <> [] ->
  (forall v : O, cast DFloat v = v) ->
  exists r1 r' y, rank_reset r (Some c) = (r1, Ok tt) /\ rank_filter argsort r1 DFloat x = (r', Ok y) /\
    length y = length x /\
    forall n, n < length x -> nth n y zero = c \/ exists j, j <= n /\ nth n y zero = nth j x zero.
Proof.
  intros Hs Hu Hx Hc.
  set (r1 := fst (rank_reset r (Some c))).
  assert (Hu1 : rank_used argsort index order (ops ++ [RReset (Some c)]) r1).
  { destruct Hu as (r0 & E & ->). exists r0. split; [exact E|]. rewrite fold_left_app. reflexivity. }
  destruct (rank_used_inv argsort Hs _ _ _ _ Hu) as (Hl & _ & Hd).
  destruct (C24_rank_from_window O argsort _ _ _ _ DFloat x Hs Hu1 Hx) as (r' & y & E & Hly & Hy).
  exists r1, r', y. split; [reflexivity|]. split; [exact E|]. split; [exact Hly|].
  intros n Hn. destruct (Hy n Hn) as (v & i & Hi & Ev & ->). rewrite Hc. subst v.
  assert (Hm : map (cast DFloat) x = x) by (rewrite <- (map_id x) at 2; apply map_ext; exact Hc). rewrite Hm.
  unfold sig. destruct (Z.ltb_spec (Z.of_nat n - Z.of_nat i) 0) as [H|H].
  - left. unfold r1. cbn [rank_reset fir_reset fst rfir with_s fs].
    destruct (fs (rfir r)) as [|s0 t]; [discriminate|]. cbn [map tl length] in *.
    rewrite (nth_map_lt _ _ _ zero) by lia. rewrite Hd, Hc. reflexivity.
  - right. exists (n - i). split; [lia|]. f_equal. lia.
Qed.
Print Assumptions C24_rank_after_reset.

(** C25.  Chunks, in any arithmetic and for any deterministic argsort. *)
Theorem C25_rank_chunks (O : OArith) (argsort : list O -> list nat) (r : rank O) dtx (chunks : list (list O)) :
  chunks <> [] -> Forall (fun c => c <> []) chunks ->
  call_chunks (fun r => rank_filter argsort r dtx) r chunks = rank_filter argsort r dtx (concat chunks).
Proof.
  intros Hc HF.
  set (step := fun (g : rank O) (x : O) =>
    let '(s', y) := rank_step argsort (fdt (rfir g)) dtx (rindex g) (fs (rfir g)) x in
    (mkRank (with_s (rfir g) s') (rindex g), y)).
  assert (Hr : forall xs g, run step g xs =
     let '(s', y) := run (rank_step argsort (fdt (rfir g)) dtx (rindex g)) (fs (rfir g)) xs in
     (mkRank (with_s (rfir g) s') (rindex g), y)).
  { intros xs. induction xs as [|v xs IH]; intros g; [destruct g as [[]]; reflexivity|].
    cbn [run]. unfold step at 1. destruct (rank_step _ _ _ _ _ v) as [s1 [y|e]]; [|reflexivity].
    rewrite IH. cbn [rfir rindex with_s fdt fs]. destruct (run _ s1 xs) as [s2 [ys|e]]; reflexivity. }
  assert (Hcall : forall g xs, True -> xs <> [] -> rank_filter argsort g dtx xs = run step g xs).
  { intros g xs _ Hx. rewrite Hr. unfold rank_filter. destruct xs; [congruence|]. reflexivity. }
  rewrite (call_chunks_run_gen step (fun r => rank_filter argsort r dtx) (fun _ => True) Hcall); auto.
  symmetry. apply Hcall; [exact I|]. destruct chunks as [|c cs]; [congruence|].
  inversion HF; subst. cbn. destruct c; [congruence|discriminate].
Qed.
Print Assumptions C25_rank_chunks.

(** C27.  Index range over any history. *)
Theorem C27_rank_index_in_window (O : OArith) (argsort : list O -> list nat) index order ops (r : rank O) :
  is_argsort argsort -> rank_used argsort index order ops r ->
  length (fs (rfir r)) = S (Z.to_nat order) /\ (0 <= rindex r <= order)%Z /\
  (forall dtx x, x <> [] -> exists r' y, rank_filter argsort r dtx x = (r', Ok y) /\ length y = length x) /\
  (forall i, ((0 <= i <= order)%Z -> exists r', rank_set_index r i = (r', Ok tt) /\ rindex r' = i /\ rfir r' = rfir r) /\
             ((i < 0 \/ order < i)%Z -> rank_set_index r i = (r, Err ValueError))).
Proof.
  intros Hs Hu. destruct (rank_used_inv argsort Hs _ _ _ _ Hu) as (Hl & Hi & Hd).
  assert (Ho : (0 <= order)%Z).
  { destruct Hu as (r0 & E & _). apply rank_make_inv in E. lia. }
  split; [exact Hl|]. split; [lia|]. split.
  - intros dtx x Hx. destruct (rank_filter_eq argsort Hs _ _ _ _ dtx x Hu Hx) as (r' & E).
    eexists r', _. split; [exact E|]. rewrite map_length, seq_length. reflexivity.
  - intros i. unfold rank_set_index. rewrite Hl. split; intros H.
    + destruct (Z.ltb_spec i 0); [lia|]. destruct (Z.ltb_spec (Z.of_nat (S (Z.to_nat order)) - 1) i); [lia|].
      cbn [orb]. eexists. repeat split.
    + destruct (Z.ltb_spec i 0); [reflexivity|].
      destruct (Z.ltb_spec (Z.of_nat (S (Z.to_nat order)) - 1) i); [reflexivity|lia].
Qed.
Print Assumptions C27_rank_index_in_window.

Theorem C27_rank_constructor (O : OArith) index order :
  ((0 <= index <= order)%Z -> exists r : rank O, rank_make index order = Ok r /\ rindex r = index) /\
  ((index < 0 \/ order < index)%Z -> @rank_make O index order = Err ValueError).
Proof.
  unfold rank_make. split; intros H.
  - destruct (Z.ltb_spec index 0); [lia|]. destruct (Z.ltb_spec order index); [lia|]. cbn [orb].
    unfold fir_make. cbn [els]. rewrite repeat_length.
    destruct (Nat.eqb_spec (Z.to_nat (order + 1)) 0); [lia|]. eexists. split; reflexivity.
  - destruct (Z.ltb_spec index 0); [reflexivity|]. destruct (Z.ltb_spec order index); [reflexivity|lia].
Qed.
Print Assumptions C27_rank_constructor.

(** ** Order statistics over the reals *)
Definition count_below (v : R) (w : list R) : nat := length (filter (fun u => Rltb (Rabs u) (Rabs v)) w).
Definition count_upto (v : R) (w : list R) : nat := length (filter (fun u => Rleb (Rabs u) (Rabs v)) w).

Lemma filter_length_perm {X} (f : X -> bool) l m : Permutation l m -> length (filter f l) = length (filter f m).
Proof. induction 1 as [|a l m _ IH|a b l|l m n _ IH1 _ IH2]; cbn; auto; [destruct (f a)|destruct (f a), (f b)|]; cbn; congruence. Qed.
Lemma filter_length_le {X} (f : X -> bool) l : length (filter f l) <= length l.
Proof. induction l as [|a l IH]; cbn; [lia|]. destruct (f a); cbn; lia. Qed.
Lemma filter_all {X} (f : X -> bool) l : (forall v, In v l -> f v = true) -> filter f l = l.
Proof. induction l as [|a l IH]; intros H; [reflexivity|]. cbn. rewrite H by (left; auto). f_equal. apply IH. intros; apply H; right; auto. Qed.
Lemma filter_none {X} (f : X -> bool) l : (forall v, In v l -> f v = false) -> filter f l = [].
Proof. induction l as [|a l IH]; intros H; [reflexivity|]. cbn. rewrite H by (left; auto). apply IH. intros; apply H; right; auto. Qed.


Lemma order_stat (l w : list R) k :
  Permutation l w -> (forall i j, i < j < length w -> (Rabs (nth i l 0) <= Rabs (nth j l 0))%R) ->
  k < length w ->
  let v := nth k l 0%R in In v w /\ count_below v w <= k /\ k < count_upto v w.
Proof.
  intros Hp Hsorted Hk v. pose proof (Permutation_length Hp) as Hl.
  split; [|split].
  - eapply Permutation_in; [exact Hp|]. apply nth_In. lia.
  - unfold count_below. rewrite <- (filter_length_perm _ _ _ Hp).
    rewrite <- (firstn_skipn k l). rewrite filter_app, app_length.
    rewrite (filter_none _ (skipn k l)).
    + cbn [length]. rewrite Nat.add_0_r. etransitivity; [apply filter_length_le|].
      rewrite firstn_length. lia.
    + intros u Hu. destruct (In_nth _ _ 0%R Hu) as (i & Hi & Eu). subst u. rewrite skipn_length in Hi.
      destruct (Rltb _ _) eqn:E; [|reflexivity]. apply Rltb_iff in E. exfalso.
      rewrite nth_skipn_add in E. destruct i as [|i].
      * rewrite Nat.add_0_r in E. unfold v in E. lra.
      * assert (H := Hsorted k (k + S i)). unfold v in E. rewrite Hl in Hi.
        assert (H0 : k < k + S i < length w) by lia. specialize (H H0). lra.
  - unfold count_upto. rewrite <- (filter_length_perm _ _ _ Hp).
    rewrite <- (firstn_skipn (S k) l). rewrite filter_app, app_length.
    rewrite (filter_all _ (firstn (S k) l)).
    + rewrite firstn_length. lia.
    + intros u Hu. destruct (In_nth _ _ 0%R Hu) as (i & Hi & Eu). subst u. rewrite firstn_length in Hi.
      apply Rleb_iff. rewrite nth_firstn by lia. unfold v.
      destruct (Nat.eq_dec i k) as [->|]; [lra|]. apply Hsorted. lia.
Qed.

Lemma sorted_counts (argsort : list R -> list nat) (w : list R) k :
  @is_argsort RO argsort -> k < length w ->
  let v := nth k (@sorted_window RO argsort w) 0%R in
  In v w /\ count_below v w <= k /\ k < count_upto v w.
Proof.
  intros Hs Hk. apply order_stat; [exact (@sorted_window_perm RO argsort Hs w)| |exact Hk].
  intros i j Hij. pose proof (@sorted_window_sorted RO argsort Hs w i j Hij) as H.
  set (l := @sorted_window RO argsort w) in *.
  change (Rltb (Rabs (@nth R j l 0%R)) (Rabs (@nth R i l 0%R)) = false) in H.
  change (Rabs (@nth R i l 0%R) <= Rabs (@nth R j l 0%R))%R.
  destruct (Rle_lt_dec (Rabs (@nth R i l 0%R)) (Rabs (@nth R j l 0%R))) as [C|C]; [exact C|].
  apply Rltb_iff in C. congruence.
Qed.

(** The window of the last [order+1] samples before and at sample [n], newest first:
    samples of the signal and, before its start, the stored history [h]. *)
Definition last_samples (h x : list R) (order n : nat) : list R :=
  map (fun i => @sig RA h x (Z.of_nat n - Z.of_nat i)) (seq 0 (S order)).

Lemma map_cast_float_R (x : list R) : map (@cast RA DFloat) x = x.
Proof. rewrite <- (map_id x) at 2. apply map_ext. reflexivity. Qed.

(** C23.  The output is the magnitude order statistic of rank index, for every argsort
    meeting the contract. *)
Theorem C23_rank_order_statistic (argsort : list R -> list nat) index order ops (r : rank RO) (x : list R) :
  @is_argsort RO argsort -> @rank_used RO argsort index order ops r -> x <> [] ->
  exists r' y, @rank_filter RO argsort r DFloat x = (r', Ok y) /\ length y = length x /\
    forall n, n < length x ->
      let w := last_samples (tl (fs (rfir r))) x (Z.to_nat order) n in
      let v := nth n y 0%R in
      In v w /\ count_below v w <= Z.to_nat (rindex r) /\ Z.to_nat (rindex r) < count_upto v w.
Proof.
  intros Hs Hu Hx. destruct (@rank_filter_eq RO argsort Hs _ _ _ _ DFloat x Hu Hx) as (r' & E).
  destruct (@rank_used_inv RO argsort Hs _ _ _ _ Hu) as (Hl & Hi & Hd).
  eexists r', _. split; [exact E|]. split; [rewrite map_length, seq_length; reflexivity|].
  intros n Hn w.
  assert (Ew : w = @window_at RO DFloat (fs (rfir r)) x n).
  { unfold w, last_samples, window_at. rewrite Hl. change (@map RO RO) with (@map R R).
    change (@cast RO DFloat) with (@cast RA DFloat). rewrite map_cast_float_R. reflexivity. }
  assert (En : nth n (map (fun n => @cast RO DFloat (nth (Z.to_nat (rindex r))
     (sorted_window argsort (window_at DFloat (fs (rfir r)) x n)) zero)) (seq 0 (length x))) 0%R =
     nth (Z.to_nat (rindex r)) (@sorted_window RO argsort w) 0%R).
  { rewrite nth_map_seq by exact Hn. rewrite Ew. reflexivity. }
  cbv zeta. refine (eq_ind_r (fun v => In v w /\ count_below v w <= Z.to_nat (rindex r) /\
    Z.to_nat (rindex r) < count_upto v w) _ En). apply sorted_counts; [exact Hs|].
  unfold w, last_samples. rewrite map_length, seq_length. lia.
Qed.
Print Assumptions C23_rank_order_statistic.

(** An order statistic of these bounds is unique in magnitude, so the property fixes |y|. *)
Theorem C23_rank_magnitude_unique (w : list R) k u v :
  In u w -> In v w -> count_below u w <= k -> k < count_upto u w ->
  count_below v w <= k -> k < count_upto v w -> Rabs u = Rabs v.
Proof.
  assert (H : forall u v, k < count_upto u w -> count_below v w <= k -> ~ (Rabs u < Rabs v)%R).
  { intros a b Ha Hb C. assert (count_upto a w <= count_below b w); [|lia].
    clear - C. unfold count_upto, count_below. induction w as [|z w IH]; [apply le_n|]. cbn.
    destruct (Rleb (Rabs z) (Rabs a)) eqn:E1, (Rltb (Rabs z) (Rabs b)) eqn:E2; cbn; try lia.
    apply Rleb_iff in E1. assert (C2 : (Rabs z < Rabs b)%R) by lra. apply Rltb_iff in C2. congruence. }
  intros _ _ A1 A2 B1 B2. pose proof (H u v A2 B1). pose proof (H v u B2 A1). lra.
Qed.
Print Assumptions C23_rank_magnitude_unique.
Example C23_unique_example :
  count_below (-2) [1; -2; 3]%R <= 1 /\ 1 < count_upto (-2) [1; -2; 3]%R.
Proof.
  unfold count_below, count_upto. cbn [filter].
  repeat match goal with |- context[Rltb ?a ?b] =>
    let E := fresh in destruct (Rltb a b) eqn:E;
    [apply Rltb_iff in E|assert (~ (a < b)%R) by (intros C; apply Rltb_iff in C; congruence)] end;
  repeat match goal with |- context[Rleb ?a ?b] =>
    let E := fresh in destruct (Rleb a b) eqn:E;
    [apply Rleb_iff in E|assert (~ (a <= b)%R) by (intros C; apply Rleb_iff in C; congruence)] end;
  rewrite ?(Rabs_left (-2)), ?(Rabs_pos_eq 1), ?(Rabs_pos_eq 3) in * by lra; try lra; cbn; lia.
Qed.

(** C26.  Index order is the maximum and index 0 the minimum of a non-negative window. *)
Theorem C26_rank_extremes (argsort : list R -> list nat) index order ops (r : rank RO) (x : list R) :
  @is_argsort RO argsort -> @rank_used RO argsort index order ops r -> x <> [] ->
  Forall (fun v => (0 <= v)%R) (fs (rfir r)) -> Forall (fun v => (0 <= v)%R) x ->
  exists r' y, @rank_filter RO argsort r DFloat x = (r', Ok y) /\
    forall n, n < length x ->
      let w := last_samples (tl (fs (rfir r))) x (Z.to_nat order) n in
      In (nth n y 0%R) w /\
      (rindex r = order -> forall u, In u w -> (u <= nth n y 0)%R) /\
      (rindex r = 0%Z -> forall u, In u w -> (nth n y 0 <= u)%R).
Proof.
  intros Hs Hu Hx Hs0 Hx0.
  destruct (C23_rank_order_statistic argsort _ _ _ _ x Hs Hu Hx) as (r' & y & E & Hy & H).
  exists r', y. split; [exact E|]. intros n Hn w. destruct (H n Hn) as (Hin & Hb & Ht).
  fold w in Hin, Hb, Ht. set (v := nth n y 0%R) in *.
  destruct (C27_rank_index_in_window RO argsort _ _ _ _ Hs Hu) as (Hlen & Hidx & _).
  assert (Hpos : forall u, In u w -> (0 <= u)%R).
  { assert (Hnn : forall (l : list R) i, Forall (fun v => (0 <= v)%R) l -> (0 <= nth i l 0)%R).
    { intros l i HF. destruct (nth_in_or_default i l 0%R) as [C|C]; [|rewrite C; lra].
      rewrite Forall_forall in HF. apply HF, C. }
    intros u Hin'. apply in_map_iff in Hin'. destruct Hin' as (i & Eu & _). subst u. unfold sig.
    destruct (Z.ltb _ _); apply Hnn; [|exact Hx0]. destruct (fs (rfir r)); [constructor|].
    inversion Hs0; assumption. }
  assert (Hlw : length w = S (Z.to_nat order)) by (unfold w, last_samples; rewrite map_length, seq_length; reflexivity).
  split; [exact Hin|]. split; intros Ei u Hu'.
  - destruct (Rle_lt_dec u v) as [C|C]; [exact C|]. exfalso.
    assert (Hlt : count_upto v w < length w).
    { unfold count_upto. destruct (in_split _ _ Hu') as (l1 & l2 & Ew). rewrite Ew, filter_app, !app_length.
      cbn [filter length]. destruct (Rleb (Rabs u) (Rabs v)) eqn:E1.
      - apply Rleb_iff in E1. rewrite !Rabs_pos_eq in E1 by auto. lra.
      - pose proof (filter_length_le (fun u => Rleb (Rabs u) (Rabs v)) l1).
        pose proof (filter_length_le (fun u => Rleb (Rabs u) (Rabs v)) l2). lia. }
    rewrite Ei in Ht. lia.
  - destruct (Rle_lt_dec v u) as [C|C]; [exact C|]. exfalso.
    assert (Hlt : 0 < count_below v w).
    { unfold count_below. destruct (in_split _ _ Hu') as (l1 & l2 & Ew). rewrite Ew, filter_app, app_length.
      cbn [filter length]. destruct (Rltb (Rabs u) (Rabs v)) eqn:E1; [cbn; lia|].
      assert (C2 : (Rabs u < Rabs v)%R) by (rewrite !Rabs_pos_eq by auto; exact C).
      apply Rltb_iff in C2. congruence. }
    rewrite Ei in Hb. change (Z.to_nat 0) with 0 in Hb. lia.
Qed.
Print Assumptions C26_rank_extremes.

(** ** An executable argsort (stable insertion), for the examples *)
Section Insertion.
  Context {O : OArith}.
  Fixpoint ins (l : list O) (k : nat) (p : list nat) : list nat :=
    match p with
    | [] => [k]
    | j :: p' => if oltb (nth k l zero) (nth j l zero) then k :: p else j :: ins l k p'
    end.
  Definition isort (l : list O) : list nat := fold_left (fun p k => ins l k p) (seq 0 (length l)) [].

  Lemma ins_perm l k p : Permutation (ins l k p) (k :: p).
  Proof.
    induction p as [|j p IH]; cbn; [reflexivity|]. destruct (oltb _ _); [reflexivity|].
    etransitivity; [apply perm_skip; exact IH|]. apply perm_swap.
  Qed.

  Hypothesis lt_asym : forall a b : O, oltb a b = true -> oltb b a = false.
  Hypothesis ge_trans : forall a b c : O, oltb b a = false -> oltb c b = false -> oltb c a = false.

  Definition sorted_along (l : list O) (p : list nat) : Prop :=
    forall i j, i < j < length p -> oltb (nth (nth j p 0) l zero) (nth (nth i p 0) l zero) = false.

  Lemma sorted_along_cons l k p : sorted_along l (k :: p) <->
    (Forall (fun j => oltb (nth j l zero) (nth k l zero) = false) p /\ sorted_along l p).
  Proof.
    split.
    - intros H. split.
      + rewrite Forall_forall. intros j Hj. destruct (In_nth _ _ 0 Hj) as (i & Hi & <-).
        apply (H 0 (S i)). cbn. lia.
      + intros i j Hij. apply (H (S i) (S j)). cbn. lia.
    - intros [HF HS] [|i] [|j] Hij; cbn in Hij |- *; try lia.
      + rewrite Forall_forall in HF. apply HF, nth_In. lia.
      + apply HS. lia.
  Qed.

  Lemma ins_sorted l k p : sorted_along l p -> sorted_along l (ins l k p).
  Proof.
    induction p as [|j p IH]; intros H; cbn.
    - intros a b; cbn; lia.
    - destruct (oltb (nth k l zero) (nth j l zero)) eqn:E.
      + apply sorted_along_cons. split; [|exact H]. apply sorted_along_cons in H. destruct H as [HF _].
        constructor; [apply lt_asym, E|]. eapply Forall_impl; [|exact HF]. cbn. intros i Hi.
        eapply ge_trans; [|exact Hi]. apply lt_asym, E.
      + apply sorted_along_cons in H. destruct H as [HF HS]. apply sorted_along_cons. split; [|apply IH, HS].
        rewrite Forall_forall in *. intros i Hi. eapply Permutation_in in Hi; [|apply ins_perm].
        destruct Hi as [C|C]; [subst i; exact E|apply HF, C].
  Qed.

  Lemma isort_ok : is_argsort isort.
  Proof.
    intros l.
    assert (H : forall ks p, sorted_along l p ->
      Permutation (fold_left (fun p k => ins l k p) ks p) (ks ++ p) /\
      sorted_along l (fold_left (fun p k => ins l k p) ks p)).
    { induction ks as [|k ks IH]; intros p Hp; [split; [reflexivity|exact Hp]|]. cbn.
      destruct (IH (ins l k p) (ins_sorted l k p Hp)) as [H1 H2]. split; [|exact H2].
      etransitivity; [exact H1|]. etransitivity; [apply Permutation_app_head, ins_perm|].
      symmetry. apply Permutation_middle. }
    destruct (H (seq 0 (length l)) []) as [H1 H2].
    { intros i j; cbn; lia. }
    rewrite app_nil_r in H1. split; [exact H1|]. intros i j Hij. apply H2.
    rewrite (Permutation_length H1), seq_length. exact Hij.
  Qed.
End Insertion.

Lemma isort_RO : @is_argsort RO (@isort RO).
Proof.
  apply isort_ok.
  - intros a b H. change (Rltb a b = true) in H. change (Rltb b a = false). apply Rltb_iff in H.
    destruct (Rltb b a) eqn:E; [|reflexivity]. apply Rltb_iff in E. lra.
  - intros a b c H1 H2. change (Rltb b a = false) in H1. change (Rltb c b = false) in H2.
    change (Rltb c a = false). destruct (Rltb c a) eqn:E; [|reflexivity]. apply Rltb_iff in E. exfalso.
    destruct (Rlt_le_dec b a) as [C|C]; [apply Rltb_iff in C; congruence|].
    destruct (Rlt_le_dec c b) as [D|D]; [apply Rltb_iff in D; congruence|]. lra.
Qed.

Lemma Qcltb_iff (a b : Qc) : Qcltb a b = true <-> (a < b)%Qc.
Proof.
  unfold Qcltb. unfold Qclt, Qlt. unfold Qcompare. rewrite <- Z.compare_lt_iff.
  destruct (Z.compare _ _); split; congruence.
Qed.
Lemma isort_QO : @is_argsort QO (@isort QO).
Proof.
  apply isort_ok.
  - intros a b H. change (Qcltb a b = true) in H. change (Qcltb b a = false).
    destruct (Qcltb b a) eqn:E; [|reflexivity]. apply Qcltb_iff in H, E.
    exfalso. eapply Qclt_not_le; [exact H|]. apply Qclt_le_weak, E.
  - intros a b c H1 H2. change (Qcltb b a = false) in H1. change (Qcltb c b = false) in H2.
    change (Qcltb c a = false). destruct (Qcltb c a) eqn:E; [|reflexivity]. apply Qcltb_iff in E. exfalso.
    destruct (Qclt_le_dec b a) as [C|C]; [apply Qcltb_iff in C; congruence|].
    destruct (Qclt_le_dec c b) as [D|D]; [apply Qcltb_iff in D; congruence|].
    eapply Qclt_not_le; [exact E|]. eapply Qcle_trans; eassumption.
Qed.

(** ** Examples and counterexamples *)
(** C23, C24, C25: a magnitude median of order 2, state carried between calls, a signed
    sample selected by magnitude. *)
Definition qrank (index order : Z) : rank QO := mkRank (mkFir DFloat (repeat (q 1 3) (Z.to_nat (order + 1)))
  (repeat (q 0 1) (Z.to_nat (order + 1)))) index.
Example rank_example_make : exists r : rank QO, rank_make 1 2 = Ok r /\
  qs (fs (rfir r)) = [0; 0; 0]%Q /\ qs (fb (rfir r)) = [1 # 3; 1 # 3; 1 # 3]%Q /\ rindex r = 1%Z.
Proof. eexists. repeat split; vm_compute; reflexivity. Qed.
Example C23_example_run : rqs (snd (rank_filter (@isort QO) (qrank 1 2) DFloat
  [q 3 1; q (-5) 1; q 1 1; q 2 1; q (-2) 1; q 7 2])) = Ok [0; 3; 3; 2; -2; 2]%Q.
Proof. vm_compute. reflexivity. Qed.
Example C23_example : exists r : rank RO,
  @rank_used RO (@isort RO) 1 2 [RFilter DFloat [3; -5]%R; RIndex 2] r /\
  @is_argsort RO (@isort RO) /\ rindex r = 2%Z /\ [1; 2]%R <> [].
Proof.
  destruct (proj1 (C27_rank_constructor RO 1 2) ltac:(lia)) as (r0 & E & Hi).
  eexists. split; [exists r0; split; [exact E|reflexivity]|]. split; [exact isort_RO|].
  split; [|discriminate]. cbn [fold_left].
  assert (Hu : @rank_used RO (@isort RO) 1 2 [RFilter DFloat [3; -5]%R] (rank_exec (@isort RO) r0 (RFilter DFloat [3; -5]%R))).
  { exists r0. split; [exact E|reflexivity]. }
  destruct (C27_rank_index_in_window RO (@isort RO) _ _ _ _ isort_RO Hu) as (_ & _ & _ & Hset).
  destruct (proj1 (Hset 2%Z) ltac:(lia)) as (r' & E' & Hr & _). cbn [rank_exec] in *. rewrite E'. exact Hr.
Qed.
Example C24_example : exists r : rank QO, rank_used (@isort QO) 1 2 [] r /\ @is_argsort QO (@isort QO) /\
  (forall v : QO, cast DFloat v = v) /\
  rqs (snd (rank_filter (@isort QO) (fst (rank_reset r (Some (q 4 1)))) DFloat [q 3 1; q (-5) 1; q 9 1])) = Ok [4; 4; -5]%Q.
Proof.
  eexists. split; [eexists; split; reflexivity|]. split; [exact isort_QO|]. split; [reflexivity|].
  vm_compute. reflexivity.
Qed.
Example C25_example :
  rqs (snd (call_chunks (fun r => rank_filter (@isort QO) r DFloat) (qrank 1 2)
        [[q 3 1]; [q (-5) 1; q 1 1]; [q 2 1; q (-2) 1; q 7 2]])) = Ok [0; 3; 3; 2; -2; 2]%Q.
Proof. vm_compute. reflexivity. Qed.
Example C27_example : exists r : rank QO,
  rank_used (@isort QO) 1 2 [RFilter DFloat [q 3 1]; RIndex 5; RIndex 2; RReset None] r /\ rindex r = 2%Z.
Proof. eexists. split; [eexists; split; reflexivity|]. reflexivity. Qed.
Example C27_constructor_example : @rank_make QO 3 2 = Err ValueError /\ @rank_make QO 0 (-1) = Err ValueError.
Proof. split; reflexivity. Qed.

Example C26_example : exists r : rank RO, @rank_used RO (@isort RO) 2 2 [] r /\
  Forall (fun v => (0 <= v)%R) (fs (rfir r)) /\ Forall (fun v => (0 <= v)%R) [3; 5; 1]%R /\ rindex r = 2%Z.
Proof.
  eexists. split; [eexists; split; reflexivity|]. split; [|split; [|reflexivity]].
  - cbn [rfir fs]. apply Forall_forall. intros v Hv. vm_compute in Hv.
    repeat (destruct Hv as [Hv|Hv]; [subst v; apply Rle_refl|]). destruct Hv.
  - repeat constructor; lra.
Qed.
(** Index 0 erodes and index order dilates, the reverse of the class description
    (rank_filter.py:6-9): on a non-negative signal index 0 is not the maximum. *)
Theorem C26_documented_dilation_refuted :
  ~ forall (x : list Qc) y, Forall (fun v => (q 0 1 <= v)%Qc) x ->
      snd (rank_filter (@isort QO) (qrank 0 1) DFloat x) = Ok y ->
      forall n, 0 < n < length x -> (nth (n - 1) x (q 0 1) <= nth n y (q 0 1))%Qc.
Proof.
  intros H. specialize (H [q 3 1; q 1 1] [q 0 1; q 1 1]).
  assert (H1 : (q 3 1 <= q 1 1)%Qc).
  { apply (H ltac:(repeat constructor; intros C; vm_compute in C; discriminate) ltac:(vm_compute; reflexivity) 1). cbn. lia. }
  vm_compute in H1. apply H1. reflexivity.
Qed.
Print Assumptions C26_documented_dilation_refuted.

(** Signed data: index order/2 is not the median of the window. *)
Definition is_median (v : Qc) (w : list Qc) : Prop := In v w /\
  length (filter (fun u => Qcltb u v) w) <= length w / 2 /\
  length w / 2 < length (filter (fun u => negb (Qcltb v u)) w).
Theorem C26_signed_median_refuted :
  ~ forall x y, length x = 3 ->
      snd (rank_filter (@isort QO) (qrank 1 2) DFloat x) = Ok y -> is_median (nth 2 y (q 0 1)) (rev x).
Proof.
  intros H. specialize (H [q (-5) 1; q 1 1; q 2 1] [q 0 1; q 1 1; q 2 1] eq_refl ltac:(vm_compute; reflexivity)).
  destruct H as (_ & H & _). vm_compute in H. lia.
Qed.
Print Assumptions C26_signed_median_refuted.
