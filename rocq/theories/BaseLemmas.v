(** Lemmas about Base.v: list shifts, loops and finite sums. *)
From Coq Require Import List Arith ZArith Lia Bool Ring.
From Verif Require Import Base.
Set Asymmetric Patterns.

Section RunLemmas.
  Context {S X Y : Type} (step : S -> X -> S * res Y).

  Lemma run_app s xs ys :
    run step s (xs ++ ys) =
    match run step s xs with
    | (s1, Err e) => (s1, Err e)
    | (s1, Ok us) =>
        match run step s1 ys with
        | (s2, Ok vs) => (s2, Ok (us ++ vs))
        | (s2, Err e) => (s2, Err e)
        end
    end.
  Proof.
    revert s; induction xs as [|x xs IH]; intros s; cbn [run app].
    - destruct (run step s ys) as [s2 [vs|e]]; reflexivity.
    - destruct (step s x) as [s1 [y|e]]; [|reflexivity].
      rewrite IH. destruct (run step s1 xs) as [s2 [us|e]]; [|reflexivity].
      destruct (run step s2 ys) as [s3 [vs|e]]; reflexivity.
  Qed.

  Lemma run_length s xs s' ys : run step s xs = (s', Ok ys) -> length ys = length xs.
  Proof.
    revert s ys; induction xs as [|x xs IH]; intros s ys; cbn [run].
    - intros H; inversion H; reflexivity.
    - destruct (step s x) as [s1 [y|e]]; [|discriminate].
      destruct (run step s1 xs) as [s2 [us|e]] eqn:E; [|discriminate].
      intros H; inversion H; subst. cbn. f_equal. eapply IH; eassumption.
  Qed.

  (** An invariant under which steps succeed makes the whole loop succeed. *)
  Lemma run_ok (Inv : S -> Prop) (P : X -> Prop) :
    (forall s x, Inv s -> P x -> exists s' y, step s x = (s', Ok y) /\ Inv s') ->
    forall xs s, Inv s -> Forall P xs ->
    exists s' ys, run step s xs = (s', Ok ys) /\ Inv s' /\ length ys = length xs.
  Proof.
    intros Hs; induction xs as [|x xs IH]; intros s Hi HP; cbn [run].
    - exists s, []. auto.
    - inversion HP; subst.
      destruct (Hs s x) as (s1 & y & E & Hi1); auto. rewrite E.
      destruct (IH s1) as (s2 & ys & E2 & Hi2 & Hl); auto. rewrite E2.
      exists s2, (y :: ys). cbn; auto.
  Qed.

  Lemma run_inv (Inv : S -> Prop) :
    (forall s x, Inv s -> Inv (fst (step s x))) ->
    forall xs s, Inv s -> Inv (fst (run step s xs)).
  Proof.
    intros Hs; induction xs as [|x xs IH]; intros s Hi; cbn [run]; [exact Hi|].
    specialize (Hs s x Hi). destruct (step s x) as [s1 [y|e]]; cbn in *; [|exact Hs].
    specialize (IH s1 Hs). destruct (run step s1 xs) as [s2 [ys|e]]; exact IH.
  Qed.
End RunLemmas.

(** Streaming: a call that is a non-empty-guarded run is chunk invariant. *)
Section ChunkLemmas.
  Context {S X Y : Type} (step : S -> X -> S * res Y).
  Variable call : S -> list X -> S * res (list Y).

  Lemma call_chunks_run_gen (Good : S -> Prop) :
    (forall s xs, Good s -> xs <> [] -> call s xs = run step s xs) ->
    (forall s xs, Good s -> Good (fst (run step s xs))) ->
    forall cs s, Good s -> Forall (fun c => c <> []) cs ->
    call_chunks call s cs = run step s (concat cs).
  Proof.
    intros Hc Hg cs; induction cs as [|c cs IH]; intros s Hs HF; cbn [call_chunks concat].
    - reflexivity.
    - inversion HF; subst. rewrite run_app.
      rewrite Hc by assumption.
      specialize (Hg s c Hs).
      destruct (run step s c) as [s1 [us|e]] eqn:E; [|reflexivity].
      cbn in Hg. rewrite IH by assumption. reflexivity.
  Qed.
End ChunkLemmas.

Lemma length_np_shift {X} (s : list X) : length (np_shift s) = length s.
Proof.
  destruct s as [|h t]; [reflexivity|]. cbn [np_shift length]. f_equal.
  induction t as [|a t IH] in h |- *; [reflexivity|].
  change (removelast (h :: a :: t)) with (h :: removelast (a :: t)). cbn [length].
  rewrite IH. reflexivity.
Qed.

Lemma length_np_shift_gt1 {X} (s : list X) : length (np_shift_gt1 s) = length s.
Proof. unfold np_shift_gt1. destruct (Nat.ltb _ _); [apply length_np_shift|reflexivity]. Qed.

Lemma length_removelast {X} (l : list X) : length (removelast l) = length l - 1.
Proof.
  destruct l as [|a l]; [reflexivity|]. cbn [length]. replace (S (length l) - 1) with (length l) by lia.
  induction l as [|b l IH] in a |- *; [reflexivity|].
  change (removelast (a :: b :: l)) with (a :: removelast (b :: l)). cbn [length].
  rewrite IH. reflexivity.
Qed.

Lemma removelast_firstn_eq {X} (l : list X) : removelast l = firstn (length l - 1) l.
Proof.
  destruct l as [|a l]; [reflexivity|].
  change (length (a :: l) - 1) with (length l - 0). rewrite Nat.sub_0_r.
  induction l as [|b l IH] in a |- *; [reflexivity|].
  change (removelast (a :: b :: l)) with (a :: removelast (b :: l)).
  cbn [length firstn]. f_equal. apply IH.
Qed.

(** Shifting and writing the new sample: the register window moves by one. *)
Lemma shift_set {X} (s : list X) (v : X) :
  s <> [] ->
  np_set0 (np_shift_gt1 s) v = Ok (firstn (length s) (v :: s)).
Proof.
  intros Hs. destruct s as [|h t]; [congruence|].
  unfold np_shift_gt1. destruct (Nat.ltb_spec 1 (length (h :: t))) as [H|H].
  - cbn [np_shift np_set0]. rewrite removelast_firstn_eq.
    cbn [length]. replace (S (length t) - 1) with (length t) by lia.
    cbn [firstn]. reflexivity.
  - cbn [length] in H. destruct t; [|cbn in H; lia]. reflexivity.
Qed.

Lemma firstn_firstn_cons {X} n (v : X) (l : list X) :
  firstn n (v :: firstn n l) = firstn n (v :: l).
Proof.
  destruct n; [reflexivity|].
  change (v :: firstn n (firstn (S n) l) = v :: firstn n l). f_equal.
  rewrite firstn_firstn. f_equal. lia.
Qed.

Lemma nth_firstn {X} (l : list X) n i d :
  i < n -> nth i (firstn n l) d = nth i l d.
Proof.
  revert n i; induction l as [|a l IH]; intros n i H.
  - rewrite firstn_nil. reflexivity.
  - destruct n; [lia|]. destruct i; [reflexivity|]. cbn. apply IH. lia.
Qed.

Lemma nth_map_lt {X Y} (f : X -> Y) (l : list X) i (d : X) (d' : Y) :
  i < length l -> nth i (map f l) d' = f (nth i l d).
Proof.
  intros H. rewrite (nth_indep _ d' (f d)) by (rewrite map_length; exact H). apply map_nth.
Qed.

Lemma nth_map_seq {Y} (f : nat -> Y) n i (d' : Y) :
  i < n -> nth i (map f (seq 0 n)) d' = f i.
Proof.
  intros H. rewrite (nth_map_lt f _ i 0) by (rewrite seq_length; exact H).
  rewrite seq_nth by exact H. reflexivity.
Qed.

Lemma nth_repeat_lt {X} (c d : X) n i : i < n -> nth i (repeat c n) d = c.
Proof. revert i; induction n as [|n IH]; intros [|i] H; cbn; try lia; auto. apply IH. lia. Qed.

(** Finite sums. *)
Lemma bigsum_ext {A : Arith} n (f g : nat -> A) :
  (forall i, i < n -> f i = g i) -> bigsum n f = bigsum n g.
Proof.
  induction n as [|n IH]; intros H; cbn [bigsum]; [reflexivity|].
  rewrite IH by (intros; apply H; lia). rewrite H by lia. reflexivity.
Qed.

Section LawLemmas.
  Variable A : Arith.
  Hypothesis L : Laws A.
  Local Notation "0" := (@zero A).
  Local Notation "1" := (@one A).
  Local Infix "+" := (@add A).
  Local Infix "-" := (@sub A).
  Local Infix "*" := (@mul A).
  Let Rth := law_ring L.
  Add Ring Aring : Rth.

  Lemma add_0_l (x : A) : 0 + x = x. Proof. ring. Qed.
  Lemma add_0_r (x : A) : x + 0 = x. Proof. ring. Qed.
  Lemma mul_0_l (x : A) : 0 * x = 0. Proof. ring. Qed.
  Lemma mul_0_r (x : A) : x * 0 = 0. Proof. ring. Qed.
  Lemma mul_1_l (x : A) : 1 * x = x. Proof. ring. Qed.
  Lemma mul_1_r (x : A) : x * 1 = x. Proof. ring. Qed.

  Lemma bigsum_zero n (f : nat -> A) : (forall i, i < n -> f i = 0) -> bigsum n f = 0.
  Proof.
    induction n as [|n IH]; intros H; cbn [bigsum]; [reflexivity|].
    rewrite IH by (intros; apply H; lia). rewrite H by lia. ring.
  Qed.

  Lemma bigsum_add n (f g : nat -> A) :
    bigsum n (fun i => f i + g i) = bigsum n f + bigsum n g.
  Proof. induction n as [|n IH]; cbn [bigsum]; [ring|]. rewrite IH. ring. Qed.

  Lemma bigsum_sub n (f g : nat -> A) :
    bigsum n (fun i => f i - g i) = bigsum n f - bigsum n g.
  Proof. induction n as [|n IH]; cbn [bigsum]; [ring|]. rewrite IH. ring. Qed.

  Lemma bigsum_scal n c (f : nat -> A) :
    bigsum n (fun i => c * f i) = c * bigsum n f.
  Proof. induction n as [|n IH]; cbn [bigsum]; [ring|]. rewrite IH. ring. Qed.

  Lemma bigsum_scal_r n c (f : nat -> A) :
    bigsum n (fun i => f i * c) = bigsum n f * c.
  Proof. induction n as [|n IH]; cbn [bigsum]; [ring|]. rewrite IH. ring. Qed.

  Lemma bigsum_S_l n (f : nat -> A) :
    bigsum (S n) f = f O + bigsum n (fun i => f (S i)).
  Proof.
    induction n as [|n IH]; [cbn; ring|].
    change (bigsum (S (S n)) f) with (bigsum (S n) f + f (S n)).
    rewrite IH. cbn [bigsum]. ring.
  Qed.

  Lemma bigsum_app n m (f : nat -> A) :
    bigsum (n + m)%nat f = bigsum n f + bigsum m (fun i => f (n + i)%nat).
  Proof.
    induction m as [|m IH].
    - rewrite Nat.add_0_r. cbn. ring.
    - rewrite Nat.add_succ_r. cbn [bigsum]. rewrite IH. ring.
  Qed.

  (** Interchange of two finite sums. *)
  Lemma bigsum_swap n m (f : nat -> nat -> A) :
    bigsum n (fun i => bigsum m (fun j => f i j)) =
    bigsum m (fun j => bigsum n (fun i => f i j)).
  Proof.
    induction n as [|n IH]; cbn [bigsum].
    - symmetry. apply bigsum_zero. reflexivity.
    - rewrite IH. rewrite <- bigsum_add. reflexivity.
  Qed.

  Lemma bigsum_rev n (f : nat -> A) :
    bigsum n f = bigsum n (fun i => f (n - 1 - i)%nat).
  Proof.
    induction n as [|n IH]; [reflexivity|].
    rewrite (bigsum_S_l n (fun i => f (S n - 1 - i)%nat)).
    cbn [bigsum]. rewrite IH.
    replace (S n - 1 - 0)%nat with n by lia.
    rewrite (bigsum_ext n (fun i => f (S n - 1 - S i)%nat) (fun i => f (n - 1 - i)%nat))
      by (intros; f_equal; lia).
    ring.
  Qed.

  (** Sum with a single non-zero term. *)
  Lemma bigsum_single n k (f : nat -> A) :
    (k < n)%nat -> (forall i, (i < n)%nat -> i <> k -> f i = 0) -> bigsum n f = f k.
  Proof.
    revert k; induction n as [|n IH]; intros k Hk H; [lia|]. cbn [bigsum].
    destruct (Nat.eq_dec k n) as [->|Hne].
    - rewrite bigsum_zero by (intros; apply H; lia). ring.
    - rewrite (IH k) by (try lia; intros; apply H; lia).
      rewrite (H n) by lia. ring.
  Qed.

  Lemma fits_bigsum dt n (f : nat -> A) :
    (forall i, (i < n)%nat -> fits dt (f i)) -> fits dt (bigsum n f).
  Proof.
    induction n as [|n IH]; intros H; cbn [bigsum].
    - apply (law_fits_zero L).
    - apply (law_fits_add L); [apply IH; intros; apply H; lia | apply H; lia].
  Qed.

  Lemma fits_nth dt (l : list A) i : Forall (fits dt) l -> fits dt (nth i l 0).
  Proof.
    intros H. destruct (Nat.lt_ge_cases i (length l)) as [Hi|Hi].
    - rewrite Forall_forall in H. apply H. apply nth_In. exact Hi.
    - rewrite nth_overflow by exact Hi. apply (law_fits_zero L).
  Qed.

  Lemma nth_zeros n i : nth i (@zeros A n) 0 = 0.
  Proof. unfold zeros. revert i; induction n; destruct i; cbn; auto. Qed.

  Lemma nth_app_zeros (l : list A) n i : nth i (l ++ zeros n) 0 = nth i l 0.
  Proof.
    destruct (Nat.lt_ge_cases i (length l)) as [Hi|Hi].
    - apply app_nth1; exact Hi.
    - rewrite app_nth2 by exact Hi. rewrite nth_zeros. rewrite nth_overflow by exact Hi. reflexivity.
  Qed.

  Lemma div_unique (x y q : A) : y <> 0 -> q * y = x -> div x y = q.
  Proof.
    intros Hy Hq. pose proof (law_div L x y Hy) as Hd.
    (* (div x y - q) * y = 0, multiply by the inverse of y *)
    assert (E : (div x y - q) * y = 0) by (transitivity (div x y * y - q * y); [ring|]; rewrite Hd, Hq; ring).
    pose proof (law_div L 1 y Hy) as Hi.
    transitivity (q + (div x y - q) * (div 1 y * y)); [rewrite Hi; ring|].
    transitivity (q + div 1 y * ((div x y - q) * y)); [ring|]. rewrite E. ring.
  Qed.

  Lemma mul_cancel_r (x y z : A) : z <> 0 -> x * z = y * z -> x = y.
  Proof.
    intros Hz H. rewrite <- (div_unique (y * z) z x) by assumption.
    apply div_unique; [assumption|reflexivity].
  Qed.

  Lemma div_mul (x y : A) : y <> 0 -> div x y * y = x.
  Proof. exact (law_div L x y). Qed.

  Lemma mul_integral (x y : A) : x * y = 0 -> x <> 0 -> y = 0.
  Proof.
    intros H Hx. apply (mul_cancel_r y 0 x Hx). rewrite mul_0_l. rewrite <- H. ring.
  Qed.
End LawLemmas.

Lemma length_map2 {X Y W} (f : X -> Y -> W) l m : length (map2 f l m) = Nat.min (length l) (length m).
Proof. revert m. induction l as [|a l IH]; intros [|b m]; cbn; [reflexivity..|]. rewrite IH. reflexivity. Qed.
Lemma nth_map2 {X Y W} (f : X -> Y -> W) l m i dx dy dw : i < length l -> i < length m ->
  nth i (map2 f l m) dw = f (nth i l dx) (nth i m dy).
Proof.
  revert m i. induction l as [|a l IH]; intros [|b m] [|i] Hl Hm; cbn in *; try lia; [reflexivity|].
  apply IH; lia.
Qed.

Lemma nth_skipn_add {X} (l : list X) k i d : nth i (skipn k l) d = nth (k + i) l d.
Proof. revert k. induction l as [|a l IH]; intros [|k]; cbn; auto; destruct i; reflexivity. Qed.
