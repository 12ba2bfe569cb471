(** Property C101: calls of Log from any number of threads behave as if made one after the
    other.  The methods are the step sequences of LogModel ([level_code], [stream_code],
    [write_code]); any thread may be preempted between any two steps. *)
From Coq Require Import String List Arith ZArith Bool Lia.
From Verif Require Import Base BaseLemmas PyString LogModel.
Import ListNotations.
Set Asymmetric Patterns.
Local Open Scope nat_scope.

(** *** Threads *)
Inductive call : Type := CLevel (l : level_arg) | CStream (s : stream) | CWrite (l : level_arg) (e : entry) (frames : list frame).
Definition code_of (c : call) : code :=
  match c with CLevel l => level_code l | CStream s => stream_code s | CWrite l e f => write_code l e f end.
Record thread : Type := mkThread {
  t_todo : list call;                  (* calls not yet made *)
  t_now : option (call * code);        (* the call being made and the rest of its steps *)
  t_done : list (res unit)             (* results so far *)
}.
Record config : Type := mkConfig {
  c_world : world;
  c_lock : option (nat * nat);         (* RLock: owner and depth *)
  c_threads : nat -> thread;
  c_order : list (nat * call)          (* ghost: calls in the order they first got the lock *)
}.
Definition upd (f : nat -> thread) (i : nat) (t : thread) : nat -> thread := fun j => if j =? i then t else f j.
(** threading.RLock.acquire by thread i: None means it has to wait. *)
Definition acquire (i : nat) (l : option (nat * nat)) : option (nat * nat) :=
  match l with None => Some (i, 1) | Some (j, d) => if j =? i then Some (i, S d) else None end.
Definition release (l : option (nat * nat)) : option (nat * nat) :=
  match l with Some (j, S (S d)) => Some (j, S d) | _ => None end.
(** One step of thread i. *)
Inductive step (i : nat) (c : config) : config -> Prop :=
| SBegin a r d : c_threads c i = mkThread (a :: r) None d ->
    step i c (mkConfig (c_world c) (c_lock c) (upd (c_threads c) i (mkThread r (Some (a, code_of a)) d)) (c_order c))
| SStep t a f d : c_threads c i = mkThread t (Some (a, Step f)) d ->
    step i c (mkConfig (fst (f (c_world c))) (c_lock c) (upd (c_threads c) i (mkThread t (Some (a, snd (f (c_world c)))) d)) (c_order c))
| SAcquire t a k d l : c_threads c i = mkThread t (Some (a, Acquire k)) d -> acquire i (c_lock c) = Some l ->
    step i c (mkConfig (c_world c) (Some l) (upd (c_threads c) i (mkThread t (Some (a, k)) d))
                (match c_lock c with None => c_order c ++ [(i, a)] | _ => c_order c end))
| SRelease t a k d : c_threads c i = mkThread t (Some (a, Release k)) d ->
    step i c (mkConfig (c_world c) (release (c_lock c)) (upd (c_threads c) i (mkThread t (Some (a, k)) d)) (c_order c))
| SReturn t a r d : c_threads c i = mkThread t (Some (a, Done r)) d ->
    step i c (mkConfig (c_world c) (c_lock c) (upd (c_threads c) i (mkThread t None (d ++ [r]))) (c_order c)).
Inductive steps (c : config) : config -> Prop :=
| SNil : steps c c
| SCons i c1 c2 : steps c c1 -> step i c1 c2 -> steps c c2.
Definition start (w : world) (program : nat -> list call) : config :=
  mkConfig w None (fun i => mkThread (program i) None []) [].
Definition finished (t : thread) : Prop := t_todo t = [] /\ t_now t = None.

(** *** Specification: the calls one after the other *)
Definition op_of (c : call) : op := match c with CLevel l => Level l | CStream s => Stream s | CWrite l e f => Write l e f end.
Fixpoint serial (w : world) (l : list (nat * call)) : world * list (nat * res unit) :=
  match l with
  | [] => (w, [])
  | (i, a) :: r => let (w1, x) := do_op w (op_of a) in let (w2, xs) := serial w1 r in (w2, (i, x) :: xs)
  end.
Definition of_thread {X} (i : nat) (l : list (nat * X)) : list X := map snd (filter (fun p => fst p =? i) l).

(** *** Proof *)
Fixpoint run_code (k : code) (w : world) {struct k} : world * res unit :=
  match k with
  | Done r => (w, r)
  | Step f => let (w', k') := f w in run_code k' w'
  | Acquire k | Release k => run_code k w
  end.
(** Inside the lock at depth d; [Done] and what follows the last release is outside. *)
Fixpoint inside (d : nat) (k : code) {struct k} : Prop :=
  match k with
  | Done _ => d = 0
  | Step f => d <> 0 /\ forall w, let (_, k') := f w in inside d k'
  | Acquire k => d <> 0 /\ inside (S d) k
  | Release k => match d with 0 => False | 1 => (exists r, k = Done r) | S d' => inside d' k end
  end.
Lemma code_ok c : exists k, code_of c = Acquire k /\ inside 1 k /\ forall w, run_code k w = do_op w (op_of c).
Proof.
  destruct c as [l|s|l e f]; eexists; (split; [reflexivity|]).
  - split.
    + cbn. split; [lia|]. intros w. destruct (look_up w l); cbn; [split; [lia|intros _]|]; eauto.
    + intros w. cbn. unfold log_level. destruct (look_up w l); reflexivity.
  - split.
    + destruct (negb (s_truthy s) || negb (s_write s)); cbn; [eauto|]. do 2 (split; [lia|intros _]). split; [lia|]. unfold lg_add. intros w. destruct (s_write s && s_callable s)%bool; cbn; [split; [lia|intros _]|]; eauto.
    + intros w. cbn [op_of do_op]. unfold log_stream. destruct (negb (s_truthy s) || negb (s_write s)); cbn [run_code]; [reflexivity|].
      destruct (lg_remove w (w_identity w)) as [w1 r]. cbn [fst]. destruct (lg_add w1 ByLog s 0) as [w2 [i|x]]; reflexivity.
  - set (body := Step (fun w => (w, match look_up w l with
                | Err x => leave (Err x)
                | Ok v => Step (fun w => (w,
                    if (snd (w_level w) <=? snd v)%nat
                    then Step (fun w => (lg_log w v (entry_text e f), leave (Ok tt)))
                    else leave (Ok tt)))
                end))).
    assert (B : inside 1 body).
    { cbn. split; [lia|]. intros w. destruct (look_up w l) as [v|x]; cbn; [|eauto]. split; [lia|]. intros w1. destruct (_ <=? _); cbn; [split; [lia|intros _]|]; eauto. }
    assert (R : forall w, run_code body w = match look_up w l with
            | Err x => (w, Err x)
            | Ok v => if (snd (w_level w) <=? snd v)%nat then (lg_log w v (entry_text e f), Ok tt) else (w, Ok tt)
            end).
    { intros w. cbn. destruct (look_up w l) as [v|x]; cbn; [|reflexivity]. destruct (_ <=? _); reflexivity. }
    clearbody body. split.
    + cbn. split; [lia|]. intros w. destruct (w_identity w =? 0); [|exact B]. cbn. split; [lia|]. intros w1. cbn. split; [lia|].
      destruct (negb (s_truthy (w_stdout w1)) || negb (s_write (w_stdout w1))); [cbn; eauto|]. cbn. do 2 (split; [lia|intros _]). split; [lia|]. unfold lg_add. intros w2. destruct (_ && _)%bool; cbn; [split; [lia|intros _; exact B]|eauto].
    + intros w. cbn [op_of do_op]. unfold log_write. cbn [run_code]. destruct (w_identity w =? 0); [|exact (R w)]. cbn [run_code stream_steps]. unfold log_stream.
      destruct (negb (s_truthy (w_stdout w)) || negb (s_write (w_stdout w))); cbn [run_code leave]; [reflexivity|].
      destruct (lg_remove w (w_identity w)) as [w1 r]. cbn [fst]. destruct (lg_add w1 ByLog (w_stdout w) 0) as [w2 [i|x]]; cbn [run_code leave]; [apply R|reflexivity].
Qed.

Lemma serial_app w a b : serial w (a ++ b) = let (w1, x) := serial w a in let (w2, y) := serial w1 b in (w2, x ++ y).
Proof.
  revert w. induction a as [|[i c] a IH]; intros w; cbn [app serial].
  - destruct (serial w b); reflexivity.
  - destruct (do_op w (op_of c)) as [w1 x]. rewrite IH. destruct (serial w1 a) as [w2 y]. destruct (serial w2 b); reflexivity.
Qed.
Lemma of_thread_app {X} i (a b : list (nat * X)) : of_thread i (a ++ b) = of_thread i a ++ of_thread i b.
Proof. unfold of_thread. rewrite filter_app, map_app. reflexivity. Qed.
Lemma of_thread_one {X} i j (x : X) : of_thread i [(j, x)] = if j =? i then [x] else [].
Proof. unfold of_thread. cbn. destruct (j =? i); reflexivity. Qed.

(** The part of a thread before or after its critical section: the calls it has made in
    the order list and the results it has or will return. *)
Definition idle (program : list call) (made : list call) (results : list (res unit)) (t : thread) : Prop :=
  match t_now t with
  | None => program = made ++ t_todo t /\ results = t_done t
  | Some (a, k) => (k = code_of a /\ program = made ++ a :: t_todo t /\ results = t_done t) \/
                   (exists r, k = Done r /\ program = made ++ t_todo t /\ results = t_done t ++ [r])
  end.
Definition inv (w0 : world) (program : nat -> list call) (c : config) : Prop :=
  match c_lock c with
  | None => c_world c = fst (serial w0 (c_order c)) /\
            forall i, idle (program i) (of_thread i (c_order c)) (of_thread i (snd (serial w0 (c_order c)))) (c_threads c i)
  | Some (i, d) => exists past a k, c_order c = past ++ [(i, a)] /\ d <> 0 /\
            t_now (c_threads c i) = Some (a, k) /\ inside d k /\
            run_code k (c_world c) = do_op (fst (serial w0 past)) (op_of a) /\
            program i = of_thread i past ++ a :: t_todo (c_threads c i) /\ of_thread i (snd (serial w0 past)) = t_done (c_threads c i) /\
            forall j, j <> i -> idle (program j) (of_thread j past) (of_thread j (snd (serial w0 past))) (c_threads c j)
  end.
Lemma upd_same f i t : upd f i t i = t. Proof. unfold upd. rewrite Nat.eqb_refl. reflexivity. Qed.
Lemma upd_other f i t j : j <> i -> upd f i t j = f j. Proof. intros H. unfold upd. apply Nat.eqb_neq in H. rewrite H. reflexivity. Qed.
Lemma inv_start w p : inv w p (start w p).
Proof. unfold inv, start. cbn. split; [reflexivity|]. intros i. unfold idle. cbn. auto. Qed.
(** A thread that is idle and moves without the lock stays idle. *)
Lemma inv_step w0 p i c c' : inv w0 p c -> step i c c' -> inv w0 p c'.
Proof.
  intros V S. unfold inv in V. destruct (c_lock c) as [[o d]|] eqn:EL.
  - destruct V as (past & a & k & V1 & V2 & V3 & V4 & V5 & V6 & V7 & V8).
    destruct (Nat.eq_dec i o) as [->|N].
    + (* the owner *)
      inversion S as [a' r d' T|t a' f d' T|t a' k' d' l T A|t a' k' d' T|t a' r d' T]; subst c'; rewrite T in V3, V6, V7; cbn in V3, V6, V7; try discriminate; injection V3 as <- <-; unfold inv; cbn [c_lock c_world c_threads c_order]; rewrite ?EL.
      * exists past, a', (snd (f (c_world c))). rewrite upd_same. cbn. destruct V4 as [_ V4]. specialize (V4 (c_world c)). cbn [run_code] in V5. destruct (f (c_world c)) as [w1 k1]. cbn.
        repeat (split; [assumption || reflexivity|]). intros j Hj. rewrite upd_other by exact Hj. apply V8, Hj.
      * cbn in A. rewrite EL in A. cbn in A. rewrite Nat.eqb_refl in A. injection A as <-. exists past, a', k'. rewrite upd_same. cbn. destruct V4 as [_ V4]. repeat (split; [assumption || reflexivity || lia|]). intros j Hj. rewrite upd_other by exact Hj. apply V8, Hj.
      * destruct d as [|[|d]]; [contradiction| |].
        -- cbn in V4. destruct V4 as [r ->]. cbn [release]. cbn in V5. pose proof V1 as V1'. rewrite V1'. rewrite serial_app. destruct (serial w0 past) as [w1 xs] eqn:ES. cbn [fst snd serial] in *. rewrite <- V5. cbn [fst snd]. split; [reflexivity|].
           intros j. rewrite !of_thread_app, !of_thread_one. destruct (Nat.eq_dec j o) as [->|Hj].
           ++ rewrite upd_same, Nat.eqb_refl. unfold idle. cbn. right. exists r. split; [reflexivity|]. split; [rewrite <- app_assoc; exact V6|rewrite V7; reflexivity].
           ++ rewrite upd_other by exact Hj. replace (o =? j) with false by (symmetry; apply Nat.eqb_neq; congruence). rewrite !app_nil_r. apply V8, Hj.
        -- cbn [release]. exists past, a', k'. rewrite upd_same. cbn. repeat (split; [assumption || reflexivity || lia|]). intros j Hj. rewrite upd_other by exact Hj. apply V8, Hj.
      * cbn in V4. contradiction.
    + (* another thread *)
      assert (K : forall t', idle (p i) (of_thread i past) (of_thread i (snd (serial w0 past))) t' ->
        inv w0 p (mkConfig (c_world c) (Some (o, d)) (upd (c_threads c) i t') (c_order c))).
      { intros t' Ht. unfold inv. cbn [c_lock c_world c_threads c_order]. exists past, a, k. rewrite upd_other by congruence. repeat (split; [assumption|]). intros j Hj. destruct (Nat.eq_dec j i) as [->|Hji]; [rewrite upd_same; exact Ht|rewrite upd_other by exact Hji; apply V8, Hj]. }
      pose proof (V8 i N) as I. unfold idle in I.
      inversion S as [a' r d' T|t a' f d' T|t a' k' d' l T A|t a' k' d' T|t a' r d' T]; subst c'; rewrite T in I; cbn in I; rewrite ?EL.
      * apply K. unfold idle. cbn. left. split; [reflexivity|exact I].
      * exfalso. destruct I as [[I _]|(r & I & _)]; [|discriminate]. destruct (code_ok a') as (k1 & E & _). congruence.
      * rewrite EL in A. cbn in A. replace (o =? i) with false in A by (symmetry; apply Nat.eqb_neq; congruence). discriminate.
      * exfalso. destruct I as [[I _]|(r & I & _)]; [|discriminate]. destruct (code_ok a') as (k1 & E & _). congruence.
      * apply K. unfold idle. cbn. destruct I as [[I _]|(r' & I & I2 & I3)]; [destruct (code_ok a') as (k1 & E & _); congruence|]. injection I as <-. auto.
  - destruct V as [V1 V2].
    assert (K : forall t', idle (p i) (of_thread i (c_order c)) (of_thread i (snd (serial w0 (c_order c)))) t' ->
      inv w0 p (mkConfig (c_world c) None (upd (c_threads c) i t') (c_order c))).
    { intros t' Ht. unfold inv. cbn [c_lock c_world c_threads c_order]. split; [exact V1|]. intros j. destruct (Nat.eq_dec j i) as [->|Hj]; [rewrite upd_same; exact Ht|rewrite upd_other by exact Hj; apply V2]. }
    pose proof (V2 i) as I. unfold idle in I.
    inversion S as [a' r d' T|t a' f d' T|t a' k' d' l T A|t a' k' d' T|t a' r d' T]; subst c'; rewrite T in I; cbn in I; rewrite ?EL.
    + apply K. unfold idle. cbn. left. split; [reflexivity|exact I].
    + exfalso. destruct I as [[I _]|(r & I & _)]; [|discriminate]. destruct (code_ok a') as (k1 & E & _). congruence.
    + rewrite EL in A. cbn in A. injection A as <-. unfold inv. cbn [c_lock c_world c_threads c_order]. destruct I as [[I [I2 I3]]|(r & I & _)]; [|discriminate]. destruct (code_ok a') as (k1 & E & E2 & E3). rewrite E in I. injection I as <-.
      exists (c_order c), a', k'. rewrite upd_same. cbn. split; [reflexivity|]. split; [lia|]. split; [reflexivity|]. split; [exact E2|]. split; [rewrite V1; apply E3|]. split; [exact I2|]. split; [exact I3|].
      intros j Hj. rewrite upd_other by exact Hj. apply V2.
    + exfalso. destruct I as [[I _]|(r & I & _)]; [|discriminate]. destruct (code_ok a') as (k1 & E & _). congruence.
    + apply K. unfold idle. cbn. destruct I as [[I _]|(r' & I & I2 & I3)]; [destruct (code_ok a') as (k1 & E & _); congruence|]. injection I as <-. auto.
Qed.
Lemma inv_steps w p c : steps (start w p) c -> inv w p c.
Proof. intros S. induction S as [|i c1 c2 S IH T]; [apply inv_start|]. eapply inv_step; eassumption. Qed.

(** C101.  Any interleaving in which all threads finish equals the serial execution of the
    same calls in the order in which they got the lock: same final state (handlers, level,
    lines written), the calls of each thread in its own order, each with the same result. *)
Theorem C101_log_serial w program c : steps (start w program) c -> (forall i, finished (c_threads c i)) ->
  c_lock c = None /\ c_world c = fst (serial w (c_order c)) /\
  forall i, of_thread i (c_order c) = program i /\ of_thread i (snd (serial w (c_order c))) = t_done (c_threads c i).
Proof.
  intros S F. pose proof (inv_steps _ _ _ S) as V. unfold inv in V. destruct (c_lock c) as [[o d]|].
  - exfalso. destruct V as (past & a & k & _ & _ & V3 & _). destruct (F o) as [_ F2]. congruence.
  - destruct V as [V1 V2]. split; [reflexivity|]. split; [exact V1|]. intros i. specialize (V2 i). destruct (F i) as [F1 F2]. unfold idle in V2. rewrite F2, F1, app_nil_r in V2. destruct V2 as [-> ->]. auto.
Qed.
Print Assumptions C101_log_serial.
(** At any moment at all, what has been written is what the calls that have got the lock
    write in that order, once the one holding it runs to its end. *)
Theorem C101_log_prefix w program c : steps (start w program) c ->
  match c_lock c with
  | None => c_world c = fst (serial w (c_order c))
  | Some (i, _) => exists a k, t_now (c_threads c i) = Some (a, k) /\ fst (run_code k (c_world c)) = fst (serial w (c_order c))
  end.
Proof.
  intros S. pose proof (inv_steps _ _ _ S) as V. unfold inv in V. destruct (c_lock c) as [[o d]|]; [|apply V].
  destruct V as (past & a & k & V1 & _ & V3 & _ & V5 & _). exists a, k. split; [exact V3|]. rewrite V5, V1, serial_app. destruct (serial w past) as [w1 xs]. cbn. destruct (do_op w1 (op_of a)); reflexivity.
Qed.
Print Assumptions C101_log_prefix.
(** No deadlock: as long as some thread has not finished, some thread can move. *)
Theorem C101_log_progress w program c i : steps (start w program) c -> ~ finished (c_threads c i) -> exists j c', step j c c'.
Proof.
  intros S N. pose proof (inv_steps _ _ _ S) as V. unfold inv in V.
  assert (M : forall j t a k d, c_threads c j = mkThread t (Some (a, k)) d -> match c_lock c with None => True | Some (o, _) => j = o end -> exists c', step j c c').
  { intros j t a k d T L. destruct k as [r|f|k|k].
    - eexists. eapply SReturn. exact T.
    - eexists. eapply SStep. exact T.
    - destruct (c_lock c) as [[o e]|] eqn:E.
      + subst j. eexists. eapply SAcquire; [exact T|]. rewrite E. cbn. rewrite Nat.eqb_refl. reflexivity.
      + eexists. eapply SAcquire; [exact T|]. rewrite E. reflexivity.
    - eexists. eapply SRelease. exact T. }
  destruct (c_lock c) as [[o d]|].
  - destruct V as (past & a & k & _ & _ & V3 & _). destruct (c_threads c o) as [t n r] eqn:E. cbn in V3. subst n. destruct (M o t a k r E eq_refl) as [c' H]. exists o, c'. exact H.
  - destruct (c_threads c i) as [t [[a k]|] r] eqn:E.
    + destruct (M i t a k r E I) as [c' H]. exists i, c'. exact H.
    + destruct t as [|a t]; [destruct N; split; reflexivity|]. exists i. eexists. eapply SBegin. exact E.
Qed.
Print Assumptions C101_log_progress.

(** Concrete interleavings, given by a list of thread numbers; a thread that has to wait
    does nothing. *)
Definition try_step (i : nat) (c : config) : config :=
  match c_threads c i with
  | mkThread (a :: r) None d => mkConfig (c_world c) (c_lock c) (upd (c_threads c) i (mkThread r (Some (a, code_of a)) d)) (c_order c)
  | mkThread [] None d => c
  | mkThread t (Some (a, Step f)) d => mkConfig (fst (f (c_world c))) (c_lock c) (upd (c_threads c) i (mkThread t (Some (a, snd (f (c_world c)))) d)) (c_order c)
  | mkThread t (Some (a, Acquire k)) d =>
      match acquire i (c_lock c) with
      | None => c
      | Some l => mkConfig (c_world c) (Some l) (upd (c_threads c) i (mkThread t (Some (a, k)) d)) (match c_lock c with None => c_order c ++ [(i, a)] | _ => c_order c end)
      end
  | mkThread t (Some (a, Release k)) d => mkConfig (c_world c) (release (c_lock c)) (upd (c_threads c) i (mkThread t (Some (a, k)) d)) (c_order c)
  | mkThread t (Some (a, Done r)) d => mkConfig (c_world c) (c_lock c) (upd (c_threads c) i (mkThread t None (d ++ [r]))) (c_order c)
  end.
Lemma try_step_ok i c0 c : steps c0 c -> steps c0 (try_step i c).
Proof.
  intros S. unfold try_step. destruct (c_threads c i) as [t [[a k]|] d] eqn:E.
  - destruct k as [r|f|k|k]; [| |destruct (acquire i (c_lock c)) as [l|] eqn:A; [|destruct t; exact S]|].
    + assert (G : step i c (mkConfig (c_world c) (c_lock c) (upd (c_threads c) i (mkThread t None (d ++ [r]))) (c_order c))) by (eapply SReturn; exact E). destruct t; exact (SCons _ _ _ _ S G).
    + assert (G := SStep i c _ _ _ _ E). destruct t; exact (SCons _ _ _ _ S G).
    + assert (G := SAcquire i c _ _ _ _ _ E A). destruct t; exact (SCons _ _ _ _ S G).
    + assert (G := SRelease i c _ _ _ _ E). destruct t; exact (SCons _ _ _ _ S G).
  - destruct t as [|a t]; [exact S|]. exact (SCons _ _ _ _ S (SBegin i c _ _ _ E)).
Qed.
Definition schedule (l : list nat) (c : config) : config := fold_left (fun c i => try_step i c) l c.
Lemma schedule_ok l c : steps c (schedule l c).
Proof.
  unfold schedule. assert (G : forall c1, steps c c1 -> steps c (fold_left (fun c i => try_step i c) l c1)).
  { induction l as [|i l IH]; intros c1 H; [exact H|]. cbn. apply IH, try_step_ok, H. }
  apply G. constructor.
Qed.
(** Two threads, strictly alternating: one sets the stream, the other writes before any
    stream is set; the writer waits while the first holds the lock. *)
Definition out' (i : nat) : stream := mkStream i true true true.
Definition program1 (i : nat) : list call :=
  match i with
  | 0 => [CStream (out' 5); CLevel (LStr "debug")]
  | 1 => [CWrite (LStr "Info") (EText "a") []; CWrite (LStr "Trace") (EText "b") []; CWrite (LStr "none") (EText "c") []]
  | _ => []
  end.
Definition final1 (l : list nat) : config := schedule l (start (initial true (out' 2) (out' 1)) program1).
Fixpoint turns (n : nat) (l : list nat) : list nat := match n with 0 => [] | S n => l ++ turns n l end.
Example C101_example : let c := final1 (turns 30 [0; 1]) in let c' := final1 (turns 30 [1; 1; 1; 0]) in
  steps (start (initial true (out' 2) (out' 1)) program1) c /\ (forall i, finished (c_threads c i)) /\
  map fst (c_order c) = [0; 1; 0; 1; 1] /\ map (fun p => s_id (snd (fst (fst p)))) (w_lines (c_world c)) = [5] /\
  t_done (c_threads c 1) = [Ok tt; Ok tt; Err ValueError] /\
  map fst (c_order c') = [1; 0; 1; 1; 0] /\ map (fun p => s_id (snd (fst (fst p)))) (w_lines (c_world c')) = [1].
Proof.
  cbn zeta. split; [apply schedule_ok|]. split; [intros [|[|i]]; split; vm_compute; reflexivity|]. repeat split; vm_compute; reflexivity.
Qed.
