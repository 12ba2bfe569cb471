(** Properties C158 and C159: filters and GaussianModel used by several threads. *)
From Coq Require Import List Arith ZArith Bool Lia Reals QArith Qcanon Lra.
From Verif Require Import Base BaseLemmas Instances RankModel RankProps FirModel IirModel PidModel GaussModel ThreadModel.
Import ListNotations.
Set Asymmetric Patterns.
Close Scope Q_scope. Close Scope Qc_scope. Close Scope R_scope. Open Scope nat_scope.

(** ** Specification *)
Section Spec.
  Context {W C Y : Type}.
  (** the call as one step *)
  Variable do : W -> C -> W * Y.
  (** calls made one after the other on the objects [st] *)
  Fixpoint serial (st : nat -> W) (l : list (nat * C)) : (nat -> W) * list Y :=
    match l with
    | [] => (st, [])
    | (o, a) :: l' => let (w, y) := do (st o) a in let (st', ys) := serial (upd st o w) l' in (st', y :: ys)
    end.
  Definition uses (l : list (nat * C)) (o : nat) : Prop := exists a, In (o, a) l.
  (** Thread i's objects: its own, or only read by everyone. *)
  Definition undisturbed (program : nat -> list (nat * C)) (i : nat) : Prop :=
    forall o, uses (program i) o ->
      (forall j, j <> i -> ~ uses (program j) o) \/
      (forall j a, In (o, a) (program j) -> forall w, fst (do w a) = w).
End Spec.

Lemma upd_same {X} (f : nat -> X) i v : upd f i v i = v.
Proof. unfold upd. rewrite Nat.eqb_refl. reflexivity. Qed.
Lemma upd_other {X} (f : nat -> X) i v j : j <> i -> upd f i v j = f j.
Proof. intros H. unfold upd. apply Nat.eqb_neq in H. rewrite H. reflexivity. Qed.

(** A call that never changes the object, at any of its steps *)
Inductive quiet {W Y} : code W Y -> Prop :=
| QRet y : quiet (Ret y)
| QAct f k : (forall w, f w = w) -> (forall w, quiet (k w)) -> quiet (Act f k).
Lemma quiet_complete {W Y} (c : code W Y) : quiet c -> forall w, fst (complete c w) = w.
Proof. intros H. induction H as [y|f k Hf Hk IH]; intros w; [reflexivity|]. cbn [complete]. rewrite IH. apply Hf. Qed.

Section Proof.
  Context {W C Y : Type}.
  Variable code_of : C -> code W Y.
  Variable do : W -> C -> W * Y.
  Hypothesis do_code : forall a w, complete (code_of a) w = do w a.
  Variable program : nat -> list (nat * C).
  Variable st : nat -> W.
  Variable i : nat.
  (** the second case of [undisturbed], at every step *)
  Definition quiet_object (o : nat) : Prop := forall j a, In (o, a) (program j) -> quiet (code_of a).
  Hypothesis alone : forall o, uses (program i) o -> (forall j, j <> i -> ~ uses (program j) o) \/ quiet_object o.

  Definition from_program (c : config W C Y) : Prop := forall j,
    (forall p, In p (todo (threads c j)) -> In p (program j)) /\
    (forall o k, now (threads c j) = Some (o, k) -> uses (program j) o /\ (quiet_object o -> quiet k)).
  Definition mine (c : config W C Y) : Prop := exists made,
    let (st1, rs) := serial do st made in
    results (threads c i) = rs /\
    match now (threads c i) with
    | None => program i = made ++ todo (threads c i) /\ forall o, uses (program i) o -> store c o = st1 o
    | Some (o, k) => exists a, program i = made ++ (o, a) :: todo (threads c i) /\
        (forall o', uses (program i) o' -> o' <> o -> store c o' = st1 o') /\
        complete k (store c o) = do (st1 o) a
    end.

  Lemma serial_snoc (l : list (nat * C)) o a : forall st, serial do st (l ++ [(o, a)]) =
    let (st1, rs) := serial do st l in let (w, y) := do (st1 o) a in (upd st1 o w, rs ++ [y]).
  Proof.
    induction l as [|[p b] l IH]; intros st1.
    - cbn. destruct (do (st1 o) a) as [w y]. reflexivity.
    - cbn [app serial]. destruct (do (st1 p) b) as [w y]. rewrite IH. destruct (serial do (upd st1 p w) l) as [st2 rs].
      destruct (do (st2 o) a) as [w2 y2]. reflexivity.
  Qed.

  Lemma invariant c : steps code_of (start st program) c -> from_program c /\ mine c.
  Proof.
    induction 1 as [|j c1 c2 _ IH S].
    - split.
      + intros j. split; [cbn; auto|]. cbn. discriminate.
      + exists []. cbn. auto.
    - destruct IH as [FP (made & M)]. destruct S as [o a t r E|o f k t r E|o y t r E].
      + assert (FP' : from_program (mkConfig (store c1) (upd (threads c1) j (mkThread t (Some (o, code_of a)) r)))).
        { intros m. cbn [threads]. destruct (FP m) as [H1 H2]. destruct (Nat.eq_dec m j) as [D|D].
          - subst m. rewrite upd_same. cbn [todo now]. rewrite E in H1. cbn [todo] in H1. split.
            + intros p Hp. apply H1. right. exact Hp.
            + intros o' k' Ek. injection Ek as Eo Ek. subst o' k'. split; [exists a; apply H1; left; reflexivity|]. intros Q. apply (Q j). apply H1. left. reflexivity.
          - rewrite upd_other by exact D. auto. }
        split; [exact FP'|]. exists made. destruct (serial do st made) as [st1 rs]. cbn [threads store]. destruct (Nat.eq_dec i j) as [D|D].
        * subst j. rewrite upd_same. cbn [results now todo]. rewrite E in M. cbn [results now todo] in M. destruct M as (Hr & Hp & Hs).
          split; [exact Hr|]. exists a. split; [exact Hp|]. assert (U : uses (program i) o) by (exists a; rewrite Hp; apply in_or_app; right; left; reflexivity).
          split; [intros o' Uo' _; apply Hs; exact Uo'|]. rewrite do_code, Hs by exact U. reflexivity.
        * rewrite upd_other by exact D. exact M.
      + destruct (FP j) as [H1 H2]. rewrite E in H1, H2. cbn [todo now] in H1, H2. destruct (H2 o (Act f k) eq_refl) as [U Qk].
        assert (FP' : from_program (mkConfig (upd (store c1) o (f (store c1 o))) (upd (threads c1) j (mkThread t (Some (o, k (store c1 o))) r)))).
        { intros m. cbn [threads]. destruct (Nat.eq_dec m j) as [D|D].
          - subst m. rewrite upd_same. cbn [todo now]. split; [exact H1|].
            intros o' k' Ek. injection Ek as Eo Ek. subst o' k'. split; [exact U|]. intros Q. specialize (Qk Q). inversion Qk; auto.
          - rewrite upd_other by exact D. apply FP. }
        split; [exact FP'|]. exists made. destruct (serial do st made) as [st1 rs]. cbn [threads store]. destruct (Nat.eq_dec i j) as [D|D].
        * subst j. rewrite upd_same. cbn [results now todo]. rewrite E in M. cbn [results now todo] in M. destruct M as (Hr & a & Hp & Hs & Hc).
          split; [exact Hr|]. exists a. split; [exact Hp|]. split.
          -- intros o' Uo' No. rewrite upd_other by exact No. apply Hs; assumption.
          -- rewrite upd_same. exact Hc.
        * rewrite upd_other by exact D.
          assert (Same : forall o', uses (program i) o' -> upd (store c1) o (f (store c1 o)) o' = store c1 o').
          { intros o' Uo'. destruct (Nat.eq_dec o' o) as [Do|Do]; [|apply upd_other; exact Do]. subst o'. rewrite upd_same.
            destruct (alone o Uo') as [A|Q]; [exfalso; apply (A j); [congruence|exact U]|]. specialize (Qk Q). inversion Qk; auto. }
          destruct M as (Hr & M). split; [exact Hr|]. destruct (now (threads c1 i)) as [[o' k']|] eqn:En.
          -- destruct M as (a & Hp & Hs & Hc). exists a. split; [exact Hp|]. assert (U' : uses (program i) o') by (exists a; rewrite Hp; apply in_or_app; right; left; reflexivity).
             split; [intros o2 U2 N2; rewrite Same by exact U2; apply Hs; assumption|]. rewrite Same by exact U'. exact Hc.
          -- destruct M as (Hp & Hs). split; [exact Hp|]. intros o2 U2. rewrite Same by exact U2. apply Hs. exact U2.
      + assert (FP' : from_program (mkConfig (store c1) (upd (threads c1) j (mkThread t None (r ++ [y]))))).
        { intros m. cbn [threads]. destruct (Nat.eq_dec m j) as [D|D].
          - subst m. rewrite upd_same. cbn [todo now]. destruct (FP j) as [H1 _]. rewrite E in H1. cbn [todo] in H1. split; [exact H1|discriminate].
          - rewrite upd_other by exact D. apply FP. }
        split; [exact FP'|]. destruct (Nat.eq_dec i j) as [D|D].
        * subst j. rewrite E in M. cbn [results now todo] in M. destruct (serial do st made) as [st1 rs] eqn:Es. destruct M as (Hr & a & Hp & Hs & Hc).
          exists (made ++ [(o, a)]). rewrite serial_snoc, Es. destruct (do (st1 o) a) as [w y'] eqn:Ed. cbn [complete] in Hc. injection Hc as Hw Hy. subst y'.
          cbn [threads store]. rewrite upd_same. cbn [results now todo]. split; [rewrite Hr; reflexivity|]. split; [rewrite <- app_assoc; exact Hp|].
          intros o' Uo'. destruct (Nat.eq_dec o' o) as [Do|Do]; [subst o'; rewrite upd_same; exact Hw|rewrite upd_other by exact Do; apply Hs; assumption].
        * exists made. destruct (serial do st made) as [st1 rs]. cbn [threads store]. rewrite upd_other by exact D. exact M.
  Qed.

  Lemma thread_results c : steps code_of (start st program) c -> finished (threads c i) ->
    results (threads c i) = snd (serial do st (program i)) /\
    forall o, uses (program i) o -> store c o = fst (serial do st (program i)) o.
  Proof.
    intros S [Ht Hn]. destruct (invariant c S) as [_ (made & M)]. rewrite Hn, Ht in M. rewrite app_nil_r in M.
    destruct (serial do st made) as [st1 rs] eqn:Es. destruct M as (Hr & Hp & Hs). rewrite Hp, Es. cbn [fst snd].
    split; [exact Hr|]. intros o Uo. apply Hs. rewrite Hp. exact Uo.
  Qed.
End Proof.

(** A thread that has not finished can always go on: nobody waits. *)
Lemma thread_goes_on {W C Y} (code_of : C -> code W Y) c i : ~ finished (threads c i) -> exists c', step code_of i c c'.
Proof.
  intros H. destruct (threads c i) as [[|[o a] t] [[p [y|f k]]|] r] eqn:E.
  - eexists. eapply TReturn. exact E.
  - eexists. eapply TAct. exact E.
  - exfalso. apply H. split; reflexivity.
  - eexists. eapply TReturn. exact E.
  - eexists. eapply TAct. exact E.
  - eexists. eapply TBegin. exact E.
Qed.

(** ** Filters *)
Section FilterSpec.
  Context {O : OArith}.
  Definition filt_do (w : filt O) (c : fcall O) : filt O * res (list O) :=
    match w with
    | FFir f => match c with
                | Filter x => let (f', r) := fir_filter f x in (FFir f', r)
                | Reset v => let (f', r) := fir_reset f v in (FFir f', rmap (fun _ => []) r)
                end
    | FIir f => match c with
                | Filter x => let (f', r) := iir_filter f x in (FIir f', r)
                | Reset v => let (f', r) := iir_reset f v in (FIir f', rmap (fun _ => []) r)
                end
    | FPid f => match c with
                | Filter x => let (f', r) := pid_filter f x in (FPid f', r)
                | Reset v => let (f', r) := pid_reset f v in (FPid f', rmap (fun _ => []) r)
                end
    end.

  Lemma fir_loop_ok : forall (x y : list O) (f : fir O), complete (fir_loop x y) f =
    let '(s', r) := run (fir_step (fdt f) (fb f)) (fs f) x in (with_s f s', rmap (app y) r).
  Proof.
    induction x as [|v x IH]; intros y f.
    - cbn. rewrite app_nil_r. destruct f; reflexivity.
    - cbn [fir_loop poke peek complete with_s fs fdt fb run]. unfold fir_step at 1.
      destruct (np_set0 (np_shift_gt1 (fs f)) (cast (fdt f) v)) as [s2|e]; [|reflexivity].
      cbn [complete peek with_s fs fdt fb]. destruct (np_dot (fb f) s2) as [u|e]; [|reflexivity]. cbn [rmap].
      rewrite IH. cbn [with_s fs fdt fb]. destruct (run (fir_step (fdt f) (fb f)) s2 x) as [s3 [ys|e]]; [|reflexivity].
      cbn [rmap]. rewrite <- app_assoc. reflexivity.
  Qed.
  Lemma fir_code_ok (x : list O) f : complete (fir_code x) f = fir_filter f x.
  Proof.
    unfold fir_code, fir_filter. destruct (Nat.eqb (length x) 0); [reflexivity|]. cbn [peek complete].
    destruct (fb f) eqn:E; [reflexivity|]. rewrite fir_loop_ok, E. destruct (run _ (fs f) x) as [s' [r|e]]; reflexivity.
  Qed.
  Lemma iir_loop_ok : forall (x y : list O) (f : iir O), complete (iir_loop x y) f =
    let '(s', r) := run (iir_step (idt f) (ia f) (ib f)) (is_ f) x in (iir_with_s f s', rmap (app y) r).
  Proof.
    induction x as [|v x IH]; intros y f.
    - cbn. rewrite app_nil_r. destruct f; reflexivity.
    - cbn [iir_loop]. set (tail := Act (iir_set0 v) _).
      assert (T : forall g, complete tail g =
        match np_set0 (is_ g) (cast (idt g) v) with
        | Err e => (g, Err e)
        | Ok s2 => match ib g with
          | [] => (iir_with_s g s2, Err IndexError)
          | b0 :: _ => match match bcast (fun ai bi => add (mul ai b0) bi) (ia g) (ib g) with Err e => Err e | Ok c => rmap (cast (idt g)) (np_dot c s2) end with
            | Err e => (iir_with_s g s2, Err e)
            | Ok u => let '(s', r) := run (iir_step (idt g) (ia g) (ib g)) s2 x in (iir_with_s g s', rmap (app (y ++ [u])) r)
            end
          end
        end).
      { intros g. unfold tail. cbn [complete peek]. unfold iir_set0. destruct (np_set0 (is_ g) (cast (idt g) v)) as [s2|e]; [|reflexivity].
        cbn [complete peek iir_with_s ib ia is_ idt]. destruct (ib g) as [|b0 b'] eqn:Eb; [reflexivity|]. rewrite <- Eb.
        destruct (bcast _ (ia g) (ib g)) as [c|e]; [|reflexivity]. cbn [complete peek iir_with_s ib ia is_ idt].
        destruct (np_dot c s2) as [u|e]; [|reflexivity]. cbn [rmap]. rewrite IH. cbn [iir_with_s ib ia is_ idt]. reflexivity. }
      cbn [complete peek poke run]. unfold iir_step at 1. destruct (Nat.ltb 1 (length (is_ f))) eqn:El.
      + cbn [complete peek]. destruct (is_ f) as [|s0 t] eqn:Es; [discriminate|]. cbn [complete peek]. rewrite <- Es.
        destruct (np_dot (ia f) (is_ f)) as [d|e]; [|cbn [complete]; f_equal; destruct f; reflexivity]. cbn [complete poke]. rewrite T.
        unfold iir_set0. rewrite Es. cbn [np_set0 iir_with_s ib ia is_ idt].
        destruct (np_set0 (np_shift (cast (idt f) (add s0 d) :: t)) (cast (idt f) v)) as [s2|e]; [|reflexivity].
        destruct (ib f) as [|b0 b'] eqn:Eb; [reflexivity|].
        destruct (match bcast _ (ia f) _ with Ok c => _ | Err e => _ end) as [u|e]; [|reflexivity].
        destruct (run _ s2 x) as [s3 [ys|e]]; [|reflexivity]. cbn [rmap]. rewrite <- app_assoc. reflexivity.
      + rewrite T. destruct (np_set0 (is_ f) (cast (idt f) v)) as [s2|e]; [|destruct f; reflexivity].
        destruct (ib f) as [|b0 b'] eqn:Eb; [reflexivity|].
        destruct (match bcast _ (ia f) _ with Ok c => _ | Err e => _ end) as [u|e]; [|reflexivity].
        destruct (run _ s2 x) as [s3 [ys|e]]; [|reflexivity]. cbn [rmap]. rewrite <- app_assoc. reflexivity.
  Qed.
  Lemma iir_code_ok (x : list O) f : complete (iir_code x) f = iir_filter f x.
  Proof.
    unfold iir_code, iir_filter. destruct (Nat.eqb (length x) 0); [reflexivity|]. cbn [peek complete].
    destruct (ib f) eqn:E; [reflexivity|]. rewrite iir_loop_ok, E. destruct (run _ (is_ f) x) as [s' [r|e]]; reflexivity.
  Qed.
  Lemma pid_loop_ok : forall (x y : list O) (p : pid O), complete (pid_loop x y) p =
    let '(s', r) := run (pid_step (fdt (pfir p)) (fb (pfir p)) (plimit p)) (fs (pfir p)) x in (mkPid (with_s (pfir p) s') (plimit p), rmap (app y) r).
  Proof.
    induction x as [|v x IH]; intros y p.
    - cbn. rewrite app_nil_r. destruct p as [[? ? ?] ?]; reflexivity.
    - cbn [pid_loop complete peek run]. unfold pid_step at 1.
      destruct p as [[dt b s] l]. cbn [pfir plimit fs fb fdt].
      destruct s as [|s0 [|s1 [|s2 t]]]; try reflexivity.
      cbn [complete peek poke pid_set pfir plimit with_s fs fb fdt firstn skipn app nth].
      destruct (below l (add s1 v)); cbn [complete peek poke pid_set pfir plimit with_s fs fb fdt firstn skipn app nth].
      + destruct (np_dot b _) as [u|e]; [|reflexivity]. cbn [rmap]. rewrite IH. cbn [pfir plimit with_s fs fb fdt].
        destruct (run _ _ x) as [s3 [ys|e]]; [|reflexivity]. cbn [rmap]. rewrite <- app_assoc. reflexivity.
      + destruct (np_dot b _) as [u|e]; [|reflexivity]. cbn [rmap]. rewrite IH. cbn [pfir plimit with_s fs fb fdt].
        destruct (run _ _ x) as [s3 [ys|e]]; [|reflexivity]. cbn [rmap]. rewrite <- app_assoc. reflexivity.
  Qed.
  Lemma pid_code_ok (x : list O) f : complete (pid_code x) f = pid_filter f x.
  Proof.
    unfold pid_code, pid_filter. destruct (Nat.eqb (length x) 0); [reflexivity|]. cbn [peek complete].
    destruct (fb (pfir f)) eqn:E; [reflexivity|]. rewrite pid_loop_ok, E. destruct (run _ (fs (pfir f)) x) as [s' [r|e]]; reflexivity.
  Qed.
  Lemma on_fir_ok {Y} w : forall (c : code (fir O) Y) f, complete (on_fir c w) (FFir f) = let (f', y) := complete c f in (FFir f', y).
  Proof. induction c as [y|g k IH]; intros f; [reflexivity|]. cbn [on_fir complete]. apply IH. Qed.
  Lemma on_iir_ok {Y} w : forall (c : code (iir O) Y) f, complete (on_iir c w) (FIir f) = let (f', y) := complete c f in (FIir f', y).
  Proof. induction c as [y|g k IH]; intros f; [reflexivity|]. cbn [on_iir complete]. apply IH. Qed.
  Lemma on_pid_ok {Y} w : forall (c : code (pid O) Y) f, complete (on_pid c w) (FPid f) = let (f', y) := complete c f in (FPid f', y).
  Proof. induction c as [y|g k IH]; intros f; [reflexivity|]. cbn [on_pid complete]. apply IH. Qed.
  Lemma filt_code_ok (a : fcall O) w : complete (filt_code a) w = filt_do w a.
  Proof.
    unfold filt_code. cbn [peek complete]. destruct w as [f|f|f].
    - rewrite on_fir_ok. destruct a as [x|v]; cbn [filt_do]; [rewrite fir_code_ok; reflexivity|].
      unfold reset_code. cbn [complete]. destruct (fir_reset f v) as [g [u|e]]; reflexivity.
    - rewrite on_iir_ok. destruct a as [x|v]; cbn [filt_do]; [rewrite iir_code_ok; reflexivity|].
      unfold reset_code. cbn [complete]. destruct (iir_reset f v) as [g [u|e]]; reflexivity.
    - rewrite on_pid_ok. destruct a as [x|v]; cbn [filt_do]; [rewrite pid_code_ok; reflexivity|].
      unfold reset_code. cbn [complete]. destruct (pid_reset f v) as [g [u|e]]; reflexivity.
  Qed.
End FilterSpec.

(** C158.  A thread whose filters no other thread uses gets, under any schedule, exactly the
    results of its calls made one after the other, and leaves its filters as they would; the
    other threads may do anything with other filters. *)
Theorem C158_filters_of_one_thread (O : OArith) (st : nat -> filt O) (program : nat -> list (nat * fcall O)) i c :
  (forall o j, uses (program i) o -> j <> i -> ~ uses (program j) o) ->
  steps filt_code (start st program) c -> finished (threads c i) ->
  results (threads c i) = snd (serial filt_do st (program i)) /\
  forall o, uses (program i) o -> store c o = fst (serial filt_do st (program i)) o.
Proof.
  intros H S F. apply (thread_results filt_code filt_do filt_code_ok program st i); auto.
Qed.
Print Assumptions C158_filters_of_one_thread.

(** C158.  No thread ever waits for another. *)
Theorem C158_filters_never_wait (O : OArith) (st : nat -> filt O) program c i :
  steps filt_code (start st program) c -> ~ finished (threads c i) -> exists c', step filt_code i c c'.
Proof. intros _ H. apply thread_goes_on. exact H. Qed.
Print Assumptions C158_filters_never_wait.

(** Executions for examples: let the threads of the list step in that order. *)
Definition try_step {W C Y} (code_of : C -> code W Y) (i : nat) (c : config W C Y) : config W C Y :=
  match threads c i with
  | mkThread ((o, a) :: t) None r => mkConfig (store c) (upd (threads c) i (mkThread t (Some (o, code_of a)) r))
  | mkThread t (Some (o, Act f k)) r => mkConfig (upd (store c) o (f (store c o))) (upd (threads c) i (mkThread t (Some (o, k (store c o))) r))
  | mkThread t (Some (o, Ret y)) r => mkConfig (store c) (upd (threads c) i (mkThread t None (r ++ [y])))
  | mkThread [] None _ => c
  end.
Definition schedule {W C Y} (code_of : C -> code W Y) (l : list nat) (c : config W C Y) : config W C Y := fold_left (fun c i => try_step code_of i c) l c.
Lemma try_step_ok {W C Y} (code_of : C -> code W Y) c0 c i : steps code_of c0 c -> steps code_of c0 (try_step code_of i c).
Proof.
  intros H. unfold try_step. destruct (threads c i) as [[|[o a] t] [[p [y|f k]]|] r] eqn:E; try exact H; eapply TCons; try exact H.
  - eapply TReturn. exact E.
  - eapply TAct. exact E.
  - eapply TReturn. exact E.
  - eapply TAct. exact E.
  - eapply TBegin. exact E.
Qed.
Lemma schedule_ok {W C Y} (code_of : C -> code W Y) l : forall c0 c, steps code_of c0 c -> steps code_of c0 (schedule code_of l c).
Proof. induction l as [|i l IH]; intros c0 c H; [exact H|]. cbn [schedule fold_left]. apply IH. apply try_step_ok. exact H. Qed.

Definition finishedb {W C Y} (t : thread W C Y) : bool := match todo t, now t with [], None => true | _, _ => false end.
Lemma finishedb_ok {W C Y} (t : thread W C Y) : finishedb t = true -> finished t.
Proof. unfold finishedb, finished. destruct (todo t); [|discriminate]. destruct (now t); [discriminate|]. auto. Qed.

(** Two threads with a filter each, interleaved step by step *)
Definition fir2 : filt QO := FFir (mkFir DFloat [q 1 1; q 1 1] [q 0 1; q 0 1] : fir QA).
Definition pid2 : filt QO := FPid (mkPid (mkFir DFloat [q 1 1; q 2 1; q 3 1] [q 0 1; q 0 1; q 0 1]) None).
Definition two_own (i : nat) : list (nat * fcall QO) :=
  match i with 0 => [(0, Filter [q 1 1; q 2 1]); (0, Filter [q 4 1])] | 1 => [(1, Filter [q 1 1; q 3 1; q (-1) 2])] | _ => [] end.
Definition turns (n : nat) : list nat := concat (repeat [0; 1; 1] n).
Example C158_example : let st o := if Nat.eqb o 0 then fir2 else pid2 in
  let c := schedule filt_code (turns 30) (start st two_own) in
  steps filt_code (start st two_own) c /\ finished (threads c 0) /\ finished (threads c 1) /\
  map rqs (results (threads c 0)) = [Ok [1; 3]; Ok [6]]%Q /\ map rqs (results (threads c 1)) = [Ok [6; 17; -4]]%Q.
Proof.
  cbv zeta. split; [apply schedule_ok; apply TNil|]. split; [apply finishedb_ok; vm_compute; reflexivity|]. split; [apply finishedb_ok; vm_compute; reflexivity|].
  split; vm_compute; reflexivity.
Qed.

(** C158.  Two threads that share a FirFilter can get results that no order of their calls
    gives. *)
Definition two_shared (i : nat) : list (nat * fcall QO) :=
  match i with 0 => [(0, Filter [q 1 1])] | 1 => [(0, Filter [q 10 1])] | _ => [] end.
Theorem C158_shared_filter_refuted : exists c, steps filt_code (start (fun _ => fir2) two_shared) c /\
  finished (threads c 0) /\ finished (threads c 1) /\
  map rqs (results (threads c 0)) = [Ok [11]]%Q /\ map rqs (results (threads c 1)) = [Ok [11]]%Q /\
  map rqs (snd (serial filt_do (fun _ => fir2) (two_shared 0 ++ two_shared 1))) = [Ok [1]; Ok [11]]%Q /\
  map rqs (snd (serial filt_do (fun _ => fir2) (two_shared 1 ++ two_shared 0))) = [Ok [10]; Ok [11]]%Q.
Proof.
  exists (schedule filt_code ([0; 0; 0; 0; 0] ++ [1; 1; 1; 1; 1; 1; 1] ++ [0; 0; 1]) (start (fun _ => fir2) two_shared)).
  split; [apply schedule_ok; apply TNil|]. split; [apply finishedb_ok; vm_compute; reflexivity|]. split; [apply finishedb_ok; vm_compute; reflexivity|].
  split; [vm_compute; reflexivity|]. split; [vm_compute; reflexivity|]. split; vm_compute; reflexivity.
Qed.
Print Assumptions C158_shared_filter_refuted.

(** C158.  Two threads that share a PidFilter can lose a sample of the integral. *)
Definition integrator : filt QO := FPid (mkPid (mkFir DFloat [q 0 1; q 1 1; q 0 1] [q 0 1; q 0 1; q 0 1]) None).
Definition two_pid (i : nat) : list (nat * fcall QO) :=
  match i with 0 => [(0, Filter [q 1 1])] | 1 => [(0, Filter [q 10 1])] | _ => [] end.
Definition integral_of (w : filt QO) : Q := match w with FPid p => this (nth 1 (fs (pfir p)) (q 0 1)) | _ => 0%Q end.
Theorem C158_shared_integral_refuted : exists c, steps filt_code (start (fun _ => integrator) two_pid) c /\
  finished (threads c 0) /\ finished (threads c 1) /\ integral_of (store c 0) = 1%Q /\
  integral_of (fst (serial filt_do (fun _ => integrator) (two_pid 0 ++ two_pid 1)) 0) = 11%Q /\
  integral_of (fst (serial filt_do (fun _ => integrator) (two_pid 1 ++ two_pid 0)) 0) = 11%Q.
Proof.
  exists (schedule filt_code ([0; 0; 0; 0; 0; 0; 0] ++ repeat 1 20 ++ repeat 0 20) (start (fun _ => integrator) two_pid)).
  split; [apply schedule_ok; apply TNil|]. split; [apply finishedb_ok; vm_compute; reflexivity|]. split; [apply finishedb_ok; vm_compute; reflexivity|].
  split; [vm_compute; reflexivity|]. split; vm_compute; reflexivity.
Qed.
Print Assumptions C158_shared_integral_refuted.

(** ** GaussianModel *)
Section GaussSpec.
  Context {O : OArith}.
  Variable inv : list (list O) -> option (list (list O)).
  Variable argsort : list O -> list nat.
  Definition gauss_do (g : gauss O) (c : gcall O) : gauss O * ganswer :=
    match c with
    | Fit x y => let (g', r) := gauss_fit inv g x y in (g', Fitted r)
    | Predict x => let (g', r) := gauss_predict argsort g x in (g', Predicted r)
    end.

  Lemma fit_classes_ok cols x y r : forall cs g, complete (fit_classes inv cols x y r cs) g =
    let (m, e) := fit_loop inv cols x y r cs (gmodel g) in (set_model m g, Fitted e).
  Proof.
    induction cs as [|c cs IH]; intros g; [destruct g; reflexivity|]. cbn [fit_classes fit_loop]. cbv zeta.
    destruct (inv (covariance cols r (select c x y) (mean0 cols (select c x y)))) as [m|]; [|destruct g; reflexivity].
    cbn [poke complete]. rewrite IH. cbn [set_model gmodel]. destruct (fit_loop inv cols x y r cs _) as [m' e]. reflexivity.
  Qed.
  Lemma fit_code_ok x y g : complete (fit_code inv x y) g = let (g', r) := gauss_fit inv g x y in (g', Fitted r).
  Proof.
    unfold fit_code, gauss_fit. destruct x as [cols rows|n]; [|reflexivity].
    destruct ((length rows =? 0) || (cols =? 0))%bool; [reflexivity|]. destruct (ylen y) as [n|]; [|reflexivity].
    destruct (negb (n =? length rows)); [reflexivity|]. destruct y as [l|m|m|]; try reflexivity.
    cbn [poke peek complete set_model set_shape gmodel gregularize gshape]. rewrite fit_classes_ok. change (gmodel (set_shape cols (set_model [] g))) with (@nil (list (list O) * list O)).
    destruct (fit_loop inv cols rows l (gregularize g) (sorted_set l) []) as [m e]. reflexivity.
  Qed.
  Lemma row_code_ok k (x : list O) next : forall is (row : list O) (g : gauss O), (forall i, In i is -> i < length (gmodel g) /\ i < k) ->
    complete (row_code k x is row next) g = complete (next (row ++ map (fun i => mahalanobis (nth i (gmodel g) ([], [])) x) is)) g.
  Proof.
    induction is as [|i is IH]; intros row g H; [cbn; rewrite app_nil_r; reflexivity|].
    cbn [row_code peek complete]. destruct (H i (or_introl eq_refl)) as [H1 H2].
    destruct (nth_error (gmodel g) i) as [p|] eqn:E; [|apply nth_error_None in E; lia].
    rewrite (proj2 (Nat.ltb_lt i k)) by exact H2. rewrite IH by (intros; apply H; right; assumption).
    rewrite <- app_assoc. cbn [map app]. do 4 f_equal. apply nth_error_nth with (d := ([], [])) in E. rewrite E. reflexivity.
  Qed.
  Lemma rows_code_ok : forall rows out g, complete (rows_code argsort (length (gmodel g)) rows out) g =
    (g, Predicted (Ok (out ++ map (predict_row argsort (gmodel g)) rows))).
  Proof.
    induction rows as [|x rows IH]; intros out g; [cbn; rewrite app_nil_r; reflexivity|].
    cbn [rows_code peek complete]. rewrite row_code_ok by (intros i Hi; apply in_seq in Hi; lia).
    rewrite IH, <- app_assoc. cbn [map app]. do 5 f_equal.
    rewrite map_length, seq_length, Nat.sub_diag. cbn [repeat]. rewrite app_nil_r. unfold predict_row. f_equal.
    rewrite <- (map_map (fun i => nth i (gmodel g) ([], [])) (fun p => mahalanobis p x)). f_equal.
    apply (nth_ext _ _ ([], []) ([], [])); [rewrite map_length, seq_length; reflexivity|].
    intros n Hn. rewrite map_length, seq_length in Hn. rewrite nth_map_lt with (d := 0) by (rewrite seq_length; exact Hn). rewrite seq_nth by exact Hn. reflexivity.
  Qed.
  Lemma predict_code_ok x g : complete (predict_code argsort x) g = let (g', r) := gauss_predict argsort g x in (g', Predicted r).
  Proof.
    unfold predict_code, gauss_predict. cbn [peek complete]. destruct (length (gmodel g) =? 0) eqn:E; [reflexivity|].
    destruct x as [cols rows|n]; [|reflexivity]. destruct ((length rows =? 0) || (cols =? 0))%bool; [reflexivity|].
    cbn [peek complete]. destruct (gshape g) as [c|]; [|reflexivity]. destruct (c =? cols); [|reflexivity].
    cbn [peek complete]. rewrite E. cbn [peek complete]. rewrite rows_code_ok. reflexivity.
  Qed.
  Lemma gauss_code_ok (a : gcall O) g : complete (gauss_code inv argsort a) g = gauss_do g a.
  Proof. destruct a as [x y|x]; cbn [gauss_code gauss_do]; [apply fit_code_ok|apply predict_code_ok]. Qed.

  Lemma quiet_peek {W Y} (k : W -> code W Y) : (forall w, quiet (k w)) -> quiet (peek k).
  Proof. intros H. apply QAct; auto. Qed.
  Lemma row_code_quiet k x next : (forall r, quiet (next r)) -> forall is row, quiet (row_code (O := O) k x is row next).
  Proof.
    intros H. induction is as [|i is IH]; intros row; [apply H|]. cbn [row_code]. apply quiet_peek. intros g.
    destruct (nth_error (gmodel g) i); [|apply QRet]. destruct (Nat.ltb i k); [apply IH|apply QRet].
  Qed.
  Lemma rows_code_quiet k : forall rows out, quiet (rows_code argsort k rows out).
  Proof.
    induction rows as [|x rows IH]; intros out; [apply QRet|]. cbn [rows_code]. apply quiet_peek. intros g.
    apply row_code_quiet. intros r. apply IH.
  Qed.
  Lemma predict_code_quiet x : quiet (predict_code argsort x).
  Proof.
    unfold predict_code. apply quiet_peek. intros g. destruct (length (gmodel g) =? 0); [apply QRet|].
    destruct x as [cols rows|n]; [|apply QRet]. destruct ((length rows =? 0) || (cols =? 0))%bool; [apply QRet|].
    apply quiet_peek. intros g1. destruct (gshape g1) as [c|]; [|apply QRet]. destruct (c =? cols); [|apply QRet].
    apply quiet_peek. intros g2. destruct (length (gmodel g2) =? 0); [apply QRet|]. apply quiet_peek. intros g3. apply rows_code_quiet.
  Qed.
End GaussSpec.

(** C159.  A thread gets the results of its calls made one after the other if each model it
    uses is its own or is only asked for predictions, by any number of threads. *)
Theorem C159_gauss_shared_predictions (O : OArith) inv argsort (st : nat -> gauss O) (program : nat -> list (nat * gcall O)) i c :
  (forall o, uses (program i) o ->
     (forall j, j <> i -> ~ uses (program j) o) \/ (forall j a, In (o, a) (program j) -> exists x, a = Predict x)) ->
  steps (gauss_code inv argsort) (start st program) c -> finished (threads c i) ->
  results (threads c i) = snd (serial (gauss_do inv argsort) st (program i)) /\
  forall o, uses (program i) o -> store c o = fst (serial (gauss_do inv argsort) st (program i)) o.
Proof.
  intros H S F. apply (thread_results (gauss_code inv argsort) (gauss_do inv argsort) (gauss_code_ok inv argsort) program st i); auto.
  intros o U. destruct (H o U) as [A|Q]; [left; exact A|right]. intros j a Hin. destruct (Q j a Hin) as [x Ex]. subst a. apply predict_code_quiet.
Qed.
Print Assumptions C159_gauss_shared_predictions.

(** One feature, two classes: trained on 1 and 9, then fitted again to 2 and 8 while another
    thread asks where 3 belongs. *)
Definition qinv1 (m : list (list Qc)) : option (list (list Qc)) := match m with [[v]] => Some [[(/ v)%Qc]] | _ => None end.
Definition rows1 : xarr QO := X2 1 [[q 1 1]; [q 9 1]].
Definition rows2 : xarr QO := X2 1 [[q 2 1]; [q 8 1]].
Definition asked : xarr QO := X2 1 [[q 3 1]].
Definition trained : gauss QO := fst (gauss_fit qinv1 (mkGauss [] (q 1 1) None) rows1 (YInt [0; 1]%Z)).
Definition refit (i : nat) : list (nat * gcall QO) :=
  match i with 0 => [(0, Fit rows2 (YInt [0; 1]%Z))] | 1 => [(0, Predict asked)] | _ => [] end.
Definition answers (c : list ganswer) : list (res (list (list nat))) :=
  map (fun a => match a with Predicted r => r | Fitted (Ok _) => Ok [] | Fitted (Err e) => Err e end) c.
Definition run_refit (l : list nat) := schedule (gauss_code qinv1 (@isort QO)) l (start (fun _ => trained) refit).

Example C159_example :
  let program i := match i with 0 | 1 => [(0, Predict asked); (0, Predict rows2)] | _ => [] end in
  let c := schedule (gauss_code qinv1 (@isort QO)) (turns 30) (start (fun _ => trained) program) in
  finished (threads c 0) /\ finished (threads c 1) /\
  answers (results (threads c 0)) = [Ok [[0; 1]]; Ok [[0; 1]; [1; 0]]] /\ answers (results (threads c 1)) = [Ok [[0; 1]]; Ok [[0; 1]; [1; 0]]].
Proof.
  cbv zeta. split; [apply finishedb_ok; vm_compute; reflexivity|]. split; [apply finishedb_ok; vm_compute; reflexivity|].
  split; vm_compute; reflexivity.
Qed.

(** C159.  A prediction made while the model is fitted again can fail although the model is
    trained before and after, can rank only some of the classes, and can fail halfway. *)
Theorem C159_predict_during_fit_refuted :
  answers (snd (serial (gauss_do qinv1 (@isort QO)) (fun _ => trained) (refit 1 ++ refit 0))) = [Ok [[0; 1]]; Ok []] /\
  answers (snd (serial (gauss_do qinv1 (@isort QO)) (fun _ => trained) (refit 0 ++ refit 1))) = [Ok []; Ok [[0; 1]]] /\
  forall r, In r [Err ValueError; Ok [[0]]; Err RuntimeError; Err IndexError] ->
    exists c, steps (gauss_code qinv1 (@isort QO)) (start (fun _ => trained) refit) c /\ finished (threads c 0) /\ finished (threads c 1) /\
      answers (results (threads c 1)) = [r].
Proof.
  split; [vm_compute; reflexivity|]. split; [vm_compute; reflexivity|].
  assert (S : forall l, steps (gauss_code qinv1 (@isort QO)) (start (fun _ => trained) refit) (run_refit l)) by (intros l; apply schedule_ok; apply TNil).
  intros r [E|[E|[E|[E|[]]]]]; subst r.
  - exists (run_refit (repeat 0 2 ++ repeat 1 20 ++ repeat 0 20)). split; [apply S|]. split; [apply finishedb_ok; vm_compute; reflexivity|]. split; [apply finishedb_ok; vm_compute; reflexivity|]. vm_compute. reflexivity.
  - exists (run_refit (repeat 0 5 ++ repeat 1 20 ++ repeat 0 20)). split; [apply S|]. split; [apply finishedb_ok; vm_compute; reflexivity|]. split; [apply finishedb_ok; vm_compute; reflexivity|]. vm_compute. reflexivity.
  - exists (run_refit (repeat 1 3 ++ repeat 0 2 ++ repeat 1 20 ++ repeat 0 20)). split; [apply S|]. split; [apply finishedb_ok; vm_compute; reflexivity|]. split; [apply finishedb_ok; vm_compute; reflexivity|]. vm_compute. reflexivity.
  - exists (run_refit (repeat 1 6 ++ repeat 0 2 ++ repeat 1 20 ++ repeat 0 20)). split; [apply S|]. split; [apply finishedb_ok; vm_compute; reflexivity|]. split; [apply finishedb_ok; vm_compute; reflexivity|]. vm_compute. reflexivity.
Qed.
Print Assumptions C159_predict_during_fit_refuted.

(** C159.  Two fits at the same time can leave a model with more classes than either. *)
Definition two_fits (i : nat) : list (nat * gcall QO) :=
  match i with 0 => [(0, Fit rows2 (YInt [0; 1]%Z))] | 1 => [(0, Fit rows1 (YInt [0; 1]%Z))] | _ => [] end.
Theorem C159_two_fits_refuted : exists c, steps (gauss_code qinv1 (@isort QO)) (start (fun _ => trained) two_fits) c /\
  finished (threads c 0) /\ finished (threads c 1) /\ length (gmodel (store c 0)) = 4 /\
  length (gmodel (fst (serial (gauss_do qinv1 (@isort QO)) (fun _ => trained) (two_fits 0 ++ two_fits 1)) 0)) = 2 /\
  length (gmodel (fst (serial (gauss_do qinv1 (@isort QO)) (fun _ => trained) (two_fits 1 ++ two_fits 0)) 0)) = 2.
Proof.
  exists (schedule (gauss_code qinv1 (@isort QO)) (concat (repeat [0; 1] 20)) (start (fun _ => trained) two_fits)).
  split; [apply schedule_ok; apply TNil|]. split; [apply finishedb_ok; vm_compute; reflexivity|]. split; [apply finishedb_ok; vm_compute; reflexivity|].
  split; [vm_compute; reflexivity|]. split; vm_compute; reflexivity.
Qed.
Print Assumptions C159_two_fits_refuted.
