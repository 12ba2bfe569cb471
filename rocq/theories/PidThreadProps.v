(** Property C198: PidFilter objects shared by several threads. *)
From Coq Require Import List Arith ZArith Bool Lia Reals Lra QArith Qcanon.
From Verif Require Import Base BaseLemmas Instances FirModel PidModel ThreadModel ThreadProps DivThreadProps SharedFilterProps.
Import ListNotations.
Set Asymmetric Patterns.
Close Scope Q_scope. Close Scope Qc_scope. Close Scope R_scope. Open Scope nat_scope.

(** ** Specification *)
Section PidSpec.
  Context {O : OArith}.
  Variable program : nat -> list (nat * fcall O).
  Variable o : nat.
  Variable dt : dtype.
  Variables s0 s1 s2 : O.                         (* the registers before the threads start *)
  Definition sample (u : O) : Prop := exists j x, In (o, Filter x) (program j) /\ In u x.
  Definition reset_to (u : O) : Prop := exists j, In (o, Reset (Some u)) (program j).
  (** what the three registers may hold: a sample, ... *)
  Definition a_sample (v : O) : Prop := v = s0 \/ exists u, (sample u \/ reset_to u) /\ v = cast dt u.
  (** ... what adding samples one by one to the start or to a reset gives, ... *)
  Inductive an_integral : O -> Prop :=
  | Istart : an_integral s1
  | Ireset u : reset_to u -> an_integral (cast dt u)
  | Iadd v u : an_integral v -> sample u -> an_integral (cast dt (add v u)).
  (** ... and the difference of a sample and such a value *)
  Definition a_difference (v : O) : Prop :=
    v = s2 \/ (exists u, reset_to u /\ v = cast dt u) \/ exists x u, sample x /\ a_sample u /\ v = cast dt (sub x u).
  Definition three (s : list O) : Prop := exists u v w, s = [u; v; w] /\ a_sample u /\ an_integral v /\ a_difference w.
  Definition pid_answer (b : list O) (a : fcall O) (y : res (list O)) : Prop :=
    match a with
    | Filter [] => y = Err ValueError
    | Filter x => exists l, y = Ok l /\ length l = length x /\ Forall (fun z => exists s, three s /\ z = cast dt (dot b s)) l
    | Reset None => y = Err ValueError
    | Reset (Some _) => y = Ok []
    end.
End PidSpec.

Section PidShared.
  Context {O : OArith}.
  Variable program : nat -> list (nat * fcall O).
  Variable o : nat.
  Variable dt : dtype.
  Variables b0 b1 b2 s0 s1 s2 : O.
  Variable l : option O.
  Let T := three program o dt s0 s1 s2.
  Let b := [b0; b1; b2].
  Definition pid_of (s : list O) : pid O := mkPid (mkFir dt b s) l.
  Let p0 := pid_of [s0; s1; s2].
  (** a filter with these gains and this limit keeps them, and good registers *)
  Definition RP (p p' : pid O) : Prop := (exists s, p = pid_of s /\ T s) -> exists s, p' = pid_of s /\ T s.
  Lemma RP_refl p : RP p p.
  Proof. intros H. exact H. Qed.
  Lemma RP_trans p q r : RP p q -> RP q r -> RP p r.
  Proof. unfold RP. auto. Qed.
  Definition PP (p : pid O) : Prop := exists s, p = pid_of s /\ T s.
  Lemma PP_stable : stable RP PP.
  Proof. intros w w' H1 H2. exact (H2 H1). Qed.
  Definition AP (a : fcall O) (y : res (list O)) (_ : pid O) : Prop := pid_answer program o dt s0 s1 s2 b a y.
  Lemma ppeek a k : (forall p, PP p -> keeps RP AP a PP (k p)) -> keeps RP AP a PP (peek k).
  Proof. intros H w Hw. split; [apply RP_refl|]. exists PP. split; [exact PP_stable|]. auto. Qed.
  Lemma pact a f k : (forall p, PP p -> PP (f p)) -> (forall p, PP p -> keeps RP AP a PP (k p)) -> keeps RP AP a PP (Act f k).
  Proof. intros G H w Hw. split; [intros _; apply G; exact Hw|]. exists PP. split; [exact PP_stable|]. split; auto. Qed.
  Lemma pid_loop_keeps X : (forall v, In v X -> sample program o v) -> X <> [] -> forall x y, incl x X -> length y + length x = length X ->
    Forall (fun z => exists s, T s /\ z = cast dt (dot b s)) y -> keeps RP AP (Filter X) PP (pid_loop x y).
  Proof.
    intros HX NE. induction x as [|v x IH]; intros y Hi L F.
    - cbn [pid_loop keeps]. intros w _. unfold AP, pid_answer. destruct X; [contradiction|]. exists y. split; [reflexivity|]. split; [cbn [length] in *; lia|exact F].
    - assert (Hv : sample program o v) by (apply HX, Hi; left; reflexivity).
      cbn [pid_loop]. cbv zeta.
      match goal with |- keeps _ _ _ _ (peek (fun p => match _ with _ => _ end)) => idtac end.
      set (tail := poke (pid_set 0 v) _).
      assert (Tail : keeps RP AP (Filter X) PP tail).
      { unfold tail. apply pact.
        - intros p (s & -> & u & w & z & -> & H0 & H1 & H2). eexists. split; [reflexivity|]. exists (cast dt v), w, z. split; [reflexivity|].
          split; [right; exists v; auto|auto].
        - intros _ _. apply ppeek. intros p (s & -> & Hs). assert (Hs' := Hs). destruct Hs' as (u & w & z & -> & _).
          cbn [pid_of pfir fb fs fdt np_dot length Nat.eqb b]. cbn [rmap]. apply IH; [intros a Ha; apply Hi; right; exact Ha|rewrite app_length; cbn [length] in *; lia|].
          apply Forall_app. split; [exact F|]. constructor; [|constructor]. exists [u; w; z]. split; [exact Hs|reflexivity]. }
      apply ppeek. intros p (s & -> & u & w & z & -> & H0 & H1 & H2). cbn [pid_of pfir fs]. apply pact.
      + intros p (s & -> & u' & w' & z' & -> & H0' & H1' & H2'). eexists. split; [reflexivity|]. exists u', w', (cast dt (sub v u)). split; [reflexivity|].
        split; [exact H0'|]. split; [exact H1'|]. right. right. exists v, u. auto.
      + intros _ _. apply ppeek. intros p _. destruct (below (plimit p) _); [|exact Tail]. apply ppeek. intros q (s & -> & u' & w' & z' & -> & H0' & H1' & H2').
        cbn [pid_of pfir fs nth]. apply pact; [|intros _ _; exact Tail].
        intros q' (s & -> & u2 & w2 & z2 & -> & H02 & H12 & H22). eexists. split; [reflexivity|]. exists u2, (cast dt (add w' v)), z2. split; [reflexivity|].
        split; [exact H02|]. split; [apply Iadd; assumption|exact H22].
  Qed.
  Lemma pid_code_keeps j a : In (o, a) (program j) -> keeps RP AP a PP (match a with Filter x => pid_code x | Reset v => reset_code pid_reset v end).
  Proof.
    intros I. destruct a as [x|[v|]].
    - unfold pid_code. destruct x as [|x0 x1]; [intros w _; reflexivity|]. cbn [length Nat.eqb]. apply ppeek. intros p (s & -> & _). cbn [pid_of pfir fb b].
      apply pid_loop_keeps; [|discriminate|apply incl_refl|reflexivity|constructor]. intros v Hv. exists j, (x0 :: x1). auto.
    - unfold reset_code. apply pact.
      + intros p (s & -> & u & w & z & -> & _). eexists. split; [reflexivity|]. assert (Rv : reset_to program o v) by (exists j; exact I). exists (cast dt v), (cast dt v), (cast dt v). split; [reflexivity|].
        split; [right; exists v; auto|]. split; [apply Ireset; exact Rv|]. right. left. exists v. auto.
      + intros p (s & -> & _) w _. reflexivity.
    - unfold reset_code. apply pact; [intros p (s & -> & Hs); exists s; split; [reflexivity|exact Hs]|]. intros p (s & -> & _) w _. reflexivity.
  Qed.

  Definition RPW (w w' : filt O) : Prop := match w with FPid p => exists p', w' = FPid p' /\ RP p p' | _ => True end.
  Lemma RPW_refl w : RPW w w.
  Proof. destruct w; cbn; auto. exists p. split; [reflexivity|apply RP_refl]. Qed.
  Lemma RPW_trans w w' w'' : RPW w w' -> RPW w' w'' -> RPW w w''.
  Proof. destruct w as [|f|p]; cbn; auto. intros (p' & -> & H) (p'' & -> & H'). exists p''. split; [reflexivity|exact (RP_trans _ _ _ H H')]. Qed.
  Definition APW (a : fcall O) (y : res (list O)) (_ : filt O) : Prop := pid_answer program o dt s0 s1 s2 b a y.
  Lemma on_pid_keeps a no : forall c q, keeps RP AP a q c -> keeps RPW APW a (fun w => exists p, w = FPid p /\ q p) (on_pid c no).
  Proof.
    induction c as [y|g k IH]; intros q K; cbn [on_pid keeps] in *.
    - intros w (p & -> & P). exact (K p P).
    - intros w (p & -> & P). destruct (K p P) as (H & q' & S & P' & K'). split; [exists (g p); split; [reflexivity|exact H]|].
      exists (fun w => exists p, w = FPid p /\ q' p). split; [|split; [exists (g p); auto|apply IH; exact K']].
      intros w w' (h & -> & Ph) (h' & -> & H2). exists h'. split; [reflexivity|exact (S _ _ Ph H2)].
  Qed.
  Lemma start_good : T [s0; s1; s2].
  Proof. exists s0, s1, s2. split; [reflexivity|]. split; [left; reflexivity|]. split; [apply Istart|left; reflexivity]. Qed.
  Lemma pid_objects_keeps j a : In (o, a) (program j) -> keeps RPW APW a (RPW (FPid p0)) (filt_code a).
  Proof.
    intros I w (p & -> & H). split; [apply RPW_refl|]. exists (fun w => exists p, w = FPid p /\ PP p). split; [|split].
    - intros v v' (h & -> & Ph) (h' & -> & H2). exists h'. split; [reflexivity|exact (H2 Ph)].
    - exists p. split; [reflexivity|]. apply H. exists [s0; s1; s2]. split; [reflexivity|exact start_good].
    - apply on_pid_keeps. exact (pid_code_keeps j a I).
  Qed.
End PidShared.

(** C198.  Threads that share a PidFilter, in any arithmetic and under any schedule: gains,
    limit and the number of registers stay, no call fails that would not fail alone, and every
    output is the gains times a sample, an integral and a difference in the sense above. *)
Theorem C198_shared_pid (O : OArith) (st : nat -> filt O) (program : nat -> list (nat * fcall O)) o dt b0 b1 b2 s0 s1 s2 l c :
  st o = FPid (mkPid (mkFir dt [b0; b1; b2] [s0; s1; s2]) l) -> steps filt_code (start st program) c ->
  (exists s, store c o = FPid (mkPid (mkFir dt [b0; b1; b2] s) l) /\ three program o dt s0 s1 s2 s) /\
  forall i, finished (threads c i) ->
    Forall2 (fun p y => fst p = o -> pid_answer program o dt s0 s1 s2 [b0; b1; b2] (snd p) y) (program i) (results (threads c i)).
Proof.
  intros E S. set (R := RPW program o dt b0 b1 b2 s0 s1 s2 l).
  assert (Calls : forall j a, In (o, a) (program j) -> keeps R (APW program o dt b0 b1 b2 s0 s1 s2) a (R (st o)) (filt_code a)).
  { intros j a I. rewrite E. exact (pid_objects_keeps program o dt b0 b1 b2 s0 s1 s2 l j a I). }
  assert (U : forall a y, stable R (APW program o dt b0 b1 b2 s0 s1 s2 a y)) by (intros a y w w' H _; exact H).
  assert (Rr : forall w, R w w) by apply RPW_refl. assert (Rt : forall w w' w'', R w w' -> R w' w'' -> R w w'') by apply RPW_trans.
  destruct (shared_kept filt_code program st o R Rr Rt _ U Calls c S) as [K _]. split.
  - rewrite E in K. destruct K as (p & -> & H). destruct H as (s & -> & Hs); [|exists s; split; [reflexivity|exact Hs]].
    exists [s0; s1; s2]. split; [reflexivity|]. apply start_good.
  - intros i F. exact (finished_results filt_code program st o R _ c i Rr Rt U Calls S F).
Qed.
Print Assumptions C198_shared_pid.

(** C198.  Over the reals: the integral is the start or a reset plus samples that were given, so
    it has a sign if they have; and without integral gain no output exceeds
    (|b0| + 2 |b2|) times the largest value given. *)
Theorem C198_integral (st : nat -> filt RO) (program : nat -> list (nat * fcall RO)) o (b0 b1 b2 s0 s1 s2 : R) l c :
  st o = FPid (@mkPid RO (@mkFir RO DFloat [b0; b1; b2] [s0; s1; s2]) l) -> steps filt_code (start st program) c ->
  exists u i d r (xs : list R), store c o = FPid (@mkPid RO (@mkFir RO DFloat [b0; b1; b2] [u; i; d]) l) /\
    (r = s1 \/ reset_to program o r) /\ Forall (sample program o) xs /\ i = (r + total (fun x => x) xs)%R.
Proof.
  intros E S. destruct (C198_shared_pid RO st program o DFloat b0 b1 b2 s0 s1 s2 l c E S) as [(s & Es & u & i & d & -> & _ & Hi & _) _].
  exists u, i, d. assert (G : exists r xs, (r = s1 \/ reset_to program o r) /\ Forall (sample program o) xs /\ i = (r + total (fun x => x) xs)%R).
  { clear - Hi. induction Hi as [|v Hv|v x Hv IH Hx].
    - exists s1, []. split; [auto|]. split; [constructor|]. cbn. lra.
    - exists v, []. split; [auto|]. split; [constructor|]. cbn. lra.
    - destruct IH as (r & xs & H1 & H2 & ->). exists r, (x :: xs). split; [exact H1|]. split; [constructor; assumption|]. cbn. lra. }
  destruct G as (r & xs & H1 & H2 & H3). exists r, xs. split; [exact Es|]. auto.
Qed.
Print Assumptions C198_integral.
Theorem C198_bounded (st : nat -> filt RO) (program : nat -> list (nat * fcall RO)) o (b0 b2 s0 s1 s2 M : R) l c i k x :
  st o = FPid (@mkPid RO (@mkFir RO DFloat [b0; 0%R; b2] [s0; s1; s2]) l) -> steps filt_code (start st program) c ->
  (Rabs s0 <= M)%R -> (Rabs s2 <= M)%R -> (forall v, sample program o v \/ reset_to program o v -> Rabs v <= M)%R ->
  finished (threads c i) -> nth_error (program i) k = Some (o, Filter x) -> x <> [] ->
  exists y, nth_error (results (threads c i)) k = Some (Ok y) /\ length y = length x /\
    Forall (fun u => Rabs u <= M * (Rabs b0 + 2 * Rabs b2))%R y.
Proof.
  intros E S M0 M2 MM F Hk Hx. destruct (C198_shared_pid RO st program o DFloat b0 0%R b2 s0 s1 s2 l c E S) as [_ A]. specialize (A i F).
  assert (G : exists r, nth_error (results (threads c i)) k = Some r /\ pid_answer program o DFloat s0 s1 s2 [b0; 0%R; b2] (Filter x) r).
  { clear - A Hk. revert k Hk. induction A as [|p y l l' H A IH]; intros [|k] Hk; cbn in Hk; try discriminate.
    - injection Hk as ->. exists y. split; [reflexivity|]. apply H. reflexivity.
    - apply IH. exact Hk. }
  destruct G as (r & Er & G). unfold pid_answer in G. destruct x as [|x0 x1]; [contradiction|]. destruct G as (y & -> & L & H). exists y. split; [exact Er|]. split; [exact L|].
  assert (P : (0 <= M)%R) by (eapply Rle_trans; [apply Rabs_pos|exact M0]).
  assert (Sa : forall v, a_sample program o DFloat s0 v -> (Rabs v <= M)%R).
  { intros v [->|(u & Hu & ->)]; [exact M0|]. apply MM. exact Hu. }
  rewrite Forall_forall in *. intros u Hu. destruct (H u Hu) as (s & (v & w & d & -> & H0 & _ & H2) & ->).
  assert (Bd : (Rabs d <= 2 * M)%R).
  { destruct H2 as [->|[(a & Ha & ->)|(a & z & Ha & Hz & ->)]].
    - lra.
    - change (Rabs a <= 2 * M)%R. specialize (MM a (or_intror Ha)). lra.
    - change (Rabs (a - z) <= 2 * M)%R. specialize (Sa z Hz). specialize (MM a (or_introl Ha)). unfold Rminus. eapply Rle_trans; [apply Rabs_triang|]. rewrite Rabs_Ropp. lra. }
  specialize (Sa v H0). change (Rabs (@dot RA [b0; 0%R; b2] [v; w; d]) <= M * (Rabs b0 + 2 * Rabs b2))%R. rewrite !dot_RA_cons. change (@dot RA [] []) with 0%R.
  replace (b0 * v + (0 * w + (b2 * d + 0)))%R with (b0 * v + b2 * d)%R by ring. eapply Rle_trans; [apply Rabs_triang|]. rewrite !Rabs_mult.
  assert (B0 := Rabs_pos b0). assert (B2 := Rabs_pos b2). nra.
Qed.
Print Assumptions C198_bounded.

(** ** Examples *)
Definition qpid (b s : list Z) (l : Z) : filt QO := FPid (mkPid (mkFir DFloat (map (fun z => q z 1) b) (map (fun z => q z 1) s) : fir QA) (Some (q l 1))).
Definition registers_of (w : filt QO) : list Q := match w with FPid p => qs (fs (pfir p)) | _ => [] end.
Definition pid_feed (x y : list Z) (i : nat) : list (nat * fcall QO) :=
  match i with 0 => [(0, Filter (map (fun z => q z 1) x) : fcall QO)] | 1 => [(0, Filter (map (fun z => q z 1) y) : fcall QO)] | _ => [] end.
Example C198_example : let st := fun _ : nat => qpid [1; 0; 1]%Z [0; 0; 0]%Z 10%Z in let program := pid_feed [1; 2]%Z [5]%Z in
  let c := schedule filt_code (concat (repeat [0; 1] 20)) (start st program) in
  steps filt_code (start st program) c /\ finished (threads c 0) /\ finished (threads c 1) /\
  map rqs (results (threads c 0)) = [Ok [10; -1]]%Q /\ map rqs (results (threads c 1)) = [Ok [10]]%Q /\ registers_of (store c 0) = [2; 7; -3]%Q.
Proof.
  cbv zeta. split; [apply schedule_ok; apply TNil|]. split; [apply finishedb_ok; vm_compute; reflexivity|]. split; [apply finishedb_ok; vm_compute; reflexivity|].
  split; [vm_compute; reflexivity|]. split; vm_compute; reflexivity.
Qed.

(** C198.  It is false that the integral of a shared filter stays below the limit: two threads
    that add 6 below a limit of 10 can both see 0 before they add. *)
Theorem C198_limit_refuted : exists c, let st := fun _ : nat => qpid [0; 1; 0]%Z [0; 0; 0]%Z 10%Z in let program := pid_feed [6]%Z [6]%Z in
  steps filt_code (start st program) c /\ finished (threads c 0) /\ finished (threads c 1) /\
  map rqs (results (threads c 0)) = [Ok [6]]%Q /\ map rqs (results (threads c 1)) = [Ok [12]]%Q /\
  nth 1 (registers_of (store c 0)) 0%Q = 12%Q /\
  nth 1 (registers_of (fst (serial filt_do st (program 0 ++ program 1)) 0)) 0%Q = 6%Q /\
  nth 1 (registers_of (fst (serial filt_do st (program 1 ++ program 0)) 0)) 0%Q = 6%Q.
Proof.
  exists (schedule filt_code (repeat 0 6 ++ repeat 1 6 ++ repeat 0 20 ++ repeat 1 20) (start (fun _ => qpid [0; 1; 0]%Z [0; 0; 0]%Z 10%Z) (pid_feed [6]%Z [6]%Z))). cbv zeta.
  split; [apply schedule_ok; apply TNil|]. split; [apply finishedb_ok; vm_compute; reflexivity|]. split; [apply finishedb_ok; vm_compute; reflexivity|].
  repeat (split; [vm_compute; reflexivity|]). vm_compute. reflexivity.
Qed.
Print Assumptions C198_limit_refuted.

(** Nor is there any other bound, for whatever limit and samples: each of two threads can read
    the integral while the other resets it, and then store it with its own sample added. *)
Section Grow.
  Context {W C Y : Type}.
  Variable code_of : C -> code W Y.
  Fixpoint go (n : nat) (cd : code W Y) (w : W) : code W Y * W :=
    match n, cd with S n', Act f k => go n' (k w) (f w) | _, _ => (cd, w) end.
  Lemma steps_trans c1 c2 c3 : steps code_of c1 c2 -> steps code_of c2 c3 -> steps code_of c1 c3.
  Proof. intros H1 H2. induction H2; [exact H1|]. eapply TCons; eassumption. Qed.
  Lemma acts n : forall c i t r cd, threads c i = mkThread t (Some (0, cd)) r -> exists c', steps code_of c c' /\
    threads c' i = mkThread t (Some (0, fst (go n cd (store c 0)))) r /\ store c' 0 = snd (go n cd (store c 0)) /\ forall j, j <> i -> threads c' j = threads c j.
  Proof.
    induction n as [|n IH]; intros c i t r cd E; [exists c; split; [apply TNil|]; auto|].
    destruct cd as [y|f k]; [exists c; split; [apply TNil|]; auto|]. cbn [go].
    set (c1 := mkConfig (upd (store c) 0 (f (store c 0))) (upd (threads c) i (mkThread t (Some (0, k (store c 0))) r))).
    assert (S1 : steps code_of c c1) by (eapply TCons; [apply TNil|]; exact (TAct code_of i c 0 f k t r E)).
    destruct (IH c1 i t r (k (store c 0))) as (c' & S' & T' & U' & V'); [apply upd_same|]. exists c'. split; [exact (steps_trans _ _ _ S1 S')|].
    replace (store c1 0) with (f (store c 0)) in * by reflexivity. split; [exact T'|]. split; [exact U'|]. intros j Hj. rewrite (V' j Hj). unfold c1. cbn [threads]. apply upd_other. exact Hj.
  Qed.
  Lemma begins c i a t r : threads c i = mkThread ((0, a) :: t) None r -> exists c', steps code_of c c' /\
    threads c' i = mkThread t (Some (0, code_of a)) r /\ store c' 0 = store c 0 /\ forall j, j <> i -> threads c' j = threads c j.
  Proof.
    intros E. eexists. split; [eapply TCons; [apply TNil|]; exact (TBegin code_of i c 0 a t r E)|]. cbn [threads store]. split; [apply upd_same|]. split; [reflexivity|]. intros j Hj. apply upd_other. exact Hj.
  Qed.
  Lemma returns c i y t r : threads c i = mkThread t (Some (0, Ret y)) r -> exists c', steps code_of c c' /\
    threads c' i = mkThread t None (r ++ [y]) /\ store c' 0 = store c 0 /\ forall j, j <> i -> threads c' j = threads c j.
  Proof.
    intros E. eexists. split; [eapply TCons; [apply TNil|]; exact (TReturn code_of i c 0 y t r E)|]. cbn [threads store]. split; [apply upd_same|]. split; [reflexivity|]. intros j Hj. apply upd_other. exact Hj.
  Qed.
End Grow.
Section Race.
  Variables h l : R.                              (* the sample, and the limit *)
  Hypothesis fits : (Rabs h < l)%R.
  Definition ipid (u v d : R) : filt RO := FPid (@mkPid RO (@mkFir RO DFloat [0; 1; 0]%R [u; v; d]) (Some l)).
  Definition turn : list (nat * fcall RO) := [(0, Reset (Some 0%R) : fcall RO); (0, Filter [h] : fcall RO)].
  Definition checked : code (filt RO) (res (list RO)) :=
    on_pid (peek (fun p => poke (@pid_set RO 1 (add (nth 1 (fs (pfir p)) zero) h)) (poke (@pid_set RO 0 h)
      (peek (fun p => match rmap (cast (fdt (pfir p))) (np_dot (fb (pfir p)) (fs (pfir p))) with Err e => Ret (Err e) | Ok u => Ret (Ok [u]) end)))))
    (Ret (Err TypeError)).
  Lemma go_check u d : go 5 (filt_code (Filter [h] : fcall RO)) (ipid u 0 d) = (checked, ipid u 0 (h - u)).
  Proof.
    assert (B : @below RO (Some l) (add 0%R h) = true).
    { unfold below. apply Rltb_iff. change (Rabs (0 + h) < l)%R. rewrite Rplus_0_l. exact fits. }
    unfold filt_code, pid_code, ipid. cbn [go peek poke on_pid length Nat.eqb pfir fb fs pid_loop plimit pid_set with_s fdt firstn skipn app nth]. match goal with |- context [if ?x then _ else _] => replace x with true by (symmetry; exact B) end. reflexivity.
  Qed.
  Definition reading (v : R) : code (filt RO) (res (list RO)) := fst (go 1 checked (ipid 0 v 0)).
  Lemma go_read u v d : go 1 checked (ipid u v d) = (reading v, ipid u v d).
  Proof. reflexivity. Qed.
  Lemma go_write v u' v' d : exists y, go 3 (reading v) (ipid u' v' d) = (Ret y, ipid h (v + h) d).
  Proof. eexists. reflexivity. Qed.
  Lemma go_reset u v d : go 2 (filt_code (Reset (Some 0%R) : fcall RO)) (ipid u v d) = (Ret (Ok []), ipid 0 0 0).
  Proof. reflexivity. Qed.

  Lemma race (program : nat -> list (nat * fcall RO)) st : forall n i j c a b u v d r r', i <> j -> n <= b -> n <= S a -> steps filt_code (start st program) c ->
    threads c i = mkThread (concat (repeat turn a)) (Some (0, checked)) r -> threads c j = mkThread (concat (repeat turn b)) None r' ->
    store c 0 = ipid u v d -> exists c' u' d', steps filt_code (start st program) c' /\ store c' 0 = ipid u' (v + INR n * h) d'.
  Proof.
    induction n as [|n IH]; intros i j c a b u v d r r' N Lb La S Ti Tj St.
    - exists c, u, d. split; [exact S|]. rewrite St. f_equal. f_equal. f_equal. cbn. f_equal. f_equal. lra.
    - destruct b as [|b]; [lia|]. destruct (acts filt_code 1 c i _ _ _ Ti) as (c1 & S1 & T1 & U1 & V1). rewrite St, go_read in T1, U1. cbn [fst snd] in T1, U1.
      rewrite <- (V1 j (not_eq_sym N)) in Tj. cbn [repeat concat turn app] in Tj.
      destruct (begins filt_code c1 j _ _ _ Tj) as (c2 & S2 & T2 & U2 & V2). rewrite U1 in U2.
      destruct (acts filt_code 2 c2 j _ _ _ T2) as (c3 & S3 & T3 & U3 & V3). rewrite U2, go_reset in T3, U3. cbn [fst snd] in T3, U3.
      destruct (returns filt_code c3 j _ _ _ T3) as (c4 & S4 & T4 & U4 & V4). rewrite U3 in U4.
      destruct (begins filt_code c4 j _ _ _ T4) as (c5 & S5 & T5 & U5 & V5). rewrite U4 in U5.
      destruct (acts filt_code 5 c5 j _ _ _ T5) as (c6 & S6 & T6 & U6 & V6). rewrite U5, go_check in T6, U6. cbn [fst snd] in T6, U6.
      assert (Ti6 : threads c6 i = threads c1 i) by (rewrite (V6 i N), (V5 i N), (V4 i N), (V3 i N), (V2 i N); reflexivity). rewrite T1 in Ti6.
      destruct (acts filt_code 3 c6 i _ _ _ Ti6) as (c7 & S7 & T7 & U7 & V7). rewrite U6 in T7, U7. destruct (go_write v 0 0 (h - 0)) as (y & Ey). rewrite Ey in T7, U7. cbn [fst snd] in T7, U7.
      destruct (returns filt_code c7 i _ _ _ T7) as (c8 & S8 & T8 & U8 & V8). rewrite U7 in U8.
      assert (Tj8 : threads c8 j = threads c6 j) by (rewrite (V8 j (not_eq_sym N)), (V7 j (not_eq_sym N)); reflexivity). rewrite T6 in Tj8.
      assert (S' : steps filt_code (start st program) c8).
      { do 8 (eapply steps_trans; [|eassumption]). exact S. }
      destruct (IH j i c8 b a _ _ _ _ _ (not_eq_sym N) ltac:(lia) ltac:(lia) S' Tj8 T8 U8) as (c' & u' & d' & Sc & Ec). exists c', u', d'. split; [exact Sc|]. rewrite Ec. unfold ipid. f_equal. f_equal. f_equal. f_equal. f_equal. rewrite S_INR. ring.
  Qed.
End Race.
Theorem C198_unbounded_refuted (h l bound : R) : h <> 0%R -> (Rabs h < l)%R ->
  exists (program : nat -> list (nat * fcall RO)) c (u v d : R),
    (forall i, 2 <= i -> program i = []) /\
    (forall x, sample program 0 x -> x = h) /\ (forall x, reset_to program 0 x -> x = 0%R) /\
    steps filt_code (start (fun _ => FPid (@mkPid RO (@mkFir RO DFloat [0; 1; 0]%R [0; 0; 0]%R) (Some l))) program) c /\
    store c 0 = FPid (@mkPid RO (@mkFir RO DFloat [0; 1; 0]%R [u; v; d]) (Some l)) /\ (bound < Rabs v)%R.
Proof.
  intros Hh Hl. assert (Pos : (0 < Rabs h)%R) by (apply Rabs_pos_lt; exact Hh).
  assert (Ar : exists n, (bound < INR n * Rabs h)%R).
  { exists (Z.to_nat (up (bound / Rabs h))). rewrite INR_IZR_INZ. destruct (archimed (bound / Rabs h)) as [H _].
    assert (G : (up (bound / Rabs h) <= Z.of_nat (Z.to_nat (up (bound / Rabs h))))%Z) by lia. apply IZR_le in G.
    assert (K : (bound / Rabs h < IZR (Z.of_nat (Z.to_nat (up (bound / Rabs h)))))%R) by lra.
    apply (Rmult_lt_compat_r (Rabs h)) in K; [|exact Pos]. unfold Rdiv at 1 in K. rewrite Rmult_assoc, Rinv_l, Rmult_1_r in K by lra. exact K. }
  destruct Ar as (n & Hn).
  set (program := fun i => match i with 0 => concat (repeat (turn h) (S n)) | 1 => concat (repeat (turn h) n) | _ => [] end). exists program.
  assert (Pr : forall i p, In p (program i) -> In p (turn h)).
  { assert (G : forall m p, In p (concat (repeat (turn h) m)) -> In p (turn h)).
    { intros m p H. apply in_concat in H. destruct H as (t & Ht & H). apply repeat_spec in Ht. subst t. exact H. }
    intros [|[|i]] p H; cbn [program] in H; [exact (G _ _ H)|exact (G _ _ H)|destruct H]. }
  set (st := fun _ : nat => ipid l 0 0 0). assert (S0 : steps filt_code (start st program) (start st program)) by apply TNil.
  set (c0 := start st program) in S0 at 2. assert (T0 : threads c0 0 = mkThread ((0, Reset (Some 0%R) : fcall RO) :: (0, Filter [h] : fcall RO) :: concat (repeat (turn h) n)) None []) by reflexivity.
  assert (T1 : threads c0 1 = mkThread (concat (repeat (turn h) n)) None []) by reflexivity. assert (N : 1 <> 0) by discriminate.
  destruct (begins filt_code c0 0 _ _ _ T0) as (c1 & S1 & A1 & U1 & V1). change (store c0 0) with (ipid l 0 0 0) in U1.
  destruct (acts filt_code 2 c1 0 _ _ _ A1) as (c2 & S2 & A2 & U2 & V2). rewrite U1, go_reset in A2, U2. cbn [fst snd] in A2, U2.
  destruct (returns filt_code c2 0 _ _ _ A2) as (c3 & S3 & A3 & U3 & V3). rewrite U2 in U3.
  destruct (begins filt_code c3 0 _ _ _ A3) as (c4 & S4 & A4 & U4 & V4). rewrite U3 in U4.
  destruct (acts filt_code 5 c4 0 _ _ _ A4) as (c5 & S5 & A5 & U5 & V5). rewrite U4, (go_check h l Hl) in A5, U5. cbn [fst snd] in A5, U5.
  assert (B5 : threads c5 1 = threads c0 1) by (rewrite (V5 1 N), (V4 1 N), (V3 1 N), (V2 1 N), (V1 1 N); reflexivity). rewrite T1 in B5.
  assert (S' : steps filt_code (start st program) c5) by (do 5 (eapply steps_trans; [|eassumption]); exact S0).
  destruct (race h l Hl program st n 0 1 c5 n n _ _ _ _ _ (not_eq_sym N) (le_n n) (le_S _ _ (le_n n)) S' A5 B5 U5) as (c & u & d & Sc & Ec).
  exists c, u, (0 + INR n * h)%R, d. split; [intros [|[|i]] H; [lia|lia|reflexivity]|]. split; [|split; [|split; [exact Sc|split; [exact Ec|]]]].
  - intros x (j & xs & H1 & H2). apply Pr in H1. destruct H1 as [H1|[H1|[]]]; [discriminate|]. injection H1 as <-. destruct H2 as [H2|[]]. symmetry. exact H2.
  - intros x (j & H1). apply Pr in H1. destruct H1 as [H1|[H1|[]]]; [|discriminate]. injection H1 as <-. reflexivity.
  - rewrite Rplus_0_l, Rabs_mult, (Rabs_pos_eq (INR n)) by apply pos_INR. exact Hn.
Qed.
Print Assumptions C198_unbounded_refuted.
Example C198_unbounded_example : (1 <> 0 /\ Rabs 1 < 2)%R.
Proof. split; [lra|]. rewrite Rabs_pos_eq; lra. Qed.
Example C198_bounded_example : let st := fun _ : nat => FPid (@mkPid RO (@mkFir RO DFloat [1; 0; 1]%R [0; 0; 0]%R) None) in
  let program i : list (nat * fcall RO) := match i with 0 => [(0, Filter [1; -1]%R : fcall RO)] | 1 => [(0, Filter [1]%R : fcall RO); (0, Reset (Some 0%R) : fcall RO)] | _ => [] end in
  let c := schedule filt_code (concat (repeat [0; 1] 20)) (start st program) in
  steps filt_code (start st program) c /\ finished (threads c 0) /\ nth_error (program 0) 0 = Some (0, Filter [1; -1]%R : fcall RO) /\
  (forall v, sample program 0 v \/ reset_to program 0 v -> Rabs v <= 1)%R /\ (Rabs 0 <= 1)%R.
Proof.
  cbv zeta. split; [apply schedule_ok; apply TNil|]. split; [apply finishedb_ok; reflexivity|]. split; [reflexivity|].
  assert (A1 : (Rabs 1 <= 1)%R) by (rewrite Rabs_pos_eq; lra). assert (A2 : (Rabs (-1) <= 1)%R) by (rewrite Rabs_left1; lra). assert (A3 : (Rabs 0 <= 1)%R) by (rewrite Rabs_R0; lra).
  split; [|exact A3]. intros v [(j & x & H1 & H2)|(j & H1)]; destruct j as [|[|j]].
  - destruct H1 as [H1|[]]. injection H1 as <-. destruct H2 as [<-|[<-|[]]]; assumption.
  - destruct H1 as [H1|[H1|[]]]; [|discriminate]. injection H1 as <-. destruct H2 as [<-|[]]. assumption.
  - destruct H1.
  - destruct H1 as [H1|[]]. discriminate.
  - destruct H1 as [H1|[H1|[]]]; [discriminate|]. injection H1 as <-. assumption.
  - destruct H1.
Qed.
