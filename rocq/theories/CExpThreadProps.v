(** Property C201: ComplexExponentialFilter objects shared by several threads. *)
From Coq Require Import List Arith ZArith Bool Lia Reals Lra.
From Coquelicot Require Import Complex.
From Verif Require Import Base BaseLemmas Instances CalculusModel CExpModel CExpProps ThreadModel ThreadProps DivThreadProps PidThreadProps CExpThreadModel.
Import ListNotations.
Set Asymmetric Patterns.
Close Scope R_scope. Open Scope nat_scope.

(** ** Specification *)
Section Spec.
  Context {O : OArith} {Y : Type}.
  Variables (fmod2 sgn : O -> O) (expj : O -> Y).
  Variable program : nat -> list (nat * ccall O).
  Variable o : nat.
  Variable s0 : O.                                (* the phase before the threads start *)
  (** phases the object may hold: the first, and what a call of some thread, made alone, makes
      of such a phase *)
  Inductive held : O -> Prop :=
  | Hstart : held s0
  | Hcall j a s : In (o, a) (program j) -> held s -> held (fst (cexp_call fmod2 sgn expj a s)).
  (** a call answers as it would alone, at some such phase *)
  Definition as_alone (a : ccall O) (y : res (list Y)) : Prop := exists s, held s /\ y = snd (cexp_call fmod2 sgn expj a s).
End Spec.

(** C201.  Without interruption the accesses are those calls. *)
Theorem C201_uninterrupted (O : OArith) (Y : Type) fmod2 sgn (expj : O -> Y) a s :
  complete (cexp_code fmod2 sgn expj a) s = cexp_call fmod2 sgn expj a s.
Proof.
  destruct a as [x|p]; cbn [cexp_code cexp_call]; unfold store_phase, cexp_filter, cexp_set_phase.
  - destruct (_ || _)%bool; [reflexivity|]. cbn [peek complete]. destruct (cexp_loop expj s (fre x)) as [p ys]. destruct (fcomplex x); [reflexivity|]. destruct (phase_bad _); reflexivity.
  - destruct (phase_bad p); reflexivity.
Qed.
Print Assumptions C201_uninterrupted.

Section Shared.
  Context {O : OArith} {Y : Type}.
  Variables (fmod2 sgn : O -> O) (expj : O -> Y).
  Variable program : nat -> list (nat * ccall O).
  Variable o : nat.
  Variable s0 : O.
  Let H := held fmod2 sgn expj program o s0.
  Let call := cexp_call fmod2 sgn expj.
  Definition RC (s s' : O) : Prop := H s -> H s'.
  Definition QC (a : ccall O) (y : res (list Y)) (_ : O) : Prop := as_alone fmod2 sgn expj program o s0 a y.
  Lemma H_stable : stable RC H. Proof. intros w w' A B. exact (B A). Qed.
  Lemma store_keeps a j p y s : In (o, a) (program j) -> H s -> call a s = (let (s', r) := cexp_set_phase s p in (s', rmap (fun _ => y) r)) -> keeps RC QC a H (store_phase p y).
  Proof.
    intros I Hs E. unfold store_phase. unfold cexp_set_phase in E. destruct (phase_bad p).
    - intros w _. exists s. split; [exact Hs|]. change (Err ValueError = snd (call a s)). rewrite E. reflexivity.
    - intros w Hw. assert (Hp : H p) by (replace p with (fst (call a s)) by (rewrite E; reflexivity); exact (Hcall _ _ _ _ _ _ j a s I Hs)).
      split; [intros _; exact Hp|]. exists H. split; [exact H_stable|]. split; [exact Hp|]. intros w' _. exists s. split; [exact Hs|]. change (Ok y = snd (call a s)). rewrite E. reflexivity.
  Qed.
  Lemma call_keeps j a : In (o, a) (program j) -> keeps RC QC a H (cexp_code fmod2 sgn expj a).
  Proof.
    intros I. destruct a as [x|p]; cbn [cexp_code].
    - destruct (fimag x || (length (fre x) =? 0) || existsb (fun v => oltb (of_Z 1) (oabs v)) (fre x))%bool eqn:B.
      + intros w Hw. exists w. split; [exact Hw|]. cbn [cexp_call]. unfold cexp_filter. rewrite B. reflexivity.
      + intros s Hs. split; [intros A; exact A|]. exists H. split; [exact H_stable|]. split; [exact Hs|]. destruct (cexp_loop expj s (fre x)) as [p ys] eqn:E. destruct (fcomplex x) eqn:F.
        * intros w _. exists s. split; [exact Hs|]. cbn [cexp_call]. unfold cexp_filter. rewrite B, E, F. reflexivity.
        * apply (store_keeps (CFilter x) j (cexp_wrap fmod2 sgn p) ys s I Hs). unfold call. cbn [cexp_call]. unfold cexp_filter. rewrite B, E, F. destruct (cexp_set_phase s (cexp_wrap fmod2 sgn p)) as [s' [u|e]]; reflexivity.
    - apply (store_keeps (CPhase p) j p [] s0 I (Hstart _ _ _ _ _ _)). reflexivity.
  Qed.
End Shared.

(** C201.  Under any schedule, a shared ComplexExponentialFilter holds a phase that calls made
    one after another could have left, and each call answers as it would alone at such a
    phase.  Any arithmetic. *)
Theorem C201_shared_exponential (O : OArith) (Y : Type) fmod2 sgn (expj : O -> Y) (st : nat -> O) program c o :
  steps (cexp_code fmod2 sgn expj) (start st program) c ->
  held fmod2 sgn expj program o (st o) (store c o) /\
  forall i, finished (threads c i) ->
    Forall2 (fun p y => fst p = o -> as_alone fmod2 sgn expj program o (st o) (snd p) y) (program i) (results (threads c i)).
Proof.
  intros S.
  assert (K : forall j a, In (o, a) (program j) -> keeps (RC fmod2 sgn expj program o (st o)) (QC fmod2 sgn expj program o (st o)) a (RC fmod2 sgn expj program o (st o) (st o)) (cexp_code fmod2 sgn expj a)).
  { intros j a I. assert (G := call_keeps fmod2 sgn expj program o (st o) j a I). destruct (cexp_code fmod2 sgn expj a) as [y|f k]; intros w Hw; apply G; apply Hw; apply Hstart. }
  split.
  - apply (shared_kept (cexp_code fmod2 sgn expj) program st o (RC fmod2 sgn expj program o (st o)) (fun w A => A) (fun a b d P Q A => Q (P A)) (QC fmod2 sgn expj program o (st o)) (fun a y w w' A _ => A) K c S). apply Hstart.
  - intros i F. exact (finished_results (cexp_code fmod2 sgn expj) program st o (RC fmod2 sgn expj program o (st o)) (QC fmod2 sgn expj program o (st o)) c i (fun w A => A) (fun a b d P Q A => Q (P A)) (fun a y w w' A _ => A) K S F).
Qed.
Print Assumptions C201_shared_exponential.

(** C201.  Over the reals: the phase stays in [-1, 1], no admissible signal is refused, and what
    a call returns is one exponential from beginning to end: of unit magnitude, with the given
    phase steps. *)
Theorem C201_each_call_continuous (st : nat -> R) program c o :
  (-1 <= st o <= 1)%R -> steps (@cexp_code RO C fmod2R sgnR expjR) (start st program) c ->
  (-1 <= store c o <= 1)%R /\
  forall i, finished (threads c i) ->
    Forall2 (fun p y => fst p = o -> forall x, snd p = CFilter (real_sig x) -> admissible x ->
      exists s l, (-1 <= s <= 1)%R /\ y = Ok l /\ length l = length x /\
        forall n, n < length x -> nth n l (RtoC 0) = cis (PI * (s + psum x n))) (program i) (results (threads c i)).
Proof.
  intros H0 S. destruct (C201_shared_exponential RO C fmod2R sgnR expjR st program c o S) as [A B].
  assert (G : forall s, held (O := RO) fmod2R sgnR expjR program o (st o) s -> (-1 <= s <= 1)%R).
  { induction 1 as [|j a s I Hs IH]; [exact H0|].
    assert (St : forall p, (-1 <= fst (@cexp_set_phase RO s p) <= 1)%R).
    { intros p. unfold cexp_set_phase. destruct (@phase_bad RO p) eqn:Eb; [exact IH|]. cbn [fst]. destruct (Rlt_le_dec p (-1)) as [C1|C1]; [assert (@phase_bad RO p = true) by (apply phase_bad_iff; lra); congruence|].
      destruct (Rlt_le_dec 1 p) as [C2|C2]; [assert (@phase_bad RO p = true) by (apply phase_bad_iff; lra); congruence|]. lra. }
    destruct a as [x|p]; cbn [cexp_call].
    - unfold cexp_filter. destruct (_ || _)%bool; [exact IH|]. destruct (cexp_loop _ _ _) as [p ys]. destruct (fcomplex x); [exact IH|]. specialize (St (cexp_wrap fmod2R sgnR p)). destruct (cexp_set_phase s _) as [s' [u|e]]; exact St.
    - specialize (St p). destruct (cexp_set_phase s p) as [s' r]. exact St. }
  split; [exact (G _ A)|]. intros i F. specialize (B i F). revert B. generalize (program i) (results (threads c i)). intros p r. induction 1 as [|q y l l' E _ IH]; constructor; [|exact IH].
  intros Eo x Ex Hx. destruct (E Eo) as (s & Hs & ->). rewrite Ex. cbn [cexp_call]. change (cexp_filter fmod2R sgnR expjR s (real_sig x)) with (cexp_filterR s (real_sig x)).
  destruct (C37_cexp_output s x Hx) as (p' & l0 & E1 & E2 & E3). exists s, l0. split; [exact (G s Hs)|]. rewrite E1. split; [reflexivity|]. split; [exact E2|]. intros n Hn. apply (E3 n Hn).
Qed.
Print Assumptions C201_each_call_continuous.

(** C201.  It is false that the calls continue one another: whatever the signals of two threads,
    there is a schedule in which both start at the same phase and the steps of one are lost. *)
Theorem C201_continuation_refuted (p : R) (x y : list R) : admissible x -> admissible y ->
  exists c, let program := fun i => match i with 0 => [(0, CFilter (real_sig x))] | 1 => [(0, CFilter (real_sig y))] | _ => [] end in
    steps (@cexp_code RO C fmod2R sgnR expjR) (start (fun _ => p) program) c /\ finished (threads c 0) /\ finished (threads c 1) /\
    results (threads c 0) = [snd (cexp_filterR p (real_sig x))] /\ results (threads c 1) = [snd (cexp_filterR p (real_sig y))] /\
    store c 0 = fst (cexp_filterR p (real_sig y)).
Proof.
  intros Hx Hy. set (cd := @cexp_code RO C fmod2R sgnR expjR). cbv zeta. set (program := fun i : nat => match i with 0 => _ | 1 => _ | _ => _ end).
  assert (Go : forall z s, admissible z -> go 1 (cd (CFilter (real_sig z))) s = (poke (fun _ : R => fst (cexp_filterR s (real_sig z))) (Ret (snd (cexp_filterR s (real_sig z)))), s)).
  { intros z s Hz. rewrite (cexp_filter_R s z Hz). cbn [fst snd]. unfold cd, cexp_code. rewrite input_ok by exact Hz. cbn [fcomplex fre real_sig]. unfold peek. cbn [go]. rewrite cexp_loop_R. unfold store_phase. change (cexp_wrap fmod2R sgnR) with wrapR. rewrite phase_ok by apply cexp_wrap_R. reflexivity. }
  set (c0 := start (fun _ : nat => p) program). assert (N : 1 <> 0) by discriminate. assert (N' : 0 <> 1) by discriminate.
  assert (A0 : threads c0 0 = mkThread [(0, CFilter (real_sig x))] None []) by reflexivity. assert (B0 : threads c0 1 = mkThread [(0, CFilter (real_sig y))] None []) by reflexivity.
  destruct (begins cd c0 0 _ _ _ A0) as (c1 & S1 & A1 & U1 & V1). destruct (acts cd 1 c1 0 _ _ _ A1) as (c2 & S2 & A2 & U2 & V2). rewrite U1 in A2, U2. change (store c0 0) with p in A2, U2.
  rewrite (Go x p Hx) in A2, U2. cbn [fst snd] in A2, U2.
  assert (B0' := eq_trans (V2 1 N) (eq_trans (V1 1 N) B0)). clear B0. rename B0' into B0. destruct (begins cd c2 1 _ _ _ B0) as (c3 & S3 & B3 & U3 & V3). rewrite U2 in U3. destruct (acts cd 1 c3 1 _ _ _ B3) as (c4 & S4 & B4 & U4 & V4). rewrite U3 in B4, U4.
  rewrite (Go y p Hy) in B4, U4. cbn [fst snd] in B4, U4.
  assert (A2' := eq_trans (V4 0 N') (eq_trans (V3 0 N') A2)). clear A2. rename A2' into A2. destruct (acts cd 1 c4 0 _ _ _ A2) as (c5 & S5 & A5 & U5 & V5). cbn [go poke fst snd] in A5, U5.
  destruct (returns cd c5 0 _ _ _ A5) as (c6 & S6 & A6 & U6 & V6).
  assert (B4' := eq_trans (V6 1 N) (eq_trans (V5 1 N) B4)). clear B4. rename B4' into B4. destruct (acts cd 1 c6 1 _ _ _ B4) as (c7 & S7 & B7 & U7 & V7). cbn [go poke fst snd] in B7, U7.
  destruct (returns cd c7 1 _ _ _ B7) as (c8 & S8 & B8 & U8 & V8). assert (A6' := eq_trans (V8 0 N') (eq_trans (V7 0 N') A6)). clear A6. rename A6' into A6.
  exists c8. split; [do 8 (eapply steps_trans; [|eassumption]); apply TNil|]. rewrite A6, B8. split; [split; reflexivity|]. split; [split; reflexivity|]. split; [reflexivity|]. split; [reflexivity|]. rewrite U8. exact U7.
Qed.
Print Assumptions C201_continuation_refuted.

(** in particular two signals of one quarter turn advance the phase by a quarter, not a half *)
Example C201_example : admissible [1 / 2]%R /\ (-1 <= 0 <= 1)%R /\ fst (cexp_filterR 0 (real_sig [1 / 2]%R)) = (1 / 2)%R /\ fst (cexp_filterR (1 / 2) (real_sig [1 / 2]%R)) <> (1 / 2)%R.
Proof.
  assert (Ad : admissible [1 / 2]%R) by (split; [discriminate|repeat constructor; rewrite Rabs_pos_eq; lra]).
  split; [exact Ad|]. split; [lra|].
  assert (In_ : forall s, fst (cexp_filterR s (real_sig [1 / 2]%R)) = wrapR (s + 1 / 2)) by (intros s; rewrite cexp_filter_R by exact Ad; cbn [fst length psum nth]; f_equal; lra).
  destruct (cexp_wrap_R (0 + 1 / 2)) as [R1 (z1 & E1)]. destruct (cexp_wrap_R (1 / 2 + 1 / 2)) as [R2 (z2 & E2)]. rewrite !In_. split.
  - assert (A1 : (IZR z1 < 1)%R) by lra. assert (A2 : (-1 < IZR z1)%R) by lra. apply lt_IZR in A1. apply lt_IZR in A2. assert (z1 = 0%Z) by lia. subst z1. lra.
  - intros E. assert (A : IZR (4 * z2) = IZR (-1)) by (rewrite mult_IZR; lra). apply eq_IZR in A. lia.
Qed.
