(** Property C204: ComplexFrequencyFilter objects shared by several threads. *)
From Coq Require Import List Arith ZArith Bool Lia Reals Lra.
From Coquelicot Require Import Complex.
From Verif Require Import Base BaseLemmas Instances FirModel CExpModel CExpProps CBandModel CBandProps CFreqProps ThreadModel ThreadProps DivThreadProps PidThreadProps CFreqThreadModel.
Import ListNotations.
Set Asymmetric Patterns.
Close Scope R_scope. Close Scope C_scope. Open Scope nat_scope.

(** ** Specification *)
Section Spec.
  Variable hilbert : list C -> list C.
  Variable program : nat -> list (nat * fqcall).
  Variable o : nat.
  Variables (b0 s0 : C) (r0 : R).                 (* coefficient, state and rate before the threads start *)
  (** a sample of the magnitude one, unless it is next to nothing *)
  Definition unit_of (d x : C) : Prop := (Cmod d <= 1 / 100000000)%R /\ x = d \/ (1 / 100000000 < Cmod d)%R /\ x = Cdiv d (RtoC (Cmod d)).
  Definition a_unit (x : C) : Prop := exists j d z, In (o, FqFilter d) (program j) /\ In z (analytic hilbert d) /\ unit_of z x.
  Definition a_rate (r : R) : Prop := r = r0 \/ (0 <= r <= 1)%R /\ exists j, In (o, FqRate r) (program j).
  Definition a_state (s : C) : Prop := s = s0 \/ a_unit s \/ exists j v, In (o, FqReset (Some v)) (program j) /\
    ((Cmod v <= 1 / 100000000)%R /\ s = RtoC 1 \/ (1 / 100000000 < Cmod v)%R /\ s = Cdiv v (RtoC (Cmod v))).
  (** coefficients the filter may hold: the first, one set, or one adapted by values that the
      filter had, though not at the same time *)
  Inductive a_coefficient : C -> Prop :=
  | Bstart : a_coefficient b0
  | Bset j f : In (o, FqFrequency f) (program j) -> (-1 <= f <= 1)%R -> a_coefficient (cis (PI * f))
  | Badapt b b' s s' r x : a_coefficient b -> a_coefficient b' -> a_state s -> a_state s' -> a_rate r -> a_unit x ->
      a_coefficient (Cplus b (Cmult (Cmult (RtoC r) (Cminus x (Cmult b' s))) (Cconj s'))).
  (** what filter reports of one sample *)
  Definition reported (d : C) (t : R * C * C) : Prop := let '(y, e, b) := t in
    (exists c, a_coefficient c /\ y = (angle c / PI)%R /\ (-1 < y <= 1)%R) /\
    (exists x c s, unit_of d x /\ a_coefficient c /\ a_state s /\ e = Cminus x (Cmult c s)) /\ a_coefficient b.
  Definition fq_answer (a : fqcall) (y : fout) : Prop :=
    match a with
    | FqFilter d => (d = [] /\ y = Err ValueError) \/ (d <> [] /\ exists out, y = Ok out /\ Forall2 reported (analytic hilbert d) out)
    | FqReset x => y = match x with Some _ => Ok [] | None => Err ValueError end
    | FqFrequency f => ((-1 <= f <= 1)%R /\ y = Ok []) \/ (~ (-1 <= f <= 1)%R /\ y = Err ValueError)
    | FqRate r => ((0 <= r <= 1)%R /\ y = Ok []) \/ (~ (0 <= r <= 1)%R /\ y = Err ValueError)
    end.
End Spec.

(** C204.  Without interruption the accesses are the calls of C44 to C47. *)
Lemma fq_loop_alone dt f r : forall xs out b s, complete (fq_loop xs out) (mkCfreq (mkFir (A := CA) dt [b] [s]) f r) =
  let '(b2, s2, o2) := cfreq_loop r b s xs in (mkCfreq (mkFir (A := CA) dt [b2] [s2]) f r, Ok (out ++ o2)).
Proof.
  induction xs as [|x xs IH]; intros out b s; [cbn; rewrite app_nil_r; reflexivity|].
  cbn [fq_loop cfreq_loop]. unfold read_b, read_s, write_b, write_s. cbn [peek complete ffir fb fs fdt ffreq frate]. rewrite IH.
  destruct (cfreq_loop r _ x xs) as [[b2 s2] o2]. rewrite <- app_assoc. reflexivity.
Qed.
Theorem C204_uninterrupted h a dt b s f r : let g := mkCfreq (mkFir (A := CA) dt [b] [s]) f r in
  complete (fq_code h a) g = fq_do h g a.
Proof.
  cbv zeta. destruct a as [d|[v|]|f'|r']; cbn [fq_code fq_do]; try reflexivity.
  - unfold cfreq_filter. destruct (length d =? 0); [reflexivity|]. rewrite fq_loop_alone. cbn [ffir fb fs frate fdt ffreq]. destruct (cfreq_loop r b s _) as [[b2 s2] o2]. reflexivity.
  - unfold cfreq_set_frequency. destruct (frequency_bad f'); reflexivity.
  - unfold cfreq_set_rate. destruct (rate_bad r'); reflexivity.
Qed.
Print Assumptions C204_uninterrupted.

Lemma frequency_bad_iff f : frequency_bad f = false <-> (-1 <= f <= 1)%R.
Proof.
  unfold frequency_bad. destruct (Rltb f (-1)) eqn:E1; [apply Rltb_iff in E1; cbn; split; [discriminate|lra]|]. destruct (Rltb 1 f) eqn:E2; [apply Rltb_iff in E2; cbn; split; [discriminate|lra]|].
  split; [intros _|reflexivity]. split; apply Rnot_lt_le; intros H; apply Rltb_iff in H; congruence.
Qed.
Lemma rate_bad_iff f : rate_bad f = false <-> (0 <= f <= 1)%R.
Proof.
  unfold rate_bad. destruct (Rltb f 0) eqn:E1; [apply Rltb_iff in E1; cbn; split; [discriminate|lra]|]. destruct (Rltb 1 f) eqn:E2; [apply Rltb_iff in E2; cbn; split; [discriminate|lra]|].
  split; [intros _|reflexivity]. split; apply Rnot_lt_le; intros H; apply Rltb_iff in H; congruence.
Qed.
Lemma unit_normalise d : unit_of d (normalise d).
Proof. destruct (normalise_cases d) as [[A B]|(A & B & _)]; [left|right]; auto. Qed.

Section Shared.
  Variable h : list C -> list C.
  Variable program : nat -> list (nat * fqcall).
  Variable o : nat.
  Variables (b0 s0 : C) (r0 : R).
  Let B := a_coefficient h program o b0 s0 r0.
  Let S := a_state h program o s0.
  Let T := a_rate program o r0.
  Definition fgood (g : cfreq) : Prop := exists b s, fb (ffir g) = [b] /\ fs (ffir g) = [s] /\ B b /\ S s /\ T (frate g).
  Definition RF (g g' : cfreq) : Prop := fgood g -> fgood g'.
  Definition QF (a : fqcall) (y : fout) (_ : cfreq) : Prop := fq_answer h program o b0 s0 r0 a y.
  Lemma fgood_stable : stable RF fgood. Proof. intros w w' X Y. exact (Y X). Qed.
  Lemma fkeeps_act a f k : (forall w, fgood w -> fgood (f w) /\ keeps RF QF a fgood (k w)) -> keeps RF QF a fgood (Act f k).
  Proof. intros H w Hw. destruct (H w Hw) as [H1 H2]. split; [intros _; exact H1|]. exists fgood. split; [exact fgood_stable|]. auto. Qed.
  Lemma k_read_b a k : (forall b, B b -> keeps RF QF a fgood (k b)) -> keeps RF QF a fgood (read_b k).
  Proof. intros H. apply fkeeps_act. intros w Hw. split; [exact Hw|]. destruct Hw as (b & s & -> & _ & Hb & _). auto. Qed.
  Lemma k_read_s a k : (forall s, S s -> keeps RF QF a fgood (k s)) -> keeps RF QF a fgood (read_s k).
  Proof. intros H. apply fkeeps_act. intros w Hw. split; [exact Hw|]. destruct Hw as (b & s & _ & -> & _ & Hs & _). auto. Qed.
  Lemma k_write_b a v c : B v -> keeps RF QF a fgood c -> keeps RF QF a fgood (write_b v c).
  Proof. intros Hv Hc. apply fkeeps_act. intros w (b & s & E1 & E2 & Hb & Hs & Ht). rewrite E1. split; [|exact Hc]. exists v, s. cbn [ffir fb fs frate]. auto 6. Qed.
  Lemma k_write_s a v c : S v -> keeps RF QF a fgood c -> keeps RF QF a fgood (write_s v c).
  Proof. intros Hv Hc. apply fkeeps_act. intros w (b & s & E1 & E2 & Hb & Hs & Ht). rewrite E2. split; [|exact Hc]. exists b, v. cbn [ffir fb fs frate]. auto 6. Qed.
  Lemma loop_keeps d j : In (o, FqFilter d) (program j) -> d <> [] -> forall zs before out, analytic h d = before ++ zs ->
    Forall2 (reported h program o b0 s0 r0) before out -> keeps RF QF (FqFilter d) fgood (fq_loop (map normalise zs) out).
  Proof.
    intros I Nd. induction zs as [|z zs IH]; intros before out E F.
    - intros w _. right. split; [exact Nd|]. exists out. split; [reflexivity|]. rewrite E, app_nil_r. exact F.
    - cbn [map fq_loop]. apply k_read_b. intros b1 H1. apply k_read_b. intros b2 H2. apply k_read_s. intros s1 H3. apply k_read_b. intros b3 H4. apply k_read_b. intros b4 H5.
      apply fkeeps_act. intros g Hg. split; [exact Hg|]. assert (Ht : T (frate g)) by (destruct Hg as (? & ? & _ & _ & _ & _ & Ht); exact Ht).
      apply k_read_s. intros s2 H6. assert (Hu : a_unit h program o (normalise z)) by (exists j, d, z; split; [exact I|]; split; [rewrite E; apply in_or_app; right; left; reflexivity|apply unit_normalise]).
      apply k_write_b; [exact (Badapt _ _ _ _ _ _ b4 b2 s1 s2 (frate g) (normalise z) H5 H2 H3 H6 Ht Hu)|]. apply k_write_s; [right; left; exact Hu|].
      apply (IH (before ++ [z])); [rewrite <- app_assoc; exact E|]. apply Forall2_app; [exact F|]. constructor; [|constructor]. split; [|split; [|exact H4]].
      + exists b1. split; [exact H1|]. split; [reflexivity|]. destruct (angle_range b1) as [A1 A2]. pose proof PI_RGT_0 as P. unfold Rdiv. split; [apply (Rmult_lt_reg_r PI); [exact P|]|apply (Rmult_le_reg_r PI); [exact P|]]; rewrite Rmult_assoc, Rinv_l by lra; lra.
      + exists (normalise z), b2, s1. split; [apply unit_normalise|]. auto.
  Qed.
  Lemma fcall_keeps j a : In (o, a) (program j) -> keeps RF QF a fgood (fq_code h a).
  Proof.
    intros I. destruct a as [d|[v|]|f|r]; cbn [fq_code].
    - destruct d as [|x d]; [intros w _; left; auto|]. cbn [length Nat.eqb]. apply (loop_keeps (x :: d) j I) with (before := []); [discriminate|reflexivity|constructor].
    - apply k_write_s; [|intros w _; reflexivity]. right. right. exists j, v. split; [exact I|]. destruct (near0 v) eqn:E; [left|right]; (split; [|reflexivity]).
      + apply near0_iff. exact E.
      + apply Rnot_le_lt. intros H. apply near0_iff in H. congruence.
    - intros w _. reflexivity.
    - destruct (frequency_bad f) eqn:E.
      + intros w _. right. split; [|reflexivity]. intros H. apply frequency_bad_iff in H. congruence.
      + apply frequency_bad_iff in E. apply k_write_b; [exact (Bset _ _ _ _ _ _ j f I E)|]. apply fkeeps_act. intros w Hw. split; [exact Hw|]. intros w' _. left. auto.
    - destruct (rate_bad r) eqn:E.
      + intros w _. right. split; [|reflexivity]. intros H. apply rate_bad_iff in H. congruence.
      + apply rate_bad_iff in E. apply fkeeps_act. intros w (b & s & E1 & E2 & Hb & Hs & _). split; [exists b, s; cbn [ffir frate]; repeat split; try assumption; right; split; [exact E|exists j; exact I]|]. intros w' _. left. auto.
  Qed.
End Shared.

(** C204.  Under any schedule, a shared ComplexFrequencyFilter keeps one coefficient and one
    state; no call fails that would not fail alone; and for each sample it reports a frequency
    in (-1, 1] of a coefficient, an error and a coefficient that the filter had. *)
Theorem C204_shared_frequency h (st : nat -> cfreq) program c o b0 s0 : fb (ffir (st o)) = [b0] -> fs (ffir (st o)) = [s0] ->
  steps (fq_code h) (start st program) c ->
  (exists b s, fb (ffir (store c o)) = [b] /\ fs (ffir (store c o)) = [s] /\ a_coefficient h program o b0 s0 (frate (st o)) b /\ a_state h program o s0 s /\ a_rate program o (frate (st o)) (frate (store c o))) /\
  forall i, finished (threads c i) ->
    Forall2 (fun p y => fst p = o -> fq_answer h program o b0 s0 (frate (st o)) (snd p) y) (program i) (results (threads c i)).
Proof.
  intros Eb Es S. set (R := RF h program o b0 s0 (frate (st o))). set (Q := QF h program o b0 s0 (frate (st o))).
  assert (G0 : fgood h program o b0 s0 (frate (st o)) (st o)).
  { exists b0, s0. split; [exact Eb|]. split; [exact Es|]. split; [apply Bstart|]. split; left; reflexivity. }
  assert (K : forall j a, In (o, a) (program j) -> keeps R Q a (R (st o)) (fq_code h a)).
  { intros j a I. assert (G := fcall_keeps h program o b0 s0 (frate (st o)) j a I). fold R Q in G. destruct (fq_code h a) as [y|f k]; intros w Hw; apply G; apply Hw; exact G0. }
  assert (Rr : forall w, R w w) by (intros w A; exact A). assert (Rt : forall a b d, R a b -> R b d -> R a d) by (intros a b d A B C; exact (B (A C))).
  assert (Qs : forall a y, stable R (Q a y)) by (intros a y w w' A _; exact A).
  destruct (shared_kept (fq_code h) program st o R Rr Rt Q Qs K c S) as [H _]. split; [exact (H G0)|].
  intros i Fi. exact (finished_results (fq_code h) program st o R Q c i Rr Rt Qs K S Fi).
Qed.
Print Assumptions C204_shared_frequency.

(** C204.  If the rate is zero and no thread sets rate or frequency, the coefficient never
    changes, and every sample of every thread gets the same frequency. *)
Theorem C204_without_adaptation h (st : nat -> cfreq) program c o b0 s0 : fb (ffir (st o)) = [b0] -> fs (ffir (st o)) = [s0] -> frate (st o) = 0%R ->
  (forall j a, In (o, a) (program j) -> match a with FqFilter _ | FqReset _ => True | _ => False end) ->
  steps (fq_code h) (start st program) c ->
  fb (ffir (store c o)) = [b0] /\
  forall i, finished (threads c i) ->
    Forall2 (fun p y => fst p = o -> forall d out, snd p = FqFilter d -> y = Ok out -> Forall (fun t => fst (fst t) = (angle b0 / PI)%R /\ snd t = b0) out) (program i) (results (threads c i)).
Proof.
  intros Eb Es Er Hp S. destruct (C204_shared_frequency h st program c o b0 s0 Eb Es S) as [(b & s & E1 & _ & Hb & _) A]. rewrite Er in Hb, A.
  assert (G : forall b, a_coefficient h program o b0 s0 0 b -> b = b0).
  { induction 1 as [|j f I _|b1 b2 s1 s2 r x _ IH _ _ _ _ Hr _]; [reflexivity|destruct (Hp _ _ I)|]. rewrite IH. destruct Hr as [->|(_ & j & I)]; [|destruct (Hp _ _ I)]. ring. }
  split; [rewrite E1, (G b Hb); reflexivity|]. intros i F. specialize (A i F). revert A. generalize (program i) (results (threads c i)). intros p r. induction 1 as [|q y l l' E _ IH]; constructor; [|exact IH].
  intros Eo d out Ed ->. specialize (E Eo). rewrite Ed in E. destruct E as [[_ E]|(_ & out' & E & F2)]; [discriminate|]. injection E as <-. clear - F2 G.
  induction F2 as [|z [[y e] b1] zs ts ((c & Hc & -> & _) & _ & H3) _ IH]; constructor; [|exact IH]. cbn [fst snd]. rewrite (G _ Hc), (G _ H3). auto.
Qed.
Print Assumptions C204_without_adaptation.

(** ** Many threads at the same place *)
Section Waves.
  Context {W A Y : Type}.
  Variable code_of : A -> code W Y.
  (** the first n threads make k accesses each, one thread after the other *)
  Lemma wave n k cd cd' (I : W -> Prop) (F : W -> W) t r : (forall w, I w -> go k cd w = (cd', F w) /\ I (F w)) ->
    forall c, (forall i, i < n -> threads c i = mkThread t (Some (0, cd)) r) -> I (store c 0) ->
    exists c', steps code_of c c' /\ (forall i, i < n -> threads c' i = mkThread t (Some (0, cd')) r) /\ store c' 0 = Nat.iter n F (store c 0) /\ I (store c' 0) /\ forall i, n <= i -> threads c' i = threads c i.
  Proof.
    intros H c. induction n as [|n IH]; intros T Ic; [exists c; split; [apply TNil|]; split; [lia|]; auto|].
    destruct (IH (fun i L => T i (Nat.lt_lt_succ_r _ _ L)) Ic) as (c1 & S1 & T1 & U1 & I1 & V1). assert (Tn : threads c1 n = mkThread t (Some (0, cd)) r) by (rewrite V1 by lia; apply T; lia).
    destruct (acts code_of k c1 n _ _ _ Tn) as (c2 & S2 & T2 & U2 & V2). destruct (H _ I1) as [Hg Hi]. rewrite Hg in T2, U2. cbn [fst snd] in T2, U2.
    exists c2. split; [exact (steps_trans code_of _ _ _ S1 S2)|]. split; [|split; [|split]].
    - intros i Li. destruct (Nat.eq_dec i n) as [->|N]; [exact T2|]. rewrite V2 by exact N. apply T1. lia.
    - rewrite U2, U1. reflexivity.
    - rewrite U2. exact Hi.
    - intros i Li. rewrite V2, V1 by lia. reflexivity.
  Qed.
  Lemma wave_begin n a t r : forall c, (forall i, i < n -> threads c i = mkThread ((0, a) :: t) None r) ->
    exists c', steps code_of c c' /\ (forall i, i < n -> threads c' i = mkThread t (Some (0, code_of a)) r) /\ store c' 0 = store c 0 /\ forall i, n <= i -> threads c' i = threads c i.
  Proof.
    intros c. induction n as [|n IH]; intros T; [exists c; split; [apply TNil|]; split; [lia|]; auto|].
    destruct (IH (fun i L => T i (Nat.lt_lt_succ_r _ _ L))) as (c1 & S1 & T1 & U1 & V1). assert (Tn : threads c1 n = mkThread ((0, a) :: t) None r) by (rewrite V1 by lia; apply T; lia).
    destruct (begins code_of c1 n _ _ _ Tn) as (c2 & S2 & T2 & U2 & V2). exists c2. split; [exact (steps_trans code_of _ _ _ S1 S2)|]. split; [|split].
    - intros i Li. destruct (Nat.eq_dec i n) as [->|N]; [exact T2|]. rewrite V2 by exact N. apply T1. lia.
    - rewrite U2, U1. reflexivity.
    - intros i Li. rewrite V2, V1 by lia. reflexivity.
  Qed.
  Lemma wave_return n y t r : forall c, (forall i, i < n -> threads c i = mkThread t (Some (0, Ret y)) r) ->
    exists c', steps code_of c c' /\ (forall i, i < n -> threads c' i = mkThread t None (r ++ [y])) /\ store c' 0 = store c 0 /\ forall i, n <= i -> threads c' i = threads c i.
  Proof.
    intros c. induction n as [|n IH]; intros T; [exists c; split; [apply TNil|]; split; [lia|]; auto|].
    destruct (IH (fun i L => T i (Nat.lt_lt_succ_r _ _ L))) as (c1 & S1 & T1 & U1 & V1). assert (Tn : threads c1 n = mkThread t (Some (0, Ret y)) r) by (rewrite V1 by lia; apply T; lia).
    destruct (returns code_of c1 n _ _ _ Tn) as (c2 & S2 & T2 & U2 & V2). exists c2. split; [exact (steps_trans code_of _ _ _ S1 S2)|]. split; [|split].
    - intros i Li. destruct (Nat.eq_dec i n) as [->|N]; [exact T2|]. rewrite V2 by exact N. apply T1. lia.
    - rewrite U2, U1. reflexivity.
    - intros i Li. rewrite V2, V1 by lia. reflexivity.
  Qed.
End Waves.

(** C204.  It is false that the coefficient stays bounded, as it does alone (C47): n threads
    that filter one sample each, all a quarter turn ahead, can move it n times too far. *)
Theorem C204_bounded_refuted h (n : nat) f r : exists c, let program := fun i => if i <? n then [(0, FqFilter [Ci])] else [] in
    steps (fq_code h) (start (fun _ => mkCfreq (mkFir (A := CA) DComplex [RtoC 1] [RtoC 1]) f r) program) c /\ (forall i, finished (threads c i)) /\
    fb (ffir (store c 0)) = [((1 - INR n * r)%R, (INR n * r)%R)].
Proof.
  cbv zeta. set (program := fun i : nat => if i <? n then [(0, FqFilter [Ci])] else []). set (cd := fq_code h).
  set (g := fun b s : C => mkCfreq (mkFir (A := CA) DComplex [b] [s]) f r). set (e := Cminus Ci (Cmult (RtoC 1) (RtoC 1))).
  assert (Nm : normalise Ci = Ci).
  { assert (M : Cmod Ci = 1%R) by (unfold Cmod, Ci; cbn [fst snd]; replace (0 ^ 2 + 1 ^ 2)%R with 1%R by ring; apply sqrt_1). destruct (normalise_cases Ci) as [[A _]|(_ & -> & _)]; [rewrite M in A; lra|]. rewrite M. unfold Cdiv. replace (/ RtoC 1)%C with (RtoC 1) by (rewrite <- RtoC_inv by lra; f_equal; field). ring. }
  assert (Cd : cd (FqFilter [Ci]) = fq_loop [Ci] []).
  { unfold cd, fq_code. cbn [length Nat.eqb]. unfold analytic. assert (X : existsb has_imag [Ci] = true) by (cbn; unfold has_imag; cbn [snd Ci]; destruct (Reqb 1 0) eqn:E; [apply Reqb_iff in E; lra|reflexivity]). rewrite X. cbn [map]. rewrite Nm. reflexivity. }
  set (k1 := write_s Ci (Ret (Ok [((angle (RtoC 1) / PI)%R, e, RtoC 1)]))).
  set (k0 := read_b (fun b4 => peek (fun g => read_s (fun s2 => write_b (Cplus b4 (Cmult (Cmult (RtoC (frate g)) e) (Cconj s2))) k1)))).
  set (c0 := start (Y := fout) (fun _ : nat => g (RtoC 1) (RtoC 1)) program).
  assert (T0 : forall i, i < n -> threads c0 i = mkThread [(0, FqFilter [Ci])] None []) by (intros i L; cbn [c0 start threads]; unfold program; apply Nat.ltb_lt in L; rewrite L; reflexivity).
  destruct (wave_begin cd n _ _ _ c0 T0) as (c1 & S1 & T1 & U1 & V1). rewrite Cd in T1.
  destruct (wave cd n 4 (fq_loop [Ci] []) k0 (fun w => w = g (RtoC 1) (RtoC 1)) (fun w => w) [] []) with (c := c1) as (c2 & S2 & T2 & U2 & I2 & V2); [intros w ->; split; reflexivity|exact T1|rewrite U1; reflexivity|].
  set (up1 := fun w : cfreq => match fb (ffir w) with b :: _ => g (Cplus b (Cmult (Cmult (RtoC r) e) (Cconj (RtoC 1)))) (RtoC 1) | [] => w end).
  destruct (wave cd n 4 k0 k1 (fun w => exists b, w = g b (RtoC 1)) up1 [] []) with (c := c2) as (c3 & S3 & T3 & U3 & I3 & V3); [intros w (b & ->); split; [reflexivity|eexists; reflexivity]|exact T2|eexists; exact I2|].
  set (up2 := fun w : cfreq => match fb (ffir w) with b :: _ => g b Ci | [] => w end).
  destruct (wave cd n 1 k1 (Ret (Ok [((angle (RtoC 1) / PI)%R, e, RtoC 1)])) (fun w => exists b s, w = g b s) up2 [] []) with (c := c3) as (c4 & S4 & T4 & U4 & I4 & V4); [intros w (b & s & ->); split; [reflexivity|eexists; eexists; reflexivity]|exact T3|destruct I3 as (b & E3); exists b, (RtoC 1); exact E3|].
  destruct (wave_return cd n _ _ _ c4 T4) as (c5 & S5 & T5 & U5 & V5).
  exists c5. split; [do 5 (eapply steps_trans; [|eassumption]); apply TNil|]. split.
  - intros i. destruct (Nat.lt_ge_cases i n) as [L|L]; [rewrite (T5 i L); split; reflexivity|]. rewrite V5, V4, V3, V2, V1 by exact L. cbn [c0 start threads]. unfold program. apply Nat.ltb_ge in L. rewrite L. split; reflexivity.
  - rewrite U5, U4, U3, I2.
    assert (P1 : forall m, Nat.iter m up1 (g (RtoC 1) (RtoC 1)) = g ((1 - INR m * r)%R, (INR m * r)%R) (RtoC 1)).
    { induction m as [|m IH]; [cbn [Nat.iter nat_rect]; f_equal; unfold RtoC; cbn [INR]; f_equal; ring|]. cbn [Nat.iter nat_rect]. change (nat_rect (fun _ => cfreq) (g (RtoC 1) (RtoC 1)) (fun _ => up1) m) with (Nat.iter m up1 (g (RtoC 1) (RtoC 1))). rewrite IH. unfold up1. cbn [g ffir fb]. f_equal.
      unfold e, Cplus, Cmult, Cminus, Cconj, Copp, Cplus, RtoC, Ci. cbn [fst snd]. rewrite S_INR. f_equal; ring. }
    assert (P2 : forall m b s, fb (ffir (Nat.iter m up2 (g b s))) = [b]).
    { assert (Q : forall m b s, exists s', Nat.iter m up2 (g b s) = g b s') by (induction m as [|m IH]; intros b s; [exists s; reflexivity|]; destruct (IH b s) as (s' & E); exists Ci; cbn [Nat.iter nat_rect]; change (nat_rect (fun _ => cfreq) (g b s) (fun _ => up2) m) with (Nat.iter m up2 (g b s)); rewrite E; reflexivity). intros m b s. destruct (Q m b s) as (s' & ->). reflexivity. }
    rewrite P1, P2. reflexivity.
Qed.
Print Assumptions C204_bounded_refuted.

(** four threads, a rate of one half: alone the coefficient is of magnitude at most one *)
Example C204_example h : exists g, cfreq_make 0 (1 / 2) = Ok g /\ fb (ffir g) = [RtoC 1] /\ fs (ffir g) = [RtoC 1] /\ (0 <= 1 / 2 <= 1)%R /\
  (1 < Cmod ((1 - INR 4 * (1 / 2))%R, (INR 4 * (1 / 2))%R))%R /\
  In (0, FqFilter [Ci]) ((fun i => if i <? 4 then [(0, FqFilter [Ci])] else []) 3) /\ analytic h [Ci] = [Ci].
Proof.
  exists (mkCfreq (mkFir (A := CA) DComplex [RtoC 1] [RtoC 1]) 0 (1 / 2)). split.
  { unfold cfreq_make. rewrite (proj2 (frequency_bad_iff 0)), (proj2 (rate_bad_iff (1 / 2))) by lra. reflexivity. }
  split; [reflexivity|]. split; [reflexivity|]. split; [lra|]. split.
  { unfold Cmod. cbn [fst snd INR]. rewrite <- sqrt_1 at 1. apply sqrt_lt_1_alt. split; [lra|]. ring_simplify. lra. }
  split; [left; reflexivity|]. unfold analytic. assert (X : existsb has_imag [Ci] = true) by (cbn; unfold has_imag; cbn [snd Ci]; destruct (Reqb 1 0) eqn:E; [apply Reqb_iff in E; lra|reflexivity]). rewrite X. reflexivity.
Qed.
(** a filter that does not adapt: two threads, one that filters and one that resets *)
Example C204_example_fixed : exists g, cfreq_make (1 / 2) 0 = Ok g /\ frate g = 0%R /\ fs (ffir g) = [RtoC 1] /\
  let program := fun i => match i with 0 => [(0, FqFilter [Ci; RtoC 1])] | 1 => [(0, FqReset (Some Ci))] | _ => [] end in
  forall j a, In (0, a) (program j) -> match a with FqFilter _ | FqReset _ => True | _ => False end.
Proof.
  eexists. split; [unfold cfreq_make; rewrite (proj2 (frequency_bad_iff (1 / 2))), (proj2 (rate_bad_iff 0)) by lra; reflexivity|]. split; [reflexivity|]. split; [reflexivity|].
  intros program [|[|j]] a; cbn; [intros [E|[]]|intros [E|[]]|intros []]; injection E as <-; exact I.
Qed.
