(** Property C205: ComplexBandpassFilter objects shared by several threads. *)
From Coq Require Import List Arith ZArith Bool Lia Reals Lra.
From Coquelicot Require Import Complex.
From Verif Require Import Base BaseLemmas Instances CalculusModel FirModel CExpModel CExpProps CBandModel CBandProps ThreadModel ThreadProps DivThreadProps PidThreadProps CFreqThreadProps CBandThreadModel.
Import ListNotations.
Set Asymmetric Patterns.
Close Scope R_scope. Close Scope C_scope. Open Scope nat_scope.

(** ** Specification *)
Section Spec.
  Variable hilbert : list C -> list C.
  Variable program : nat -> list (nat * bpcall).
  Variable o : nat.
  Variables (b0 : C) (f0 r0 : R).                 (* coefficient, frequency and rate before the threads start *)
  Definition had_frequency (f : R) : Prop := f = f0 \/ (-1 <= f <= 1)%R /\ exists j, In (o, BpFrequency f) (program j).
  Definition had_rate (r : R) : Prop := r = r0 \/ (0 <= r <= 1)%R /\ exists j, In (o, BpRate r) (program j).
  (** the n-th sample of a tone of frequency f that starts at phase p *)
  Definition tone (p f : R) (n : nat) : C := cis (PI * (p + INR n * f)).
  (** coefficients the filter may hold: the first, or one adapted towards a sample of a thread by
      coefficients, a rate and a frequency that the filter had *)
  Inductive had_coefficient : C -> Prop :=
  | Kstart : had_coefficient b0
  | Kadapt b b' r p f n j d : had_coefficient b -> had_coefficient b' -> had_rate r -> (-1 <= p <= 1)%R -> had_frequency f ->
      In (o, BpFilter d) (program j) -> n < length d ->
      had_coefficient (Cplus b (Cmult (Cmult (RtoC r) (Cminus (nth n (analytic hilbert d) (RtoC 0)) (Cmult (tone p f n) b'))) (Cconj (tone p f n)))).
  (** what filter reports of sample n, z: one tone serves a whole call *)
  Definition bp_reported (p f : R) (n : nat) (z : C) (t : C * C * C) : Prop := let '(y, e, b) := t in
    (exists c, had_coefficient c /\ y = Cmult (tone p f n) c) /\ e = Cminus z y /\ had_coefficient b.
  Definition bp_answer (a : bpcall) (y : bout) : Prop :=
    match a with
    | BpFilter d => (d = [] /\ y = Err ValueError) \/ (d <> [] /\ exists p f out, (-1 <= p <= 1)%R /\ had_frequency f /\ y = Ok out /\ length out = length d /\
        forall n, n < length d -> bp_reported p f n (nth n (analytic hilbert d) (RtoC 0)) (nth n out (RtoC 0, RtoC 0, RtoC 0)))
    | BpReset x => y = match x with Some _ => Ok [] | None => Err ValueError end
    | BpFrequency f => ((-1 <= f <= 1)%R /\ y = Ok []) \/ (~ (-1 <= f <= 1)%R /\ y = Err ValueError)
    | BpRate r => ((0 <= r <= 1)%R /\ y = Ok []) \/ (~ (0 <= r <= 1)%R /\ y = Err ValueError)
    end.
End Spec.

(** C205.  Without interruption the accesses are the calls of C41 to C44. *)
Lemma bp_loop_alone dt s p f r : forall xs ds out b, complete (bp_loop xs ds out) (mkCband (mkFir (A := CA) dt [b] s) p f r) =
  let '(b2, o2) := cband_loop r b xs ds in (mkCband (mkFir (A := CA) dt [b2] s) p f r, Ok (out ++ o2)).
Proof.
  induction xs as [|x xs IH]; intros [|d ds] out b; try (cbn; rewrite app_nil_r; reflexivity).
  cbn [bp_loop cband_loop]. unfold bread, bwrite. cbn [peek complete bfir fb fs fdt bphase bfreq brate]. rewrite IH.
  destruct (cband_loop r _ xs ds) as [b2 o2]. rewrite <- app_assoc. reflexivity.
Qed.
Theorem C205_uninterrupted h a dt b s p f r : let g := mkCband (mkFir (A := CA) dt [b] s) p f r in
  complete (bp_code h a) g = bp_do h g a.
Proof.
  cbv zeta. destruct a as [d|[v|]|f'|r']; cbn [bp_code bp_do]; try reflexivity.
  - unfold cband_filter. destruct (length d =? 0); [reflexivity|]. cbn [peek complete bfreq bphase bfir brate fb fs fdt]. unfold tone_code, cexp_filterR, cexp_filter.
    destruct (_ || _)%bool; [reflexivity|]. cbn [peek complete bphase fre real_sig fcomplex]. destruct (cexp_loop expjR p _) as [p2 xs]. unfold cexp_set_phase. change (cexp_wrap fmod2R sgnR p2) with (wrapR p2).
    destruct (phase_bad (wrapR p2)); [reflexivity|]. cbn [poke complete bfir bfreq brate]. rewrite bp_loop_alone. destruct (cband_loop r b xs _) as [b2 o2]. reflexivity.
  - unfold cband_set_frequency. destruct (frequency_bad f'); reflexivity.
  - unfold cband_set_rate. destruct (rate_bad r'); reflexivity.
Qed.
Print Assumptions C205_uninterrupted.

Lemma skipn_cons_nth {T} (z : T) : forall l k, k < length l -> skipn k l = nth k l z :: skipn (S k) l.
Proof. induction l as [|x l IH]; intros [|k] H; cbn [length] in H; [lia|lia|reflexivity|]. change (skipn k l = nth k l z :: skipn (S k) l). apply IH. lia. Qed.

Section Shared.
  Variable h : list C -> list C.
  Hypothesis Hh : keeps_length h.
  Variable program : nat -> list (nat * bpcall).
  Variable o : nat.
  Variables (b0 : C) (f0 r0 : R).
  Hypothesis Hf0 : (-1 <= f0 <= 1)%R.
  Let B := had_coefficient h program o b0 f0 r0.
  Definition bgood (g : cband) : Prop := (exists b, fb (bfir g) = [b] /\ B b) /\ (-1 <= bphase g <= 1)%R /\ had_frequency program o f0 (bfreq g) /\ had_rate program o r0 (brate g).
  Definition RB (g g' : cband) : Prop := bgood g -> bgood g'.
  Definition QB (a : bpcall) (y : bout) (_ : cband) : Prop := bp_answer h program o b0 f0 r0 a y.
  Lemma bgood_stable : stable RB bgood. Proof. intros w w' X Y. exact (Y X). Qed.
  Lemma bkeeps_act a f k : (forall w, bgood w -> bgood (f w) /\ keeps RB QB a bgood (k w)) -> keeps RB QB a bgood (Act f k).
  Proof. intros H w Hw. destruct (H w Hw) as [H1 H2]. split; [intros _; exact H1|]. exists bgood. split; [exact bgood_stable|]. auto. Qed.
  Lemma k_bread a k : (forall b, B b -> keeps RB QB a bgood (k b)) -> keeps RB QB a bgood (bread k).
  Proof. intros H. apply bkeeps_act. intros w Hw. split; [exact Hw|]. destruct Hw as ((b & -> & Hb) & _). auto. Qed.
  Lemma k_bwrite a v c : B v -> keeps RB QB a bgood c -> keeps RB QB a bgood (bwrite v c).
  Proof. intros Hv Hc. apply bkeeps_act. intros w ((b & E & Hb) & Hw). rewrite E. split; [|exact Hc]. split; [exists v; auto|exact Hw]. Qed.
  Lemma had_range f : had_frequency program o f0 f -> (-1 <= f <= 1)%R.
  Proof. intros [->|[H _]]; [exact Hf0|exact H]. Qed.
  Lemma bloop_keeps d j p f : In (o, BpFilter d) (program j) -> d <> [] -> (-1 <= p <= 1)%R -> had_frequency program o f0 f ->
    forall m k out, k + m = length d -> length out = k ->
    (forall n, n < k -> bp_reported h program o b0 f0 r0 p f n (nth n (analytic h d) (RtoC 0)) (nth n out (RtoC 0, RtoC 0, RtoC 0))) ->
    keeps RB QB (BpFilter d) bgood (bp_loop (map (tone p f) (seq k m)) (skipn k (analytic h d)) out).
  Proof.
    intros I Nd Hp Hf. pose proof (analytic_length h d Hh) as L. induction m as [|m IH]; intros k out Ek Eo Hr.
    - intros w _. right. split; [exact Nd|]. exists p, f, out. split; [exact Hp|]. split; [exact Hf|]. split; [reflexivity|]. split; [lia|]. intros n Hn. apply Hr. lia.
    - cbn [seq map]. assert (Es : skipn k (analytic h d) = nth k (analytic h d) (RtoC 0) :: skipn (S k) (analytic h d)).
      { apply skipn_cons_nth. lia. }
      rewrite Es. cbn [bp_loop]. apply k_bread. intros b1 H1. apply k_bread. intros b2 H2. apply k_bread. intros b3 H3.
      apply bkeeps_act. intros g Hg. split; [exact Hg|]. assert (Ht : had_rate program o r0 (brate g)) by apply Hg.
      apply k_bwrite; [exact (Kadapt _ _ _ _ _ _ b3 b1 (brate g) p f k j d H3 H1 Ht Hp Hf I ltac:(lia))|].
      apply IH; [lia|rewrite app_length; cbn [length]; lia|]. intros n Hn. destruct (Nat.eq_dec n k) as [->|N].
      + rewrite app_nth2, Eo, Nat.sub_diag by lia. cbn [nth]. split; [exists b1; auto|]. split; [reflexivity|exact H2].
      + rewrite app_nth1 by lia. apply Hr. lia.
  Qed.
  Lemma bcall_keeps j a : In (o, a) (program j) -> keeps RB QB a bgood (bp_code h a).
  Proof.
    intros I. destruct a as [d|[v|]|f|r]; cbn [bp_code].
    - destruct (Nat.eqb_spec (length d) 0) as [E|N]; [intros w _; left; split; [apply length_zero_iff_nil; exact E|reflexivity]|].
      assert (Nd : d <> []) by (intros ->; apply N; reflexivity). pose proof (analytic_length h d Hh) as L.
      apply bkeeps_act. intros g Hg. split; [exact Hg|]. destruct Hg as (_ & _ & Hf & _). pose proof (had_range _ Hf) as Hr. set (f := bfreq g) in *.
      unfold tone_code. rewrite input_ok.
      2:{ split; [rewrite L; destruct (length d); [lia|discriminate]|]. apply Forall_forall. intros x Hx. apply repeat_spec in Hx. subst x. apply Rabs_le. lra. }
      apply bkeeps_act. intros g1 Hg1. split; [exact Hg1|]. rewrite cexp_loop_R. destruct Hg1 as (_ & Hp & _). set (p := bphase g1) in *.
      rewrite phase_ok by apply cexp_wrap_R. apply bkeeps_act. intros g2 (G1 & _ & G3 & G4). split; [split; [exact G1|]; split; [apply cexp_wrap_R|]; split; [exact G3|exact G4]|].
      rewrite repeat_length, L. replace (map (fun n => expjR (p + psum (repeat (1 * f)%R (length d)) n)) (seq 0 (length d))) with (map (tone p f) (seq 0 (length d))).
      + apply (bloop_keeps d j p f I Nd Hp Hf (length d) 0 []); [reflexivity|reflexivity|lia].
      + apply map_ext_in. intros n Hn. apply in_seq in Hn. rewrite psum_repeat by lia. unfold expjR, tone. rewrite Rmult_1_l. reflexivity.
    - apply bkeeps_act. intros w ((b & E & Hb) & Hw). split; [|intros w' _; reflexivity]. split; [exists b; split; [exact E|exact Hb]|exact Hw].
    - intros w _. reflexivity.
    - destruct (frequency_bad f) eqn:E.
      + intros w _. right. split; [|reflexivity]. intros H. apply frequency_bad_iff in H. congruence.
      + apply frequency_bad_iff in E. apply bkeeps_act. intros w (G1 & G2 & _ & G4). split; [|intros w' _; left; auto]. split; [exact G1|]. split; [exact G2|]. split; [right; split; [exact E|exists j; exact I]|exact G4].
    - destruct (rate_bad r) eqn:E.
      + intros w _. right. split; [|reflexivity]. intros H. apply rate_bad_iff in H. congruence.
      + apply rate_bad_iff in E. apply bkeeps_act. intros w (G1 & G2 & G3 & _). split; [|intros w' _; left; auto]. split; [exact G1|]. split; [exact G2|]. split; [exact G3|right; split; [exact E|exists j; exact I]].
  Qed.
End Shared.

(** C205.  Under any schedule, a shared ComplexBandpassFilter keeps one coefficient and a phase
    in [-1, 1]; no call fails that would not fail alone; each call of filter uses one tone, of
    a frequency that the filter had; outputs are that tone times coefficients that the filter
    had, and errors are exactly the samples less the outputs. *)
Theorem C205_shared_bandpass h (st : nat -> cband) program c o b0 : keeps_length h -> fb (bfir (st o)) = [b0] -> (-1 <= bfreq (st o) <= 1)%R -> (-1 <= bphase (st o) <= 1)%R ->
  steps (bp_code h) (start st program) c ->
  ((exists b, fb (bfir (store c o)) = [b] /\ had_coefficient h program o b0 (bfreq (st o)) (brate (st o)) b) /\ (-1 <= bphase (store c o) <= 1)%R /\
   had_frequency program o (bfreq (st o)) (bfreq (store c o)) /\ had_rate program o (brate (st o)) (brate (store c o))) /\
  forall i, finished (threads c i) ->
    Forall2 (fun p y => fst p = o -> bp_answer h program o b0 (bfreq (st o)) (brate (st o)) (snd p) y) (program i) (results (threads c i)).
Proof.
  intros Hh Eb Hf Hp S. set (R := RB h program o b0 (bfreq (st o)) (brate (st o))). set (Q := QB h program o b0 (bfreq (st o)) (brate (st o))).
  assert (G0 : bgood h program o b0 (bfreq (st o)) (brate (st o)) (st o)).
  { split; [exists b0; split; [exact Eb|apply Kstart]|]. split; [exact Hp|]. split; left; reflexivity. }
  assert (K : forall j a, In (o, a) (program j) -> keeps R Q a (R (st o)) (bp_code h a)).
  { intros j a I. assert (G := bcall_keeps h Hh program o b0 (bfreq (st o)) (brate (st o)) Hf j a I). fold R Q in G. destruct (bp_code h a) as [y|f k]; intros w Hw; apply G; apply Hw; exact G0. }
  assert (Rr : forall w, R w w) by (intros w A; exact A). assert (Rt : forall a b d, R a b -> R b d -> R a d) by (intros a b d A B C; exact (B (A C))).
  assert (Qs : forall a y, stable R (Q a y)) by (intros a y w w' A _; exact A).
  destruct (shared_kept (bp_code h) program st o R Rr Rt Q Qs K c S) as [H _]. split; [exact (H G0)|].
  intros i Fi. exact (finished_results (bp_code h) program st o R Q c i Rr Rt Qs K S Fi).
Qed.
Print Assumptions C205_shared_bandpass.

(** C205.  If the rate is zero and no thread sets it, the coefficient never changes: every call
    answers with a tone of constant amplitude. *)
Theorem C205_without_adaptation h (st : nat -> cband) program c o b0 : keeps_length h -> fb (bfir (st o)) = [b0] -> (-1 <= bfreq (st o) <= 1)%R -> (-1 <= bphase (st o) <= 1)%R -> brate (st o) = 0%R ->
  (forall j r, ~ In (o, BpRate r) (program j)) ->
  steps (bp_code h) (start st program) c ->
  fb (bfir (store c o)) = [b0] /\
  forall i, finished (threads c i) ->
    Forall2 (fun q y => fst q = o -> forall d out, snd q = BpFilter d -> y = Ok out -> exists p f, had_frequency program o (bfreq (st o)) f /\
      forall n, n < length d -> let '(y, e, b) := nth n out (RtoC 0, RtoC 0, RtoC 0) in y = Cmult (tone p f n) b0 /\ e = Cminus (nth n (analytic h d) (RtoC 0)) y /\ b = b0) (program i) (results (threads c i)).
Proof.
  intros Hh Eb Hf Hp Er Hn S. destruct (C205_shared_bandpass h st program c o b0 Hh Eb Hf Hp S) as [((b & E1 & Hb) & _) A]. rewrite Er in Hb, A.
  assert (G : forall b, had_coefficient h program o b0 (bfreq (st o)) 0 b -> b = b0).
  { induction 1 as [|b1 b2 r p f n j d _ IH _ _ Hr _ _ _ _]; [reflexivity|]. rewrite IH. destruct Hr as [->|(_ & j' & I)]; [ring|destruct (Hn _ _ I)]. }
  split; [rewrite E1, (G b Hb); reflexivity|]. intros i F. specialize (A i F). revert A. generalize (program i) (results (threads c i)). intros ps rs. induction 1 as [|q y l l' E _ IH]; constructor; [|exact IH].
  intros Eo d out Ed ->. specialize (E Eo). rewrite Ed in E. destruct E as [[_ E]|(_ & p & f & out' & _ & Hfr & E & _ & F2)]; [discriminate|]. injection E as <-.
  exists p, f. split; [exact Hfr|]. intros n Ln. specialize (F2 n Ln). destruct (nth n out _) as [[y e] b1]. destruct F2 as ((c' & Hc & ->) & -> & H3). rewrite (G _ Hc), (G _ H3). auto.
Qed.
Print Assumptions C205_without_adaptation.

(** C205.  It is false that the coefficient stays within the magnitude of the signal, as it does
    alone (C43): n threads that filter one sample each can move it n times too far. *)
Theorem C205_bounded_refuted h (n : nat) (b s z : C) r : has_imag z = true ->
  exists c, let program := fun i => if i <? n then [(0, BpFilter [z])] else [] in
    steps (bp_code h) (start (fun _ => mkCband (mkFir (A := CA) DComplex [b] [s]) 0 0 r) program) c /\ (forall i, finished (threads c i)) /\
    fb (bfir (store c 0)) = [Cplus b (Cmult (RtoC (INR n * r)) (Cminus z b))].
Proof.
  intros Hz. cbv zeta. set (program := fun i : nat => if i <? n then [(0, BpFilter [z])] else []). set (cd := bp_code h).
  set (g := fun b : C => mkCband (mkFir (A := CA) DComplex [b] [s]) 0 0 r).
  assert (W0 : wrapR 0 = 0%R).
  { destruct (cexp_wrap_R 0) as [A (k & E)]. rewrite E in A. assert (k = 0%Z) as ->; [|rewrite E; ring]. assert (-1 < k)%Z by (apply lt_IZR; lra). assert (k < 1)%Z by (apply lt_IZR; lra). lia. }
  assert (X0 : expjR 0 = RtoC 1) by (unfold expjR; rewrite Rmult_0_r; unfold cis; rewrite cos_0, sin_0; reflexivity).
  set (t := (Cmult (RtoC 1) b, Cminus z (Cmult (RtoC 1) b), b)).
  set (k0 := bread (fun b3 => peek (fun g => bwrite (Cplus b3 (Cmult (Cmult (RtoC (brate g)) (Cminus z (Cmult (RtoC 1) b))) (Cconj (RtoC 1)))) (Ret (Ok [t]))))).
  assert (Go1 : go 5 (cd (BpFilter [z])) (g b) = (k0, g b)).
  { unfold cd, bp_code. cbn [length Nat.eqb]. unfold analytic. assert (X : existsb has_imag [z] = true) by (cbn; rewrite Hz; reflexivity). rewrite X. cbn [length repeat peek go g bfreq].
    assert (Et : forall k, tone_code [(1 * 0)%R] k = peek (fun g1 => let '(p, xs) := @cexp_loop RO C expjR (bphase g1) [(1 * 0)%R] in if @phase_bad RO (wrapR p) then Ret (Err ValueError) else poke (fun g => mkCband (bfir g) (wrapR p) (bfreq g) (brate g)) (k xs))).
    { intros k. unfold tone_code. rewrite input_ok by (split; [discriminate|constructor; [apply Rabs_le; lra|constructor]]). reflexivity. }
    assert (El : @cexp_loop RO C expjR 0%R [(1 * 0)%R] = (0%R, [RtoC 1])).
    { rewrite cexp_loop_R. cbn [length psum nth seq map]. replace (0 + (0 + 1 * 0))%R with 0%R by ring. rewrite Rplus_0_r, X0. reflexivity. }
    rewrite Et. cbn [peek]. change (bphase (g b)) with 0%R. rewrite El, W0, phase_ok by lra.
    cbn [poke go bp_loop bread peek bfir fb bfreq brate]. reflexivity. }
  set (c0 := start (Y := bout) (fun _ : nat => g b) program).
  assert (T0 : forall i, i < n -> threads c0 i = mkThread [(0, BpFilter [z])] None []) by (intros i L; cbn [c0 start threads]; unfold program; apply Nat.ltb_lt in L; rewrite L; reflexivity).
  destruct (wave_begin cd n _ _ _ c0 T0) as (c1 & S1 & T1 & U1 & V1).
  destruct (wave cd n 5 (cd (BpFilter [z])) k0 (fun w => w = g b) (fun w => w) [] []) with (c := c1) as (c2 & S2 & T2 & U2 & I2 & V2); [intros w ->; split; [exact Go1|reflexivity]|exact T1|rewrite U1; reflexivity|].
  set (up := fun w : cband => match fb (bfir w) with b3 :: _ => g (Cplus b3 (Cmult (Cmult (RtoC r) (Cminus z (Cmult (RtoC 1) b))) (Cconj (RtoC 1)))) | [] => w end).
  destruct (wave cd n 3 k0 (Ret (Ok [t])) (fun w => exists b, w = g b) up [] []) with (c := c2) as (c3 & S3 & T3 & U3 & I3 & V3); [intros w (b' & ->); split; [reflexivity|eexists; reflexivity]|exact T2|eexists; exact I2|].
  destruct (wave_return cd n _ _ _ c3 T3) as (c4 & S4 & T4 & U4 & V4).
  exists c4. split; [do 4 (eapply steps_trans; [|eassumption]); apply TNil|]. split.
  - intros i. destruct (Nat.lt_ge_cases i n) as [L|L]; [rewrite (T4 i L); split; reflexivity|]. rewrite V4, V3, V2, V1 by exact L. cbn [c0 start threads]. unfold program. apply Nat.ltb_ge in L. rewrite L. split; reflexivity.
  - rewrite U4, U3, I2.
    assert (P1 : forall m, Nat.iter m up (g b) = g (Cplus b (Cmult (RtoC (INR m * r)) (Cminus z b)))).
    { induction m as [|m IH]; [cbn [Nat.iter nat_rect INR]; f_equal; rewrite Rmult_0_l; ring|]. cbn [Nat.iter nat_rect]. change (nat_rect (fun _ => cband) (g b) (fun _ => up) m) with (Nat.iter m up (g b)). rewrite IH. unfold up. cbn [g bfir fb]. f_equal.
      rewrite S_INR. replace (Cconj (RtoC 1)) with (RtoC 1) by (unfold Cconj, RtoC; cbn [fst snd]; rewrite Ropp_0; reflexivity). rewrite Rmult_plus_distr_r, Rmult_1_l, RtoC_plus. ring. }
    rewrite P1. reflexivity.
Qed.
Print Assumptions C205_bounded_refuted.

(** a new filter of frequency zero: four threads and a rate of one half move its coefficient to
    about twice the signal *)
Example C205_example : exists g, cband_make 0 (1 / 2) = Ok g /\ fb (bfir g) = [RtoC eps] /\ bphase g = 0%R /\ bfreq g = 0%R /\ has_imag Ci = true /\
  (Cmod Ci < Cmod (Cplus (RtoC 0) (Cmult (RtoC (INR 4 * (1 / 2))) (Cminus Ci (RtoC 0)))))%R.
Proof.
  eexists. split; [unfold cband_make; rewrite (proj2 (frequency_bad_iff 0)), (proj2 (rate_bad_iff (1 / 2))) by lra; cbn [fir_make els length Nat.eqb zeros repeat Nat.ltb Nat.leb]; unfold cexp_make; rewrite phase_ok by lra; reflexivity|].
  split; [reflexivity|]. split; [reflexivity|]. split; [reflexivity|]. split.
  - unfold has_imag, Ci. cbn [snd]. destruct (Reqb 1 0) eqn:E; [apply Reqb_iff in E; lra|reflexivity].
  - unfold Cmod, Ci, Cplus, Cmult, Cminus, Copp, Cplus, RtoC. cbn [fst snd INR]. apply sqrt_lt_1_alt. split; [lra|]. ring_simplify. lra.
Qed.
(** a filter that does not adapt *)
Example C205_example_fixed : exists g, cband_make (1 / 2) 0 = Ok g /\ brate g = 0%R /\ (-1 <= bfreq g <= 1)%R /\ (-1 <= bphase g <= 1)%R /\
  let program := fun i => match i with 0 => [(0, BpFilter [Ci; RtoC 1])] | 1 => [(0, BpFrequency (1 / 4)); (0, BpReset (Some Ci))] | _ => [] end in
  forall j r, ~ In (0, BpRate r) (program j).
Proof.
  eexists. split; [unfold cband_make; rewrite (proj2 (frequency_bad_iff (1 / 2))), (proj2 (rate_bad_iff 0)) by lra; cbn [fir_make els length Nat.eqb zeros repeat Nat.ltb Nat.leb]; unfold cexp_make; rewrite phase_ok by lra; reflexivity|].
  cbn [brate bfreq bphase]. split; [reflexivity|]. split; [lra|]. split; [lra|]. intros j r H. destruct j as [|[|j]]; cbn in H; [destruct H as [H|[]]|destruct H as [H|[H|[]]]|destruct H]; discriminate.
Qed.
