(** Property C196: FirFilter and RankFilter objects shared by several threads. *)
From Coq Require Import List Arith ZArith Bool Lia Permutation Reals Lra QArith Qcanon.
From Verif Require Import Base BaseLemmas Instances FirModel RankModel RankProps ThreadModel ThreadProps DivThreadProps RankThreadModel.
Import ListNotations.
Set Asymmetric Patterns.
Close Scope Q_scope. Close Scope Qc_scope. Close Scope R_scope. Open Scope nat_scope.

(** ** Specification *)
Section FirSpec.
  Context {O : OArith}.
  Variable program : nat -> list (nat * fcall O).
  Variable o : nat.
  Variable f0 : fir O.                            (* the filter before the threads start *)
  (** samples any thread gives to the filter, and values it is reset to *)
  Definition given (u : O) : Prop :=
    exists j, (exists x, In (o, Filter x) (program j) /\ In u x) \/ In (o, Reset (Some u)) (program j).
  (** values a register may have *)
  Definition register (v : O) : Prop := In v (fs f0) \/ exists u, given u /\ v = cast (fdt f0) u.
  (** an output: the coefficients times registers, whatever they are *)
  Definition heard (y : O) : Prop :=
    exists s, length s = length (fb f0) /\ Forall register s /\ y = cast (fdt f0) (dot (fb f0) s).
  Definition fir_answer (a : fcall O) (y : res (list O)) : Prop :=
    match a with
    | Filter [] => y = Err ValueError
    | Filter x => exists l, y = Ok l /\ length l = length x /\ Forall heard l
    | Reset None => y = Err ValueError
    | Reset (Some _) => y = Ok []
    end.
End FirSpec.

Lemma shift_length {X} (s : list X) : length (np_shift_gt1 s) = length s.
Proof.
  unfold np_shift_gt1. destruct (Nat.ltb 1 (length s)); [|reflexivity]. destruct s as [|h t]; [reflexivity|]. unfold np_shift.
  destruct (exists_last (l := h :: t)) as (l & z & E); [discriminate|]. rewrite E, removelast_last, app_length. cbn [length]. lia.
Qed.
Lemma shift_In {X} (s : list X) v : In v (np_shift_gt1 s) -> In v s.
Proof.
  unfold np_shift_gt1. destruct (Nat.ltb 1 (length s)); [|auto]. destruct s as [|h t]; [auto|]. unfold np_shift. intros [H|H]; [left; exact H|].
  destruct (exists_last (l := h :: t)) as (l & z & E); [discriminate|]. rewrite E in *. rewrite removelast_last in H. apply in_app_iff. auto.
Qed.

Section FirShared.
  Context {O : OArith}.
  Variable program : nat -> list (nat * fcall O).
  Variable o : nat.
  Variable f0 : fir O.
  Hypothesis sized : length (fs f0) = length (fb f0).
  Hypothesis some : fb f0 <> [].
  Let Reg := register program o f0.
  Definition RF (f f' : fir O) : Prop :=
    fb f' = fb f /\ fdt f' = fdt f /\ length (fs f') = length (fs f) /\ (Forall Reg (fs f) -> Forall Reg (fs f')).
  Lemma RF_refl f : RF f f.
  Proof. unfold RF. auto. Qed.
  Lemma RF_trans a b c : RF a b -> RF b c -> RF a c.
  Proof. intros (A1 & A2 & A3 & A4) (B1 & B2 & B3 & B4). unfold RF. repeat split; try congruence. auto. Qed.
  Definition Ans (a : fcall O) (y : res (list O)) (_ : fir O) : Prop := fir_answer program o f0 a y.
  Definition PF (f : fir O) : Prop := RF f0 f.
  Lemma PF_stable : stable RF PF.
  Proof. intros w w' H1 H2. exact (RF_trans _ _ _ H1 H2). Qed.
  Lemma PF_reg f : PF f -> Forall Reg (fs f).
  Proof. intros (_ & _ & _ & H). apply H. apply Forall_forall. intros v Hv. left. exact Hv. Qed.

  Lemma fir_loop_keeps j X : In (o, Filter X) (program j) -> X <> [] -> forall x y, incl x X -> length y + length x = length X -> Forall (heard program o f0) y ->
    keeps RF Ans (Filter X) PF (fir_loop x y).
  Proof.
    intros I NE. induction x as [|v x IH]; intros y Hi L H.
    - cbn [fir_loop keeps]. intros w _. unfold Ans, fir_answer. destruct X as [|X0 X1]; [contradiction|]. exists y. cbn [length] in *. repeat split; auto. lia.
    - cbn [fir_loop poke keeps]. intros f P. assert (D : fdt f = fdt f0) by apply P.
      assert (R : RF f (with_s f (np_shift_gt1 (fs f)))).
      { unfold RF. cbn [with_s fb fdt fs]. rewrite shift_length. repeat split. rewrite !Forall_forall. intros F u Hu. apply F. apply shift_In. exact Hu. }
      split; [exact R|]. exists PF. split; [exact PF_stable|]. split; [exact (PF_stable _ _ P R)|]. clear f P D R.
      intros f P. assert (D : fdt f = fdt f0) by apply P. assert (B : fb f = fb f0) by apply P. assert (Lf : length (fs f) = length (fs f0)) by apply P.
      assert (G : Reg (cast (fdt f) v)). { right. exists v. split; [|rewrite D; reflexivity]. exists j. left. exists X. split; [exact I|apply Hi; left; reflexivity]. }
      destruct (fs f) as [|s0 t] eqn:E; [exfalso; apply some; apply length_zero_iff_nil; rewrite <- sized, <- Lf; reflexivity|]. cbn [np_set0].
      assert (R : RF f (with_s f (cast (fdt f) v :: t))).
      { unfold RF. cbn [with_s fb fdt fs]. rewrite E. repeat split. intros F. inversion F; subst. constructor; assumption. }
      split; [exact R|]. exists PF. split; [exact PF_stable|]. split; [exact (PF_stable _ _ P R)|]. clear f P D R B Lf G E.
      intros f P. split; [apply RF_refl|]. exists PF. split; [exact PF_stable|]. split; [exact P|].
      assert (D : fdt f = fdt f0) by apply P. assert (B : fb f = fb f0) by apply P. assert (Lf : length (fs f) = length (fs f0)) by apply P.
      unfold np_dot. replace (Nat.eqb (length (fb f)) (length (fs f))) with true by (symmetry; apply Nat.eqb_eq; congruence). cbn [rmap].
      apply IH; [intros u Hu; apply Hi; right; exact Hu|rewrite app_length; cbn [length] in *; lia|]. apply Forall_app. split; [exact H|]. constructor; [|constructor].
      exists (fs f). split; [congruence|]. split; [exact (PF_reg f P)|]. rewrite D, B. reflexivity.
  Qed.
  Lemma fir_code_keeps j a : In (o, a) (program j) ->
    keeps RF Ans a PF (match a with Filter x => fir_code x | Reset v => reset_code fir_reset v end).
  Proof.
    intros I. destruct a as [x|[v|]].
    - unfold fir_code. destruct x as [|x0 x1]; [cbn; intros; reflexivity|]. cbn [length Nat.eqb peek keeps]. intros f P. split; [apply RF_refl|].
      exists PF. split; [exact PF_stable|]. split; [exact P|]. assert (B : fb f = fb f0) by apply P. destruct (fb f) as [|b0 b1]; [exfalso; apply some; symmetry; exact B|].
      apply (fir_loop_keeps j); [exact I|discriminate|apply incl_refl|reflexivity|constructor].
    - cbn [reset_code keeps fir_reset fst snd]. intros f P. assert (D : fdt f = fdt f0) by apply P.
      assert (R : RF f (with_s f (map (fun _ => cast (fdt f) v) (fs f)))).
      { unfold RF. cbn [with_s fb fdt fs]. rewrite map_length. repeat split. intros _. apply Forall_forall. intros u Hu. apply in_map_iff in Hu. destruct Hu as (_ & <- & _).
        right. exists v. split; [|rewrite D; reflexivity]. exists j. right. exact I. }
      split; [exact R|]. exists PF. split; [exact PF_stable|]. split; [exact (PF_stable _ _ P R)|]. intros w _. reflexivity.
    - cbn [reset_code keeps fir_reset fst snd]. intros f P. split; [apply RF_refl|]. exists PF. split; [exact PF_stable|]. split; [exact P|]. intros w _. reflexivity.
  Qed.

  (** the same for objects of any of the three classes *)
  Definition RW (w w' : filt O) : Prop := match w with FFir f => exists f', w' = FFir f' /\ RF f f' | _ => True end.
  Lemma RW_refl w : RW w w.
  Proof. destruct w; cbn; auto. exists f. split; [reflexivity|apply RF_refl]. Qed.
  Lemma RW_trans a b c : RW a b -> RW b c -> RW a c.
  Proof.
    destruct a as [f| |]; cbn; auto. intros (f' & -> & R) (f'' & -> & R'). exists f''. split; [reflexivity|exact (RF_trans _ _ _ R R')].
  Qed.
  Definition AnsW (a : fcall O) (y : res (list O)) (_ : filt O) : Prop := fir_answer program o f0 a y.
  Definition lift (p : fir O -> Prop) (w : filt O) : Prop := exists f, w = FFir f /\ p f.
  Lemma lift_stable p : stable RF p -> stable RW (lift p).
  Proof. intros S w w' (f & -> & P) (f' & -> & R). exists f'. split; [reflexivity|exact (S _ _ P R)]. Qed.
  Lemma on_fir_keeps a no : forall c p, keeps RF Ans a p c -> keeps RW AnsW a (lift p) (on_fir c no).
  Proof.
    induction c as [y|g k IH]; intros p K; cbn [on_fir keeps] in *.
    - intros w (f & -> & P). exact (K f P).
    - intros w (f & -> & P). destruct (K f P) as (R & p' & S & P' & K'). split; [exists (g f); split; [reflexivity|exact R]|].
      exists (lift p'). split; [apply lift_stable; exact S|]. split; [exists (g f); split; [reflexivity|exact P']|]. apply IH. exact K'.
  Qed.
  Lemma filt_code_keeps j a : In (o, a) (program j) -> keeps RW AnsW a (RW (FFir f0)) (filt_code a).
  Proof.
    intros I w (f & -> & P). split; [apply RW_refl|]. exists (lift PF). split; [apply lift_stable; exact PF_stable|]. split; [exists f; split; [reflexivity|exact P]|].
    apply on_fir_keeps. exact (fir_code_keeps j a I).
  Qed.
End FirShared.

(** C196.  Threads that share a FirFilter, in any arithmetic and under any schedule: the
    coefficients and the number of registers stay, every register holds a value of the start or
    one some thread gave, no call fails that would not fail alone, and every output is the
    coefficients times such values. *)
Theorem C196_shared_fir (O : OArith) (st : nat -> filt O) (program : nat -> list (nat * fcall O)) o f0 c :
  st o = FFir f0 -> length (fs f0) = length (fb f0) -> fb f0 <> [] -> steps filt_code (start st program) c ->
  (exists f, store c o = FFir f /\ fb f = fb f0 /\ fdt f = fdt f0 /\ length (fs f) = length (fs f0) /\ Forall (register program o f0) (fs f)) /\
  forall i, finished (threads c i) ->
    Forall2 (fun p y => fst p = o -> fir_answer program o f0 (snd p) y) (program i) (results (threads c i)).
Proof.
  intros E Sz NE S.
  assert (Calls : forall j a, In (o, a) (program j) -> keeps (RW program o f0) (AnsW program o f0) a (RW program o f0 (st o)) (filt_code a)).
  { intros j a I. rewrite E. exact (filt_code_keeps program o f0 Sz NE j a I). }
  assert (U : forall a y, stable (RW program o f0) (AnsW program o f0 a y)) by (intros a y w w' H _; exact H).
  destruct (shared_kept filt_code program st o (RW program o f0) (RW_refl _ _ _) (RW_trans _ _ _) _ U Calls c S) as [K _].
  split.
  - rewrite E in K. destruct K as (f & Ef & (B & D & L & G)). exists f. repeat split; auto. apply G. apply Forall_forall. intros v Hv. left. exact Hv.
  - intros i F. exact (finished_results filt_code program st o (RW program o f0) _ c i (RW_refl _ _ _) (RW_trans _ _ _) U Calls S F).
Qed.
Print Assumptions C196_shared_fir.

(** C196.  Over the reals: if no register and no sample or reset value exceeds M, no output of
    any thread exceeds M times the sum of the magnitudes of the coefficients; if they are all
    v, every output is v times the sum of the coefficients, however the threads interleave. *)
Fixpoint total (g : R -> R) (l : list R) : R := match l with [] => 0%R | v :: t => (g v + total g t)%R end.
Lemma dot_RA_cons (b0 : R) b (s0 : R) s : @dot RA (b0 :: b) (s0 :: s) = (b0 * s0 + @dot RA b s)%R.
Proof.
  cbn [dot RA dot_from]. assert (G : forall b s acc, dot_from Rplus Rmult acc b s = (acc + dot_from Rplus Rmult 0 b s)%R).
  { clear. induction b as [|b0 b IH]; intros [|s0 s] acc; cbn; try lra. rewrite IH. rewrite (IH s (0 + b0 * s0)%R). lra. }
  rewrite G. lra.
Qed.
Lemma dot_bound M : forall b s : list R, length s = length b -> Forall (fun v => Rabs v <= M)%R s -> (Rabs (@dot RA b s) <= M * total Rabs b)%R.
Proof.
  induction b as [|b0 b IH]; intros [|s0 s] L F; try discriminate.
  - cbn. rewrite Rabs_R0. lra.
  - rewrite dot_RA_cons. inversion F as [|x l H0 Ht]; subst. cbn [total]. injection L as L. specialize (IH s L Ht).
    eapply Rle_trans; [apply Rabs_triang|]. rewrite Rabs_mult. assert (H := Rabs_pos b0). nra.
Qed.
Lemma dot_const v : forall b s : list R, length s = length b -> Forall (fun u => u = v) s -> @dot RA b s = (v * total (fun u => u) b)%R.
Proof.
  induction b as [|b0 b IH]; intros [|s0 s] L F; try discriminate; [cbn; lra|]. rewrite dot_RA_cons. inversion F as [|x l H0 Ht]; subst. cbn [total]. injection L as L. rewrite (IH s L Ht). lra.
Qed.
Theorem C196_shared_fir_range (st : nat -> filt RO) (program : nat -> list (nat * fcall RO)) o (f0 : fir RO) c i k x :
  st o = FFir f0 -> length (fs f0) = length (fb f0) -> fb f0 <> [] -> fdt f0 = DFloat ->
  steps filt_code (start st program) c -> finished (threads c i) -> nth_error (program i) k = Some (o, Filter x) -> x <> [] ->
  exists y, nth_error (results (threads c i)) k = Some (Ok y) /\ length y = length x /\
    (forall M : R, (forall v, In v (fs f0) \/ given program o v -> Rabs v <= M)%R -> Forall (fun u => Rabs u <= M * total Rabs (fb f0))%R y) /\
    (forall v : R, (forall u, In u (fs f0) \/ given program o u -> u = v) -> Forall (fun u => u = v * total (fun u => u) (fb f0))%R y).
Proof.
  intros E Sz NE D S F Hk Hx. destruct (C196_shared_fir RO st program o f0 c E Sz NE S) as [_ A]. specialize (A i F).
  assert (G : exists r, nth_error (results (threads c i)) k = Some r /\ fir_answer program o f0 (Filter x) r).
  { clear - A Hk. revert k Hk. induction A as [|p y l l' H A IH]; intros [|k] Hk; cbn in Hk; try discriminate.
    - injection Hk as ->. exists y. split; [reflexivity|]. apply H. reflexivity.
    - apply IH. exact Hk. }
  destruct G as (r & Er & G). unfold fir_answer in G. destruct x as [|x0 x1]; [contradiction|]. destruct G as (y & -> & L & H). exists y. split; [exact Er|]. split; [exact L|].
  assert (Reg : forall v, register program o f0 v -> In v (fs f0) \/ given program o v).
  { intros v [Hv|(u & Hu & Ev)]; [left; exact Hv|right]. rewrite D in Ev. cbn in Ev. subst v. exact Hu. }
  split.
  - intros M HM. rewrite Forall_forall in *. intros u Hu. destruct (H u Hu) as (s & Ls & Fs & ->). rewrite D. apply (dot_bound M (fb f0) s Ls).
    rewrite Forall_forall in *. intros v Hv. apply HM. apply Reg. apply Fs. exact Hv.
  - intros v Hv. rewrite Forall_forall in *. intros u Hu. destruct (H u Hu) as (s & Ls & Fs & ->). rewrite D. apply (dot_const v (fb f0) s Ls).
    rewrite Forall_forall in *. intros w Hw. apply Hv. apply Reg. apply Fs. exact Hw.
Qed.
Print Assumptions C196_shared_fir_range.

(** ** RankFilter *)
Section RankSpec.
  Context {O : OArith}.
  Variable program : nat -> list (nat * rank_op O).
  Variable o : nat.
  Variable r0 : rank O.
  Definition rgiven (u : O) : Prop :=
    exists j, (exists dtx x, In (o, RFilter dtx x) (program j) /\ In u x) \/ In (o, RReset (Some u)) (program j).
  Definition rregister (v : O) : Prop := In v (fs (rfir r0)) \/ exists u, rgiven u /\ v = cast (fdt (rfir r0)) u.
  Definition index_ok (i : Z) : Prop := (0 <= i < Z.of_nat (length (fs (rfir r0))))%Z.
  Definition rank_answers (a : rank_op O) (y : rank_answer O) : Prop :=
    match a with
    | RFilter _ [] => y = RSamples (Err ValueError)
    | RFilter dtx x => exists l, y = RSamples (Ok l) /\ length l = length x /\ Forall (fun u => exists v, rregister v /\ u = cast dtx v) l
    | RReset None => y = RDone (Err ValueError)
    | RReset (Some _) => y = RDone (Ok tt)
    | RIndex i => (index_ok i /\ y = RDone (Ok tt)) \/ (~ index_ok i /\ y = RDone (Err ValueError))
    end.
End RankSpec.

Section RankAlone.
  Context {O : OArith}.
  Variable argsort : list O -> list nat.
  Lemma rank_loop_ok dtx : forall x y (r : rank O), complete (rank_loop argsort dtx x y) r =
    let (s, z) := run (rank_step argsort (fdt (rfir r)) dtx (rindex r)) (fs (rfir r)) x in
    (rank_with_s r s, RSamples (match z with Ok z => Ok (y ++ z) | Err e => Err e end)).
  Proof.
    induction x as [|v x IH]; intros y r.
    - cbn. rewrite app_nil_r. destruct r as [[dt b s] i]. reflexivity.
    - cbn [rank_loop run]. cbv zeta. cbn [complete]. unfold rank_step at 1. destruct r as [[dt b s] i]. cbn [rfir fs fdt rindex].
      destruct s as [|s0 t]; [reflexivity|]. cbn [np_set0 peek complete rank_with_s rfir fs fdt rindex with_s].
      destruct (np_take _ _) as [w|e]; [|reflexivity]. cbn [peek complete rindex rank_with_s rfir with_s]. destruct (py_nth w i) as [u|e]; [|reflexivity].
      cbn [poke complete rank_with_s rfir fs fdt rindex with_s]. rewrite IH. cbn [rfir fs fdt rindex with_s rank_with_s].
      destruct (run _ _ x) as [s' [z|e]]; [rewrite <- app_assoc|]; reflexivity.
  Qed.
  Lemma rank_code_ok a (r : rank O) : complete (rank_code argsort a) r = rank_do argsort r a.
  Proof.
    destruct a as [dtx x|v|i]; cbn [rank_code rank_do].
    - unfold rank_filter. destruct (Nat.eqb (length x) 0); [reflexivity|]. rewrite rank_loop_ok. destruct (run _ _ x) as [s [z|e]]; reflexivity.
    - cbn [complete]. destruct (rank_reset r v) as [r' y]. reflexivity.
    - cbn [peek complete]. unfold rank_set_index. destruct (_ || _)%bool; reflexivity.
  Qed.
End RankAlone.

Section RankShared.
  Context {O : OArith}.
  Variable argsort : list O -> list nat.
  Hypothesis permutes : forall l, Permutation (argsort l) (seq 0 (length l)).
  Variable program : nat -> list (nat * rank_op O).
  Variable o : nat.
  Variable r0 : rank O.
  Hypothesis good : index_ok r0 (rindex r0).
  Let Reg := rregister program o r0.
  Definition RR (r r' : rank O) : Prop :=
    fdt (rfir r') = fdt (rfir r) /\ length (fs (rfir r')) = length (fs (rfir r)) /\
    (index_ok r0 (rindex r) -> index_ok r0 (rindex r')) /\ (Forall Reg (fs (rfir r)) -> Forall Reg (fs (rfir r'))).
  Lemma RR_refl f : RR f f.
  Proof. unfold RR. auto. Qed.
  Lemma RR_trans a b c : RR a b -> RR b c -> RR a c.
  Proof. intros (A1 & A2 & A3 & A4) (B1 & B2 & B3 & B4). unfold RR. repeat split; try congruence; auto; apply B3; auto. Qed.
  Definition AR (a : rank_op O) (y : rank_answer O) (_ : rank O) : Prop := rank_answers program o r0 a y.
  Definition PR (r : rank O) : Prop := RR r0 r.
  Lemma PR_stable : stable RR PR.
  Proof. intros w w' H1 H2. exact (RR_trans _ _ _ H1 H2). Qed.
  Lemma PR_reg r : PR r -> Forall Reg (fs (rfir r)).
  Proof. intros (_ & _ & _ & H). apply H. apply Forall_forall. intros v Hv. left. exact Hv. Qed.
  Lemma PR_index r : PR r -> index_ok r0 (rindex r).
  Proof. intros (_ & _ & H & _). apply H. exact good. Qed.
  Lemma keepsR_peek a k : (forall w, PR w -> keeps RR AR a PR (k w)) -> keeps RR AR a PR (peek k).
  Proof. intros H w P. split; [apply RR_refl|]. exists PR. split; [exact PR_stable|]. auto. Qed.
  Lemma keepsR_act a g k : (forall w, PR w -> RR w (g w)) -> (forall w, PR w -> keeps RR AR a PR (k w)) -> keeps RR AR a PR (Act g k).
  Proof. intros G H w P. split; [apply G; exact P|]. exists PR. split; [exact PR_stable|]. split; [apply (PR_stable w); auto|auto]. Qed.
  Lemma take_ok : forall p (s : list O), (forall n, In n p -> n < length s) -> exists w, np_take s p = Ok w /\ length w = length p /\ forall v, In v w -> In v s.
  Proof.
    induction p as [|n p IH]; intros s H; [exists []; cbn; split; [reflexivity|]; split; [reflexivity|intros v []]|]. cbn [np_take].
    destruct (nth_error s n) as [v|] eqn:E; [|apply nth_error_None in E; specialize (H n (or_introl eq_refl)); lia].
    destruct (IH s) as (w & Ew & Lw & Iw); [intros m Hm; apply H; right; exact Hm|]. rewrite Ew. exists (v :: w). split; [reflexivity|]. split; [cbn; congruence|].
    intros u [Hu|Hu]; [subst u; exact (nth_error_In _ _ E)|auto].
  Qed.
  Lemma nth_ok (w : list O) i : (0 <= i < Z.of_nat (length w))%Z -> exists u, py_nth w i = Ok u /\ In u w.
  Proof.
    intros H. unfold py_nth. replace (i <? 0)%Z with false by (symmetry; apply Z.ltb_ge; lia). cbv zeta.
    replace (0 <=? i)%Z with true by (symmetry; apply Z.leb_le; lia). replace (i <? Z.of_nat (length w))%Z with true by (symmetry; apply Z.ltb_lt; lia). cbn [andb].
    destruct (nth_error w (Z.to_nat i)) as [u|] eqn:E; [|apply nth_error_None in E; lia]. exists u. split; [reflexivity|exact (nth_error_In _ _ E)].
  Qed.
  Lemma rank_loop_keeps j dtx X : In (o, RFilter dtx X) (program j) -> X <> [] -> forall x y, incl x X -> length y + length x = length X ->
    Forall (fun u => exists v, Reg v /\ u = cast dtx v) y -> keeps RR AR (RFilter dtx X) PR (rank_loop argsort dtx x y).
  Proof.
    intros I NE. induction x as [|v x IH]; intros y Hi L H.
    - cbn [rank_loop keeps]. intros w _. unfold AR, rank_answers. destruct X as [|X0 X1]; [contradiction|]. exists y. cbn [length] in *. repeat split; auto. lia.
    - cbn [rank_loop]. cbv zeta. apply keepsR_act.
      + intros r P. assert (D : fdt (rfir r) = fdt (rfir r0)) by apply P. destruct (fs (rfir r)) as [|s0 t] eqn:E; [apply RR_refl|]. cbn [np_set0].
        unfold RR. cbn [rank_with_s rfir with_s fdt fs rindex]. rewrite E. split; [reflexivity|]. split; [reflexivity|]. split; [auto|]. intros F. inversion F; subst. constructor; [|assumption].
        right. exists v. split; [|rewrite D; reflexivity]. exists j. left. exists dtx, X. split; [exact I|apply Hi; left; reflexivity].
      + intros r P. assert (Lr : length (fs (rfir r)) = length (fs (rfir r0))) by apply P.
        destruct (fs (rfir r)) as [|s0 t] eqn:E; [exfalso; assert (G := good); unfold index_ok in G; rewrite <- Lr in G; cbn in G; lia|]. cbn [np_set0]. clear E Lr r P s0 t.
        apply keepsR_peek. intros r1 P1. assert (L1 : length (fs (rfir r1)) = length (fs (rfir r0))) by apply P1. apply keepsR_peek. intros r2 P2. assert (L2 : length (fs (rfir r2)) = length (fs (rfir r0))) by apply P2.
        assert (Pm := permutes (map oabs (fs (rfir r1)))). rewrite map_length in Pm.
        destruct (take_ok (argsort (map oabs (fs (rfir r1)))) (fs (rfir r2))) as (w & Ew & Lw & Iw).
        { intros n Hn. apply (Permutation_in _ Pm) in Hn. apply in_seq in Hn. lia. }
        rewrite Ew. apply keepsR_peek. intros r3 P3. assert (Lp := Permutation_length Pm). rewrite seq_length in Lp.
        destruct (nth_ok w (rindex r3)) as (u & Eu & Iu). { assert (G := PR_index r3 P3). unfold index_ok in G. rewrite Lw, Lp, L1. exact G. }
        rewrite Eu. apply keepsR_act.
        * intros r4 _. unfold RR. cbn [rank_with_s rfir with_s fdt fs rindex]. rewrite shift_length. split; [reflexivity|]. split; [reflexivity|]. split; [auto|]. rewrite !Forall_forall. intros F z Hz. apply F. apply shift_In. exact Hz.
        * intros _ _. apply IH; [intros z Hz; apply Hi; right; exact Hz|rewrite app_length; cbn [length] in *; lia|]. apply Forall_app. split; [exact H|]. constructor; [|constructor].
          exists u. split; [|reflexivity]. assert (G := PR_reg r2 P2). rewrite Forall_forall in G. apply G. apply Iw. exact Iu.
  Qed.
  Lemma rank_code_keeps j a : In (o, a) (program j) -> keeps RR AR a PR (rank_code argsort a).
  Proof.
    intros I. destruct a as [dtx x|[v|]|i]; cbn [rank_code].
    - destruct x as [|x0 x1]; [cbn; intros; reflexivity|]. cbn [length Nat.eqb]. apply (rank_loop_keeps j); [exact I|discriminate|apply incl_refl|reflexivity|constructor].
    - apply keepsR_act; [|intros r _ w _; reflexivity]. intros r P. assert (D : fdt (rfir r) = fdt (rfir r0)) by apply P. cbn [rank_reset fir_reset fst]. unfold RR. cbn [rfir with_s fdt fs rindex]. rewrite map_length.
      split; [reflexivity|]. split; [reflexivity|]. split; [auto|]. intros _. apply Forall_forall. intros u Hu. apply in_map_iff in Hu. destruct Hu as (_ & <- & _). right. exists v. split; [|rewrite D; reflexivity]. exists j. right. exact I.
    - apply keepsR_act; [|intros r _ w _; reflexivity]. intros r _. destruct r as [[dt b s] ix]. apply RR_refl.
    - apply keepsR_peek. intros r P. assert (L : length (fs (rfir r)) = length (fs (rfir r0))) by apply P. rewrite L.
      destruct ((i <? 0) || (Z.of_nat (length (fs (rfir r0))) - 1 <? i))%Z%bool eqn:B.
      + intros w _. right. split; [|reflexivity]. intros [G1 G2]. apply orb_true_iff in B. destruct B as [B|B]; apply Z.ltb_lt in B; lia.
      + apply orb_false_iff in B. destruct B as [B1 B2]. apply Z.ltb_ge in B1. apply Z.ltb_ge in B2. assert (G : index_ok r0 i) by (unfold index_ok; lia).
        apply keepsR_act; [|intros _ _ w _; left; split; [exact G|reflexivity]]. intros w _. unfold RR. cbn [rfir rindex]. auto.
  Qed.
End RankShared.

(** C196.  A thread whose RankFilters no other thread uses gets, under any schedule, the answers
    of its calls made one after the other. *)
Theorem C196_rank_of_one_thread (O : OArith) argsort (st : nat -> rank O) (program : nat -> list (nat * rank_op O)) i c :
  (forall o j, uses (program i) o -> j <> i -> ~ uses (program j) o) ->
  steps (rank_code argsort) (start st program) c -> finished (threads c i) ->
  results (threads c i) = snd (serial (rank_do argsort) st (program i)) /\
  forall o, uses (program i) o -> store c o = fst (serial (rank_do argsort) st (program i)) o.
Proof.
  intros H S F. apply (thread_results (rank_code argsort) (rank_do argsort) (rank_code_ok argsort) program st i); auto.
Qed.
Print Assumptions C196_rank_of_one_thread.

(** C196.  Threads that share a RankFilter, filtering, resetting and changing its index, under
    any schedule: no call fails that would not fail alone, and every output is a value of the
    start or one that some thread gave. *)
Theorem C196_shared_rank (O : OArith) argsort (st : nat -> rank O) (program : nat -> list (nat * rank_op O)) o c :
  (forall l, Permutation (argsort l) (seq 0 (length l))) -> index_ok (st o) (rindex (st o)) ->
  steps (rank_code argsort) (start st program) c ->
  index_ok (st o) (rindex (store c o)) /\ length (fs (rfir (store c o))) = length (fs (rfir (st o))) /\
  Forall (rregister program o (st o)) (fs (rfir (store c o))) /\
  forall i, finished (threads c i) ->
    Forall2 (fun p y => fst p = o -> rank_answers program o (st o) (snd p) y) (program i) (results (threads c i)).
Proof.
  intros Pm G S.
  assert (Calls : forall j a, In (o, a) (program j) -> keeps (RR program o (st o)) (AR program o (st o)) a (RR program o (st o) (st o)) (rank_code argsort a)).
  { intros j a I. exact (rank_code_keeps argsort Pm program o (st o) G j a I). }
  assert (U : forall a y, stable (RR program o (st o)) (AR program o (st o) a y)) by (intros a y w w' H _; exact H).
  destruct (shared_kept (rank_code argsort) program st o (RR program o (st o)) (RR_refl _ _ _) (RR_trans _ _ _) _ U Calls c S) as [(D & L & Ix & K) _].
  split; [exact (Ix G)|]. split; [exact L|]. split; [apply K; apply Forall_forall; intros v Hv; left; exact Hv|].
  intros i F. exact (finished_results (rank_code argsort) program st o (RR program o (st o)) _ c i (RR_refl _ _ _) (RR_trans _ _ _) U Calls S F).
Qed.
Print Assumptions C196_shared_rank.

(** Executions for examples, over the rationals *)
Definition qrank (index : Z) (s : list Z) : rank QO :=
  mkRank (O := QO) (mkFir DFloat (map (fun n => q n 1) s) (map (fun n => q n 1) s) : fir QA) index.
Definition qcodeR : rank_op QO -> code (rank QO) (rank_answer QO) := rank_code (O := QO) (@isort QO).
Definition qdoR : rank QO -> rank_op QO -> rank QO * rank_answer QO := rank_do (O := QO) (@isort QO).
Definition rview (a : rank_answer QO) : res (list Q) := match a with RSamples r => rqs r | RDone (Ok _) => Ok [] | RDone (Err e) => Err e end.
Definition feed (a b : list Z) (i : nat) : list (nat * rank_op QO) :=
  match i with
  | 0 => [(0, RFilter (O := QO) DFloat (map (fun n => q n 1) a))]
  | 1 => [(0, RFilter (O := QO) DFloat (map (fun n => q n 1) b))]
  | _ => []
  end.

(** Two threads feed one median filter and a third changes its index; all outputs are zeros or
    samples. *)
Definition feed3 (i : nat) : list (nat * rank_op QO) :=
  match i with 2 => [(0, RIndex (O := QO) 2); (0, RIndex (O := QO) 3)] | _ => feed [4; 7; 1]%Z [9; 8]%Z i end.
Example C196_example : let c := schedule qcodeR (concat (repeat [0; 1; 2; 1] 40)) (start (fun _ => qrank 1 [0; 0; 0]%Z) feed3) in
  index_ok (qrank 1 [0; 0; 0]%Z) 1 /\ (forall l, Permutation (@isort QO l) (seq 0 (length l))) /\
  steps qcodeR (start (fun _ => qrank 1 [0; 0; 0]%Z) feed3) c /\ finished (threads c 0) /\ finished (threads c 1) /\ finished (threads c 2) /\
  map rview (results (threads c 0)) = [Ok [4; 8; 8]]%Q /\ map rview (results (threads c 1)) = [Ok [0; 8]]%Q /\
  map rview (results (threads c 2)) = [Ok []; Err ValueError].
Proof.
  cbv zeta. split; [unfold index_ok; cbn; lia|]. split; [intros l; apply isort_QO|]. split; [apply schedule_ok; apply TNil|].
  split; [apply finishedb_ok; vm_compute; reflexivity|]. split; [apply finishedb_ok; vm_compute; reflexivity|]. split; [apply finishedb_ok; vm_compute; reflexivity|].
  split; [vm_compute; reflexivity|]. split; vm_compute; reflexivity.
Qed.

(** A shared moving average: both threads give 3, the registers hold 3. *)
Definition avg3 : filt RO := FFir (O := RO) (mkFir DFloat [1/2; 1/2]%R [3; 3]%R : fir RA).
Definition threes (i : nat) : list (nat * fcall RO) :=
  match i with 0 => [(0, Filter (O := RO) [3; 3]%R)] | 1 => [(0, Filter (O := RO) [3]%R); (0, Reset (O := RO) (Some 3%R))] | _ => [] end.
Example C196_constant_example c : steps filt_code (start (fun _ => avg3) threes) c -> finished (threads c 0) ->
  nth_error (results (threads c 0)) 0 = Some (Ok [3; 3]%R).
Proof.
  intros S F. set (f0 := mkFir DFloat [1/2; 1/2]%R [3; 3]%R : fir RO).
  destruct (C196_shared_fir_range (fun _ => avg3) threes 0 f0 c 0 0 [3; 3]%R) as (y & Ey & Ly & _ & Hc); auto; try discriminate.
  specialize (Hc 3%R). assert (G : forall u : R, In u (fs f0) \/ given threes 0 u -> u = 3%R).
  { intros u [[H|[H|[]]]|(j & [(x & Hx & Hu)|Hx])]; auto; destruct j as [|[|j]]; cbn in Hx.
    - destruct Hx as [Hx|[]]. injection Hx as <-. destruct Hu as [Hu|[Hu|[]]]; auto.
    - destruct Hx as [Hx|[Hx|[]]]; [|discriminate]. injection Hx as <-. destruct Hu as [Hu|[]]; auto.
    - destruct Hx.
    - destruct Hx as [Hx|[]]; discriminate.
    - destruct Hx as [Hx|[Hx|[]]]; [discriminate|]. injection Hx as <-. reflexivity.
    - destruct Hx. }
  specialize (Hc G). rewrite Ey. destruct y as [|y0 [|y1 [|y2 y]]]; try discriminate. inversion Hc as [|? ? H0 Hc']; subst. inversion Hc' as [|? ? H1 _]; subst.
  assert (E : (3 * total (fun u => u) (fb f0))%R = 3%R) by (cbn; lra). repeat f_equal; exact E.
Qed.

(** C196.  It is false that shared filters answer as in some order of the calls: of two threads
    with one sample each, one can see the other's sample twice; and a filter for the largest
    sample can answer less than the sample just given to it. *)
Theorem C196_rank_order_refuted : exists c, let m := fun _ : nat => qrank 1 [0; 0; 0]%Z in let program := feed [4]%Z [9]%Z in
  steps qcodeR (start m program) c /\ finished (threads c 0) /\ finished (threads c 1) /\
  map rview (results (threads c 0)) = [Ok [0]]%Q /\ map rview (results (threads c 1)) = [Ok [9]]%Q /\
  map rview (snd (serial qdoR m (program 0 ++ program 1))) = [Ok [0]; Ok [4]]%Q /\
  map rview (snd (serial qdoR m (program 1 ++ program 0))) = [Ok [0]; Ok [4]]%Q.
Proof.
  exists (schedule qcodeR ([0; 0; 1; 1] ++ repeat 0 20 ++ repeat 1 20) (start (fun _ => qrank 1 [0; 0; 0]%Z) (feed [4]%Z [9]%Z))). cbv zeta.
  split; [apply schedule_ok; apply TNil|]. split; [apply finishedb_ok; vm_compute; reflexivity|]. split; [apply finishedb_ok; vm_compute; reflexivity|].
  repeat (split; [vm_compute; reflexivity|]). vm_compute. reflexivity.
Qed.
Print Assumptions C196_rank_order_refuted.
Theorem C196_rank_largest_refuted : exists c, let m := fun _ : nat => qrank 1 [0; 0]%Z in let program := feed [9]%Z [4]%Z in
  steps qcodeR (start m program) c /\ finished (threads c 0) /\ finished (threads c 1) /\
  map rview (results (threads c 0)) = [Ok [4]]%Q.
Proof.
  exists (schedule qcodeR ([0; 0; 1; 1] ++ repeat 0 20 ++ repeat 1 20) (start (fun _ => qrank 1 [0; 0]%Z) (feed [9]%Z [4]%Z))). cbv zeta.
  split; [apply schedule_ok; apply TNil|]. split; [apply finishedb_ok; vm_compute; reflexivity|]. split; [apply finishedb_ok; vm_compute; reflexivity|].
  vm_compute. reflexivity.
Qed.
Print Assumptions C196_rank_largest_refuted.
