(** Property C207: PolyphaseRateFilter objects shared by several threads. *)
From Coq Require Import List Arith ZArith QArith Qround Qcanon Bool Lia.
From Verif Require Import Base BaseLemmas Instances CalculusModel RankModel RankProps PolyphaseModel ThreadModel ThreadProps DivThreadProps PidThreadProps PphaseThreadModel.
Import ListNotations.
Set Asymmetric Patterns.
Close Scope Qc_scope. Close Scope Q_scope. Open Scope nat_scope.

(** ** Specification *)
Section Spec.
  Context {O : OArith}.
  Variable rnd : O -> Z.
  Variable B : bank O.
  Variable program : nat -> list (nat * ppcall O).
  Variable o : nat.
  Variable g0 : poly O.                           (* the filter before the threads start *)
  (** values a register may hold: one of the start, a sample given, or a value reset to *)
  Definition pp_value (v : O) : Prop := In v (ps g0) \/ (exists j x, In (o, PpFilter x) (program j) /\ In v x) \/ exists j, In (o, PpReset (Some v)) (program j).
  Definition pp_rate (r : O) : Prop := r = prate g0 \/ oltb r zero = false /\ oltb (of_nat (length B)) r = false /\ exists j, In (o, PpRate r) (program j).
  (** an output: a phase of the bank times registers that hold such values *)
  Definition pp_sample (y : O) : Prop := exists row s, In row B /\ length s = length (ps g0) /\ Forall pp_value s /\ length row = length s /\ y = dot row s.
  Definition pp_answer (a : ppcall O) (y : ppout O) : Prop :=
    match a with
    | PpFilter x => match y with
        | None => x <> []
        | Some (Ok out) => x <> [] /\ Forall pp_sample out /\ exists r, pp_rate r /\ (Z.of_nat (length out) <= rnd (mul (of_nat (length x)) r))%Z
        | Some (Err ValueError) => x = [] \/ (exists r, pp_rate r /\ (rnd (mul (of_nat (length x)) r) < 0)%Z) \/ exists row, In row B /\ length row <> length (ps g0)
        | Some (Err ZeroDivisionError) => exists r, pp_rate r /\ eqb r zero = true
        | Some (Err IndexError) => x <> []
        | _ => False
        end
    | PpReset v => y = Some (match v with Some _ => Ok [] | None => Err ValueError end)
    | PpRate r => if (oltb r zero || oltb (of_nat (length B)) r)%bool then y = Some (Err ValueError) else y = Some (Ok [])
    end.
End Spec.

(** C207.  Without interruption filter is the call of C48 to C52. *)
Section Alone.
  Context {O : OArith}.
  Variable rnd : O -> Z.
  Variable B : bank O.
  Lemma consume_alone k r : forall xs i s, complete (pp_consume B xs k) (mkPoly i r s) =
    match poly_consume (length B) xs i s with
    | (i2, s2, Ok xs2) => complete (k xs2) (mkPoly i2 r s2)
    | (i2, s2, Err e) => (mkPoly i2 r s2, Some (Err e))
    end.
  Proof.
    induction xs as [|x xs IH]; intros i s; [reflexivity|]. cbn [pp_consume poly_consume peek complete pindex]. destruct (oleb (of_nat (length B)) i); [|reflexivity].
    unfold pp_set0. cbn [complete ps pindex prate]. destruct (np_set0 s x) as [s1|e]; [|reflexivity]. cbn [poke peek complete ps pindex prate]. unfold set_index. cbn [poke peek complete ps pindex prate]. rewrite IH. reflexivity.
  Qed.
  Lemma loop_alone r : eqb r zero = false -> forall fuel xs ny i s out,
    match poly_loop rnd B r fuel xs ny i s with
    | Some (i2, s2, y) => complete (pp_loop rnd B fuel xs ny out) (mkPoly i r s) = (mkPoly i2 r s2, Some (rmap (app out) y))
    | None => snd (complete (pp_loop rnd B fuel xs ny out) (mkPoly i r s)) = None
    end.
  Proof.
    intros Hr. induction fuel as [|fuel IH]; intros xs ny i s out.
    - destruct xs as [|x xs], ny as [|ny]; cbn; try rewrite app_nil_r; reflexivity.
    - destruct xs as [|x xs]; [cbn; rewrite app_nil_r; reflexivity|]. destruct ny as [|ny]; [cbn; rewrite app_nil_r; reflexivity|].
      cbn [pp_loop poly_loop]. cbn [peek complete pindex]. destruct (oltb i (of_nat (length B))).
      + cbn [peek complete pindex prate]. rewrite Hr. unfold pp_set0. cbn [poke peek complete ps pindex prate]. unfold set_index. cbn [poke peek complete ps pindex prate]. destruct (np_set0 s x) as [s1|e]; [|reflexivity]. cbn [poke peek complete ps pindex prate]. unfold set_index. cbn [poke peek complete ps pindex prate].
        destruct (bind (py_nth B _) _) as [y|e]; [|reflexivity]. rewrite consume_alone. destruct (poly_consume (length B) (x :: xs) _ s1) as [[i2 s2] [xs2|e]]; [|reflexivity].
        specialize (IH xs2 ny i2 s2 (out ++ [y])). destruct (poly_loop rnd B r fuel xs2 ny i2 s2) as [[[i3 s3] [ys|e]]|]; [|exact IH|exact IH]. rewrite IH. cbn [rmap]. rewrite <- app_assoc. reflexivity.
      + rewrite consume_alone. destruct (poly_consume (length B) (x :: xs) i s) as [[i2 s2] [xs2|e]]; [|reflexivity]. apply IH.
  Qed.
End Alone.
Theorem C207_uninterrupted (O : OArith) rnd isclose (B : bank O) g x : eqb (prate g) zero = false ->
  match poly_filter rnd B g x with
  | Some (g', y) => complete (pp_code rnd isclose B 0 (PpFilter x)) g = (g', Some y)
  | None => snd (complete (pp_code rnd isclose B 0 (PpFilter x)) g) = None
  end /\
  (forall v, complete (pp_code rnd isclose B 0 (PpReset v)) g = (fst (poly_reset g v), Some (rmap (fun _ => []) (snd (poly_reset g v))))) /\
  (forall r, complete (pp_code rnd isclose B 0 (PpRate r)) g = (fst (poly_set_rate isclose (length B) g r), Some (rmap (fun _ => []) (snd (poly_set_rate isclose (length B) g r))))).
Proof.
  intros Hr. destruct g as [i r s]. cbn [prate] in Hr. split; [|split].
  - cbn [pp_code]. unfold poly_filter. destruct (length x =? 0); [reflexivity|]. cbn [peek complete prate pindex ps]. destruct (rnd _ <? 0)%Z; [reflexivity|]. rewrite Nat.add_0_r.
    pose proof (loop_alone rnd B r Hr (length x + Z.to_nat (rnd (mul (of_nat (length x)) r))) x (Z.to_nat (rnd (mul (of_nat (length x)) r))) i s []) as H.
    destruct (poly_loop rnd B r _ x _ i s) as [[[i2 s2] y]|]; [|exact H]. rewrite H. destruct y; reflexivity.
  - intros [v|]; reflexivity.
  - intros r'. cbn [pp_code]. unfold poly_set_rate. destruct (prate_bad (length B) r'); [reflexivity|]. cbn [peek complete prate]. destruct (isclose r r'); reflexivity.
Qed.
Print Assumptions C207_uninterrupted.

Lemma set0_cases {X} (s : list X) v : (s = [] /\ np_set0 s v = Err IndexError) \/ exists h t, s = h :: t /\ np_set0 s v = Ok (v :: t).
Proof. destruct s as [|h t]; [left; auto|right; exists h, t; auto]. Qed.
Lemma shift_in {X} (P : X -> Prop) (s : list X) : Forall P s -> Forall P (np_shift s).
Proof.
  intros F. apply Forall_forall. intros x Hx. rewrite Forall_forall in F. apply F. destruct s as [|h t]; [exact Hx|]. unfold np_shift in Hx. destruct Hx as [<-|Hx]; [left; reflexivity|].
  assert (G : forall (l : list X) a, In a (removelast l) -> In a l) by (induction l as [|z [|z' l] IH]; intros a Ha; [destruct Ha|destruct Ha|destruct Ha as [->|Ha]; [left; reflexivity|right; apply IH; exact Ha]]). apply G. exact Hx.
Qed.
Lemma py_nth_in {X} (l : list X) i : match py_nth l i with Ok v => In v l | Err e => e = IndexError end.
Proof.
  unfold py_nth. destruct (_ && _)%bool; [|reflexivity]. destruct (nth_error l _) eqn:E; [exact (nth_error_In _ _ E)|reflexivity].
Qed.

Section Shared.
  Context {O : OArith}.
  Variable rnd : O -> Z.
  Variable isclose : O -> O -> bool.
  Variable B : bank O.
  Variable spins : nat.
  Variable program : nat -> list (nat * ppcall O).
  Variable o : nat.
  Variable g0 : poly O.
  Let V := pp_value program o g0.
  Let T := pp_rate B program o g0.
  Definition ppgood (g : poly O) : Prop := length (ps g) = length (ps g0) /\ Forall V (ps g) /\ T (prate g).
  Definition RPp (g g' : poly O) : Prop := ppgood g -> ppgood g'.
  Definition QPp (a : ppcall O) (y : ppout O) (_ : poly O) : Prop := pp_answer rnd B program o g0 a y.
  Lemma ppgood_stable : stable RPp ppgood. Proof. intros w w' X Y. exact (Y X). Qed.
  Lemma ppkeeps_act a f k : (forall w, ppgood w -> ppgood (f w) /\ keeps RPp QPp a ppgood (k w)) -> keeps RPp QPp a ppgood (Act f k).
  Proof. intros H w Hw. destruct (H w Hw) as [H1 H2]. split; [intros _; exact H1|]. exists ppgood. split; [exact ppgood_stable|]. auto. Qed.
  Lemma k_peek a k : (forall w, ppgood w -> keeps RPp QPp a ppgood (k w)) -> keeps RPp QPp a ppgood (peek k).
  Proof. intros H. apply ppkeeps_act. auto. Qed.
  Lemma k_index a (i : O) c : keeps RPp QPp a ppgood c -> keeps RPp QPp a ppgood (poke (set_index i) c).
  Proof. intros H. apply ppkeeps_act. intros w Hw. split; [exact Hw|exact H]. Qed.
  Lemma k_set0 x v c : x <> [] -> V v -> keeps RPp QPp (PpFilter x) ppgood c -> keeps RPp QPp (PpFilter x) ppgood (pp_set0 v c).
  Proof.
    intros Nx Hv Hc. apply ppkeeps_act. intros w Hw. destruct (set0_cases (ps w) v) as [[_ E]|(h & t & E & E2)].
    - rewrite E. split; [exact Hw|]. intros w' _. exact Nx.
    - rewrite E2. split; [|exact Hc]. destruct Hw as (W1 & W2 & W3). rewrite E in W1, W2. split; [exact W1|]. split; [|exact W3]. constructor; [exact Hv|]. inversion W2; assumption.
  Qed.
  Lemma k_consume x k : x <> [] -> forall xs, Forall V xs -> (forall xs', Forall V xs' -> keeps RPp QPp (PpFilter x) ppgood (k xs')) -> keeps RPp QPp (PpFilter x) ppgood (pp_consume B xs k).
  Proof.
    intros Nx. induction xs as [|v xs IH]; intros F Hk; [exact (Hk [] F)|]. cbn [pp_consume]. apply k_peek. intros g _. destruct (oleb _ _); [|exact (Hk _ F)].
    apply k_set0; [exact Nx|inversion F; assumption|]. apply ppkeeps_act. intros w (W1 & W2 & W3). split; [split; [cbn [ps]; rewrite length_np_shift; exact W1|]; split; [apply shift_in; exact W2|exact W3]|].
    apply k_peek. intros g2 _. apply k_index. apply IH; [inversion F; assumption|exact Hk].
  Qed.
  Lemma k_loop x r : x <> [] -> T r -> forall fuel xs ny out, Forall V xs -> Forall (pp_sample B program o g0) out -> (Z.of_nat (length out + ny) <= rnd (mul (of_nat (length x)) r))%Z ->
    keeps RPp QPp (PpFilter x) ppgood (pp_loop rnd B fuel xs ny out).
  Proof.
    intros Nx Hr. induction fuel as [|fuel IH]; intros xs ny out F Fo L.
    - assert (D : keeps RPp QPp (PpFilter x) ppgood (Ret (Some (Ok out)))) by (intros w _; split; [exact Nx|]; split; [exact Fo|]; exists r; split; [exact Hr|lia]).
      destruct xs as [|v xs]; [exact D|]. destruct ny as [|ny]; [exact D|]. intros w _. exact Nx.
    - assert (D : keeps RPp QPp (PpFilter x) ppgood (Ret (Some (Ok out)))) by (intros w _; split; [exact Nx|]; split; [exact Fo|]; exists r; split; [exact Hr|lia]).
      destruct xs as [|v xs]; [exact D|]. destruct ny as [|ny]; [exact D|]. cbn [pp_loop]. apply k_peek. intros g1 _. destruct (oltb _ _).
      + apply k_peek. intros g2 _. apply k_peek. intros g3 _. apply k_peek. intros g4 (_ & _ & H4). destruct (eqb (prate g4) zero) eqn:E4; [intros w _; exists (prate g4); auto|].
        apply k_index. apply k_set0; [exact Nx|inversion F; assumption|]. apply k_peek. intros g5 (W1 & W2 & _).
        pose proof (py_nth_in B (Z.min (rnd (pindex g2)) (Z.of_nat (length B) - 1))) as P. destruct (py_nth B _) as [row|e]; cbn [bind]; [|subst e; intros w _; exact Nx].
        unfold np_dot. destruct (Nat.eqb_spec (length row) (length (ps g5))) as [E|N].
        * apply k_consume; [exact Nx|exact F|]. intros xs' F'. apply IH; [exact F'| |rewrite app_length; cbn [length]; lia]. apply Forall_app. split; [exact Fo|]. constructor; [|constructor]. exists row, (ps g5). auto.
        * intros w _. right. right. exists row. split; [exact P|]. rewrite <- W1. exact N.
      + apply k_consume; [exact Nx|exact F|]. intros xs' F'. apply IH; assumption.
  Qed.
  Lemma ppcall_keeps j a : In (o, a) (program j) -> keeps RPp QPp a ppgood (pp_code rnd isclose B spins a).
  Proof.
    intros I. destruct a as [x|[v|]|r]; cbn [pp_code].
    - destruct (Nat.eqb_spec (length x) 0) as [E|N]; [intros w _; left; apply length_zero_iff_nil; exact E|]. assert (Nx : x <> []) by (intros ->; apply N; reflexivity).
      apply k_peek. intros g (_ & _ & Ht). destruct (Z.ltb_spec (rnd (mul (of_nat (length x)) (prate g))) 0) as [L|L]; [intros w _; right; left; exists (prate g); auto|].
      apply (k_loop x (prate g) Nx Ht); [|constructor|cbn [length Nat.add]; lia]. apply Forall_forall. intros v Hv. right. left. exists j, x. auto.
    - apply ppkeeps_act. intros w (W1 & W2 & W3). split; [|intros w' _; reflexivity]. cbn [poly_reset fst]. split; [cbn [ps]; rewrite map_length; exact W1|]. split; [|exact W3]. cbn [ps]. apply Forall_forall. intros z Hz. apply in_map_iff in Hz. destruct Hz as (_ & <- & _). right. right. exists j. exact I.
    - intros w _. reflexivity.
    - destruct (prate_bad (length B) r) eqn:E; unfold prate_bad in E.
      + intros w _. unfold QPp, pp_answer. rewrite E. reflexivity.
      + assert (D : keeps RPp QPp (PpRate r) ppgood (poke (fun g => mkPoly (pindex g) r (ps g)) (Ret (Some (Ok []))))).
        { apply ppkeeps_act. intros w (W1 & W2 & _). split; [|intros w' _; unfold QPp, pp_answer; rewrite E; reflexivity]. split; [exact W1|]. split; [exact W2|]. apply orb_false_iff in E. destruct E as [E1 E2]. right. split; [exact E1|]. split; [exact E2|]. exists j. exact I. }
        apply k_peek. intros g _. destruct (isclose (prate g) r); [exact D|apply k_index; exact D].
  Qed.
End Shared.

(** C207.  Under any schedule, a shared PolyphaseRateFilter keeps its number of registers, each
    holds a value of the start or one that some thread gave, and the rate was set by someone;
    every output is a phase of the bank times such registers, and no answer is longer than one
    of the rates allows.  Beyond what is refused alone, filter can raise ZeroDivisionError, if
    the rate is set to zero meanwhile, or IndexError.  Any arithmetic. *)
Theorem C207_shared_polyphase (O : OArith) rnd isclose (B : bank O) spins (st : nat -> poly O) program c o :
  steps (pp_code rnd isclose B spins) (start st program) c ->
  (length (ps (store c o)) = length (ps (st o)) /\ Forall (pp_value program o (st o)) (ps (store c o)) /\ pp_rate B program o (st o) (prate (store c o))) /\
  forall i, finished (threads c i) ->
    Forall2 (fun p y => fst p = o -> pp_answer rnd B program o (st o) (snd p) y) (program i) (results (threads c i)).
Proof.
  intros S. set (R := RPp B program o (st o)). set (Q := QPp rnd B program o (st o)).
  assert (G0 : ppgood B program o (st o) (st o)). { split; [reflexivity|]. split; [apply Forall_forall; intros v Hv; left; exact Hv|left; reflexivity]. }
  assert (K : forall j a, In (o, a) (program j) -> keeps R Q a (R (st o)) (pp_code rnd isclose B spins a)).
  { intros j a I. assert (G := ppcall_keeps rnd isclose B spins program o (st o) j a I). fold R Q in G. destruct (pp_code rnd isclose B spins a) as [y|f k]; intros w Hw; apply G; apply Hw; exact G0. }
  assert (Rr : forall w, R w w) by (intros w A; exact A). assert (Rt : forall a b d, R a b -> R b d -> R a d) by (intros a b d A1 A2 A3; exact (A2 (A1 A3))).
  assert (Qs : forall a y, stable R (Q a y)) by (intros a y w w' A _; exact A).
  destruct (shared_kept (pp_code rnd isclose B spins) program st o R Rr Rt Q Qs K c S) as [H _]. split; [exact (H G0)|].
  intros i Fi. exact (finished_results (pp_code rnd isclose B spins) program st o R Q c i Rr Rt Qs K S Fi).
Qed.
Print Assumptions C207_shared_polyphase.

(** ** An index below zero *)
Definition roundP (x : QO) : Z := Qfloor (this x + (1 # 2))%Q.
Definition closeP (x y : QO) : bool := Qeq_bool (this x) (this y).
Definition bank256 : bank QO := repeat [q 1 2; q 1 2] 256.
Definition fresh : poly QO := @mkPoly QO (q 0 1) (q 1 1) [q 0 1; q 0 1].
Definition ppQ : ppcall QO -> code (poly QO) (ppout QO) := pp_code roundP closeP bank256 0.
Definition ramp (i : nat) : list (nat * ppcall QO) :=
  match i with 0 => [(0, PpFilter (O := QO) [q 1 1]); (0, PpFilter (O := QO) [q 4 1])] | 1 => [(0, PpFilter (O := QO) [q 2 1])] | 2 => [(0, PpFilter (O := QO) [q 3 1])] | _ => [] end.
Definition pp_answers (l : list (ppout QO)) : list (option (res (list Q))) := map (option_map (rmap (map this))) l.
(** C207.  It is false that a shared filter of a valid rate only fails when a thread sets the
    rate: with the bank's 256 phases and the rate one, three threads that filter one sample each
    can leave the index at -512, and the next call, made when they are done, raises IndexError. *)
Theorem C207_index_refuted : exists c c', steps ppQ (start (fun _ => fresh) ramp) c /\ steps ppQ c c' /\
  (finished (threads c 1) /\ finished (threads c 2) /\ todo (threads c 0) = [(0, PpFilter (O := QO) [q 4 1])] /\ now (threads c 0) = None /\ this (pindex (store c 0)) = (-512)%Q) /\
  finished (threads c' 0) /\ pp_answers (results (threads c' 0)) = [Some (Ok [(1 # 2)%Q]); Some (Err IndexError)].
Proof.
  set (c := schedule ppQ (repeat 0 10 ++ repeat 1 4 ++ repeat 2 4 ++ repeat 0 5 ++ repeat 1 30 ++ repeat 2 30) (start (fun _ => fresh) ramp)).
  exists c, (schedule ppQ (repeat 0 30) c). split; [apply schedule_ok; apply TNil|]. split; [apply schedule_ok; apply TNil|]. split; [|split; [apply finishedb_ok; vm_compute; reflexivity|vm_compute; reflexivity]].
  split; [apply finishedb_ok; vm_compute; reflexivity|]. split; [apply finishedb_ok; vm_compute; reflexivity|]. split; [vm_compute; reflexivity|]. split; vm_compute; reflexivity.
Qed.
Print Assumptions C207_index_refuted.
(** the same threads one after another: no call fails *)
Example C207_example : let c := schedule ppQ (repeat 0 60 ++ repeat 1 60 ++ repeat 2 60) (start (fun _ => fresh) ramp) in
  finished (threads c 0) /\ finished (threads c 2) /\ pp_answers (results (threads c 0)) = [Some (Ok [(1 # 2)%Q]); Some (Ok [(5 # 2)%Q])] /\ pp_answers (results (threads c 2)) = [Some (Ok [(5 # 2)%Q])] /\
  this (pindex (store c 0)) = 0%Q /\ @poly_make QO 256 2 (q 1 1) = Ok fresh /\ eqb (prate fresh) zero = false.
Proof.
  cbv zeta. split; [apply finishedb_ok; vm_compute; reflexivity|]. split; [apply finishedb_ok; vm_compute; reflexivity|]. repeat split; vm_compute; reflexivity.
Qed.
