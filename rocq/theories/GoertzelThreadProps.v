(** Property C197: GoertzelFilter used by several threads. *)
From Coq Require Import List Arith ZArith Bool Lia Reals QArith Qcanon.
From Verif Require Import Base BaseLemmas Instances FirModel IirModel CalculusModel GoertzelModel ThreadModel ThreadProps DivThreadProps GoertzelThreadModel.
Import ListNotations.
Set Asymmetric Patterns.
Close Scope Q_scope. Close Scope Qc_scope. Close Scope R_scope. Open Scope nat_scope.

(** ** A call without interruption is the sequential one *)
Section Alone.
  Context {O : OArith}.
  Variable cdiv : nat -> nat -> nat.
  Lemma on_giir_ok {Y Z} (k : Y -> code (goertzel O) Z) : forall (c : code (iir O) Y) (g : goertzel O),
    complete (on_giir c k) g = let (i, y) := complete c (giir g) in complete (k y) (with_iir g i).
  Proof.
    induction c as [y|f n IH]; intros g; [destruct g; reflexivity|]. cbn [on_giir complete]. rewrite IH. reflexivity.
  Qed.
  Lemma gz_loop_ok u size : forall x y (g : goertzel O), complete (gz_loop u size x y) g =
    let (g', r) := goertzel_loop u size (length y) g x in (g', rmap (app y) r).
  Proof.
    induction x as [|v x IH]; intros y g; [cbn; rewrite app_nil_r; reflexivity|]. cbn [gz_loop goertzel_loop peek complete].
    destruct (nth_error (gw g) (gidx g)) as [w|]; [|reflexivity]. rewrite on_giir_ok, iir_code_ok.
    destruct (iir_filter (giir g) [mul (mul u w) v]) as [i [z|e]]; [|reflexivity]. cbn [peek poke complete with_iir with_idx gidx gw giir gfreq].
    destruct (Nat.leb (length (gw g)) (S (gidx g))).
    - destruct (Nat.leb size (length y)); [reflexivity|]. cbn [poke complete with_iir with_idx gidx gw giir gfreq]. rewrite IH.
      rewrite app_length, Nat.add_1_r. destruct (goertzel_loop _ _ _ _ x) as [g' [r|e]]; cbn [rmap]; [rewrite <- app_assoc|]; reflexivity.
    - rewrite IH. reflexivity.
  Qed.
  Lemma gz_code_ok a (g : goertzel O) : complete (gz_code cdiv a) g = gz_do cdiv g a.
  Proof.
    destruct a as [cplx x|v|f]; cbn [gz_code gz_do].
    - unfold goertzel_filter. destruct (Nat.eqb (length x) 0); [reflexivity|]. cbn [peek complete]. cbv zeta. rewrite gz_loop_ok. cbn [length].
      destruct (goertzel_loop _ _ _ _ x) as [g' [r|e]]; reflexivity.
    - cbn [complete]. destruct (goertzel_reset g v) as [g' r]. reflexivity.
    - unfold goertzel_set_frequency. destruct (freq_bad f); reflexivity.
  Qed.
End Alone.

(** ** Specification *)
Section Spec.
  Context {O : OArith}.
  (** a filter as constructed: as many registers as coefficients, at least one *)
  Definition shaped (f : iir O) : Prop := length (is_ f) = length (ib f) /\ length (ia f) = length (ib f) /\ ib f <> [].
  (** what may never change *)
  Definition same_shape (f f' : iir O) : Prop :=
    idt f' = idt f /\ ia f' = ia f /\ ib f' = ib f /\ length (is_ f') = length (is_ f).
  Definition gz_answer (cdiv : nat -> nat -> nat) (g0 : goertzel O) (a : gz_call O) (y : res (list O)) : Prop :=
    match a with
    | GFilter _ [] => y = Err ValueError
    | GFilter _ x => y = Err IndexError \/ exists l, y = Ok l /\ length l <= length x /\ length l <= S (cdiv (length x) (length (gw g0)))
    | GReset None => y = Err ValueError
    | GReset (Some _) => y = Ok []
    | GFrequency f => y = if freq_bad f then Err ValueError else Ok []
    end.
End Spec.

Lemma keeps_weaken {W C Y} (R : W -> W -> Prop) (Q : C -> Y -> W -> Prop) a (p q : W -> Prop) c :
  (forall w, q w -> p w) -> keeps R Q a p c -> keeps R Q a q c.
Proof. intros G. destruct c as [y|f k]; cbn [keeps]; intros K w P; apply K; auto. Qed.
Lemma np_shift_length {X} (s : list X) : length (np_shift s) = length s.
Proof.
  destruct s as [|h t]; [reflexivity|]. unfold np_shift.
  destruct (exists_last (l := h :: t)) as (l & z & E); [discriminate|]. rewrite E, removelast_last, app_length. cbn [length]. lia.
Qed.

Section IirShared.
  Context {O : OArith} {C : Type}.
  Variable f0 : iir O.
  Hypothesis good : shaped f0.
  Variable a : C.
  Lemma same_refl (f : iir O) : same_shape f f.
  Proof. unfold same_shape. auto. Qed.
  Lemma same_trans (f g h : iir O) : same_shape f g -> same_shape g h -> same_shape f h.
  Proof. intros (A1 & A2 & A3 & A4) (B1 & B2 & B3 & B4). unfold same_shape. repeat split; congruence. Qed.
  Let P (f : iir O) : Prop := same_shape f0 f.
  Lemma P_stable : stable (same_shape (O:=O)) P.
  Proof. intros w w' H1 H2. exact (same_trans _ _ _ H1 H2). Qed.
  Lemma kpeek (Q : C -> res (list O) -> iir O -> Prop) k : (forall f, P f -> keeps (same_shape (O:=O)) Q a P (k f)) -> keeps (same_shape (O:=O)) Q a P (peek k).
  Proof. intros H w Hw. split; [apply same_refl|]. exists P. split; [exact P_stable|]. auto. Qed.
  Lemma kact (Q : C -> res (list O) -> iir O -> Prop) g k : (forall f, P f -> same_shape f (g f)) -> (forall f, P f -> keeps (same_shape (O:=O)) Q a P (k f)) -> keeps (same_shape (O:=O)) Q a P (Act g k).
  Proof. intros G H w Hw. split; [apply G; exact Hw|]. exists P. split; [exact P_stable|]. split; [apply (P_stable w); auto|auto]. Qed.
  Lemma P_shaped (f : iir O) : P f -> shaped f.
  Proof. intros (A1 & A2 & A3 & A4). destruct good as (G1 & G2 & G3). unfold shaped. rewrite A2, A3, A4. auto. Qed.
  Lemma with_s_same (f : iir O) s : length s = length (is_ f) -> same_shape f (iir_with_s f s).
  Proof. intros H. unfold same_shape. cbn. auto. Qed.
  Lemma set0_same v (f : iir O) : P f -> same_shape f (iir_set0 v f).
  Proof. intros _. unfold iir_set0. destruct (is_ f) as [|s0 t] eqn:E; [apply same_refl|]. cbn [np_set0]. apply with_s_same. rewrite E. reflexivity. Qed.
  Lemma iir_loop_keeps n : forall x y, length y + length x = n ->
    keeps (same_shape (O:=O)) (fun _ r _ => exists l, r = Ok l /\ length l = n) a P (iir_loop x y).
  Proof.
    induction x as [|v x IH]; intros y L.
    - cbn [iir_loop keeps]. intros w _. exists y. split; [reflexivity|]. cbn in L. lia.
    - cbn [iir_loop]. cbv zeta. match goal with |- keeps _ _ _ _ (peek (fun f => if _ then _ else ?T)) => assert (Tail : keeps (same_shape (O:=O)) (fun _ r _ => exists l, r = Ok l /\ length l = n) a P T) end.
      { apply kact; [intros f Hf; exact (set0_same v f Hf)|]. intros f Hf. destruct (P_shaped f Hf) as (S1 & S2 & S3).
        destruct (is_ f) as [|s0 t]; [exfalso; destruct (ib f); [contradiction|discriminate]|]. cbn [np_set0]. apply kpeek. intros f1 H1. destruct (P_shaped f1 H1) as (T1 & T2 & T3).
        destruct (ib f1) as [|b0 b1] eqn:Eb; [contradiction|]. unfold bcast. replace (Nat.eqb (length (ia f1)) (length (b0 :: b1))) with true by (symmetry; apply Nat.eqb_eq; exact T2).
        apply kpeek. intros f2 H2. destruct (P_shaped f2 H2) as (U1 & U2 & U3). unfold np_dot. rewrite map_length, combine_length.
        assert (B1 : ib f1 = ib f0) by apply H1. assert (B2 : ib f2 = ib f0) by apply H2.
        replace (Nat.eqb (Nat.min (length (ia f1)) (length (b0 :: b1))) (length (is_ f2))) with true.
        2:{ symmetry. apply Nat.eqb_eq. rewrite T2, U1, B2, <- B1, Eb. apply Nat.min_id. }
        cbn [rmap]. apply IH. rewrite app_length. cbn [length] in *. lia. }
      apply kpeek. intros f Hf. destruct (Nat.ltb 1 (length (is_ f))); [|exact Tail]. apply kpeek. intros f1 H1. destruct (P_shaped f1 H1) as (S1 & S2 & S3).
      destruct (is_ f1) as [|s0 t]; [exfalso; destruct (ib f1); [contradiction|discriminate]|]. apply kpeek. intros f2 H2. destruct (P_shaped f2 H2) as (T1 & T2 & T3).
      unfold np_dot. replace (Nat.eqb (length (ia f2)) (length (is_ f2))) with true by (symmetry; apply Nat.eqb_eq; congruence).
      apply kact; [intros f3 H3; exact (set0_same _ f3 H3)|]. intros _ _. apply kact; [|intros _ _; exact Tail]. intros f3 _. apply with_s_same. apply np_shift_length.
  Qed.
  Lemma iir_code_keeps x : x <> [] -> keeps (same_shape (O:=O)) (fun _ r _ => exists l, r = Ok l /\ length l = length x) a P (iir_code x).
  Proof.
    intros NE. unfold iir_code. destruct x as [|x0 x1]; [contradiction|]. cbn [length Nat.eqb]. apply kpeek. intros f Hf. destruct (P_shaped f Hf) as (_ & _ & S3).
    destruct (ib f); [contradiction|]. apply (iir_loop_keeps (S (length x1))). reflexivity.
  Qed.
End IirShared.
Lemma reset_shape {O : OArith} (f : iir O) v : shaped f -> same_shape f (fst (iir_reset f (Some v))) /\ snd (iir_reset f (Some v)) = Ok tt.
Proof.
  intros (S1 & S2 & S3). unfold iir_reset. destruct (is_ f) as [|s0 [|s1 t]] eqn:E; destruct (ib f) as [|b0 b1] eqn:Eb; try contradiction; try discriminate.
  - split; [|reflexivity]. unfold same_shape. cbn. rewrite E. auto.
  - unfold bcast. destruct (ia f) as [|a0 a1] eqn:Ea; [discriminate|]. cbn [tl]. cbn [length] in S2. injection S2 as S2. replace (Nat.eqb (length a1) (length b1)) with true by (symmetry; apply Nat.eqb_eq; exact S2).
    split; [|reflexivity]. unfold same_shape. cbn. rewrite map_length, E, Ea. auto.
Qed.

Section Shared.
  Context {O : OArith}.
  Variable cdiv : nat -> nat -> nat.
  Variable g0 : goertzel O.
  Hypothesis good : shaped (giir g0).
  Definition RG (g g' : goertzel O) : Prop := same_shape (giir g) (giir g') /\ gw g' = gw g.
  Lemma RG_refl (g : goertzel O) : RG g g.
  Proof. split; [apply same_refl|reflexivity]. Qed.
  Lemma RG_trans (g h k : goertzel O) : RG g h -> RG h k -> RG g k.
  Proof. intros [A1 A2] [B1 B2]. split; [exact (same_trans _ _ _ A1 B1)|congruence]. Qed.
  Definition QG (a : gz_call O) (y : res (list O)) (_ : goertzel O) : Prop := gz_answer cdiv g0 a y.
  Let P (g : goertzel O) : Prop := RG g0 g.
  Lemma PG_stable : stable RG P.
  Proof. intros w w' H1 H2. exact (RG_trans _ _ _ H1 H2). Qed.
  Lemma gpeek a k : (forall g, P g -> keeps RG QG a P (k g)) -> keeps RG QG a P (peek k).
  Proof. intros H w Hw. split; [apply RG_refl|]. exists P. split; [exact PG_stable|]. auto. Qed.
  Lemma gact a f k : (forall g, P g -> RG g (f g)) -> (forall g, P g -> keeps RG QG a P (k g)) -> keeps RG QG a P (Act f k).
  Proof. intros G H w Hw. split; [apply G; exact Hw|]. exists P. split; [exact PG_stable|]. split; [apply (PG_stable w); auto|auto]. Qed.
  Lemma on_giir_keeps a (G : res (list O) -> Prop) k : (forall y, G y -> keeps RG QG a P (k y)) -> forall c p,
    keeps (same_shape (O:=O)) (fun _ y _ => G y) a p c -> (exists f, p f) -> keeps RG QG a (fun g => P g /\ p (giir g)) (on_giir c k).
  Proof.
    intros K. induction c as [y|f n IH]; intros p H Ne; cbn [on_giir keeps] in *.
    - destruct Ne as (f & Pf). apply (keeps_weaken RG QG a P); [intros w [Hw _]; exact Hw|]. apply K. exact (H f Pf).
    - intros g [Hg Hp]. destruct (H (giir g) Hp) as (R & p' & S & Hp' & H'). assert (R' : RG g (with_iir g (f (giir g)))) by (split; [exact R|reflexivity]).
      split; [exact R'|]. exists (fun g => P g /\ p' (giir g)). split; [|split].
      + intros w w' [A1 A2] R2. split; [exact (PG_stable _ _ A1 R2)|exact (S _ _ A2 (proj1 R2))].
      + split; [exact (PG_stable _ _ Hg R')|exact Hp'].
      + apply IH; [exact H'|]. exists (f (giir g)). exact Hp'.
  Qed.
  Lemma gz_loop_keeps cplx X u : X <> [] -> forall x y, length y + length x <= length X -> length y <= S (cdiv (length X) (length (gw g0))) ->
    keeps RG QG (GFilter cplx X) P (gz_loop u (S (cdiv (length X) (length (gw g0)))) x y).
  Proof.
    intros NE. induction x as [|v x IH]; intros y L M.
    - cbn [gz_loop keeps]. intros w _. unfold QG, gz_answer. destruct X as [|X0 X1]; [contradiction|]. right. exists y. cbn [length] in *. repeat split; lia.
    - cbn [gz_loop]. apply gpeek. intros g Hg. assert (Stop : keeps RG QG (GFilter cplx X) P (Ret (Err IndexError))).
      { intros w _. unfold QG, gz_answer. destruct X; [contradiction|]. left. reflexivity. }
      destruct (nth_error (gw g) (gidx g)) as [w|]; [|exact Stop].
      apply (keeps_weaken RG QG _ (fun g => P g /\ same_shape (giir g0) (giir g))); [intros w' Hw; split; [exact Hw|apply Hw]|].
      apply (on_giir_keeps _ (fun r => exists l, r = Ok l /\ length l = 1)).
      + intros r (z & -> & Lz). apply gpeek. intros g1 H1. apply gact; [intros g2 _; split; [apply same_refl|reflexivity]|]. intros _ _. apply gpeek. intros g2 H2.
        destruct (Nat.leb (length (gw g2)) (gidx g2)).
        * destruct (Nat.leb (S (cdiv (length X) (length (gw g0)))) (length y)) eqn:B; [exact Stop|]. apply Nat.leb_gt in B.
          apply gact; [intros g3 _; split; [apply with_s_same; apply map_length|reflexivity]|]. intros _ _. apply gact; [intros g3 _; split; [apply same_refl|reflexivity]|].
          intros _ _. apply IH; rewrite app_length; cbn [length] in *; lia.
        * apply IH; cbn [length] in *; lia.
      + apply (iir_code_keeps (giir g0) good _ [mul (mul u w) v]). discriminate.
      + exists (giir g0). apply same_refl.
  Qed.
  Lemma gz_code_keeps a : keeps RG QG a P (gz_code cdiv a).
  Proof.
    destruct a as [cplx x|[v|]|f]; cbn [gz_code].
    - destruct x as [|x0 x1]; [cbn; intros; reflexivity|]. cbn [Nat.eqb length]. apply gpeek. intros g [_ Hw]. cbv zeta. rewrite Hw.
      apply (gz_loop_keeps cplx (x0 :: x1)); [discriminate|cbn; lia|cbn; lia].
    - intros g Hg. assert (Sg : shaped (giir g)) by (apply (P_shaped (giir g0) good); apply Hg). destruct (reset_shape (giir g) v Sg) as [R1 R2]. unfold goertzel_reset.
      destruct (iir_reset (giir g) (Some v)) as [i r]. cbn [fst snd] in *. subst r. assert (R : RG g (mkGoertzel i (gidx g) (gw g) (gfreq g))) by (split; [exact R1|reflexivity]).
      split; [exact R|]. exists P. split; [exact PG_stable|]. split; [exact (PG_stable _ _ Hg R)|]. intros w _. reflexivity.
    - intros g Hg. split; [destruct g; split; [apply same_refl|reflexivity]|]. exists P. split; [exact PG_stable|]. split; [destruct g; exact Hg|]. intros w _. reflexivity.
    - unfold poke. destruct (freq_bad f) eqn:B.
      + intros w _. unfold QG, gz_answer. rewrite B. reflexivity.
      + apply gact; [intros g _; split; [apply same_refl|reflexivity]|]. intros _ _ w _. unfold QG, gz_answer. rewrite B. reflexivity.
  Qed.
End Shared.

(** C197.  A thread whose GoertzelFilters no other thread uses gets, under any schedule, the
    answers of its calls made one after the other. *)
Theorem C197_goertzel_of_one_thread (O : OArith) cdiv (st : nat -> goertzel O) (program : nat -> list (nat * gz_call O)) i c :
  (forall o j, uses (program i) o -> j <> i -> ~ uses (program j) o) ->
  steps (gz_code cdiv) (start st program) c -> finished (threads c i) ->
  results (threads c i) = snd (serial (gz_do cdiv) st (program i)) /\
  forall o, uses (program i) o -> store c o = fst (serial (gz_do cdiv) st (program i)) o.
Proof.
  intros H S F. apply (thread_results (gz_code cdiv) (gz_do cdiv) (gz_code_ok cdiv) program st i); auto.
Qed.
Print Assumptions C197_goertzel_of_one_thread.

(** C197.  Threads that share a GoertzelFilter, under any schedule: coefficients, weights and
    the number of registers stay, and a call that would not fail alone can only fail with an
    IndexError; otherwise it returns at most one output per sample, and no more than fit in its
    array. *)
Theorem C197_shared_goertzel (O : OArith) cdiv (st : nat -> goertzel O) (program : nat -> list (nat * gz_call O)) o c :
  shaped (giir (st o)) -> steps (gz_code cdiv) (start st program) c ->
  same_shape (giir (st o)) (giir (store c o)) /\ gw (store c o) = gw (st o) /\
  forall i, finished (threads c i) ->
    Forall2 (fun p y => fst p = o -> gz_answer cdiv (st o) (snd p) y) (program i) (results (threads c i)).
Proof.
  intros G S.
  assert (Calls : forall j a, In (o, a) (program j) -> keeps (RG (O:=O)) (QG cdiv (st o)) a (RG (st o)) (gz_code cdiv a)) by (intros j a _; exact (gz_code_keeps cdiv (st o) G a)).
  assert (U : forall a y, stable (RG (O:=O)) (QG cdiv (st o) a y)) by (intros a y w w' H _; exact H).
  destruct (shared_kept (gz_code cdiv) program st o (RG (O:=O)) RG_refl RG_trans _ U Calls c S) as [[K1 K2] _].
  split; [exact K1|]. split; [exact K2|]. intros i F. exact (finished_results (gz_code cdiv) program st o (RG (O:=O)) _ c i RG_refl RG_trans U Calls S F).
Qed.
Print Assumptions C197_shared_goertzel.

(** C197.  A filter whose index has run past its weights never works again: whatever is called,
    filtering raises IndexError and the index stays. *)
Theorem C197_broken_for_good (O : OArith) cdiv (g : goertzel O) calls k cplx x : length (gw g) <= gidx g ->
  nth_error calls k = Some (GFilter cplx x) -> x <> [] ->
  let (st', rs) := serial (gz_do cdiv) (fun _ => g) (map (pair 0) calls) in
  nth_error rs k = Some (Err IndexError) /\ gidx (st' 0) = gidx g.
Proof.
  intros B Hk Hx.
  assert (G : forall calls (st : nat -> goertzel O), gw (st 0) = gw g -> gidx (st 0) = gidx g ->
    let (st', rs) := serial (gz_do cdiv) st (map (pair 0) calls) in
    gidx (st' 0) = gidx g /\ forall k, nth_error calls k = Some (GFilter cplx x) -> nth_error rs k = Some (Err IndexError)).
  { clear calls k Hk. induction calls as [|a calls IH]; intros st W I.
    - cbn. split; [exact I|]. intros [|k]; discriminate.
    - cbn [map serial]. destruct (gz_do cdiv (st 0) a) as [w y] eqn:E.
      assert (K : gw w = gw g /\ gidx w = gidx g /\ (a = GFilter cplx x -> y = Err IndexError)).
      { destruct a as [cp z|v|f]; cbn [gz_do] in E.
        - unfold goertzel_filter in E. destruct z as [|z0 z1].
          + cbn in E. injection E as <- <-. split; [exact W|]. split; [exact I|]. intros Ea. injection Ea as _ Ez. subst x. contradiction.
          + cbn [length Nat.eqb goertzel_loop] in E. replace (nth_error (gw (st 0)) (gidx (st 0))) with (@None O) in E.
            2:{ symmetry. apply nth_error_None. rewrite W, I. exact B. }
            injection E as <- <-. auto.
        - unfold goertzel_reset in E. destruct (iir_reset (giir (st 0)) v) as [i r]. injection E as <- <-. split; [exact W|]. split; [exact I|]. discriminate.
        - unfold goertzel_set_frequency in E. destruct (freq_bad f); injection E as <- <-; (split; [exact W|]; split; [exact I|]; discriminate). }
      destruct K as (K1 & K2 & K3). specialize (IH (upd st 0 w)). cbn in IH. specialize (IH K1 K2).
      destruct (serial (gz_do cdiv) (upd st 0 w) (map (pair 0) calls)) as [st2 rs]. destruct IH as [IH1 IH2]. split; [exact IH1|].
      intros [|k] Hk; cbn in Hk |- *; [injection Hk as ->; rewrite (K3 eq_refl); reflexivity|apply IH2; exact Hk]. }
  specialize (G calls (fun _ => g) eq_refl eq_refl). destruct (serial _ _ _) as [st' rs]. destruct G as [G1 G2]. split; [apply G2; exact Hk|exact G1].
Qed.
Print Assumptions C197_broken_for_good.

(** ** IirFilter *)
Section IirObjects.
  Context {O : OArith}.
  Variable f0 : iir O.
  Hypothesis good : shaped f0.
  Definition iir_answer (a : fcall O) (y : res (list O)) : Prop :=
    match a with
    | Filter [] => y = Err ValueError
    | Filter x => exists l, y = Ok l /\ length l = length x
    | Reset None => y = Err ValueError
    | Reset (Some _) => y = Ok []
    end.
  Definition RI (w w' : filt O) : Prop := match w, w' with FIir f, FIir f' => same_shape f f' | FIir _, _ => False | _, _ => True end.
  Lemma RI_refl w : RI w w.
  Proof. destruct w; cbn; [exact I|apply same_refl|exact I]. Qed.
  Lemma RI_trans w w' w'' : RI w w' -> RI w' w'' -> RI w w''.
  Proof. destruct w, w', w''; cbn; try tauto. apply same_trans. Qed.
  Let PI (w : filt O) : Prop := RI (FIir f0) w.
  Lemma PI_stable : stable RI PI.
  Proof. intros w w' H1 H2. exact (RI_trans _ _ _ H1 H2). Qed.
  Lemma on_iir_keeps (a : fcall O) no : forall c p, keeps (same_shape (O:=O)) (fun a y _ => iir_answer a y) a p c ->
    keeps RI (fun a y _ => iir_answer a y) a (fun w => exists f, w = FIir f /\ p f) (on_iir c no).
  Proof.
    induction c as [y|g k IH]; intros p K; cbn [on_iir keeps] in *.
    - intros w (f & -> & Pf). exact (K f Pf).
    - intros w (f & -> & Pf). destruct (K f Pf) as (R & p' & S & P' & K'). split; [exact R|].
      exists (fun w => exists f, w = FIir f /\ p' f). split; [|split; [exists (g f); auto|apply IH; exact K']].
      intros w w' (h & -> & Ph) H2. destruct w' as [h'|h'|h']; cbn in H2; try contradiction. exists h'. split; [reflexivity|exact (S _ _ Ph H2)].
  Qed.
  Lemma keeps_answer {W C Y} (R : W -> W -> Prop) (Q Q' : C -> Y -> W -> Prop) a : (forall y w, Q a y w -> Q' a y w) ->
    forall c p, keeps R Q a p c -> keeps R Q' a p c.
  Proof.
    intros G. induction c as [y|f k IH]; intros p K; cbn [keeps] in *; intros w Hw; [apply G, K, Hw|].
    destruct (K w Hw) as (H1 & p' & H2 & H3 & H4). split; [exact H1|]. exists p'. auto.
  Qed.
  Lemma iir_objects_keeps a : keeps RI (fun a y _ => iir_answer a y) a PI (filt_code a).
  Proof.
    intros w Hw. unfold PI in Hw. destruct w as [f|f|f]; cbn in Hw; try contradiction. split; [apply RI_refl|].
    exists (fun w => exists f, w = FIir f /\ same_shape f0 f). split; [|split; [exists f; auto|]].
    { intros v v' (h & -> & Ph) H2. destruct v' as [h'|h'|h']; cbn in H2; try contradiction. exists h'. split; [reflexivity|exact (same_trans _ _ _ Ph H2)]. }
    apply on_iir_keeps. destruct a as [x|[v|]].
    - destruct x as [|x0 x1]; [intros g _; reflexivity|]. eapply keeps_answer; [|apply (iir_code_keeps f0 good _ (x0 :: x1)); discriminate].
      cbn beta. intros y _ H. exact H.
    - intros g Hg. destruct (reset_shape g v (P_shaped f0 good g Hg)) as [R1 R2]. split; [exact R1|]. exists (same_shape f0).
      split; [intros w w' H1 H2; exact (same_trans _ _ _ H1 H2)|]. split; [exact (same_trans _ _ _ Hg R1)|]. rewrite R2. intros w _. reflexivity.
    - intros g Hg. split; [apply same_refl|]. exists (same_shape f0). split; [intros w w' H1 H2; exact (same_trans _ _ _ H1 H2)|]. split; [exact Hg|]. intros w _. reflexivity.
  Qed.
End IirObjects.

(** C197.  Threads that share an IirFilter: coefficients and the number of registers stay, and
    no call fails that would not fail alone; every call returns one output per sample. *)
Theorem C197_shared_iir (O : OArith) (st : nat -> filt O) (program : nat -> list (nat * fcall O)) o f0 c :
  st o = FIir f0 -> shaped f0 -> steps filt_code (start st program) c ->
  (exists f, store c o = FIir f /\ same_shape f0 f) /\
  forall i, finished (threads c i) ->
    Forall2 (fun p y => fst p = o -> iir_answer (snd p) y) (program i) (results (threads c i)).
Proof.
  intros E G S.
  assert (Calls : forall j a, In (o, a) (program j) -> keeps RI (fun a y _ => iir_answer a y) a (RI (st o)) (filt_code a)) by (intros j a _; rewrite E; exact (iir_objects_keeps f0 G a)).
  assert (U : forall (a : fcall O) (y : res (list O)), stable (RI (O:=O)) (fun _ => iir_answer a y)) by (intros a y w w' H _; exact H).
  destruct (shared_kept filt_code program st o (RI (O:=O)) RI_refl RI_trans (fun a y _ => iir_answer a y) U Calls c S) as [K _]. split.
  - rewrite E in K. cbn in K. destruct (store c o) as [f|f|f]; try contradiction. exists f. auto.
  - intros i F. exact (finished_results filt_code program st o (RI (O:=O)) (fun a y _ => iir_answer a y) c i RI_refl RI_trans U Calls S F).
Qed.
Print Assumptions C197_shared_iir.

(** ** Examples *)
(** the filter of frequency 0 with [n] weights one: a = [0, 2, -1], b = [1, -1, 0] *)
Definition gz0 (n k : nat) : goertzel QO := mkGoertzel (mkIir DFloat [q 0 1; q 2 1; q (-1) 1] [q 1 1; q (-1) 1; q 0 1] [q 0 1; q 0 1; q 0 1] : iir QA) k (repeat (q 1 1) n) 0%R.
Definition up (n l : nat) : nat := (n + l - 1) / l.
Definition gz_feed (x y : list Z) (i : nat) : list (nat * gz_call QO) :=
  match i with 0 => [(0, GFilter false (map (fun z => q z 1) x) : gz_call QO)] | 1 => [(0, GFilter false (map (fun z => q z 1) y) : gz_call QO)] | _ => [] end.
Notation gzc := (gz_code (O := QO) up).
Notation gzd := (gz_do (O := QO) up).

Example C197_example : let st (_ : nat) := gz0 2 0 in let program i := match i with 0 => [(0, GFilter false [q 1 1; q 2 1; q 3 1; q 4 1] : gz_call QO)] | 1 => [(1, GFilter false [q 5 1; q 7 1] : gz_call QO); (1, GReset (Some (q 0 1)))] | _ => [] end in
  let c := schedule gzc (concat (repeat [0; 1] 70)) (start st program) in
  steps gzc (start st program) c /\ finished (threads c 0) /\ finished (threads c 1) /\
  map rqs (results (threads c 0)) = [Ok [3; 7]]%Q /\ map rqs (results (threads c 1)) = [Ok [12]; Ok []]%Q /\
  shaped (giir (gz0 2 0)).
Proof.
  cbv zeta. split; [apply schedule_ok; apply TNil|]. split; [apply finishedb_ok; vm_compute; reflexivity|]. split; [apply finishedb_ok; vm_compute; reflexivity|].
  split; [vm_compute; reflexivity|]. split; [vm_compute; reflexivity|]. repeat split; discriminate.
Qed.
Example C197_shared_example : let c := schedule gzc (repeat 0 7 ++ repeat 1 100 ++ repeat 0 100) (start (fun _ => gz0 2 0) (gz_feed [1; 2]%Z [10; 20; 30]%Z)) in
  steps gzc (start (fun _ => gz0 2 0) (gz_feed [1; 2]%Z [10; 20; 30]%Z)) c /\ finished (threads c 0) /\ finished (threads c 1) /\
  length (results (threads c 0)) = 1 /\ gidx (store c 0) <= 2.
Proof.
  cbv zeta. split; [apply schedule_ok; apply TNil|]. split; [apply finishedb_ok; vm_compute; reflexivity|]. split; [apply finishedb_ok; vm_compute; reflexivity|].
  split; [vm_compute; reflexivity|]. apply Nat.leb_le. vm_compute. reflexivity.
Qed.

(** C197.  It is false that calls that would not fail alone do not fail in threads: with one
    weight, a thread that starts between another's increment of the index and its reset reads
    past the weights. *)
Theorem C197_index_refuted : exists c, let st := fun _ : nat => gz0 1 0 in let program := gz_feed [4]%Z [9]%Z in
  steps gzc (start st program) c /\ finished (threads c 0) /\ finished (threads c 1) /\
  map rqs (results (threads c 0)) = [Ok [8]]%Q /\ map rqs (results (threads c 1)) = [Err IndexError] /\
  map rqs (snd (serial gzd st (program 0 ++ program 1))) = [Ok [8]; Ok [18]]%Q /\
  map rqs (snd (serial gzd st (program 1 ++ program 0))) = [Ok [18]; Ok [8]]%Q.
Proof.
  exists (schedule gzc (repeat 0 14 ++ repeat 1 40 ++ repeat 0 40) (start (fun _ => gz0 1 0) (gz_feed [4]%Z [9]%Z))). cbv zeta.
  split; [apply schedule_ok; apply TNil|]. split; [apply finishedb_ok; vm_compute; reflexivity|]. split; [apply finishedb_ok; vm_compute; reflexivity|].
  repeat (split; [vm_compute; reflexivity|]). vm_compute. reflexivity.
Qed.
Print Assumptions C197_index_refuted.

(** C197.  Nor is it enough that no thread interrupts another within a sample: whoever completes
    a window takes the output, so one thread can run out of room in its array.  That leaves the
    index past the weights, and the filter never works again. *)
Theorem C197_outputs_refuted : exists c, let st := fun _ : nat => gz0 3 0 in let program := gz_feed [1; 2; 3]%Z [10; 20; 30; 40; 50; 60]%Z in
  steps gzc (start st program) c /\ finished (threads c 0) /\ finished (threads c 1) /\
  map rqs (results (threads c 0)) = [Err IndexError] /\ map rqs (results (threads c 1)) = [Ok []] /\
  gidx (store c 0) = 3 /\ length (gw (store c 0)) = 3 /\
  map rqs (snd (serial gzd (store c) [(0, GReset (Some (q 0 1)) : gz_call QO); (0, GFilter false [q 1 1] : gz_call QO)])) = [Ok []; Err IndexError] /\
  map (fun r => match r with Ok l => Ok (length l) | Err e => Err e end) (snd (serial gzd st (program 0 ++ program 1))) = [Ok 1; Ok 2].
Proof.
  exists (schedule gzc ([0; 0; 1; 1] ++ repeat 1 26 ++ repeat 0 15 ++ repeat 1 26 ++ repeat 0 15 ++ repeat 1 26 ++ repeat 0 20 ++ [1]) (start (fun _ => gz0 3 0) (gz_feed [1; 2; 3]%Z [10; 20; 30; 40; 50; 60]%Z))). cbv zeta.
  split; [apply schedule_ok; apply TNil|]. split; [apply finishedb_ok; vm_compute; reflexivity|]. split; [apply finishedb_ok; vm_compute; reflexivity|].
  repeat (split; [vm_compute; reflexivity|]). vm_compute. reflexivity.
Qed.
Print Assumptions C197_outputs_refuted.
Example C197_broken_example : length (gw (gz0 3 3)) <= gidx (gz0 3 3) /\
  nth_error [GReset (Some (q 0 1)); GFilter false [q 1 1]] 1 = Some (GFilter false [q 1 1] : gz_call QO).
Proof. split; [cbn; lia|reflexivity]. Qed.
(** an IirFilter y[n] = x[n] + y[n-1]/2 shared by two threads *)
Example C197_iir_example : let f0 : iir QO := mkIir DFloat [q 0 1; q 1 2] [q 1 1; q 0 1] [q 0 1; q 0 1] in
  let program i := match i with 0 => [(0, Filter [q 1 1; q 2 1] : fcall QO)] | 1 => [(0, Filter [q 8 1] : fcall QO); (0, Reset None)] | _ => [] end in
  let c := schedule filt_code (concat (repeat [0; 1; 1] 30)) (start (fun _ => FIir f0) program) in
  shaped f0 /\ steps filt_code (start (fun _ => FIir f0) program) c /\ finished (threads c 0) /\ finished (threads c 1) /\
  map (fun r => match r with Ok l => Ok (length l) | Err e => Err e end) (results (threads c 0)) = [Ok 2] /\
  map (fun r => match r with Ok l => Ok (length l) | Err e => Err e end) (results (threads c 1)) = [Ok 1; Err ValueError].
Proof.
  cbv zeta. split; [repeat split; discriminate|]. split; [apply schedule_ok; apply TNil|]. split; [apply finishedb_ok; vm_compute; reflexivity|]. split; [apply finishedb_ok; vm_compute; reflexivity|].
  split; vm_compute; reflexivity.
Qed.
