(** Property C163: PolyphaseRateFilter built and used by several threads. *)
From Coq Require Import List Arith ZArith Bool Lia QArith Qcanon.
From Verif Require Import Base BaseLemmas Instances PolyphaseModel ThreadModel ThreadProps PolyThreadModel.
Import ListNotations.
Set Asymmetric Patterns.
Close Scope Q_scope. Close Scope Qc_scope. Open Scope nat_scope.

(** ** Specification: one thread by itself, the finished bank there from the start *)
Section Spec.
  Context {O : OArith}.
  Variable rnd : O -> Z.
  Variable isclose : O -> O -> bool.
  Variables (rr cc : nat) (h : list O).
  Definition full : bank O := map (fun i => normal_row (raw_row rr cc h i)) (seq 0 rr).
  Definition on_inst (p : option (poly O)) (c : pcall O) (f : poly O -> poly O * res unit) : option (poly O) * panswer O :=
    match p with Some q => (Some (fst (f q)), PDone (snd (f q))) | None => (None, unbound c) end.
  Definition one (p : option (poly O)) (c : pcall O) : option (poly O) * panswer O :=
    match c with
    | PMake rate => if prate_bad rr rate then (p, PDone (Err ValueError))
                    else (Some (mkPoly zero rate (zeros cc)), PDone (Ok tt))
    | PFilter x => match p with
                   | None => (None, unbound c)
                   | Some q => match poly_filter rnd full q x with
                               | Some (q', r) => (Some q', PSamples (Some r))
                               | None => (Some q, PSamples None)
                               end
                   end
    | PRate rate => on_inst p c (fun q => poly_set_rate isclose rr q rate)
    | PReset v => on_inst p c (fun q => poly_reset q v)
    end.
  Fixpoint alone (p : option (poly O)) (l : list (pcall O)) : option (poly O) * list (panswer O) :=
    match l with
    | [] => (p, [])
    | c :: l' => let (p1, y) := one p c in let (p2, ys) := alone p1 l' in (p2, y :: ys)
    end.
End Spec.

Section Proof.
  Context {O : OArith}.
  Variable rnd : O -> Z.
  Variable isclose : O -> O -> bool.
  Variables (rr cc : nat) (h : list O).
  Hypothesis Hz : eqb (zero : O) zero = true.
  Notation full := (full rr cc h). Notation one := (one rnd isclose rr cc h).
  Notation W := (world O).

  (** What a thread may count on, and what the others may do. *)
  Definition okw (w : W) : Prop :=
    array w Root = repeat (zeros cc) rr /\
    match bound w with Root => True | Made j n => n < published w j end /\
    forall j n, n < published w j -> array w (Made j n) = full.
  Definition rely (i : nat) (w w' : W) : Prop :=
    (forall j, published w j <= published w' j) /\ published w i = published w' i /\ inst w i = inst w' i /\
    (forall n, array w (Made i n) = array w' (Made i n)) /\ (bound w <> Root -> bound w' <> Root).
  Definition guar (i : nat) (w w' : W) : Prop := forall j, j <> i -> rely j w w'.
  Definition ready (i : nat) (w : W) : Prop := inst w i <> None -> bound w <> Root.
  Fixpoint safe (i : nat) (goal : option (poly O) * panswer O) (c : code W (panswer O)) (w : W) : Prop :=
    match c with
    | Ret y => inst w i = fst goal /\ y = snd goal /\ ready i w
    | Act f k => okw (f w) /\ guar i w (f w) /\ forall w', rely i (f w) w' -> okw w' -> safe i goal (k w) w'
    end.
  Definition stable i goal c w : Prop := forall w', rely i w w' -> okw w' -> safe i goal c w'.

  Lemma rely_refl i w : rely i w w.
  Proof. repeat split; auto. Qed.
  Lemma rely_trans i w1 w2 w3 : rely i w1 w2 -> rely i w2 w3 -> rely i w1 w3.
  Proof.
    intros (A1 & A2 & A3 & A4 & A5) (B1 & B2 & B3 & B4 & B5). split; [intros j; specialize (A1 j); specialize (B1 j); lia|].
    split; [congruence|]. split; [congruence|]. split; [intros n; rewrite A4; apply B4|]. auto.
  Qed.
  Lemma stable_safe i goal c w : okw w -> stable i goal c w -> safe i goal c w.
  Proof. intros H S. apply S; [apply rely_refl|exact H]. Qed.
  Lemma ready_rely i w w' : rely i w w' -> ready i w -> ready i w'.
  Proof. intros (_ & _ & A3 & _ & A5) R H. apply A5, R. rewrite A3. exact H. Qed.

  Lemma any_zeros : any (repeat (zeros cc) rr : bank O) = false.
  Proof.
    assert (H : forall m, existsb (fun v : O => negb (eqb v zero)) (zeros m) = false).
    { induction m as [|m IH]; [reflexivity|]. cbn. rewrite Hz. exact IH. }
    unfold any. generalize rr. intros r. induction r as [|r IH]; [reflexivity|]. cbn [repeat existsb]. rewrite H. exact IH.
  Qed.

  (** Effects *)
  Lemma name_eqb_refl a : name_eqb a a = true.
  Proof. destruct a; cbn; rewrite ?Nat.eqb_refl; reflexivity. Qed.
  Lemma set_array_ok i v w : okw w -> okw (set_array (Made i (published w i)) v w).
  Proof.
    intros (A & B & C). split; [exact A|]. split; [exact B|]. intros j n Hn. cbn [array set_array name_eqb published] in *.
    destruct (Nat.eqb_spec j i) as [->|]; [|apply C, Hn]. destruct (Nat.eqb_spec n (published w i)); [lia|apply C, Hn].
  Qed.
  Lemma set_array_guar i n v w : guar i w (set_array (Made i n) v w).
  Proof.
    intros j Hj. repeat split; auto. intros m. cbn [array set_array name_eqb].
    destruct (Nat.eqb_spec j i); [congruence|reflexivity].
  Qed.
  Lemma set_inst_ok i p w : okw w -> okw (set_inst i p w).
  Proof. intros H. exact H. Qed.
  Lemma set_inst_guar i p w : guar i w (set_inst i p w).
  Proof. intros j Hj. repeat split; auto. cbn. rewrite upd_other by exact Hj. reflexivity. Qed.
  Lemma publish_ok i w : okw w -> array w (Made i (published w i)) = full -> okw (publish i w).
  Proof.
    intros (A & B & C) F. split; [exact A|]. split; [cbn; rewrite upd_same; lia|]. intros j n Hn. cbn [array publish published] in *.
    destruct (Nat.eq_dec j i) as [->|Ne]; [|rewrite upd_other in Hn by exact Ne; apply C, Hn].
    rewrite upd_same in Hn. destruct (Nat.eq_dec n (published w i)) as [->|]; [exact F|]. apply C. lia.
  Qed.
  Lemma publish_guar i w : guar i w (publish i w).
  Proof.
    intros j Hj. split; [intros l; cbn; destruct (Nat.eq_dec l i) as [->|Ne]; [rewrite upd_same; lia|rewrite upd_other by exact Ne; lia]|].
    split; [cbn; rewrite upd_other by exact Hj; reflexivity|]. split; [reflexivity|]. split; [reflexivity|]. cbn. discriminate.
  Qed.

  (** The constructor *)
  Lemma finish_stable i rate w : bound w <> Root -> stable i (Some (mkPoly zero rate (zeros cc)), PDone (Ok tt)) (finish_code cc i rate) w.
  Proof.
    intros Hb w1 R1 O1. cbn [finish_code poke safe]. split; [apply set_inst_ok, O1|]. split; [apply set_inst_guar|].
    intros w2 (_ & _ & A3 & _ & A5) O2. cbn [safe fst snd]. split; [rewrite <- A3; cbn; apply upd_same|]. split; [reflexivity|].
    intros _. apply A5. cbn. destruct R1 as (_ & _ & _ & _ & B5). apply B5, Hb.
  Qed.
  Lemma row_step {X} (P : list X) a l f d :
    firstn (length P) (P ++ a :: l) ++ f (nth (length P) (P ++ a :: l) d) :: skipn (S (length P)) (P ++ a :: l) = P ++ f a :: l.
  Proof. induction P as [|p P IH]; [reflexivity|]. cbn [length app firstn nth]. f_equal. exact IH. Qed.
  Lemma norm_stable i rate : forall m k w, k + m = rr ->
    array w (Made i (published w i)) = map (fun r => normal_row (raw_row rr cc h r)) (seq 0 k) ++ map (raw_row rr cc h) (seq k m) ->
    stable i (Some (mkPoly zero rate (zeros cc)), PDone (Ok tt)) (norm_code cc i rate (seq k m)) w.
  Proof.
    induction m as [|m IH]; intros k w Hk Ha w1 R1 O1.
    - cbn [seq norm_code poke safe]. pose proof R1 as (_ & A2 & _ & A4 & _).
      split; [apply publish_ok; [exact O1|]; rewrite <- A4, <- A2, Ha; cbn [seq map]; rewrite app_nil_r; unfold PolyThreadProps.full; f_equal; f_equal; lia|].
      split; [apply publish_guar|]. intros w2 R2 O2. apply (finish_stable i rate (publish i w1)); [cbn; discriminate|exact R2|exact O2].
    - cbn [seq norm_code poke safe]. pose proof R1 as (_ & A2 & _ & A4 & _).
      split; [apply set_array_ok, O1|]. split; [apply set_array_guar|]. intros w2 R2 O2.
      apply (IH (S k) (set_array (Made i (published w1 i))
        (firstn k (array w1 (Made i (published w1 i))) ++ normal_row (nth k (array w1 (Made i (published w1 i))) []) :: skipn (S k) (array w1 (Made i (published w1 i)))) w1));
        [lia| |exact R2|exact O2].
      cbn [array set_array published]. rewrite name_eqb_refl, <- A4, <- A2, Ha. rewrite (seq_S k 0), map_app.
      pose proof (row_step (map (fun r => normal_row (raw_row rr cc h r)) (seq 0 k)) (raw_row rr cc h k) (map (raw_row rr cc h) (seq (S k) m)) normal_row []) as E.
      rewrite map_length, seq_length in E. cbn [seq map Nat.add]. rewrite E, <- app_assoc. reflexivity.
  Qed.
  Lemma make_stable i rate w : ready i w -> stable i (one (inst w i) (PMake rate)) (pmake_code rr cc h i rate) w.
  Proof.
    intros Hr w1 R1 O1. unfold pmake_code, PolyThreadProps.one. destruct (prate_bad rr rate).
    - cbn [safe fst snd]. split; [symmetry; apply R1|]. split; [reflexivity|]. apply (ready_rely _ _ _ R1), Hr.
    - cbn [peek safe]. split; [exact O1|]. split; [intros j _; apply rely_refl|]. intros w2 R2 O2.
      split; [exact O2|]. split; [intros j _; apply rely_refl|]. intros w3 R3 O3.
      destruct (bound w1) as [|j n] eqn:E1.
      + (* still the zeros *)
        destruct O2 as (Z2 & O2'). rewrite Z2, any_zeros. cbn [poke safe].
        split; [apply set_array_ok, O3|]. split; [apply set_array_guar|]. intros w4 R4 O4.
        apply (norm_stable i rate rr 0 (set_array (Made i (published w3 i)) (map (raw_row rr cc h) (seq 0 rr)) w3)); [reflexivity| |exact R4|exact O4].
        cbn [array set_array published]. rewrite name_eqb_refl. reflexivity.
      + assert (B1 : bound w1 <> Root) by (rewrite E1; discriminate).
        assert (B3 : bound w3 <> Root) by (apply R3, R2, B1).
        destruct (any _); [apply (finish_stable i rate w3 B3); [apply rely_refl|exact O3]|].
        cbn [poke safe].
        split; [apply set_array_ok, O3|]. split; [apply set_array_guar|]. intros w4 R4 O4.
        apply (norm_stable i rate rr 0 (set_array (Made i (published w3 i)) (map (raw_row rr cc h) (seq 0 rr)) w3)); [reflexivity| |exact R4|exact O4].
        cbn [array set_array published]. rewrite name_eqb_refl. reflexivity.
  Qed.

  (** The methods *)
  Lemma filter_stable i x w : ready i w -> stable i (one (inst w i) (PFilter x)) (pfilter_code rnd i x) w.
  Proof.
    intros Hr w1 R1 O1. unfold pfilter_code, PolyThreadProps.one. cbn [peek safe]. split; [exact O1|]. split; [intros j _; apply rely_refl|].
    intros w2 R2 O2. assert (I1 : inst w i = inst w1 i) by apply R1. rewrite I1 in *.
    assert (Hr1 : ready i w1) by (apply (ready_rely _ _ _ R1), Hr).
    destruct (inst w1 i) as [q|] eqn:Ei.
    2: { cbn [safe fst snd]. split; [rewrite <- Ei; symmetry; apply R2|]. split; [reflexivity|]. apply (ready_rely _ _ _ R2), Hr1. }
    cbn [peek safe]. split; [exact O2|]. split; [intros j _; apply rely_refl|]. intros w3 R3 O3.
    assert (B1 : bound w1 <> Root) by (apply Hr1; rewrite Ei; discriminate).
    assert (B2 : bound w2 <> Root) by (apply R2, B1).
    assert (I3 : inst w3 i = Some q) by (rewrite <- Ei; transitivity (inst w2 i); [symmetry; apply R3|symmetry; apply R2]).
    assert (F3 : array w3 (bound w2) = full).
    { destruct (bound w2) as [|j n] eqn:E2; [congruence|]. apply O3. destruct O2 as (_ & P2 & _). rewrite E2 in P2.
      destruct R3 as (M & _). specialize (M j). lia. }
    assert (B3 : bound w3 <> Root) by (apply R3, B2).
    rewrite I3, F3. destruct (poly_filter rnd full q x) as [[q' r]|] eqn:Ef.
    - split; [apply set_inst_ok, O3|]. split; [apply set_inst_guar|]. intros w4 (_ & _ & A3 & _ & A5) O4. cbn [safe fst snd option_map].
      split; [rewrite <- A3; cbn; apply upd_same|]. split; [reflexivity|]. intros _. apply A5, B3.
    - split; [exact O3|]. split; [intros j _; apply rely_refl|]. intros w4 R4 O4. cbn [safe fst snd option_map].
      split; [rewrite <- I3; symmetry; apply R4|]. split; [reflexivity|]. intros _. apply R4, B3.
  Qed.
  Lemma meth_stable i c f w : ready i w -> stable i (on_inst (inst w i) c f) (pmeth_code i c f) w.
  Proof.
    intros Hr w1 R1 O1. assert (Hr1 : ready i w1) by (apply (ready_rely _ _ _ R1), Hr).
    assert (I1 : inst w i = inst w1 i) by apply R1. rewrite I1. unfold pmeth_code, on_inst. cbn [safe].
    destruct (inst w1 i) as [q|] eqn:Ei.
    - split; [apply set_inst_ok, O1|]. split; [apply set_inst_guar|]. intros w2 (_ & _ & A3 & _ & A5) O2. cbn [safe fst snd].
      split; [rewrite <- A3; cbn; apply upd_same|]. split; [reflexivity|]. intros _. apply A5. cbn. apply Hr1. rewrite Ei. discriminate.
    - split; [exact O1|]. split; [intros j _; apply rely_refl|]. intros w2 R2 O2. cbn [safe fst snd].
      split; [rewrite <- Ei; symmetry; apply R2|]. split; [reflexivity|]. apply (ready_rely _ _ _ R2), Hr1.
  Qed.
  Lemma call_stable i c w : ready i w -> stable i (one (inst w i) c) (pcode rnd isclose rr cc h (i, c)) w.
  Proof.
    intros Hr. destruct c as [rate|x|rate|v]; cbn [pcode fst snd].
    - apply make_stable, Hr. - apply filter_stable, Hr. - apply meth_stable, Hr. - apply meth_stable, Hr.
  Qed.

  (** All threads *)
  Variable program : nat -> list (pcall O).
  Definition start_world : nat -> W := fun _ => initial rr cc.
  Definition calls (i : nat) : list (nat * (nat * pcall O)) := map (fun c => (0, (i, c))) (program i).
  Definition tinv (w : W) (i : nat) (t : thread W (nat * pcall O) (panswer O)) : Prop := exists made,
    let (p, ys) := alone rnd isclose rr cc h None made in
    results t = ys /\
    match now t with
    | None => (exists rest, program i = made ++ rest /\ todo t = map (fun c => (0, (i, c))) rest) /\ inst w i = p /\ ready i w
    | Some (o, k) => o = 0 /\ exists c rest, program i = made ++ c :: rest /\ todo t = map (fun c => (0, (i, c))) rest /\
        stable i (one p c) k w
    end.
  Lemma tinv_rely w w' i t : rely i w w' -> tinv w i t -> tinv w' i t.
  Proof.
    intros R (made & H). exists made. destruct (alone _ _ _ _ _ None made) as [p ys]. destruct H as (H1 & H2). split; [exact H1|].
    destruct (now t) as [[o k]|].
    - destruct H2 as (E & c & rest & A & B & S). split; [exact E|]. exists c, rest. split; [exact A|]. split; [exact B|].
      intros w2 R2 O2. apply S; [apply (rely_trans i w w' w2 R R2)|exact O2].
    - destruct H2 as (A & B & C). split; [exact A|]. split; [rewrite <- B; symmetry; apply R|apply (ready_rely _ _ _ R), C].
  Qed.
  Lemma alone_snoc l c : forall p, alone rnd isclose rr cc h p (l ++ [c]) =
    let (p1, ys) := alone rnd isclose rr cc h p l in let (p2, y) := one p1 c in (p2, ys ++ [y]).
  Proof.
    induction l as [|b l IH]; intros p; cbn [app alone].
    - destruct (one p c). reflexivity.
    - destruct (one p b) as [p1 y]. rewrite IH. destruct (alone _ _ _ _ _ p1 l) as [p2 ys]. destruct (one p2 c). reflexivity.
  Qed.
  Lemma upd_const (st : nat -> W) o w : upd st o w o = w. Proof. apply upd_same. Qed.

  Lemma invariant_all c : steps (pcode rnd isclose rr cc h) (start start_world calls) c ->
    okw (store c 0) /\ forall i, tinv (store c 0) i (threads c i).
  Proof.
    induction 1 as [|j c1 c2 _ [O1 T1] S].
    - split; [split; [reflexivity|split; [exact I|cbn; intros; lia]]|]. intros i. exists []. cbn. split; [reflexivity|].
      split; [exists (program i); split; reflexivity|]. split; [reflexivity|]. intros H. cbn in H. congruence.
    - destruct S as [o a t r E|o f k t r E|o y t r E]; cbn [store threads].
      + split; [exact O1|]. intros i. destruct (Nat.eq_dec i j) as [->|Ne]; [rewrite upd_same|rewrite upd_other by exact Ne; apply T1].
        destruct (T1 j) as (made & H). rewrite E in H. exists made. destruct (alone _ _ _ _ _ None made) as [p ys].
        cbn [results now todo] in *. destruct H as (H1 & ((rest & A & B) & C & D)). split; [exact H1|].
        destruct rest as [|c0 rest]; [discriminate B|]. cbn [map] in B. injection B as -> -> ->. split; [reflexivity|].
        exists c0, rest. split; [exact A|]. split; [reflexivity|]. rewrite <- C. apply call_stable, D.
      + destruct (T1 j) as (made & H). rewrite E in H. destruct (alone _ _ _ _ _ None made) as [p ys] eqn:Ea.
        cbn [results now todo] in *. destruct H as (H1 & (-> & c0 & rest & A & B & S)).
        pose proof (stable_safe _ _ _ _ O1 S) as (F1 & F2 & F3). rewrite upd_const. split; [exact F1|].
        intros i. destruct (Nat.eq_dec i j) as [->|Ne].
        * rewrite upd_same. exists made. rewrite Ea. cbn [results now todo]. split; [exact H1|]. split; [reflexivity|].
          exists c0, rest. split; [exact A|]. split; [exact B|]. exact F3.
        * rewrite upd_other by exact Ne. apply (tinv_rely (store c1 0)); [apply F2, Ne|apply T1].
      + split; [exact O1|]. intros i. destruct (Nat.eq_dec i j) as [->|Ne]; [rewrite upd_same|rewrite upd_other by exact Ne; apply T1].
        destruct (T1 j) as (made & H). rewrite E in H. destruct (alone _ _ _ _ _ None made) as [p ys] eqn:Ea.
        cbn [results now todo] in *. destruct H as (H1 & (-> & c0 & rest & A & B & S)).
        pose proof (stable_safe _ _ _ _ O1 S) as (F1 & F2 & F3). cbn [safe] in *. exists (made ++ [c0]). rewrite alone_snoc, Ea.
        destruct (one p c0) as [p2 y2]. cbn [fst snd results now todo] in *. split; [rewrite H1, F2; reflexivity|].
        split; [exists rest; split; [rewrite A, <- app_assoc; reflexivity|exact B]|]. split; assumption.
  Qed.
End Proof.

(** C163.  However the threads are interleaved, each gets the results it would get alone with
    the finished bank there from the start: no constructor and no filter call sees the bank
    missing or half made, and constructing it twice does no harm. *)
Theorem C163_bank_race (O : OArith) (rnd : O -> Z) (isclose : O -> O -> bool) (rr cc : nat) (h : list O)
  (program : nat -> list (pcall O)) (c : config (world O) (nat * pcall O) (panswer O)) : eqb (zero : O) zero = true ->
  steps (pcode rnd isclose rr cc h) (start (fun _ => initial rr cc) (fun i => map (fun a => (0, (i, a))) (program i))) c ->
  forall i, exists made rest, program i = made ++ rest /\
    results (threads c i) = snd (alone rnd isclose rr cc h None made) /\
    (finished (threads c i) -> rest = []).
Proof.
  intros Hz S i. destruct (invariant_all rnd isclose rr cc h Hz program c S) as (_ & T).
  destruct (T i) as (made & H). destruct (alone rnd isclose rr cc h None made) as [p ys] eqn:Ea. destruct H as (H1 & H2).
  destruct (now (threads c i)) as [[o k]|] eqn:En.
  - destruct H2 as (_ & c0 & rest & A & _). exists made, (c0 :: rest). split; [exact A|]. rewrite Ea. split; [exact H1|].
    intros [_ F]. rewrite En in F. discriminate.
  - destruct H2 as ((rest & A & B) & _). exists made, rest. split; [exact A|]. rewrite Ea. split; [exact H1|].
    intros [F _]. rewrite B in F. destruct rest; [reflexivity|discriminate].
Qed.
Print Assumptions C163_bank_race.

(** The class attribute is the zeros of line 87 or the finished bank, never anything between;
    and the finished bank for every thread that has an instance. *)
Theorem C163_bank_finished (O : OArith) (rnd : O -> Z) (isclose : O -> O -> bool) (rr cc : nat) (h : list O)
  (program : nat -> list (pcall O)) (c : config (world O) (nat * pcall O) (panswer O)) : eqb (zero : O) zero = true ->
  steps (pcode rnd isclose rr cc h) (start (fun _ => initial rr cc) (fun i => map (fun a => (0, (i, a))) (program i))) c ->
  let B := array (store c 0) (bound (store c 0)) in
  (B = repeat (zeros cc) rr \/ B = full rr cc h) /\
  (forall i, now (threads c i) = None -> inst (store c 0) i <> None -> B = full rr cc h).
Proof.
  intros Hz S. destruct (invariant_all rnd isclose rr cc h Hz program c S) as ((A & B & C) & T). cbv zeta. split.
  - destruct (bound (store c 0)) as [|j n]; [left; exact A|right; apply C, B].
  - intros i En Hi. destruct (T i) as (made & H). destruct (alone rnd isclose rr cc h None made) as [p ys]. rewrite En in H.
    destruct H as (_ & _ & _ & Hr). specialize (Hr Hi). destruct (bound (store c 0)) as [|j n]; [congruence|apply C, B].
Qed.
Print Assumptions C163_bank_finished.

(** The finished bank is the one of the sequential model (C48-C51). *)
Lemma full_bank_init (O : OArith) (rr cc : nat) (h : list O) : eqb (zero : O) zero = true ->
  full rr cc h = bank_init rr cc (repeat (zeros cc) rr) h.
Proof. intros Hz. unfold bank_init. fold (any (repeat (zeros cc) rr : bank O)). rewrite (any_zeros rr cc Hz). reflexivity. Qed.

(** Two threads in the middle: one has read B and is preparing an array, the other has just
    read B. *)
Example C163_example : let h := [q 1 1; q 2 1; q 3 1; q 2 1] in
  eqb (zero : QO) zero = true /\
  map (map (fun v : QO => this v)) (@full QO 2 2 h) = [[1 # 4; 3 # 4]; [1 # 2; 1 # 2]]%Q /\
  exists c, steps (pcode (fun _ : QO => 1%Z) (fun _ _ => true) 2 2 h)
    (start (fun _ => initial 2 2) (fun i => map (fun a => (0, (i, a))) (match i with 0 => [PMake (q 1 1)] | 1 => [PMake (q 1 1); PFilter [q 4 1]] | _ => [] end))) c /\
    array (store c 0) (bound (store c 0)) = repeat (zeros 2) 2 /\ array (store c 0) (Made 0 0) <> repeat (zeros 2) 2.
Proof.
  cbv zeta. split; [reflexivity|]. split; [vm_compute; reflexivity|].
  eexists. split.
  { eapply (TCons _ _ 0). eapply (TCons _ _ 0). eapply (TCons _ _ 0). eapply (TCons _ _ 1). eapply (TCons _ _ 1). eapply (TCons _ _ 0).
    apply TNil. all: first [apply TBegin; reflexivity | apply TAct; reflexivity]. }
  split; [reflexivity|]. intros E. apply (f_equal (map (map (fun v : QO => this v)))) in E. vm_compute in E. discriminate E.
Qed.
