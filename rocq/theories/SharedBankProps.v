(** PolyphaseRateFilter objects share one bank: harmless until somebody writes to b. *)
From Coq Require Import List Arith ZArith Bool Lia QArith Qcanon.
From Verif Require Import Base BaseLemmas Instances CalculusModel RankModel PolyphaseModel PolyphaseProps SharedBankModel.
Import ListNotations.
Set Asymmetric Patterns.
Close Scope Q_scope. Close Scope R_scope. Open Scope nat_scope.

Definition writes {O : OArith} (o : pop O) : bool := match o with PPoke _ _ _ _ => true | _ => false end.
(** A bank of zeros only, as numpy.any sees it. *)
Definition blank {O : OArith} (B : bank O) : Prop := forall row v, In row B -> In v row -> eqb v zero = true.
(** The bank of the class's own design: row i holds every rr-th coefficient of h from the
    i-th on, divided by their sum. *)
Definition designed {O : OArith} (rr cc : nat) (h : list O) (B : bank O) : Prop :=
  length B = rr /\ forall i, i < rr -> length (nth i B []) = cc /\
    forall j, j < cc -> nth j (nth i B []) zero =
      div (nth (i + rr * j) h zero) (fold_left add (map (fun m => nth (i + rr * m) h zero) (seq 0 cc)) zero).

Section S.
  Context {O : OArith}.
  Variables (rnd : O -> Z) (isclose : O -> O -> bool) (rr cc : nat) (h : list O).
  Let run := prun rnd isclose rr cc h.
  Let D := map (bank_row rr cc h) (seq 0 rr).

  Lemma D_designed : designed rr cc h D.
  Proof.
    unfold D. split; [rewrite map_length, seq_length; reflexivity|]. intros i Hi.
    assert (E : nth i (map (bank_row rr cc h) (seq 0 rr)) [] = bank_row rr cc h i).
    { rewrite nth_indep with (d' := bank_row rr cc h 0) by (rewrite map_length, seq_length; exact Hi). rewrite map_nth, seq_nth by exact Hi. reflexivity. }
    rewrite E. unfold bank_row. split; [rewrite !map_length, seq_length; reflexivity|]. intros j Hj.
    match goal with |- nth j (map ?F ?l) zero = _ => rewrite nth_indep with (d' := F zero) by (rewrite !map_length, seq_length; exact Hj); rewrite (map_nth F) end.
    f_equal. match goal with |- nth j (map ?F ?l) zero = _ => rewrite nth_indep with (d' := F 0) by (rewrite map_length, seq_length; exact Hj); rewrite (map_nth F), seq_nth by exact Hj end. reflexivity.
  Qed.
  Lemma init_cases B : (blank B /\ bank_init rr cc B h = D) \/ (~ blank B /\ bank_init rr cc B h = B).
  Proof.
    unfold bank_init, blank. destruct (existsb _ B) eqn:E.
    - right. split; [|reflexivity]. intros Hb. apply existsb_exists in E. destruct E as (row & H1 & E). apply existsb_exists in E. destruct E as (v & H2 & E).
      rewrite (Hb row v H1 H2) in E. discriminate.
    - left. split; [|reflexivity]. intros row v H1 H2. destruct (eqb v zero) eqn:Ev; [reflexivity|]. exfalso. rewrite <- not_true_iff_false in E. apply E.
      apply existsb_exists. exists row. split; [exact H1|]. apply existsb_exists. exists v. split; [exact H2|]. rewrite Ev. reflexivity.
  Qed.
  Lemma init_idem B : bank_init rr cc (bank_init rr cc B h) h = bank_init rr cc B h.
  Proof. destruct (init_cases B) as [[_ E]|[_ E]]; rewrite E; [|exact E]. destruct (init_cases D) as [[_ E2]|[_ E2]]; exact E2. Qed.

  (** Two worlds that look the same to name k. *)
  Definition alike (k : nat) (w w' : pworld O) : Prop :=
    wobj w k = wobj w' k /\
    (wbank w = wbank w' \/ (wobj w k = None /\ bank_init rr cc (wbank w') h = wbank w) \/
     (wobj w k = None /\ bank_init rr cc (wbank w) h = wbank w')).
  Lemma bind_same e k (f : poly O) : bind_name e k f k = Some f. Proof. unfold bind_name. rewrite Nat.eqb_refl. reflexivity. Qed.
  Lemma bind_other e k j (f : poly O) : j <> k -> bind_name e k f j = e j.
  Proof. intros H. unfold bind_name. destruct (Nat.eqb_spec j k); [contradiction|reflexivity]. Qed.
  Lemma alike_step k w w' o : alike k w w' -> writes o = false -> pname o = k ->
    snd (pexec rnd isclose rr cc h w o) = snd (pexec rnd isclose rr cc h w' o) /\ alike k (fst (pexec rnd isclose rr cc h w o)) (fst (pexec rnd isclose rr cc h w' o)).
  Proof.
    intros [E B] Hw Hk. assert (Ei : bank_init rr cc (wbank w) h = bank_init rr cc (wbank w') h).
    { destruct B as [-> |[[_ B]|[_ B]]]; [reflexivity| |]; rewrite <- B, init_idem; reflexivity. }
    destruct o as [n r|n x|n x|n r|n i j v|n]; cbn [pname] in Hk; subst n; try discriminate Hw; cbn [pexec].
    - destruct (poly_make rr cc r) as [f|e]; cbn [fst snd]; (split; [reflexivity|]); [|split; assumption].
      unfold alike. cbn [wobj wbank]. rewrite !bind_same. auto.
    - rewrite <- E. destruct (wobj w k) as [f|] eqn:Ef; cbn [fst snd]; [|split; [reflexivity|split; [congruence|rewrite Ef; exact B]]].
      destruct B as [B|[[B _]|[B _]]]; try discriminate. rewrite B. destruct (poly_filter rnd (wbank w') f x) as [[f' r]|]; cbn [fst snd]; (split; [reflexivity|]); unfold alike; cbn [wobj wbank]; rewrite ?bind_same; auto. split; [congruence|auto].
    - rewrite <- E. destruct (wobj w k) as [f|] eqn:Ef; cbn [fst snd]; [|split; [reflexivity|split; [congruence|rewrite Ef; exact B]]].
      destruct (poly_reset f x) as [f' r]. cbn [fst snd]. split; [reflexivity|]. unfold alike. cbn [wobj wbank]. rewrite !bind_same. destruct B as [B|[[B _]|[B _]]]; try discriminate. auto.
    - rewrite <- E. destruct (wobj w k) as [f|] eqn:Ef; cbn [fst snd]; [|split; [reflexivity|split; [congruence|rewrite Ef; exact B]]].
      destruct (poly_set_rate isclose rr f r) as [f' z]. cbn [fst snd]. split; [reflexivity|]. unfold alike. cbn [wobj wbank]. rewrite !bind_same. destruct B as [B|[[B _]|[B _]]]; try discriminate. auto.
    - rewrite <- E. destruct (wobj w k) as [f|] eqn:Ef; cbn [fst snd]; [|split; [reflexivity|split; [congruence|rewrite Ef; exact B]]].
      destruct B as [B|[[B _]|[B _]]]; try discriminate. rewrite B. split; [reflexivity|]. split; [congruence|auto].
  Qed.
  Lemma alike_other k w w' o : alike k w w' -> writes o = false -> pname o <> k -> (wobj w k <> None -> ~ blank (wbank w) \/ wbank w = D) ->
    alike k (fst (pexec rnd isclose rr cc h w o)) w'.
  Proof.
    intros [E B] Hw Hk HD. destruct o as [n r|n x|n x|n r|n i j v|n]; cbn [pname] in Hk; try discriminate Hw; cbn [pexec].
    - destruct (poly_make rr cc r) as [f|e]; cbn [fst]; [|split; assumption]. unfold alike. cbn [wobj wbank]. rewrite bind_other by congruence. split; [exact E|].
      destruct (wobj w k) as [g|] eqn:Ek.
      + destruct B as [B|[[B _]|[B _]]]; try discriminate. left. destruct HD as [HD|HD]; [discriminate| |].
        * destruct (init_cases (wbank w)) as [[? _]|[_ ->]]; [contradiction|exact B].
        * rewrite HD. destruct (init_cases D) as [[_ ->]|[_ ->]]; congruence.
      + destruct B as [B|[[_ B]|[_ B]]]; [right; left; rewrite B; auto| |left; exact B]. right. left. split; [reflexivity|]. rewrite <- B, init_idem. reflexivity.
    - destruct (wobj w n) as [f|]; cbn [fst]; [|split; assumption]. destruct (poly_filter rnd (wbank w) f x) as [[f' r]|]; cbn [fst]; [|split; assumption]. unfold alike. cbn [wobj wbank]. rewrite bind_other by congruence. auto.
    - destruct (wobj w n) as [f|]; cbn [fst]; [|split; assumption]. destruct (poly_reset f x). cbn [fst]. unfold alike. cbn [wobj wbank]. rewrite bind_other by congruence. auto.
    - destruct (wobj w n) as [f|]; cbn [fst]; [|split; assumption]. destruct (poly_set_rate isclose rr f r). cbn [fst]. unfold alike. cbn [wobj wbank]. rewrite bind_other by congruence. auto.
    - destruct (wobj w n); split; assumption.
  Qed.
  (** While an object exists and nobody writes, the bank is the design or is not blank. *)
  Definition settled (w : pworld O) : Prop := (exists k, wobj w k <> None) -> ~ blank (wbank w) \/ wbank w = D.
  Lemma settled_step w o : settled w -> writes o = false -> settled (fst (pexec rnd isclose rr cc h w o)).
  Proof.
    intros S Hw. assert (R : forall n f f', wobj w n = Some f -> settled (mkPworld (wbank w) (bind_name (wobj w) n f'))).
    { intros n f f' E _. apply S. exists n. congruence. }
    destruct o as [n r|n x|n x|n r|n i j v|n]; try discriminate Hw; cbn [pexec].
    - destruct (poly_make rr cc r) as [f|e]; cbn [fst]; [|exact S]. intros _. cbn [wbank]. destruct (init_cases (wbank w)) as [[_ ->]|[N ->]]; auto.
    - destruct (wobj w n) as [f|] eqn:E; cbn [fst]; [|exact S]. destruct (poly_filter rnd (wbank w) f x) as [[f' r]|]; cbn [fst]; [eapply R; exact E|exact S].
    - destruct (wobj w n) as [f|] eqn:E; cbn [fst]; [|exact S]. destruct (poly_reset f x). cbn [fst]. eapply R; exact E.
    - destruct (wobj w n) as [f|] eqn:E; cbn [fst]; [|exact S]. destruct (poly_set_rate isclose rr f r). cbn [fst]. eapply R; exact E.
    - destruct (wobj w n); exact S.
  Qed.

  Definition shown_to (k : nat) (rs : list (nat * pobs O)) : list (nat * pobs O) := filter (fun p => Nat.eqb (fst p) k) rs.
  Definition only (k : nat) (p : list (pop O)) : list (pop O) := filter (fun o => Nat.eqb (pname o) k) p.
  Lemma alike_run k p : forall w w', alike k w w' -> settled w -> forallb (fun o => negb (writes o)) p = true ->
    shown_to k (snd (run w p)) = snd (run w' (only k p)).
  Proof.
    unfold run. induction p as [|o p IH]; intros w w' HA HS Hp; [reflexivity|]. cbn [forallb] in Hp. apply andb_prop in Hp. destruct Hp as [Ho Hp]. apply negb_true_iff in Ho.
    cbn [prun only filter]. pose proof (settled_step w o HS Ho) as HS1. destruct (Nat.eqb_spec (pname o) k) as [Hk|Hk].
    - destruct (alike_step k w w' o HA Ho Hk) as [A1 A2]. cbn [prun]. destruct (pexec rnd isclose rr cc h w o) as [w1 r1], (pexec rnd isclose rr cc h w' o) as [w2 r2]. cbn [fst snd] in *.
      specialize (IH w1 w2 A2 HS1 Hp). fold (only k p). destruct (prun rnd isclose rr cc h w1 p), (prun rnd isclose rr cc h w2 (only k p)). cbn [snd shown_to filter fst] in *. rewrite Hk, Nat.eqb_refl. rewrite A1. f_equal. exact IH.
    - pose proof (alike_other k w w' o HA Ho Hk (fun N => HS (ex_intro _ k N))) as A2. destruct (pexec rnd isclose rr cc h w o) as [w1 r1]. cbn [fst] in *.
      specialize (IH w1 w' A2 HS1 Hp). fold (only k p). destruct (prun rnd isclose rr cc h w1 p). cbn [snd shown_to filter fst] in *. destruct (Nat.eqb_spec (pname o) k); [contradiction|]. exact IH.
  Qed.
End S.

(** Programs that write to no bank: every object shows what it shows when it is the only one. *)
Theorem C189_separate (O : OArith) rnd isclose rr cc h (B : bank O) (k : nat) (p : list (pop O)) :
  forallb (fun o => negb (writes o)) p = true ->
  shown_to k (snd (prun rnd isclose rr cc h (fresh_world B) p)) = snd (prun rnd isclose rr cc h (fresh_world B) (only k p)).
Proof. intros H. apply alike_run; [split; auto|intros [j []]; reflexivity|exact H]. Qed.
Print Assumptions C189_separate.

Lemma set_nth_length (X : Type) i (v : X) l : length (set_nth i v l) = length l.
Proof. revert i. induction l as [|a l IH]; intros [|i]; cbn; try reflexivity. rewrite IH. reflexivity. Qed.
Lemma set_nth_same (X : Type) i (v d : X) l : i < length l -> nth i (set_nth i v l) d = v.
Proof. revert i. induction l as [|a l IH]; intros [|i] H; cbn in *; try lia; [reflexivity|]. apply IH. lia. Qed.
Lemma set_nth_other (X : Type) i j (v d : X) l : i <> j -> nth j (set_nth i v l) d = nth j l d.
Proof. revert i j. induction l as [|a l IH]; intros [|i] [|j] H; cbn; try reflexivity; try congruence. apply IH. congruence. Qed.

(** Writing through one object is writing through all: the others see exactly that element
    changed. *)
Theorem C189_write_shared (O : OArith) rnd isclose rr cc h (w : pworld O) a b i j v :
  wobj w a <> None -> wobj w b <> None ->
  let exec := pexec rnd isclose rr cc h in
  exec w (PPoke a i j v) = exec w (PPoke b i j v) /\
  (i < length (wbank w) -> j < length (nth i (wbank w) []) ->
   snd (exec w (PPoke a i j v)) = ODone /\
   exists B, snd (exec (fst (exec w (PPoke a i j v))) (PLook b)) = OBank B /\
     length B = length (wbank w) /\
     forall m n, length (nth m B []) = length (nth m (wbank w) []) /\
       nth n (nth m B []) zero = if (Nat.eqb m i && Nat.eqb n j)%bool then v else nth n (nth m (wbank w) []) zero).
Proof.
  intros Ha Hb exec. unfold exec. cbn [pexec]. destruct (wobj w a) as [fa|]; [|congruence]. destruct (wobj w b) as [fb|] eqn:Eb; [|congruence]. split; [reflexivity|].
  intros Hi Hj. rewrite (proj2 (Nat.ltb_lt _ _) Hi), (proj2 (Nat.ltb_lt _ _) Hj). cbn [andb fst snd]. split; [reflexivity|].
  cbn [pexec wobj wbank]. rewrite Eb. cbn [snd]. eexists. split; [reflexivity|]. unfold poke. split; [apply set_nth_length|]. intros m n.
  destruct (Nat.eqb_spec m i) as [-> |Hm].
  - rewrite set_nth_same by exact Hi. split; [apply set_nth_length|]. destruct (Nat.eqb_spec n j) as [-> |Hn]; cbn [andb]; [apply set_nth_same, Hj|]. apply set_nth_other. congruence.
  - rewrite set_nth_other by congruence. split; reflexivity.
Qed.
Print Assumptions C189_write_shared.

(** An accepted construction leaves a bank alone that has any nonzero element, damaged or not,
    and replaces a blank one by the design, under every existing object. *)
Theorem C189_rebuilt (O : OArith) rnd isclose rr cc h (w : pworld O) k rate f b : poly_make rr cc rate = Ok f -> wobj w b <> None ->
  let w1 := fst (pexec rnd isclose rr cc h w (PNew k rate)) in
  exists B, snd (pexec rnd isclose rr cc h w1 (PLook b)) = OBank B /\ (b <> k -> wobj w1 b = wobj w b) /\
    (~ blank (wbank w) -> B = wbank w) /\ (blank (wbank w) -> designed rr cc h B).
Proof.
  intros Em Hb w1. unfold w1. cbn [pexec]. rewrite Em. cbn [fst pexec wobj wbank]. unfold bind_name at 1. destruct (Nat.eqb_spec b k) as [E|E].
  - exists (bank_init rr cc (wbank w) h). split; [reflexivity|]. split; [congruence|].
    destruct (init_cases rr cc h (wbank w)) as [[N E2]|[N E2]]; rewrite E2; split; intros Q; try contradiction; [apply D_designed|reflexivity].
  - destruct (wobj w b) as [g|] eqn:Eb; [|congruence]. exists (bank_init rr cc (wbank w) h). split; [reflexivity|]. split; [intros _; rewrite bind_other by exact E; exact Eb|].
    destruct (init_cases rr cc h (wbank w)) as [[N E2]|[N E2]]; rewrite E2; split; intros Q; try contradiction; [apply D_designed|reflexivity].
Qed.
Print Assumptions C189_rebuilt.

(** ** A small bank: two phases, two taps *)
Definition h189 : list Qc := [q 1 1; q 1 1; q 1 1; q 3 1].
Definition B189 : list (list Qc) := [[q 0 1; q 0 1]; [q 0 1; q 0 1]].
Definition rnd189 (v : Qc) : Z := (Qnum (this v) / Zpos (Qden (this v)))%Z.
Definition run189 (p : list (pop QO)) : list (nat * pobs QO) :=
  snd (@prun QO rnd189 Qc_eq_bool 2 2 h189 (@fresh_world QO B189) p).
Definition view189 (r : nat * pobs QO) : nat * list (list Q) :=
  (fst r, match snd r with OOut y => [map this y] | OBank B => map (map this) B | ODone => [] | OFail _ => [[]; []] end).
Definition x189 : list QO := [q 4 1; q 8 1].
Definition p189 : list (pop QO) := [@PNew QO 0 (q 2 1); @PNew QO 1 (q 1 1); @PFilter QO 1 x189; @PFilter QO 0 x189; @PNew QO 0 (q 3 1); @PReset QO 1 (Some (q 4 1 : QO)); @PFilter QO 1 x189; @PLook QO 1].
Example C189_separate_example : forallb (fun o => negb (writes o)) p189 = true /\
  map view189 (shown_to 1 (run189 p189)) = map view189 (run189 (only 1 p189)) /\
  map view189 (run189 (only 1 p189)) = [(1, []); (1, [[2%Q; 6%Q]]); (1, []); (1, [[4%Q; 6%Q]]); (1, [[1 # 2; 1 # 2]; [1 # 4; 3 # 4]]%Q)].
Proof. split; [reflexivity|]. split; vm_compute; reflexivity. Qed.
(** With a write the objects are no longer separate. *)
Theorem C189_separate_refuted : ~ forall rnd isclose rr cc (h : list Qc) (B : list (list Qc)) k (p : list (pop QO)),
  shown_to k (snd (@prun QO rnd isclose rr cc h (@fresh_world QO B) p)) = snd (@prun QO rnd isclose rr cc h (@fresh_world QO B) (only k p)).
Proof.
  intros H. specialize (H rnd189 Qc_eq_bool 2 2 h189 B189 1 [@PNew QO 0 (q 2 1); @PNew QO 1 (q 1 1); @PPoke QO 0 0 0 (q 5 1); @PFilter QO 1 x189]).
  apply (f_equal (map view189)) in H. vm_compute in H. discriminate H.
Qed.
Print Assumptions C189_separate_refuted.
(** Zeroing the bank through object 0 silences object 1 until object 2 is built. *)
Example C189_rebuilt_example :
  map view189 (run189 [@PNew QO 0 (q 2 1); @PNew QO 1 (q 1 1); @PPoke QO 0 0 0 (q 0 1); @PPoke QO 0 0 1 (q 0 1); @PPoke QO 0 1 0 (q 0 1); @PPoke QO 0 1 1 (q 0 1);
    @PFilter QO 1 x189; @PNew QO 2 (q 1 1); @PFilter QO 1 x189; @PPoke QO 2 5 0 (q 1 1)]) =
  [(0, []); (1, []); (0, []); (0, []); (0, []); (0, []); (1, [[0%Q; 0%Q]]); (2, []); (1, [[6%Q; 6%Q]]); (2, [[]; []])].
Proof. vm_compute. reflexivity. Qed.
