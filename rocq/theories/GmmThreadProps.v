(** Property C203: GaussianMixtureModel objects shared by several threads. *)
From Coq Require Import List Arith ZArith Bool Lia Permutation QArith Qcanon.
From Verif Require Import Base BaseLemmas Instances RankModel RankProps GaussModel GaussProps GmmModel ThreadModel ThreadProps DivThreadProps PidThreadProps GmmThreadModel.
Import ListNotations.
Set Asymmetric Patterns.
Close Scope Q_scope. Close Scope Qc_scope. Open Scope nat_scope.

(** ** Specification *)
Section Spec.
  Context {O : OArith}.
  Variable sk_fit : Z -> Z -> O -> list (list O) -> res (list (component O)).
  Variable expf : O -> O.
  Variable argsort : list O -> list nat.
  Variable program : nat -> list (nat * mcall O).
  Variable o : nat.
  Variable g0 : gmm O.                            (* the model before the threads start *)
  (** what the settings may be *)
  Definition index_known (i : Z) : Prop := i = mindex g0 \/ (0 < i)%Z /\ exists j, In (o, MIndex i) (program j).
  Definition regularize_known (r : O) : Prop := r = mregularize g0 \/ oltb r zero = false /\ exists j, In (o, MRegularize r) (program j).
  Definition valid_fit (x : xarr O) (y : yarr) cols rows labels : Prop :=
    x = X2 cols rows /\ y = YInt labels /\ rows <> [] /\ cols <> 0 /\ length labels = length rows.
  (** the samples of class c *)
  Definition of_class (c : Z) (rows : list (list O)) (labels : list Z) : list (list O) := map fst (filter (fun p => (snd p =? c)%Z) (combine rows labels)).
  Definition estimated (rows : list (list O)) (labels : list Z) (c : Z) (e : res (list (component O))) : Prop :=
    In c labels /\ exists i r, index_known i /\ regularize_known r /\ sk_fit (morder g0) i r (of_class c rows labels) = e.
  (** a class the model may hold: one it held, or one estimated from the samples of one class
      of one fit, by settings that were set at some time *)
  Definition class_known (m : list (component O)) : Prop := In m (mmodel g0) \/
    exists j x y cols rows labels c, In (o, MFit x y) (program j) /\ valid_fit x y cols rows labels /\ estimated rows labels c (Ok m).
  Definition answer_ok (a : mcall O) (y : manswer) : Prop :=
    match a with
    | MFit x l => 
        ((forall cols rows labels, ~ valid_fit x l cols rows labels) /\ (y = MFitted (Err ValueError) \/ y = MFitted (Err TypeError))) \/
        (exists cols rows labels, valid_fit x l cols rows labels /\
           ((y = MFitted (Ok tt) /\ forall c, In c labels -> exists m, estimated rows labels c (Ok m)) \/
            (exists c e, y = MFitted (Err e) /\ estimated rows labels c (Err e))))
    | MPredict x => (exists e, y = MPredicted (Err e) /\ In e [ValueError; RuntimeError; IndexError]) \/
        exists cols rows v k, x = X2 cols rows /\ rows <> [] /\ cols <> 0 /\ y = MPredicted (Ok v) /\
          Forall2 (fun r row => exists ms, Forall class_known ms /\ length ms <= k /\
            row = rev (argsort (map (fun m => gmm_score expf (morder g0) m r) ms ++ repeat zero (k - length ms)))) rows v
    | MIndex i => y = MSet (if (0 <? i)%Z then Ok tt else Err ValueError)
    | MRegularize r => y = MSet (if oltb r zero then Err ValueError else Ok tt)
    end.
End Spec.

(** ** Calls made alone *)
Section Alone.
  Context {O : OArith}.
  Variable sk_fit : Z -> Z -> O -> list (list O) -> res (list (component O)).
  Variable expf : O -> O.
  Variable argsort : list O -> list nat.
  Lemma mfit_classes_ok x y : forall cs (g : gmm O), complete (mfit_classes sk_fit x y cs) g =
    let (m, e) := gmm_loop (sk_fit (morder g) (mindex g) (mregularize g)) x y cs (mmodel g) in (with_classes m g, MFitted e).
  Proof.
    induction cs as [|c cs IH]; intros g; [destruct g; reflexivity|]. cbn [mfit_classes gmm_loop peek complete].
    destruct (sk_fit _ _ _ (select c x y)) as [k|e]; [|destruct g; reflexivity]. cbn [poke complete]. rewrite IH. cbn [with_classes mmodel morder mindex mregularize].
    destruct (gmm_loop _ x y cs _) as [m' e]. reflexivity.
  Qed.
  Lemma mrow_code_ok k (x : list O) next : forall is (row : list O) (g : gmm O), (forall i, In i is -> i < length (mmodel g) /\ i < k) ->
    complete (mrow_code expf k x is row next) g = complete (next (row ++ map (fun i => gmm_score expf (morder g) (nth i (mmodel g) []) x) is)) g.
  Proof.
    induction is as [|i is IH]; intros row g H; [cbn; rewrite app_nil_r; reflexivity|].
    cbn [mrow_code peek complete]. destruct (H i (or_introl eq_refl)) as [H1 H2].
    destruct (nth_error (mmodel g) i) as [p|] eqn:E; [|apply nth_error_None in E; lia]. cbn [peek complete].
    rewrite (proj2 (Nat.ltb_lt i k)) by exact H2. rewrite IH by (intros; apply H; right; assumption).
    rewrite <- app_assoc. cbn [map app]. do 4 f_equal. apply nth_error_nth with (d := []) in E. rewrite E. reflexivity.
  Qed.
  Lemma mrows_code_ok : forall rows out (g : gmm O), complete (mrows_code expf argsort (length (mmodel g)) rows out) g =
    (g, MPredicted (Ok (out ++ map (gmm_row expf argsort g) rows))).
  Proof.
    induction rows as [|x rows IH]; intros out g; [cbn; rewrite app_nil_r; reflexivity|].
    cbn [mrows_code peek complete]. rewrite mrow_code_ok by (intros i Hi; apply in_seq in Hi; lia).
    rewrite IH, <- app_assoc. cbn [map app]. do 5 f_equal.
    rewrite map_length, seq_length, Nat.sub_diag. cbn [repeat]. rewrite app_nil_r. unfold gmm_row. do 2 f_equal.
    rewrite <- (map_map (fun i => nth i (mmodel g) []) (fun p => gmm_score expf (morder g) p x)). f_equal.
    apply (nth_ext _ _ [] []); [rewrite map_length, seq_length; reflexivity|].
    intros n Hn. rewrite map_length, seq_length in Hn. rewrite nth_map_lt with (d := 0) by (rewrite seq_length; exact Hn). rewrite seq_nth by exact Hn. reflexivity.
  Qed.
  Lemma gmm_code_ok (a : mcall O) g : complete (gmm_code sk_fit expf argsort a) g = gmm_do sk_fit expf argsort g a.
  Proof.
    destruct a as [x y|x|i|r]; cbn [gmm_code gmm_do].
    - unfold mfit_code, gmm_fit. destruct x as [cols rows|n]; [|reflexivity].
      destruct ((length rows =? 0) || (cols =? 0))%bool; [reflexivity|]. destruct (ylen y) as [n|]; [|reflexivity].
      destruct (negb (n =? length rows)); [reflexivity|]. destruct y as [l|m|m|]; try reflexivity.
      cbn [poke complete]. rewrite mfit_classes_ok. cbn [with_classes with_shape mmodel morder mindex mregularize].
      destruct (gmm_loop _ rows l (sorted_set l) []) as [m e]. reflexivity.
    - unfold mpredict_code, gmm_predict. cbn [peek complete]. destruct (length (mmodel g) =? 0) eqn:E; [reflexivity|].
      destruct x as [cols rows|n]; [|reflexivity]. destruct ((length rows =? 0) || (cols =? 0))%bool; [reflexivity|].
      cbn [peek complete]. destruct (mshape g) as [c|]; [|reflexivity]. destruct (c =? cols); [|reflexivity].
      cbn [peek complete]. rewrite E. cbn [peek complete]. rewrite E. cbn [peek complete]. rewrite mrows_code_ok. reflexivity.
    - unfold gmm_set_index. destruct (i <=? 0)%Z; reflexivity.
    - unfold gmm_set_regularize. destruct (oltb r zero); reflexivity.
  Qed.
  Lemma mrow_code_quiet k x next : (forall r, quiet (next r)) -> forall is row, quiet (mrow_code expf k x is row next).
  Proof.
    intros H. induction is as [|i is IH]; intros row; [apply H|]. cbn [mrow_code]. apply quiet_peek. intros g.
    destruct (nth_error (mmodel g) i); [|apply QRet]. apply quiet_peek. intros g'. destruct (Nat.ltb i k); [apply IH|apply QRet].
  Qed.
  Lemma mrows_code_quiet k : forall rows out, quiet (mrows_code expf argsort k rows out).
  Proof.
    induction rows as [|x rows IH]; intros out; [apply QRet|]. cbn [mrows_code]. apply quiet_peek. intros g.
    apply mrow_code_quiet. intros r. apply IH.
  Qed.
  Lemma mpredict_code_quiet x : quiet (mpredict_code expf argsort x).
  Proof.
    unfold mpredict_code. apply quiet_peek. intros g. destruct (length (mmodel g) =? 0); [apply QRet|].
    destruct x as [cols rows|n]; [|apply QRet]. destruct ((length rows =? 0) || (cols =? 0))%bool; [apply QRet|].
    apply quiet_peek. intros g1. destruct (mshape g1) as [c|]; [|apply QRet]. destruct (c =? cols); [|apply QRet].
    apply quiet_peek. intros g2. destruct (length (mmodel g2) =? 0); [apply QRet|]. apply quiet_peek. intros g3. destruct (length (mmodel g3) =? 0); [apply QRet|].
    apply quiet_peek. intros g4. apply mrows_code_quiet.
  Qed.
End Alone.

(** C203.  A thread gets the results of its calls made one after the other if each model it
    uses is its own or is only asked for predictions, by any number of threads. *)
Theorem C203_gmm_shared_predictions (O : OArith) sk_fit expf argsort (st : nat -> gmm O) (program : nat -> list (nat * mcall O)) i c :
  (forall o, uses (program i) o ->
     (forall j, j <> i -> ~ uses (program j) o) \/ (forall j a, In (o, a) (program j) -> exists x, a = MPredict x)) ->
  steps (gmm_code sk_fit expf argsort) (start st program) c -> finished (threads c i) ->
  results (threads c i) = snd (serial (gmm_do sk_fit expf argsort) st (program i)) /\
  forall o, uses (program i) o -> store c o = fst (serial (gmm_do sk_fit expf argsort) st (program i)) o.
Proof.
  intros H S F. apply (thread_results (gmm_code sk_fit expf argsort) (gmm_do sk_fit expf argsort) (gmm_code_ok sk_fit expf argsort) program st i); auto.
  intros o U. destruct (H o U) as [A|Q]; [left; exact A|right]. intros j a Hin. destruct (Q j a Hin) as [x Ex]. subst a. apply mpredict_code_quiet.
Qed.
Print Assumptions C203_gmm_shared_predictions.

Section Shared.
  Context {O : OArith}.
  Variable sk_fit : Z -> Z -> O -> list (list O) -> res (list (component O)).
  Variable expf : O -> O.
  Variable argsort : list O -> list nat.
  Variable program : nat -> list (nat * mcall O).
  Variable o : nat.
  Variable g0 : gmm O.
  Let K := class_known sk_fit program o g0.
  Definition mgood (g : gmm O) : Prop := morder g = morder g0 /\ index_known program o g0 (mindex g) /\ regularize_known program o g0 (mregularize g) /\ Forall K (mmodel g).
  Definition RM (g g' : gmm O) : Prop := mgood g -> mgood g'.
  Definition QM (a : mcall O) (y : manswer) (_ : gmm O) : Prop := answer_ok sk_fit expf argsort program o g0 a y.
  Lemma mgood_stable : stable RM mgood. Proof. intros w w' A B. exact (B A). Qed.
  Lemma mkeeps_peek a k : (forall w, mgood w -> keeps RM QM a mgood (k w)) -> keeps RM QM a mgood (peek k).
  Proof. intros H w Hw. split; [intros A; exact A|]. exists mgood. split; [exact mgood_stable|]. split; [exact Hw|]. exact (H w Hw). Qed.
  Lemma mkeeps_poke a f c : (forall w, mgood w -> mgood (f w)) -> keeps RM QM a mgood c -> keeps RM QM a mgood (poke f c).
  Proof. intros H Hc w Hw. split; [intros _; apply H; exact Hw|]. exists mgood. split; [exact mgood_stable|]. split; [apply H; exact Hw|exact Hc]. Qed.
  Lemma mkeeps_ret a y : answer_ok sk_fit expf argsort program o g0 a y -> keeps RM QM a mgood (Ret y).
  Proof. intros H w _. exact H. Qed.
  Lemma fit_classes_keep j x y cols rows labels : In (o, MFit x y) (program j) -> valid_fit x y cols rows labels ->
    forall cs, (forall c, In c cs -> In c labels) ->
    (forall c, In c labels -> In c cs \/ exists m, estimated sk_fit program o g0 rows labels c (Ok m)) ->
    keeps RM QM (MFit x y) mgood (mfit_classes sk_fit rows labels cs).
  Proof.
    intros I V. induction cs as [|c cs IH]; intros Sub All.
    - apply mkeeps_ret. right. exists cols, rows, labels. split; [exact V|]. left. split; [reflexivity|]. intros c Hc. destruct (All c Hc) as [[]|E]. exact E.
    - cbn [mfit_classes]. apply mkeeps_peek. intros g1 (G1 & _). apply mkeeps_peek. intros g2 (_ & G2 & _). apply mkeeps_peek. intros g3 (_ & _ & G3 & _).
      assert (Es : estimated sk_fit program o g0 rows labels c (sk_fit (morder g1) (mindex g2) (mregularize g3) (select c rows labels))).
      { split; [apply Sub; left; reflexivity|]. exists (mindex g2), (mregularize g3). rewrite G1. auto. }
      destruct (sk_fit _ _ _ (select c rows labels)) as [m|e].
      + apply mkeeps_poke.
        * intros w (A & B & C & D). split; [exact A|]. split; [exact B|]. split; [exact C|]. cbn [with_classes mmodel]. apply Forall_app. split; [exact D|]. constructor; [|constructor].
          right. exists j, x, y, cols, rows, labels, c. auto.
        * apply IH; [intros c' Hc'; apply Sub; right; exact Hc'|]. intros c' Hc'. destruct (All c' Hc') as [[<-|Hi]|E]; [right; exists m; exact Es|left; exact Hi|right; exact E].
      + apply mkeeps_ret. right. exists cols, rows, labels. split; [exact V|]. right. exists c, e. auto.
  Qed.
  Lemma row_keeps a k (x : list O) next : (forall ms, Forall K ms -> length ms <= k -> keeps RM QM a mgood (next (map (fun m => gmm_score expf (morder g0) m x) ms))) ->
    answer_ok sk_fit expf argsort program o g0 a (MPredicted (Err IndexError)) ->
    forall n s ms, length ms = s -> Forall K ms -> s <= k -> keeps RM QM a mgood (mrow_code expf k x (seq s n) (map (fun m => gmm_score expf (morder g0) m x) ms) next).
  Proof.
    intros Hn Hi. induction n as [|n IH]; intros s ms L F Hs; [apply Hn; [exact F|lia]|]. cbn [seq mrow_code]. apply mkeeps_peek. intros g (_ & _ & _ & G).
    destruct (nth_error (mmodel g) s) as [m|] eqn:E; [|apply mkeeps_ret; exact Hi]. apply mkeeps_peek. intros g' (G' & _).
    destruct (Nat.ltb_spec s k) as [Lt|_]; [|apply mkeeps_ret; exact Hi]. rewrite G'.
    assert (Em : map (fun m => gmm_score expf (morder g0) m x) ms ++ [gmm_score expf (morder g0) m x] = map (fun m => gmm_score expf (morder g0) m x) (ms ++ [m])) by (rewrite map_app; reflexivity). rewrite Em.
    apply IH; [rewrite app_length; cbn; lia| |lia]. apply Forall_app. split; [exact F|]. constructor; [|constructor]. rewrite Forall_forall in G. apply G. eapply nth_error_In. exact E.
  Qed.
  Lemma rows_keep cols all k : all <> [] -> cols <> 0 -> forall rows before out, all = before ++ rows ->
    Forall2 (fun r row => exists ms, Forall K ms /\ length ms <= k /\
            row = rev (argsort (map (fun m => gmm_score expf (morder g0) m r) ms ++ repeat zero (k - length ms)))) before out ->
    keeps RM QM (MPredict (X2 cols all)) mgood (mrows_code expf argsort k rows out).
  Proof.
    intros Na Nc. induction rows as [|x rows IH]; intros before out Ea F2.
    - apply mkeeps_ret. right. exists cols, all, out, k. rewrite app_nil_r in Ea. subst before. auto.
    - cbn [mrows_code]. apply mkeeps_peek. intros g G. apply (row_keeps _ k x _) with (ms := []); [|left; exists IndexError; cbn; auto|reflexivity|constructor|lia].
      intros ms Fm Lm. apply (IH (before ++ [x])); [rewrite <- app_assoc; exact Ea|]. apply Forall2_app; [exact F2|]. constructor; [|constructor]. exists ms. rewrite map_length. auto.
  Qed.
  Lemma mcall_keeps j a : In (o, a) (program j) -> keeps RM QM a mgood (gmm_code sk_fit expf argsort a).
  Proof.
    intros I. destruct a as [x y|x|i|r]; cbn [gmm_code].
    - unfold mfit_code. 
      assert (Bad : forall e, (forall cols rows labels, ~ valid_fit x y cols rows labels) -> e = ValueError \/ e = TypeError -> answer_ok sk_fit expf argsort program o g0 (MFit x y) (MFitted (Err e))) by (intros e Nv [-> | ->]; left; auto).
      destruct x as [cols rows|n]; [|apply mkeeps_ret, Bad; [intros c rr l (V & _); discriminate|auto]].
      destruct (length rows =? 0) eqn:E1; [apply mkeeps_ret, Bad; [intros c rr l (V & _ & N & _); injection V as -> ->; destruct rr; [apply N; reflexivity|discriminate]|auto]|].
      destruct (cols =? 0) eqn:E2; [apply mkeeps_ret, Bad; [intros c rr l (V & _ & _ & N & _); injection V as -> ->; apply Nat.eqb_eq in E2; contradiction|auto]|]. cbn [orb].
      destruct (ylen y) as [n|] eqn:Ey; [|apply mkeeps_ret, Bad; [intros c rr l (_ & V & _); subst y; discriminate|auto]].
      destruct (n =? length rows) eqn:E3; cbn [negb]; [|apply mkeeps_ret, Bad; [intros c rr l (V & V' & _ & _ & L); injection V as -> ->; subst y; cbn in Ey; injection Ey as <-; apply Nat.eqb_neq in E3; contradiction|auto]].
      assert (S0 : forall w, mgood w -> mgood (with_classes [] w)) by (intros w (A & B & C & _); split; [exact A|]; split; [exact B|]; split; [exact C|constructor]).
      assert (S1 : forall w, mgood w -> mgood (with_shape cols w)) by (intros w H; exact H).
      destruct y as [l|m|m|].
      + apply mkeeps_poke; [exact S0|]. apply mkeeps_poke; [exact S1|]. cbn in Ey. injection Ey as <-. apply Nat.eqb_eq in E3. apply Nat.eqb_neq in E1, E2.
        apply (fit_classes_keep j (X2 cols rows) (YInt l) cols rows l I).
        * split; [reflexivity|]. split; [reflexivity|]. split; [intros ->; apply E1; reflexivity|]. auto.
        * intros c. apply (proj2 (sorted_set_ok l)).
        * intros c Hc. left. apply (proj2 (sorted_set_ok l)). exact Hc.
      + apply mkeeps_poke; [exact S0|]. apply mkeeps_poke; [exact S1|]. apply mkeeps_ret, Bad; [intros c rr l (_ & V & _); discriminate|auto].
      + apply mkeeps_ret, Bad; [intros c rr l (_ & V & _); discriminate|auto].
      + discriminate.
    - unfold mpredict_code. assert (Bad : forall e, In e [ValueError; RuntimeError; IndexError] -> answer_ok sk_fit expf argsort program o g0 (MPredict x) (MPredicted (Err e))) by (intros e He; left; eauto).
      apply mkeeps_peek. intros g _. destruct (length (mmodel g) =? 0); [apply mkeeps_ret, Bad; cbn; auto|]. destruct x as [cols rows|n]; [|apply mkeeps_ret, Bad; cbn; auto].
      destruct (length rows =? 0) eqn:E1; [apply mkeeps_ret, Bad; cbn; auto|]. destruct (cols =? 0) eqn:E2; [apply mkeeps_ret, Bad; cbn; auto|]. cbn [orb]. apply Nat.eqb_neq in E1, E2.
      apply mkeeps_peek. intros g1 _. destruct (mshape g1) as [c|]; [|apply mkeeps_ret, Bad; cbn; auto]. destruct (c =? cols); [|apply mkeeps_ret, Bad; cbn; auto].
      apply mkeeps_peek. intros g2 _. destruct (length (mmodel g2) =? 0); [apply mkeeps_ret, Bad; cbn; auto|]. apply mkeeps_peek. intros g3 _. destruct (length (mmodel g3) =? 0); [apply mkeeps_ret, Bad; cbn; auto|].
      apply mkeeps_peek. intros g4 _. apply (rows_keep cols rows _) with (before := []); [intros ->; apply E1; reflexivity|exact E2|reflexivity|constructor].
    - destruct (Z.leb_spec i 0) as [L|L].
      + apply mkeeps_ret. cbn [answer_ok]. destruct (Z.ltb_spec 0 i); [lia|reflexivity].
      + apply mkeeps_poke; [intros w (A & B & C & D); split; [exact A|]; split; [right; split; [exact L|]; exists j; exact I|]; split; assumption|].
        apply mkeeps_ret. cbn [answer_ok]. destruct (Z.ltb_spec 0 i); [reflexivity|lia].
    - destruct (oltb r zero) eqn:E.
      + apply mkeeps_ret. cbn [answer_ok]. rewrite E. reflexivity.
      + apply mkeeps_poke; [intros w (A & B & C & D); split; [exact A|]; split; [exact B|]; split; [right; split; [exact E|]; exists j; exact I|exact D]|].
        apply mkeeps_ret. cbn [answer_ok]. rewrite E. reflexivity.
  Qed.
End Shared.

(** C203.  Under any schedule of any threads that fit, ask and configure one model: every class
    it holds was there at the start or was estimated from exactly the samples of one class of
    one fit, by settings that were each set at some time; a fit refuses what it refuses alone,
    succeeds when every class could be estimated, or raises what the estimator raised; and a
    prediction raises ValueError, RuntimeError or IndexError, or ranks the scores of such
    classes, padded by zeros. *)
Theorem C203_shared_mixture (O : OArith) sk_fit expf argsort (st : nat -> gmm O) (program : nat -> list (nat * mcall O)) o c :
  steps (gmm_code sk_fit expf argsort) (start st program) c ->
  morder (store c o) = morder (st o) /\ index_known program o (st o) (mindex (store c o)) /\ regularize_known program o (st o) (mregularize (store c o)) /\
  Forall (class_known sk_fit program o (st o)) (mmodel (store c o)) /\
  forall i, finished (threads c i) ->
    Forall2 (fun p y => fst p = o -> answer_ok sk_fit expf argsort program o (st o) (snd p) y) (program i) (results (threads c i)).
Proof.
  intros S. set (R := RM sk_fit program o (st o)). set (Q := QM sk_fit expf argsort program o (st o)).
  assert (G0 : mgood sk_fit program o (st o) (st o)).
  { split; [reflexivity|]. split; [left; reflexivity|]. split; [left; reflexivity|]. apply Forall_forall. intros m Hm. left. exact Hm. }
  assert (K : forall j a, In (o, a) (program j) -> keeps R Q a (R (st o)) (gmm_code sk_fit expf argsort a)).
  { intros j a I. assert (G := mcall_keeps sk_fit expf argsort program o (st o) j a I). fold R Q in G. destruct (gmm_code sk_fit expf argsort a) as [y|f k]; intros w Hw; apply G; apply Hw; exact G0. }
  assert (Rr : forall w, R w w) by (intros w A; exact A). assert (Rt : forall a b d, R a b -> R b d -> R a d) by (intros a b d A B C; exact (B (A C))).
  assert (Qs : forall a y, stable R (Q a y)) by (intros a y w w' A _; exact A).
  destruct (shared_kept (gmm_code sk_fit expf argsort) program st o R Rr Rt Q Qs K c S) as [H _]. destruct (H G0) as (A & B & D & F).
  split; [exact A|]. split; [exact B|]. split; [exact D|]. split; [exact F|].
  intros i Fi. exact (finished_results (gmm_code sk_fit expf argsort) program st o R Q c i Rr Rt Qs K S Fi).
Qed.
Print Assumptions C203_shared_mixture.

(** C203.  Whatever prediction returns is a table: all samples get a ranking of the same
    number of classes. *)
Theorem C203_rankings (O : OArith) sk_fit expf argsort (st : nat -> gmm O) (program : nat -> list (nat * mcall O)) o c i : is_argsort argsort ->
  steps (gmm_code sk_fit expf argsort) (start st program) c -> finished (threads c i) ->
  Forall2 (fun p y => fst p = o -> forall x v, snd p = MPredict x -> y = MPredicted (Ok v) ->
    exists cols rows k, x = X2 cols rows /\ length v = length rows /\ Forall (fun row => Permutation row (seq 0 k)) v) (program i) (results (threads c i)).
Proof.
  intros Ha S F. destruct (C203_shared_mixture O sk_fit expf argsort st program o c S) as (_ & _ & _ & _ & B). specialize (B i F). revert B.
  generalize (program i) (results (threads c i)). intros p r. induction 1 as [|q y l l' E _ IH]; constructor; [|exact IH]. intros Eo x v Ex ->. specialize (E Eo). rewrite Ex in E. cbn [answer_ok] in E.
  destruct E as [(e & E & _)|(cols & rows & v' & k & -> & _ & _ & Ev & F2)]; [discriminate|]. injection Ev as <-. exists cols, rows, k. split; [reflexivity|]. clear - F2 Ha.
  induction F2 as [|a b la lb (ms & _ & Hl & ->) _ [L F]]; [split; [reflexivity|constructor]|]. split; [cbn; f_equal; exact L|]. constructor; [|exact F].
  eapply Permutation_trans; [symmetry; apply Permutation_rev|]. eapply Permutation_trans; [apply Ha|]. rewrite app_length, map_length, repeat_length. replace (length ms + (k - length ms)) with k by lia. apply Permutation_refl.
Qed.
Print Assumptions C203_rankings.

(** C203.  It is false that one fit uses one set of settings: while another thread sets
    regularize, the classes of one fit are estimated by different ones, whatever the estimator. *)
Theorem C203_one_setting_refuted (O : OArith) sk_fit expf argsort (g : gmm O) (r : O) cols (a b : list O) m1 m2 : cols <> 0 -> oltb r zero = false ->
  sk_fit (morder g) (mindex g) (mregularize g) [a] = Ok m1 -> sk_fit (morder g) (mindex g) r [b] = Ok m2 ->
  exists c, steps (gmm_code sk_fit expf argsort) (start (fun _ => g) (fun i => match i with 0 => [(0, MFit (X2 cols [a; b]) (YInt [0; 1]%Z))] | 1 => [(0, MRegularize r)] | _ => [] end)) c /\
    (forall i, finished (threads c i)) /\ results (threads c 0) = [MFitted (Ok tt)] /\ mmodel (store c 0) = [m1; m2].
Proof.
  intros Hc Hr E1 E2. set (cd := gmm_code sk_fit expf argsort). set (fit := MFit (X2 cols [a; b]) (YInt [0; 1]%Z)). set (program := fun i : nat => match i with 0 => _ | 1 => _ | _ => _ end).
  set (tail := mfit_classes sk_fit [a; b] [0; 1]%Z [1%Z]). set (g1 := mkGmm [m1] (morder g) (mindex g) (mregularize g) (Some cols) : gmm O). set (g2 := mkGmm [m1] (morder g) (mindex g) r (Some cols) : gmm O).
  assert (Go1 : go 6 (cd fit) g = (tail, g1)).
  { unfold cd, fit, gmm_code, mfit_code. apply Nat.eqb_neq in Hc. cbn [length Nat.eqb]. rewrite Hc. cbn [orb ylen length Nat.eqb negb]. change (sorted_set [0; 1]%Z) with [0; 1]%Z. unfold poke, peek. cbn [mfit_classes]. unfold poke, peek. cbn [go with_classes with_shape morder mindex mregularize mmodel mshape].
    change (select 0 [a; b] [0; 1]%Z) with [a]. rewrite E1. reflexivity. }
  assert (Go2 : go 4 tail g2 = (Ret (MFitted (Ok tt)), mkGmm [m1; m2] (morder g) (mindex g) r (Some cols) : gmm O)).
  { unfold tail. cbn [mfit_classes]. unfold poke, peek. cbn [go]. subst g2. cbn [with_classes morder mindex mregularize mmodel mshape]. change (select 1 [a; b] [0; 1]%Z) with [b]. rewrite E2. reflexivity. }
  set (c0 := start (fun _ : nat => g) program). assert (N : 1 <> 0) by discriminate. assert (N' : 0 <> 1) by discriminate.
  assert (A0 : threads c0 0 = mkThread [(0, fit)] None []) by reflexivity. assert (B0 : threads c0 1 = mkThread [(0, MRegularize r)] None []) by reflexivity.
  destruct (begins cd c0 0 _ _ _ A0) as (c1 & S1 & A1 & U1 & V1). destruct (acts cd 6 c1 0 _ _ _ A1) as (c2 & S2 & A2 & U2 & V2). rewrite U1 in A2, U2. change (store c0 0) with g in A2, U2. rewrite Go1 in A2, U2. cbn [fst snd] in A2, U2.
  assert (B2 := eq_trans (V2 1 N) (eq_trans (V1 1 N) B0)). destruct (begins cd c2 1 _ _ _ B2) as (c3 & S3 & B3 & U3 & V3). rewrite U2 in U3.
  assert (Eset : cd (MRegularize r) = poke (fun g : gmm O => mkGmm (mmodel g) (morder g) (mindex g) r (mshape g)) (Ret (MSet (Ok tt)))) by (unfold cd, gmm_code; rewrite Hr; reflexivity). rewrite Eset in B3.
  destruct (acts cd 1 c3 1 _ _ _ B3) as (c4 & S4 & B4 & U4 & V4). cbn [go poke fst snd] in B4, U4. rewrite U3 in U4.
  destruct (returns cd c4 1 _ _ _ B4) as (c5 & S5 & B5 & U5 & V5).
  assert (A5 := eq_trans (V5 0 N') (eq_trans (V4 0 N') (eq_trans (V3 0 N') A2))).
  destruct (acts cd 4 c5 0 _ _ _ A5) as (c6 & S6 & A6 & U6 & V6). assert (W : store c5 0 = g2) by (rewrite U5, U4; reflexivity). rewrite W, Go2 in A6, U6. cbn [fst snd] in A6, U6.
  destruct (returns cd c6 0 _ _ _ A6) as (c7 & S7 & A7 & U7 & V7).
  exists c7. split; [do 7 (eapply steps_trans; [|eassumption]); apply TNil|]. assert (B7 := eq_trans (V7 1 N) (eq_trans (V6 1 N) B5)). split.
  - intros [|[|i]]; [rewrite A7; split; reflexivity|rewrite B7; split; reflexivity|].
    assert (Z : threads c7 (S (S i)) = threads c0 (S (S i))) by (rewrite V7, V6, V5, V4, V3, V2, V1 by discriminate; reflexivity). rewrite Z. split; reflexivity.
  - rewrite A7, U7, U6. split; reflexivity.
Qed.
Print Assumptions C203_one_setting_refuted.

(** One feature; the estimator returns one component at the first sample, as wide as regularize. *)
Definition sk1 (order index : Z) (r : Qc) (z : list (list Qc)) : res (list (component QO)) := Ok [([[r]], hd [] z, q 1 1)].
Definition mix0 : gmm QO := fst (gmm_fit (O := QO) sk1 (mkGmm (O := QO) [] 1 100 (q 1 1) None) (X2 1 [[q 1 1]; [q 9 1]]) (YInt [0; 1]%Z)).
Definition mrefit (i : nat) : list (nat * mcall QO) :=
  match i with 0 => [(0, MFit (O := QO) (X2 1 [[q 2 1]; [q 8 1]]) (YInt [0; 1]%Z))] | 1 => [(0, MPredict (O := QO) (X2 1 [[q 3 1]]))] | _ => [] end.
Definition exp1 (v : Qc) : Qc := (/ (1 - v))%Qc.
Definition mcode := gmm_code (O := QO) sk1 exp1 (@isort QO).
Definition manswers (c : list manswer) : list (res (list (list nat))) :=
  map (fun a => match a with MPredicted r => r | MFitted (Ok _) | MSet (Ok _) => Ok [] | MFitted (Err e) | MSet (Err e) => Err e end) c.
Example C203_example :
  let program i := match i with 0 | 1 => [(0, MPredict (O := QO) (X2 1 [[q 3 1]; [q 8 1]]))] | _ => [] end in
  let c := schedule mcode (turns 30) (start (fun _ => mix0) program) in
  finished (threads c 0) /\ finished (threads c 1) /\ manswers (results (threads c 0)) = [Ok [[0; 1]; [1; 0]]] /\ manswers (results (threads c 1)) = [Ok [[0; 1]; [1; 0]]] /\
  is_ok (sk1 1 100 (q 1 1) [[q 2 1]]) = true /\ is_ok (sk1 1 100 (q 4 1) [[q 8 1]]) = true.
Proof.
  cbv zeta. split; [apply finishedb_ok; vm_compute; reflexivity|]. split; [apply finishedb_ok; vm_compute; reflexivity|].
  repeat split; vm_compute; reflexivity.
Qed.

(** C203.  A prediction made while a trained model is fitted again can raise any of the three
    exceptions, rank only some of the classes, or none: it then returns empty rankings. *)
Theorem C203_predict_during_fit_refuted :
  manswers (snd (serial (gmm_do (O := QO) sk1 exp1 (@isort QO)) (fun _ => mix0) (mrefit 1 ++ mrefit 0))) = [Ok [[0; 1]]; Ok []] /\
  manswers (snd (serial (gmm_do (O := QO) sk1 exp1 (@isort QO)) (fun _ => mix0) (mrefit 0 ++ mrefit 1))) = [Ok []; Ok [[0; 1]]] /\
  forall r, In r [Err ValueError; Ok [[0]]; Err RuntimeError; Err IndexError; Ok [[]]] ->
    exists c, steps mcode (start (fun _ => mix0) mrefit) c /\ finished (threads c 0) /\ finished (threads c 1) /\
      manswers (results (threads c 1)) = [r].
Proof.
  split; [vm_compute; reflexivity|]. split; [vm_compute; reflexivity|].
  assert (G : forall l, let c := schedule mcode (l ++ repeat 0 30 ++ repeat 1 30) (start (fun _ => mix0) mrefit) in
     finishedb (threads c 0) = true -> finishedb (threads c 1) = true ->
     exists c', steps mcode (start (fun _ => mix0) mrefit) c' /\ finished (threads c' 0) /\ finished (threads c' 1) /\ manswers (results (threads c' 1)) = manswers (results (threads c 1))).
  { intros l c F0 F1. exists c. split; [apply schedule_ok; apply TNil|]. split; [apply finishedb_ok; exact F0|]. split; [apply finishedb_ok; exact F1|reflexivity]. }
  cbn [In]. intros r [<-|[<-|[<-|[<-|[<-|[]]]]]].
  - refine (eq_ind _ (fun a => exists c', _ /\ _ /\ _ /\ _ = a) (G ([0; 0] ++ repeat 1 30) _ _) _ _); vm_compute; reflexivity.
  - refine (eq_ind _ (fun a => exists c', _ /\ _ /\ _ /\ _ = a) (G (repeat 0 7 ++ repeat 1 30) _ _) _ _); vm_compute; reflexivity.
  - refine (eq_ind _ (fun a => exists c', _ /\ _ /\ _ /\ _ = a) (G (repeat 1 3 ++ [0; 0] ++ repeat 1 30) _ _) _ _); vm_compute; reflexivity.
  - refine (eq_ind _ (fun a => exists c', _ /\ _ /\ _ /\ _ = a) (G (repeat 1 4 ++ [0; 0] ++ repeat 1 30) _ _) _ _); vm_compute; reflexivity.
  - refine (eq_ind _ (fun a => exists c', _ /\ _ /\ _ /\ _ = a) (G (repeat 1 5 ++ [0; 0] ++ repeat 1 30) _ _) _ _); vm_compute; reflexivity.
Qed.
Print Assumptions C203_predict_during_fit_refuted.
