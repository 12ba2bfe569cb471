(** Properties C97 to C100, C119 and C120: Log. *)
From Coq Require Import String List Arith ZArith Bool Lia.
From Verif Require Import Base BaseLemmas PyString LogModel.
Import ListNotations.
Set Asymmetric Patterns.
Local Open Scope nat_scope.

(** *** Specification *)
(** The level numbers other code has defined, in order. *)
Definition defined (h : list op) : list level_t :=
  flat_map (fun o => match o with ExtLevel n v => [(n, v)] | _ => [] end) h.
Definition named (n : string) (p : level_t) : bool := String.eqb (fst p) n.
(** The number of a level name after a history: the first definition counts. *)
Definition number (h : list op) (n : string) : option nat :=
  option_map snd (find (named n) (default_levels ++ defined h)).
Definition level_number (h : list op) (l : level_arg) : option nat :=
  match l with LStr s => number h (py_upper s) | LOther => None end.
(** The number of the level last set successfully; INFO, 20, before. *)
Fixpoint threshold_from (past : list op) (cur : nat) (h : list op) : nat :=
  match h with
  | [] => cur
  | o :: r => threshold_from (past ++ [o])
                (match o with Level l => match level_number past l with Some n => n | None => cur end | _ => cur end) r
  end.
Definition threshold (h : list op) : nat := threshold_from [] 20 h.
(** sys.stdout can be given to loguru. *)
Definition writable (s : stream) : Prop := s_truthy s = true /\ s_write s = true /\ s_callable s = true.
Definition usable (w : world) : Prop := w_identity w <> 0 \/ writable (w_stdout w).
(** The lines a record of a level makes in the installed handlers. *)
Definition delivered (w : world) (n : nat) (name text : string) : list line :=
  map (fun h => (h_id h, h_stream h, name, text)) (filter (fun h => h_level h <=? n) (l_handlers (w_logger w))).
(** The handler of Log: installed by Log under its current identity. *)
Definition own (w : world) (h : handler) : Prop :=
  In h (l_handlers (w_logger w)) /\ h_creator h = ByLog /\ h_id h = w_identity w.
Definition by_log (h : handler) : bool := match h_creator h with ByLog => true | _ => false end.
Definition log_op (o : op) : Prop := match o with Level _ | Stream _ | Write _ _ _ => True | _ => False end.

(** *** Auxiliary facts *)
Lemma find_level_find n l : find_level n l = find (named n) l.
Proof. induction l as [|p l IH]; [reflexivity|]. cbn. unfold named at 1. rewrite String.eqb_sym, IH. reflexivity. Qed.
Lemma find_app {A} (f : A -> bool) l m : find f (l ++ m) = match find f l with Some a => Some a | None => find f m end.
Proof. induction l as [|a l IH]; [reflexivity|]. cbn. destruct (f a); [reflexivity|exact IH]. Qed.
Lemma find_known (l : list level_t) n v n' p : find (named n) l = Some p ->
  find (named n') (l ++ [(n, v)]) = find (named n') l.
Proof.
  induction l as [|a l IH]; intros H; [discriminate|]. cbn in *. unfold named at 1 in H. destruct (String.eqb_spec (fst a) n) as [<-|N].
  - unfold named at 1 3. destruct (String.eqb_spec (fst a) n') as [E|E]; [reflexivity|]. clear -E. induction l as [|b l IH]; cbn.
    + unfold named. cbn. destruct (String.eqb_spec (fst a) n'); [contradiction|reflexivity].
    + destruct (named n' b); [reflexivity|exact IH].
  - destruct (named n' a); [reflexivity|auto].
Qed.
Lemma find_snoc (l m : list level_t) x n : (find_level n l = find (named n) m) ->
  find_level n (l ++ [x]) = find (named n) (m ++ [x]).
Proof. rewrite !find_level_find. intros H. etransitivity; [apply find_app|]. etransitivity; [|symmetry; apply find_app]. rewrite H. reflexivity. Qed.
Lemma remove_fields w i : let w1 := fst (lg_remove w i) in
  w_identity w1 = w_identity w /\ w_level w1 = w_level w /\ w_stdout w1 = w_stdout w /\ w_lines w1 = w_lines w /\
  l_levels (w_logger w1) = l_levels (w_logger w) /\ l_next (w_logger w1) = l_next (w_logger w) /\ l_enabled (w_logger w1) = l_enabled (w_logger w) /\
  l_handlers (w_logger w1) = filter (fun h => negb (h_id h =? i)) (l_handlers (w_logger w)).
Proof.
  unfold lg_remove. destruct (has_handler i (l_handlers (w_logger w))) eqn:E; cbn; repeat split.
  symmetry. unfold has_handler in E. induction (l_handlers (w_logger w)) as [|h l IH]; [reflexivity|]. cbn in *. apply orb_false_iff in E. destruct E as [E1 E2]. rewrite E1. cbn. f_equal. apply IH. exact E2.
Qed.
(** What a stream call does. *)
Lemma stream_cases w s : 
  (negb (s_truthy s) || negb (s_write s) = true /\ log_stream w s = (w, Err ValueError)) \/
  (s_truthy s = true /\ s_write s = true /\ s_callable s = false /\ log_stream w s = (fst (lg_remove w (w_identity w)), Err TypeError)) \/
  (writable s /\ exists w', log_stream w s = (w', Ok tt) /\ w_identity w' = l_next (w_logger w) /\ w_level w' = w_level w /\ w_stdout w' = w_stdout w /\ w_lines w' = w_lines w /\
    l_levels (w_logger w') = l_levels (w_logger w) /\ l_next (w_logger w') = S (l_next (w_logger w)) /\ l_enabled (w_logger w') = l_enabled (w_logger w) /\
    l_handlers (w_logger w') = filter (fun h => negb (h_id h =? w_identity w)) (l_handlers (w_logger w)) ++ [mkHandler (l_next (w_logger w)) s 0 ByLog]).
Proof.
  unfold log_stream. destruct (negb (s_truthy s) || negb (s_write s)) eqn:E; [left; auto|]. right.
  apply orb_false_iff in E. destruct E as [E1 E2]. apply negb_false_iff in E1. apply negb_false_iff in E2.
  pose proof (remove_fields w (w_identity w)) as R. destruct (lg_remove w (w_identity w)) as [w1 r]. cbn [fst] in R. destruct R as (R1 & R2 & R3 & R4 & R5 & R6 & R7 & R8).
  unfold lg_add. rewrite E2. destruct (s_callable s) eqn:E3; cbn [andb].
  - right. split; [repeat split; assumption|]. eexists. split; [reflexivity|]. cbn. rewrite R8. repeat split; congruence.
  - left. auto.
Qed.
Lemma write_shape w l e f : 
  let w1 := if w_identity w =? 0 then fst (log_stream w (w_stdout w)) else w in
  let r1 := if w_identity w =? 0 then snd (log_stream w (w_stdout w)) else Ok tt in
  log_write w l e f = match r1 with
    | Err x => (w1, Err x)
    | Ok _ => match look_up w1 l with
              | Err x => (w1, Err x)
              | Ok v => if snd (w_level w1) <=? snd v then (lg_log w1 v (entry_text e f), Ok tt) else (w1, Ok tt)
              end
    end.
Proof. cbn zeta. unfold log_write. destruct (w_identity w =? 0); [destruct (log_stream w (w_stdout w)) as [w1 [u|x]]|]; reflexivity. Qed.
Lemma log_fields w v t : let w' := lg_log w v t in
  w_identity w' = w_identity w /\ w_level w' = w_level w /\ w_stdout w' = w_stdout w /\ w_logger w' = w_logger w /\
  w_lines w' = w_lines w ++ if l_enabled (w_logger w) then delivered w (snd v) (fst v) t else [].
Proof. unfold lg_log. destruct (l_enabled (w_logger w)) eqn:E; cbn; repeat split; try rewrite app_nil_r; reflexivity. Qed.
(** Fields a Log operation does not touch. *)
Lemma stream_keeps w s : w_level (fst (log_stream w s)) = w_level w /\ w_stdout (fst (log_stream w s)) = w_stdout w /\ w_lines (fst (log_stream w s)) = w_lines w /\
  l_levels (w_logger (fst (log_stream w s))) = l_levels (w_logger w) /\ l_enabled (w_logger (fst (log_stream w s))) = l_enabled (w_logger w).
Proof.
  destruct (stream_cases w s) as [[_ ->]|[(_ & _ & _ & ->)|(_ & w' & -> & H)]]; cbn [fst].
  - auto.
  - pose proof (remove_fields w (w_identity w)) as R. cbn zeta in R. tauto.
  - tauto.
Qed.
Lemma write_keeps w l e f : w_level (fst (log_write w l e f)) = w_level w /\ w_stdout (fst (log_write w l e f)) = w_stdout w /\
  l_levels (w_logger (fst (log_write w l e f))) = l_levels (w_logger w) /\ l_enabled (w_logger (fst (log_write w l e f))) = l_enabled (w_logger w).
Proof.
  rewrite write_shape. cbn zeta. set (w1 := if w_identity w =? 0 then _ else w). assert (K : w_level w1 = w_level w /\ w_stdout w1 = w_stdout w /\ l_levels (w_logger w1) = l_levels (w_logger w) /\ l_enabled (w_logger w1) = l_enabled (w_logger w)).
  { unfold w1. destruct (w_identity w =? 0); [|auto]. pose proof (stream_keeps w (w_stdout w)). tauto. }
  destruct (if w_identity w =? 0 then _ else Ok tt) as [u|x]; [|exact K]. destruct (look_up w1 l) as [v|x]; [|exact K].
  destruct (_ <=? _); [|exact K]. cbn [fst]. pose proof (log_fields w1 v (entry_text e f)) as (_ & F2 & F3 & F4 & _). rewrite F2, F3, F4. exact K.
Qed.

Lemma defined_app h o : defined (h ++ [o]) = defined h ++ defined [o].
Proof. unfold defined. rewrite flat_map_app. reflexivity. Qed.
Lemma do_ops_app w a b : do_ops w (a ++ b) = do_ops (do_ops w a) b.
Proof. revert w. induction a as [|o a IH]; intros w; [reflexivity|]. cbn. apply IH. Qed.
Lemma threshold_app past cur a o : threshold_from past cur (a ++ [o]) =
  match o with Level l => match level_number (past ++ a) l with Some n => n | None => threshold_from past cur a end | _ => threshold_from past cur a end.
Proof.
  revert past cur. induction a as [|b a IH]; intros past cur.
  - cbn. rewrite app_nil_r. reflexivity.
  - cbn [app threshold_from]. rewrite IH, <- app_assoc. reflexivity.
Qed.
(** The level table and the threshold of the state are those of the history. *)
Lemma table_ok a se so h : let w := do_ops (initial a se so) h in
  (forall n, find_level n (l_levels (w_logger w)) = find (named n) (default_levels ++ defined h)) /\
  snd (w_level w) = threshold h.
Proof.
  cbn zeta. induction h as [|o h [IH1 IH2]] using rev_ind.
  - cbn [do_ops]. split; [|reflexivity]. intros n. rewrite app_nil_r. apply find_level_find.
  - rewrite do_ops_app. cbn [do_ops]. set (w := do_ops (initial a se so) h) in *. unfold threshold. rewrite threshold_app, defined_app. cbn [app]. fold (threshold h).
    assert (LK : forall l, look_up w l = match level_number h l with Some n => Ok (match l with LStr s => py_upper s | LOther => ""%string end, n) | None => Err ValueError end).
    { intros [s|]; [|reflexivity]. cbn [look_up level_number]. unfold lg_level, number. rewrite IH1. destruct (find _ _) as [p|] eqn:E; [|reflexivity]. cbn. apply find_some in E. destruct E as [_ E]. apply String.eqb_eq in E. rewrite <- E. destruct p; reflexivity. }
    destruct o as [l|s|l e f|s v|i| |n v|b|v t|s]; cbn [do_op fst]; rewrite ?app_nil_r.
    + unfold log_level. rewrite LK. destruct (level_number h l) as [n|]; cbn; rewrite ?app_nil_r; auto.
    + pose proof (stream_keeps w s) as (K1 & _ & _ & K2 & _). rewrite K1, K2. auto.
    + pose proof (write_keeps w l e f) as (K1 & _ & K2 & _). rewrite K1, K2. auto.
    + unfold lg_add. destruct (_ && _)%bool; cbn; auto.
    + pose proof (remove_fields w i) as R. cbn zeta in R. destruct R as (_ & R2 & _ & _ & R5 & _). rewrite R2, R5. auto.
    + auto.
    + cbn [defined flat_map app]. destruct (find_level n (l_levels (w_logger w))) as [p|] eqn:E; cbn [fst set_logger w_logger l_levels w_level]; (split; [|exact IH2]); intros n'.
      * rewrite IH1 in E. rewrite IH1, app_assoc. symmetry. apply (find_known _ n v n' p E).
      * rewrite app_assoc. apply find_snoc, IH1.
    + auto.
    + pose proof (log_fields w v t) as (_ & F2 & _ & F4 & _). rewrite F2, F4. auto.
    + auto.
Qed.
Lemma look_up_ok a se so h l : let w := do_ops (initial a se so) h in
  look_up w l = match level_number h l with Some n => Ok (match l with LStr s => py_upper s | LOther => ""%string end, n) | None => Err ValueError end.
Proof.
  cbn zeta. destruct l as [s|]; [|reflexivity]. cbn [look_up level_number]. unfold lg_level, number. destruct (table_ok a se so h) as [T _]. rewrite T. destruct (find _ _) as [p|] eqn:E; [|reflexivity]. cbn.
  apply find_some in E. destruct E as [_ E]. apply String.eqb_eq in E. rewrite <- E. destruct p; reflexivity.
Qed.

(** C97.  After any history whatever. *)
Theorem C97_log_threshold a se so h s e f : let w := do_ops (initial a se so) h in let r := log_write w (LStr s) e f in
  usable w ->
  match number h (py_upper s) with
  | None => snd r = Err ValueError /\ w_lines (fst r) = w_lines w
  | Some n => snd r = Ok tt /\
      w_lines (fst r) = w_lines w ++ if (threshold h <=? n) && l_enabled (w_logger w) then delivered (fst r) n (py_upper s) (entry_text e f) else []
  end.
Proof.
  intros w r U. unfold r. rewrite write_shape. cbn zeta. set (w1 := if w_identity w =? 0 then _ else w).
  assert (R : (if w_identity w =? 0 then snd (log_stream w (w_stdout w)) else Ok tt) = Ok tt).
  { destruct (Nat.eqb_spec (w_identity w) 0) as [Z|Z]; [|reflexivity]. destruct U as [U|U]; [contradiction|]. destruct U as (U1 & U2 & U3).
    destruct (stream_cases w (w_stdout w)) as [[E _]|[(_ & _ & E & _)|(_ & w' & E & _)]]; [rewrite U1, U2 in E; discriminate|congruence|rewrite E; reflexivity]. }
  assert (K : w_level w1 = w_level w /\ w_lines w1 = w_lines w /\ l_levels (w_logger w1) = l_levels (w_logger w) /\ l_enabled (w_logger w1) = l_enabled (w_logger w)).
  { unfold w1. destruct (w_identity w =? 0); [|auto]. pose proof (stream_keeps w (w_stdout w)). tauto. }
  destruct K as (K1 & K2 & K3 & K4). rewrite R.
  assert (L : look_up w1 (LStr s) = look_up w (LStr s)) by (cbn; unfold lg_level; rewrite K3; reflexivity). rewrite L.
  pose proof (look_up_ok a se so h (LStr s)) as L2. cbn zeta in L2. fold w in L2. cbn [level_number] in L2. destruct (table_ok a se so h) as [_ T]. fold w in T.
  rewrite L2. rewrite K1, T. destruct (number h (py_upper s)) as [n|]; cbn [snd].
  - destruct (threshold h <=? n); cbn [andb fst snd]; [|rewrite app_nil_r; auto]. split; [reflexivity|].
    pose proof (log_fields w1 (py_upper s, n) (entry_text e f)) as (_ & _ & _ & F4 & F5). cbn zeta in F5. rewrite F5, K2, K4. cbn [fst snd]. unfold delivered. rewrite F4. reflexivity.
  - auto.
Qed.
Print Assumptions C97_log_threshold.
(** The only other outcome: no stream yet and a sys.stdout loguru cannot use. *)
Theorem C97_log_unusable w l e f : ~ usable w -> w_lines (fst (log_write w l e f)) = w_lines w /\ is_ok (snd (log_write w l e f)) = false.
Proof.
  intros U. rewrite write_shape. cbn zeta. destruct (Nat.eqb_spec (w_identity w) 0) as [Z|Z]; [|destruct U; left; exact Z].
  pose proof (stream_keeps w (w_stdout w)) as (_ & _ & K & _). destruct (stream_cases w (w_stdout w)) as [[_ E]|[(_ & _ & _ & E)|(E & _)]].
  - rewrite E. auto.
  - rewrite E in *. cbn [fst snd] in *. auto.
  - destruct U. right. exact E.
Qed.
Print Assumptions C97_log_unusable.
(** A level that is not a string, unknown names included, never gets through. *)
Theorem C97_log_level a se so h l : let w := do_ops (initial a se so) h in let r := log_level w l in
  (level_number h l = None -> r = (w, Err ValueError)) /\
  (forall n, level_number h l = Some n -> snd r = Ok tt /\ threshold (h ++ [Level l]) = n /\ w_lines (fst r) = w_lines w /\ w_logger (fst r) = w_logger w).
Proof.
  intros w r. unfold r, log_level. pose proof (look_up_ok a se so h l) as L. cbn zeta in L. fold w in L. rewrite L. split.
  - intros ->. reflexivity.
  - intros n E. rewrite E. unfold threshold. rewrite threshold_app. cbn [app]. rewrite E. auto.
Qed.
Print Assumptions C97_log_level.

(** *** Handlers *)
Definition tidy_log (w : world) : Prop :=
  0 < l_next (w_logger w) /\ w_identity w < l_next (w_logger w) /\ NoDup (map h_id (l_handlers (w_logger w))) /\
  forall h, In h (l_handlers (w_logger w)) -> h_id h < l_next (w_logger w) /\
    match h_creator h with ByLoguru => h_id h = 0 | ByLog => h_id h = w_identity w /\ w_identity w <> 0 | ByOther => h_id h <> w_identity w /\ h_id h <> 0 end.
Lemma NoDup_filter_map {A B} (g : A -> B) f l : NoDup (map g l) -> NoDup (map g (filter f l)).
Proof.
  induction l as [|a l IH]; intros H; [exact H|]. cbn in *. apply NoDup_cons_iff in H. destruct H as [H1 H2]. destruct (f a); [|auto]. cbn. constructor; [|auto].
  intros I. apply H1. apply in_map_iff in I. destruct I as (b & E & I). apply filter_In in I. apply in_map_iff. exists b. tauto.
Qed.
Lemma tidy_remove w i : tidy_log w -> tidy_log (fst (lg_remove w i)).
Proof.
  intros (T1 & T2 & T3 & T4). pose proof (remove_fields w i) as (R1 & _ & _ & _ & _ & R6 & _ & R8). unfold tidy_log. rewrite R1, R6, R8. split; [exact T1|]. split; [exact T2|]. split; [apply NoDup_filter_map; exact T3|].
  intros h Hh. apply filter_In in Hh. apply T4. apply Hh.
Qed.
Lemma tidy_stream w s : tidy_log w -> tidy_log (fst (log_stream w s)).
Proof.
  intros T. destruct (stream_cases w s) as [[_ ->]|[(_ & _ & _ & ->)|(_ & w' & -> & H)]]; cbn [fst]; [exact T|apply tidy_remove; exact T|].
  destruct T as (T1 & T2 & T3 & T4). destruct H as (H1 & _ & _ & _ & _ & H6 & _ & H8). unfold tidy_log. rewrite H1, H6, H8. split; [lia|]. split; [lia|]. split.
  - rewrite map_app. cbn [map h_id]. assert (N : ~ In (l_next (w_logger w)) (map h_id (filter (fun h => negb (h_id h =? w_identity w)) (l_handlers (w_logger w))))).
    { intros I. apply in_map_iff in I. destruct I as (h & E & I). apply filter_In in I. destruct (T4 h (proj1 I)) as [L _]. lia. }
    apply NoDup_rev in T3. pose proof (NoDup_filter_map h_id (fun h => negb (h_id h =? w_identity w)) (l_handlers (w_logger w)) ltac:(apply NoDup_rev in T3; rewrite rev_involutive in T3; exact T3)) as F.
    clear -N F. induction (map h_id _) as [|b l IH]; [constructor; [intros []|constructor]|]. cbn. apply NoDup_cons_iff in F. destruct F as [F1 F2]. constructor.
    + intros I. apply in_app_or in I. destruct I as [I|[I|[]]]; [contradiction|]. apply N. left. symmetry. exact I.
    + apply IH; [|exact F2]. intros I. apply N. right. exact I.
  - intros h Hh. apply in_app_or in Hh. destruct Hh as [Hh|[<-|[]]].
    + apply filter_In in Hh. destruct Hh as [Hh N]. apply negb_true_iff, Nat.eqb_neq in N. destruct (T4 h Hh) as [L C]. split; [lia|]. destruct (h_creator h); [exact C|destruct C; contradiction|]. split; [lia|apply C].
    + cbn. split; [lia|]. split; [reflexivity|lia].
Qed.
Lemma tidy_log_log w v t : tidy_log w -> tidy_log (lg_log w v t).
Proof. intros T. pose proof (log_fields w v t) as (F1 & _ & _ & F4 & _). unfold tidy_log. rewrite F1, F4. exact T. Qed.
Lemma tidy_write w l e f : tidy_log w -> tidy_log (fst (log_write w l e f)).
Proof.
  intros T. rewrite write_shape. cbn zeta. set (w1 := if w_identity w =? 0 then _ else w). assert (K : tidy_log w1) by (unfold w1; destruct (w_identity w =? 0); [apply tidy_stream|]; exact T).
  destruct (if w_identity w =? 0 then _ else Ok tt) as [u|x]; [|exact K]. destruct (look_up w1 l) as [v|x]; [|exact K]. destruct (_ <=? _); [|exact K]. apply tidy_log_log. exact K.
Qed.
Lemma tidy_op w o : tidy_log w -> tidy_log (fst (do_op w o)).
Proof.
  intros T. destruct o as [l|s|l e f|s v|i| |n v|b|v t|s]; cbn [do_op fst].
  - unfold log_level. destruct (look_up w l); exact T.
  - apply tidy_stream. exact T.
  - apply tidy_write. exact T.
  - unfold lg_add. destruct (_ && _)%bool; cbn [fst rmap]; [|exact T]. destruct T as (T1 & T2 & T3 & T4). unfold tidy_log. cbn. split; [lia|]. split; [lia|]. split.
    + rewrite map_app. cbn. assert (N : ~ In (l_next (w_logger w)) (map h_id (l_handlers (w_logger w)))).
      { intros I. apply in_map_iff in I. destruct I as (h & E & I). destruct (T4 h I) as [L _]. lia. }
      clear -N T3. induction (map h_id _) as [|b l IH]; [constructor; [intros []|constructor]|]. cbn. apply NoDup_cons_iff in T3. destruct T3 as [F1 F2]. constructor.
      * intros I. apply in_app_or in I. destruct I as [I|[I|[]]]; [contradiction|]. apply N. left. symmetry. exact I.
      * apply IH; [exact F2|]. intros I. apply N. right. exact I.
    + intros h Hh. apply in_app_or in Hh. destruct Hh as [Hh|[<-|[]]]; [|cbn; lia]. destruct (T4 h Hh) as [L C]. split; [lia|exact C].
  - apply tidy_remove. exact T.
  - destruct T as (T1 & T2 & T3 & T4). unfold tidy_log. cbn. repeat split; try assumption; [constructor|contradiction..].
  - destruct (find_level n _); exact T.
  - exact T.
  - apply tidy_log_log. exact T.
  - exact T.
Qed.
Lemma tidy_ops h w : tidy_log w -> tidy_log (do_ops w h).
Proof. revert w. induction h as [|o h IH]; intros w T; [exact T|]. cbn. apply IH, tidy_op, T. Qed.
Lemma tidy_initial se so : tidy_log (initial true se so).
Proof. unfold tidy_log. cbn. repeat split; try lia; [constructor; [intros []|constructor]|destruct H as [<-|[]]; cbn; lia|destruct H as [<-|[]]; reflexivity]. Qed.

(** C98.  At most one handler of Log, under its identity. *)
Theorem C98_log_one_handler se so h : let w := do_ops (initial true se so) h in
  length (filter by_log (l_handlers (w_logger w))) <= 1 /\
  forall x, In x (l_handlers (w_logger w)) -> h_creator x = ByLog -> own w x.
Proof.
  intros w. pose proof (tidy_ops h _ (tidy_initial se so)) as (_ & _ & N & T). fold w in N, T. split.
  - assert (B : forall x, In x (filter by_log (l_handlers (w_logger w))) -> h_id x = w_identity w).
    { intros x Hx. apply filter_In in Hx. destruct Hx as [Hx E]. destruct (T x Hx) as [_ C]. unfold by_log in E. destruct (h_creator x); [discriminate|apply C|discriminate]. }
    pose proof (NoDup_filter_map h_id by_log _ N) as F. destruct (filter by_log _) as [|x [|y l]]; cbn; [lia|lia|]. exfalso.
    cbn in F. apply NoDup_cons_iff in F. destruct F as [F _]. apply F. left. rewrite (B x), (B y) by (cbn; auto). reflexivity.
  - intros x Hx E. destruct (T x Hx) as [_ C]. rewrite E in C. split; [exact Hx|]. split; [exact E|apply C].
Qed.
Print Assumptions C98_log_one_handler.
Lemma stream_foreign w s x : tidy_log w -> In x (l_handlers (w_logger w)) -> h_creator x = ByOther -> In x (l_handlers (w_logger (fst (log_stream w s)))).
Proof.
  intros (_ & _ & _ & T) Hx C. destruct (T x Hx) as [_ D]. rewrite C in D.
  assert (F : In x (filter (fun h => negb (h_id h =? w_identity w)) (l_handlers (w_logger w)))) by (apply filter_In; split; [exact Hx|]; apply negb_true_iff, Nat.eqb_neq, D).
  destruct (stream_cases w s) as [[_ ->]|[(_ & _ & _ & ->)|(_ & w' & -> & H)]]; cbn [fst]; [exact Hx| |].
  - pose proof (remove_fields w (w_identity w)) as (_ & _ & _ & _ & _ & _ & _ & R8). rewrite R8. exact F.
  - destruct H as (_ & _ & _ & _ & _ & _ & _ & H8). rewrite H8. apply in_or_app. left. exact F.
Qed.
Theorem C98_log_foreign se so h o x : let w := do_ops (initial true se so) h in
  log_op o -> In x (l_handlers (w_logger w)) -> h_creator x = ByOther -> In x (l_handlers (w_logger (fst (do_op w o)))).
Proof.
  intros w Ho Hx C. pose proof (tidy_ops h _ (tidy_initial se so)) as T. fold w in T. destruct o as [l|s|l e f|s v|i| |n v|b|v t|s]; cbn in Ho; try contradiction; cbn [do_op].
  - unfold log_level. destruct (look_up w l); exact Hx.
  - apply stream_foreign; assumption.
  - rewrite write_shape. cbn zeta. set (w1 := if w_identity w =? 0 then _ else w). assert (K : In x (l_handlers (w_logger w1))) by (unfold w1; destruct (w_identity w =? 0); [apply stream_foreign; assumption|exact Hx]).
    destruct (if w_identity w =? 0 then _ else Ok tt) as [u|y]; [|exact K]. destruct (look_up w1 l) as [v|y]; [|exact K]. destruct (_ <=? _); [|exact K]. cbn [fst].
    pose proof (log_fields w1 v (entry_text e f)) as (_ & _ & _ & F4 & _). rewrite F4. exact K.
Qed.
Print Assumptions C98_log_foreign.
(** C120.  Without the default handler of loguru the ids start at 0, which Log takes for
    "no handler": it removes a foreign handler, and loses the first stream set. *)
Definition out (i : nat) : stream := mkStream i true true true.
Theorem C120_log_foreign_refuted : ~ forall se so h o x, let w := do_ops (initial false se so) h in
  log_op o -> In x (l_handlers (w_logger w)) -> h_creator x = ByOther -> In x (l_handlers (w_logger (fst (do_op w o)))).
Proof.
  intros H. specialize (H (out 2) (out 1) [ExtAdd (out 7) 10] (Stream (out 8)) (mkHandler 0 (out 7) 10 ByOther) I (or_introl eq_refl) eq_refl). cbn in H. destruct H as [H|[]]. discriminate.
Qed.
Print Assumptions C120_log_foreign_refuted.
Theorem C120_log_first_stream a se so s l e f : writable s -> writable so ->
  let w := fst (log_stream (initial a se so) s) in
  a = false -> forall x, own (fst (log_write w l e f)) x -> h_stream x = so.
Proof.
  intros (S1 & S2 & S3) (O1 & O2 & O3) w -> x. assert (E : w = mkWorld (mkLogger [mkHandler 0 s 0 ByLog] 1 default_levels true) 0 ("INFO"%string, 20) so []).
  { unfold w, log_stream. cbn. rewrite S1, S2. cbn. unfold lg_add. rewrite S2, S3. reflexivity. }
  rewrite E. unfold log_write. cbn [w_identity Nat.eqb w_stdout]. unfold log_stream. rewrite O1, O2. cbn [negb orb]. unfold lg_remove. cbn. unfold lg_add. rewrite O2, O3. cbn [andb].
  set (w2 := set_identity _ _). intros (H & _ & _). assert (D : w_logger (fst (match look_up w2 l with Ok v => if snd (w_level w2) <=? snd v then (lg_log w2 v (entry_text e f), Ok tt) else (w2, Ok tt) | Err y => (w2, Err y) end)) = w_logger w2).
  { destruct (look_up w2 l) as [v|y]; [|reflexivity]. destruct (_ <=? _); [|reflexivity]. apply (log_fields w2 v). }
  rewrite D in H. cbn in H. destruct H as [<-|[]]. reflexivity.
Qed.
Print Assumptions C120_log_first_stream.

(** C99. *)
Lemma own_unique w x y : tidy_log w -> own w x -> own w y -> x = y.
Proof.
  intros (_ & _ & N & _) (X1 & _ & X3) (Y1 & _ & Y3). revert N X1 Y1. induction (l_handlers (w_logger w)) as [|a l IH]; [intros _ []|]. cbn. intros N [->|X] [->|Y]; try reflexivity.
  - apply NoDup_cons_iff in N. destruct N as [N _]. destruct N. rewrite X3, <- Y3. apply in_map. exact Y.
  - apply NoDup_cons_iff in N. destruct N as [N _]. destruct N. rewrite Y3, <- X3. apply in_map. exact X.
  - apply NoDup_cons_iff in N. apply IH; tauto.
Qed.
(** A successful stream call installs its stream; nothing but another stream call or an
    external removal changes that. *)
Theorem C99_log_stream se so h s : let w := do_ops (initial true se so) h in
  snd (log_stream w s) = Ok tt -> exists x, own (fst (log_stream w s)) x /\ h_stream x = s /\ h_level x = 0.
Proof.
  intros w E. destruct (stream_cases w s) as [[_ F]|[(_ & _ & _ & F)|(_ & w' & F & H)]]; rewrite F in *; try discriminate. cbn [fst].
  destruct H as (H1 & _ & _ & _ & _ & _ & _ & H8). exists (mkHandler (l_next (w_logger w)) s 0 ByLog). unfold own. rewrite H1, H8. cbn. repeat split. apply in_or_app. right. left. reflexivity.
Qed.
Print Assumptions C99_log_stream.
Theorem C99_log_kept se so h o x : let w := do_ops (initial true se so) h in own w x ->
  (match o with Stream _ | ExtRemoveAll => False | ExtRemove i => i <> w_identity w | _ => True end) -> own (fst (do_op w o)) x.
Proof.
  intros w Hx Ho. pose proof (tidy_ops h _ (tidy_initial se so)) as (_ & _ & _ & T). fold w in T. pose proof Hx as (X1 & X2 & X3). destruct (T x X1) as [_ C]. rewrite X2 in C.
  destruct o as [l|s|l e f|s v|i| |n v|b|v t|s]; cbn in Ho; try contradiction; cbn [do_op].
  - unfold log_level. destruct (look_up w l); exact Hx.
  - rewrite write_shape. cbn zeta. replace (w_identity w =? 0) with false by (symmetry; apply Nat.eqb_neq, C).
    destruct (look_up w l) as [v|y]; [|exact Hx]. destruct (_ <=? _); [|exact Hx]. cbn [fst]. unfold own. pose proof (log_fields w v (entry_text e f)) as (F1 & _ & _ & F4 & _). rewrite F1, F4. exact Hx.
  - unfold lg_add. destruct (_ && _)%bool; [|exact Hx]. unfold own. cbn. split; [apply in_or_app; left; exact X1|auto].
  - pose proof (remove_fields w i) as (R1 & _ & _ & _ & _ & _ & _ & R8). unfold own. rewrite R1, R8. split; [|auto]. apply filter_In. split; [exact X1|]. apply negb_true_iff, Nat.eqb_neq. congruence.
  - destruct (find_level n _); exact Hx.
  - exact Hx.
  - cbn [fst]. unfold own. pose proof (log_fields w v t) as (F1 & _ & _ & F4 & _). rewrite F1, F4. exact Hx.
  - exact Hx.
Qed.
Print Assumptions C99_log_kept.
(** Lines delivered through one handler id. *)
Definition lines_of (i : nat) (l : list line) : list line := filter (fun p => fst (fst (fst p)) =? i) l.
Lemma lines_of_app i a b : lines_of i (a ++ b) = lines_of i a ++ lines_of i b.
Proof. apply filter_app. Qed.
Lemma lines_own w x n name t : tidy_log w -> In x (l_handlers (w_logger w)) -> h_level x <= n -> lines_of (h_id x) (delivered w n name t) = [(h_id x, h_stream x, name, t)].
Proof.
  intros (_ & _ & N & _) Hx L. unfold delivered. revert N Hx. induction (l_handlers (w_logger w)) as [|a l IH]; [intros _ []|]. cbn [map In filter]. intros N [->|Hx]; apply NoDup_cons_iff in N; destruct N as [N1 N2].
  - replace (h_level x <=? n) with true by (symmetry; apply Nat.leb_le; exact L). cbn. rewrite Nat.eqb_refl. f_equal.
    clear -N1. induction l as [|b l IH]; [reflexivity|]. cbn in N1 |- *. destruct (h_level b <=? n); cbn; [|apply IH; tauto]. destruct (Nat.eqb_spec (h_id b) (h_id x)) as [E|E]; [destruct N1; left; exact E|]. apply IH. tauto.
  - destruct (h_level a <=? n); cbn; [|apply IH; assumption]. destruct (Nat.eqb_spec (h_id a) (h_id x)) as [E|E]; [|apply IH; assumption]. destruct N1. rewrite E. apply in_map. exact Hx.
Qed.
Lemma own_level_zero se so h : let w := do_ops (initial true se so) h in forall x, In x (l_handlers (w_logger w)) -> h_creator x = ByLog -> h_level x = 0.
Proof.
  cbn zeta. set (P := fun w => forall x, In x (l_handlers (w_logger w)) -> h_creator x = ByLog -> h_level x = 0).
  assert (S : forall w s, P w -> P (fst (log_stream w s))).
  { intros w s Hw x Hx. destruct (stream_cases w s) as [[_ E]|[(_ & _ & _ & E)|(_ & w' & E & H)]]; rewrite E in Hx; cbn [fst] in Hx; [apply Hw, Hx| |].
    - pose proof (remove_fields w (w_identity w)) as (_ & _ & _ & _ & _ & _ & _ & R8). rewrite R8 in Hx. apply filter_In in Hx. apply Hw, Hx.
    - destruct H as (_ & _ & _ & _ & _ & _ & _ & H8). rewrite H8 in Hx. apply in_app_or in Hx. destruct Hx as [Hx|[<-|[]]]; [apply filter_In in Hx; apply Hw, Hx|reflexivity]. }
  assert (O : forall o w, P w -> P (fst (do_op w o))).
  { intros o w Hw. destruct o as [l|s|l e f|s v|i| |n v|b|v t|s]; cbn [do_op].
    - unfold log_level. destruct (look_up w l); exact Hw.
    - apply S, Hw.
    - rewrite write_shape. cbn zeta. set (w1 := if w_identity w =? 0 then _ else w). assert (K : P w1) by (unfold w1; destruct (w_identity w =? 0); [apply S|]; exact Hw).
      destruct (if w_identity w =? 0 then _ else Ok tt) as [u|y]; [|exact K]. destruct (look_up w1 l) as [v|y]; [|exact K]. destruct (_ <=? _); [|exact K]. cbn [fst]. intros x. pose proof (log_fields w1 v (entry_text e f)) as (_ & _ & _ & F4 & _). rewrite F4. apply K.
    - unfold lg_add. destruct (_ && _)%bool; [|exact Hw]. intros x Hx. cbn in Hx. apply in_app_or in Hx. destruct Hx as [Hx|[<-|[]]]; [apply Hw, Hx|discriminate].
    - intros x Hx. pose proof (remove_fields w i) as (_ & _ & _ & _ & _ & _ & _ & R8). rewrite R8 in Hx. apply filter_In in Hx. apply Hw, Hx.
    - intros x [].
    - destruct (find_level n _); exact Hw.
    - exact Hw.
    - cbn [fst]. intros x. pose proof (log_fields w v t) as (_ & _ & _ & F4 & _). rewrite F4. apply Hw.
    - exact Hw. }
  assert (I : P (initial true se so)) by (intros x [<-|[]]; discriminate). revert I. generalize (initial true se so). induction h as [|o h IH]; intros w Hw; [exact Hw|]. cbn [do_ops]. apply IH, O, Hw.
Qed.
(** An entry that passes makes one line, in the handler of Log. *)
Theorem C99_log_delivers se so h s e f n x : let w := do_ops (initial true se so) h in let w' := fst (log_write w (LStr s) e f) in
  own w x -> number h (py_upper s) = Some n -> threshold h <= n -> l_enabled (w_logger w) = true ->
  lines_of (h_id x) (w_lines w') = lines_of (h_id x) (w_lines w) ++ [(h_id x, h_stream x, py_upper s, entry_text e f)].
Proof.
  intros w w' Hx En Ht Hen. pose proof (C97_log_threshold true se so h s e f) as C. cbn zeta in C. fold w in C. fold w' in C. rewrite En in C.
  pose proof (tidy_ops h _ (tidy_initial se so)) as T. fold w in T. pose proof Hx as (X1 & X2 & X3). pose proof T as (_ & _ & _ & T4). destruct (T4 x X1) as [_ D]. rewrite X2 in D.
  destruct C as [_ C]; [left; apply D|]. rewrite C. replace (threshold h <=? n) with true by (symmetry; apply Nat.leb_le; exact Ht). rewrite Hen. cbn [andb]. rewrite lines_of_app. f_equal.
  pose proof (C99_log_kept se so h (Write (LStr s) e f) x Hx I) as (K1 & K2 & K3). cbn [do_op] in K1. fold w in K1. fold w' in K1. apply lines_own; [apply tidy_write; exact T|exact K1|].
  rewrite (own_level_zero se so h x X1 X2). lia.
Qed.
Print Assumptions C99_log_delivers.
(** Before any stream call the first entry goes to sys.stdout. *)
Theorem C99_log_lazy se so h l e f : let w := do_ops (initial true se so) h in
  w_identity w = 0 -> writable (w_stdout w) -> exists x, own (fst (log_write w l e f)) x /\ h_stream x = w_stdout w.
Proof.
  intros w Z (O1 & O2 & O3). rewrite write_shape. cbn zeta. rewrite Z. cbn [Nat.eqb]. destruct (stream_cases w (w_stdout w)) as [[E _]|[(_ & _ & E & _)|(_ & w' & E & H)]]; [rewrite O1, O2 in E; discriminate|congruence|].
  rewrite E. cbn [fst snd]. destruct H as (H1 & _ & _ & _ & _ & _ & _ & H8). exists (mkHandler (l_next (w_logger w)) (w_stdout w) 0 ByLog). split; [|reflexivity].
  assert (W : own w' (mkHandler (l_next (w_logger w)) (w_stdout w) 0 ByLog)) by (unfold own; rewrite H1, H8; repeat split; apply in_or_app; right; left; reflexivity).
  destruct (look_up w' l) as [v|y]; [|exact W]. destruct (_ <=? _); [|exact W]. cbn [fst]. unfold own. pose proof (log_fields w' v (entry_text e f)) as (F1 & _ & _ & F4 & _). rewrite F1, F4. exact W.
Qed.
Print Assumptions C99_log_lazy.
(** Once Log's handler has been removed by other code every entry is lost to Log's stream,
    however many follow, until stream succeeds. *)
Theorem C99_log_lost se so h os x : let w := do_ops (initial true se so) h in
  own w x -> Forall (fun o => match o with Stream _ => False | _ => True end) os ->
  forall y, ~ own (do_ops (fst (do_op w (ExtRemove (h_id x)))) os) y.
Proof.
  intros w Hx Fo. pose proof Hx as (X1 & X2 & X3). pose proof (tidy_ops h _ (tidy_initial se so)) as T. fold w in T. pose proof T as (_ & _ & _ & T4). destruct (T4 x X1) as [_ D]. rewrite X2 in D.
  set (w1 := fst (do_op w (ExtRemove (h_id x)))).
  assert (B : w_identity w1 <> 0 /\ tidy_log w1 /\ forall y, In y (l_handlers (w_logger w1)) -> h_creator y <> ByLog).
  { unfold w1. cbn [do_op]. pose proof (remove_fields w (h_id x)) as (R1 & _ & _ & _ & _ & _ & _ & R8). rewrite R1, R8. split; [apply D|]. split; [apply tidy_remove, T|].
    intros y Hy C. apply filter_In in Hy. destruct Hy as [Hy N]. apply negb_true_iff, Nat.eqb_neq in N. destruct (T4 y Hy) as [_ E]. rewrite C in E. destruct E as [E _]. apply N. congruence. }
  clearbody w1. clear -B Fo. revert w1 B. induction Fo as [|o os Ho Fo IH]; intros w (B1 & B2 & B3) y.
  - intros (Y1 & Y2 & _). exact (B3 y Y1 Y2).
  - cbn [do_ops]. apply IH. split; [|split; [apply tidy_op, B2|]].
    + destruct o as [l|s|l e f|s v|i| |n v|b|v t|s]; cbn in Ho; try contradiction; cbn [do_op].
      * unfold log_level. destruct (look_up w l); exact B1.
      * rewrite write_shape. cbn zeta. replace (w_identity w =? 0) with false by (symmetry; apply Nat.eqb_neq, B1). destruct (look_up w l) as [v|z]; [|exact B1]. destruct (_ <=? _); [|exact B1]. cbn [fst]. pose proof (log_fields w v (entry_text e f)) as (F1 & _). rewrite F1. exact B1.
      * unfold lg_add. destruct (_ && _)%bool; exact B1.
      * pose proof (remove_fields w i) as (R1 & _). rewrite R1. exact B1.
      * exact B1.
      * destruct (find_level n _); exact B1.
      * exact B1.
      * cbn [fst]. pose proof (log_fields w v t) as (F1 & _). rewrite F1. exact B1.
      * exact B1.
    + destruct o as [l|s|l e f|s v|i| |n v|b|v t|s]; cbn in Ho; try contradiction; cbn [do_op].
      * unfold log_level. destruct (look_up w l); exact B3.
      * rewrite write_shape. cbn zeta. replace (w_identity w =? 0) with false by (symmetry; apply Nat.eqb_neq, B1). destruct (look_up w l) as [v|z]; [|exact B3]. destruct (_ <=? _); [|exact B3]. cbn [fst]. pose proof (log_fields w v (entry_text e f)) as (_ & _ & _ & F4 & _). rewrite F4. exact B3.
      * unfold lg_add. destruct (_ && _)%bool; [|exact B3]. cbn. intros z Hz. apply in_app_or in Hz. destruct Hz as [Hz|[<-|[]]]; [apply B3, Hz|discriminate].
      * pose proof (remove_fields w i) as (_ & _ & _ & _ & _ & _ & _ & R8). rewrite R8. intros z Hz. apply filter_In in Hz. apply B3, Hz.
      * destruct (find_level n _); exact B3.
      * exact B3.
      * cbn [fst]. pose proof (log_fields w v t) as (_ & _ & _ & F4 & _). rewrite F4. exact B3.
      * exact B3.
Qed.
Print Assumptions C99_log_lost.

(** C100.  Failing calls. *)
Theorem C100_log_level_fails w l e : snd (log_level w l) = Err e -> fst (log_level w l) = w.
Proof. unfold log_level. destruct (look_up w l); [discriminate|reflexivity]. Qed.
Print Assumptions C100_log_level_fails.
(** A failing stream call changes nothing, except that an object whose write is not
    callable costs Log its present handler (or loguru its default one). *)
Theorem C100_log_stream_fails w s e : snd (log_stream w s) = Err e ->
  (s_truthy s && s_write s = false /\ e = ValueError /\ fst (log_stream w s) = w) \/
  (s_truthy s = true /\ s_write s = true /\ s_callable s = false /\ e = TypeError /\
   let w' := fst (log_stream w s) in
   w_identity w' = w_identity w /\ w_level w' = w_level w /\ w_lines w' = w_lines w /\
   l_handlers (w_logger w') = filter (fun h => negb (h_id h =? w_identity w)) (l_handlers (w_logger w))).
Proof.
  intros H. destruct (stream_cases w s) as [[C E]|[(C1 & C2 & C3 & E)|(_ & w' & E & _)]]; rewrite E in *; cbn [fst snd] in *; [| |discriminate].
  - left. split; [|split; congruence]. destruct (s_truthy s), (s_write s); try reflexivity; discriminate.
  - right. pose proof (remove_fields w (w_identity w)) as R. cbn zeta in R. destruct R as (R1 & R2 & _ & R4 & _ & _ & _ & R8). repeat split; try assumption. congruence.
Qed.
Print Assumptions C100_log_stream_fails.
Theorem C100_log_stream_refuted : ~ forall se so h s e, let w := do_ops (initial true se so) h in
  snd (log_stream w s) = Err e -> l_handlers (w_logger (fst (log_stream w s))) = l_handlers (w_logger w).
Proof. intros H. specialize (H (out 2) (out 1) [Stream (out 5)] (mkStream 6 true true false) TypeError eq_refl). discriminate. Qed.
Print Assumptions C100_log_stream_refuted.
(** A failing write changes at most what a stream call on sys.stdout changes. *)
Theorem C100_log_write_fails w l e f x : snd (log_write w l e f) = Err x ->
  (w_identity w <> 0 -> fst (log_write w l e f) = w) /\ (w_identity w = 0 -> fst (log_write w l e f) = fst (log_stream w (w_stdout w))).
Proof.
  rewrite write_shape. cbn zeta. destruct (Nat.eqb_spec (w_identity w) 0) as [Z|Z]; intros H; (split; [intros ?|intros ?]); try contradiction.
  - destruct (snd (log_stream w (w_stdout w))) as [u|y]; [|reflexivity]. destruct (look_up _ l); [|reflexivity]. destruct (_ <=? _); discriminate.
  - destruct (look_up w l) as [v|y]; [|reflexivity]. destruct (_ <=? _); discriminate.
Qed.
Print Assumptions C100_log_write_fails.

(** C119.  The text of an exception entry: the frames are those of the exception being
    handled at the call, not those of the entry. *)
Theorem C119_log_text e frames :
  match e with
  | EText s => entry_text e frames = s
  | EException n t tb => entry_text e frames = ("Exception = " ++ n ++ " " ++ t ++
      String.concat "" (map (fun p => " @ File = " ++ fst p ++ " Line = " ++ decimal (snd p)) frames))%string
  end.
Proof.
  destruct e as [s|n t tb]; [reflexivity|]. cbn [entry_text]. do 4 f_equal.
  assert (C : forall a l, String.concat "" (a :: l) = (a ++ String.concat "" l)%string).
  { intros a [|b l]; cbn [String.concat]; [induction a as [|c a IH]; [reflexivity|cbn; f_equal; exact IH]|reflexivity]. }
  assert (A : forall a b c : string, ((a ++ b) ++ c = a ++ (b ++ c))%string) by (induction a as [|c a IH]; intros; [reflexivity|cbn; f_equal; apply IH]).
  induction frames as [|[g m] r IH]; [reflexivity|]. cbn [map]. rewrite C, <- IH. cbn [fst snd frames_text]. rewrite !A. reflexivity.
Qed.
Print Assumptions C119_log_text.
Theorem C119_log_own_traceback_refuted : ~ forall se so h l n t tb frames, let w := do_ops (initial true se so) h in
  w_lines (fst (log_write w l (EException n t tb) frames)) = w_lines (fst (log_write w l (EException n t tb) tb)).
Proof.
  intros H. specialize (H (out 2) (out 1) [] (LStr "error"%string) "ValueError"%string "x"%string [("a.py"%string, 3)] []). discriminate.
Qed.
Print Assumptions C119_log_own_traceback_refuted.

(** The hypotheses above are met. *)
Definition h1 : list op := [ExtAdd (out 7) 10; ExtLevel "NOTICE" 22; Stream (out 5); Level (LStr "Notice"); Level (LStr "loud")].
Example C97_example : let w := do_ops (initial true (out 2) (out 1)) h1 in
  usable w /\ number h1 (py_upper "Info") = Some 20 /\ threshold h1 = 22 /\ number h1 (py_upper "Warning") = Some 30 /\
  level_number h1 (LStr "loud") = None /\ own w (mkHandler 2 (out 5) 0 ByLog) /\ l_enabled (w_logger w) = true /\
  w_lines (fst (log_write w (LStr "Warning") (EText "hot") [])) = [(1, out 7, "WARNING"%string, "hot"%string); (2, out 5, "WARNING"%string, "hot"%string)] /\
  In (mkHandler 1 (out 7) 10 ByOther) (l_handlers (w_logger w)).
Proof. cbn zeta. split; [left; discriminate|]. repeat split; try reflexivity; vm_compute; auto. Qed.
Example C99_example : let w := initial true (out 2) (out 1) in w_identity w = 0 /\ writable (w_stdout w) /\ ~ usable (initial true (out 2) (mkStream 1 false true true)).
Proof. cbn zeta. repeat split. intros [H|(H & _)]; [apply H; reflexivity|discriminate]. Qed.
Example C119_example : entry_text (EException "ValueError" "bad" []) [("a.py"%string, 12); ("b.py"%string, 305)] = "Exception = ValueError bad @ File = a.py Line = 12 @ File = b.py Line = 305"%string.
Proof. reflexivity. Qed.
