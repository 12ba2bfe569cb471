(** Property C206: PolynomialRateFilter objects shared by several threads. *)
From Coq Require Import List Arith ZArith QArith Qround Qcanon Bool Lia Reals Lra.
From Verif Require Import Base BaseLemmas Instances CalculusModel CalculusProps Rounding PolyphaseModel PolyphaseProps PolynomialModel PolynomialProps ThreadModel ThreadProps DivThreadProps PidThreadProps PrateThreadModel.
Import ListNotations.
Set Asymmetric Patterns.
Close Scope Qc_scope. Close Scope Q_scope. Close Scope R_scope. Open Scope nat_scope.

(** ** Specification, over the reals *)
Section Spec.
  Variable rnd : R -> Z.
  Variable polyfit : list R -> list R -> Z -> list R.
  Variable program : nat -> list (nat * prcall RO).
  Variable o : nat.
  Variables (r0 : R) (k0 : Z).                    (* rate and order before the threads start *)
  Definition a_prate (r : R) : Prop := r = r0 \/ exists j, In (o, PrRate (O := RO) r) (program j).
  Definition a_porder (k : Z) : Prop := k = k0 \/ (0 < k)%Z /\ exists j, In (o, PrOrder (O := RO) k) (program j).
  (** the signal continued along its ends: sample -1, the samples, and two more *)
  Definition continued (x : list R) : list R :=
    [(2 * nth 0 x 0 - nth 1 x 0)%R] ++ x ++ [(2 * nth (length x - 1) x 0 - nth (length x - 2) x 0)%R; (3 * nth (length x - 1) x 0 - 2 * nth (length x - 2) x 0)%R].
  (** an output: for order one between two of the samples or the one after them, else the value,
      at a time before 1, of a fit of such an order to four neighbours *)
  Definition between (x : list R) (v : R) : Prop := exists a b, In a (firstn (S (length x)) (tl (continued x))) /\ In b (firstn (S (length x)) (tl (continued x))) /\ (a <= v <= b)%R.
  Definition fitted (x : list R) (v : R) : Prop := exists k i t, a_porder k /\ i < length x /\ (t < 1)%R /\
    v = pval (polyfit [-1; 0; 1; 2]%R (firstn 4 (skipn i (continued x))) k) t.
  Definition pr_answer (a : prcall RO) (y : prout RO) : Prop :=
    match a with
    | PrFilter x => (length x < 2 /\ y = Err ValueError) \/
        (2 <= length x /\ exists out r, y = Ok out /\ a_prate r /\ (Z.of_nat (length out) <= rnd (INR (length x) * r)%R)%Z /\
          (a_porder 1 /\ Forall (between x) out \/ (exists k, a_porder k /\ k <> 1%Z) /\ Forall (fitted x) out))
    | PrRate r => ((0 <= r)%R /\ y = Ok []) \/ ((r < 0)%R /\ y = Err ValueError)
    | PrOrder k => ((0 < k)%Z /\ y = Ok []) \/ ((k <= 0)%Z /\ y = Err ValueError)
    end.
End Spec.

(** C206.  Without interruption the accesses are the calls of C53 to C57. *)
Lemma pr_outer_alone (O : OArith) (fit : list O -> list O -> Z -> list O) u g : forall c xs ny v index out,
  complete (pr_outer fit u c xs ny v index out) g = (g, Ok (out ++ prate_outer fit u (qorder g) c xs ny v index)).
Proof.
  induction c as [|c IH]; intros xs ny v index out; [cbn; rewrite app_nil_r; reflexivity|]. cbn [pr_outer prate_outer]. destruct (oltb index one).
  - cbn [peek complete]. destruct (prate_inner ny _ v index) as [[ny' index'] ys]. rewrite IH, <- app_assoc. reflexivity.
  - rewrite IH. reflexivity.
Qed.
Theorem C206_uninterrupted (O : OArith) rnd trunc (fit : list O -> list O -> Z -> list O) linspace g a :
  (forall n, linspace (Z.of_nat n - 1)%Z n = map of_nat (seq 0 n)) ->
  complete (pr_code rnd trunc fit linspace a) g = pr_do rnd trunc fit g a.
Proof.
  intros Hl. destruct g as [r k]. destruct a as [x|r'|k']; cbn [pr_code pr_do].
  - unfold prate_filter. destruct (length x <? 2); [reflexivity|]. cbn [peek complete qrate qorder]. destruct (Z.eqb_spec k 1) as [->|N].
    + cbn [peek complete qrate qorder]. set (n := trunc _). destruct (Z.ltb_spec n 0) as [H|H]; [reflexivity|]. cbn [peek complete qrate qorder].
      assert (E : linspace (n - 1)%Z (Z.to_nat n) = map of_nat (seq 0 (Z.to_nat n))) by (rewrite <- Hl, Z2Nat.id by lia; reflexivity). rewrite E, (map_map of_nat (fun t => div t r)). reflexivity.
    + destruct (Z.ltb _ 0); [reflexivity|]. cbn [peek complete qrate qorder]. destruct (eqb r zero); [reflexivity|]. rewrite pr_outer_alone. reflexivity.
  - unfold prate_set_rate. destruct (oltb r' zero); reflexivity.
  - unfold prate_set_order. destruct (k' <=? 0)%Z; reflexivity.
Qed.
Print Assumptions C206_uninterrupted.

(** linear interpolation stays between two ordinates *)
Lemma interp_from_between : forall pts x0 y0 v, (x0 <= v)%R -> (forall i, S i < length ((x0, y0) :: pts) -> (fst (nth i ((x0, y0) :: pts) (0, 0)) < fst (nth (S i) ((x0, y0) :: pts) (0, 0)))%R) ->
  exists a b, In a (y0 :: map snd pts) /\ In b (y0 :: map snd pts) /\ (a <= @interp_from RO x0 y0 pts v <= b)%R.
Proof.
  induction pts as [|[x1 y1] pts IH]; intros x0 y0 v Hv Hi; [exists y0, y0; cbn; repeat split; auto; lra|].
  cbn [interp_from]. change (@oltb RO v x1) with (Rltb v x1). destruct (Rltb v x1) eqn:E.
  - apply Rltb_iff in E. assert (X : (x0 < x1)%R) by (apply (Hi 0); cbn [length]; lia).
    change (exists a b, In a (y0 :: map snd ((x1, y1) :: pts)) /\ In b (y0 :: map snd ((x1, y1) :: pts)) /\ (a <= (y1 - y0) / (x1 - x0) * (v - x0) + y0 <= b)%R).
    set (t := ((v - x0) / (x1 - x0))%R). assert (T : (0 <= t <= 1)%R). { unfold t. split; [apply Rmult_le_pos; [lra|left; apply Rinv_0_lt_compat; lra]|]. apply (Rmult_le_reg_r (x1 - x0)); [lra|]. unfold Rdiv. rewrite Rmult_assoc, Rinv_l by lra. lra. }
    replace ((y1 - y0) / (x1 - x0) * (v - x0) + y0)%R with (y0 + t * (y1 - y0))%R by (unfold t; field; lra).
    destruct (Rle_dec y0 y1) as [L|L]; [exists y0, y1|exists y1, y0]; (split; [cbn; auto|]; split; [cbn; auto|]); split; nra.
  - assert (X : (x1 <= v)%R) by (apply Rnot_lt_le; intros H; apply Rltb_iff in H; congruence).
    destruct (IH x1 y1 v X) as (a & b & Ha & Hb & L); [intros i L; apply (Hi (S i)); cbn [length] in *; lia|]. exists a, b. cbn [map snd]. split; [right; exact Ha|]. split; [right; exact Hb|exact L].
Qed.
Lemma interp_between (xs : list R) v : xs <> [] -> exists a b, In a xs /\ In b xs /\ (a <= @np_interp RO (combine (map (@of_nat RO) (seq 0 (length xs))) xs) v <= b)%R.
Proof.
  intros N. assert (E : combine (map (@of_nat RO) (seq 0 (length xs))) xs = combine (map INR (seq 0 (length xs))) xs) by (f_equal; apply map_ext; intros; apply of_nat_R).
  change (exists a b, In a xs /\ In b xs /\ (a <= interpR (combine (map (@of_nat RO) (seq 0 (length xs))) xs) v <= b)%R). match goal with |- context [interpR ?l] => replace l with (combine (map INR (seq 0 (length xs))) xs) by (symmetry; exact E) end. clear E.
  destruct xs as [|y0 xs]; [congruence|]. cbn [length seq map combine]. unfold interpR. cbn [np_interp]. change (@oltb RO v (INR 0)) with (Rltb v 0). destruct (Rltb v 0) eqn:E; [exists y0, y0; cbn; repeat split; auto; lra|].
  assert (X : (INR 0 <= v)%R) by (change (INR 0) with 0%R; apply Rnot_lt_le; intros H; apply Rltb_iff in H; congruence).
  assert (Sn : forall (l : list R) m, map snd (combine (map INR (seq m (length l))) l) = l) by (induction l as [|z l IH]; intros m; [reflexivity|]; cbn [length seq map combine snd]; rewrite IH; reflexivity).
  destruct (interp_from_between (combine (map INR (seq 1 (length xs))) xs) (INR 0) y0 v X) as (a & b & Ha & Hb & L).
  - assert (Fn : forall (l : list R) m i, i < length l -> fst (nth i (combine (map INR (seq m (length l))) l) (0, 0)%R) = INR (m + i)).
    { induction l as [|z l IH]; intros m [|i] H; cbn [length] in H; try lia; cbn [length seq map combine nth fst]; [rewrite Nat.add_0_r; reflexivity|]. rewrite IH by lia. f_equal. lia. }
    intros i Hi. change ((INR 0, y0) :: combine (map INR (seq 1 (length xs))) xs) with (combine (map INR (seq 0 (length (y0 :: xs)))) (y0 :: xs)) in *. rewrite combine_length, map_length, seq_length, Nat.min_id in Hi. rewrite !Fn by lia. apply lt_INR. lia.
  - exists a, b. rewrite Sn in Ha, Hb. auto.
Qed.
Lemma polyval_pval (b : list R) t : @polyval RO b t = pval b t.
Proof.
  assert (H : forall (l : list R) (y : R), fold_left (fun y c => (y * t + c)%R) l y = (y * t ^ length l + pval l t)%R).
  { induction l as [|c l IH]; intros y; cbn [fold_left length pval pow]; [ring|]. rewrite IH. ring. }
  change (fold_left (fun y c => (y * t + c)%R) b 0%R = pval b t). rewrite H. ring.
Qed.
Lemma inner_spec b v : forall ny index, let '(ny', _, ys) := @prate_inner RO ny b v index in length ys + ny' = ny /\ Forall (fun y => exists t, (t < 1)%R /\ y = pval b t) ys.
Proof.
  induction ny as [|ny IH]; intros index; [cbn; auto|]. cbn [prate_inner]. change (@oltb RO index one) with (Rltb index 1). destruct (Rltb index 1) eqn:E; [|cbn; auto].
  specialize (IH (@add RO index v)). destruct (prate_inner ny b v (add index v)) as [[n i] ys]. destruct IH as [L F]. split; [cbn [length]; lia|]. constructor; [|exact F]. exists index. split; [apply Rltb_iff; exact E|apply polyval_pval].
Qed.

Lemma ext_one (x : list R) : firstn (S (length x)) (tl (continued x)) = x ++ [(2 * nth (length x - 1) x 0 - nth (length x - 2) x 0)%R].
Proof. unfold continued. cbn [app tl]. rewrite firstn_app, firstn_all2 by lia. replace (S (length x) - length x) with 1 by lia. reflexivity. Qed.
Lemma between_one (x : list R) v : (exists a b, In a (x ++ [(2 * nth (length x - 1) x 0 - nth (length x - 2) x 0)%R]) /\ In b (x ++ [(2 * nth (length x - 1) x 0 - nth (length x - 2) x 0)%R]) /\ (a <= v <= b)%R) -> between x v.
Proof. rewrite <- ext_one. intros H. exact H. Qed.
Lemma firstn_incl {T} n (l : list T) x : In x (firstn n l) -> In x l.
Proof. intros H. rewrite <- (firstn_skipn n l). apply in_or_app. left. exact H. Qed.
Section Shared.
  Variables (rnd trunc : R -> Z) (fit : list R -> list R -> Z -> list R) (linspace : Z -> nat -> list R).
  Hypothesis Hrnd : forall v, (0 <= v)%R -> (0 <= rnd v)%Z.
  Hypothesis Htrunc : forall v, (0 <= v)%R -> (0 <= trunc v)%Z.
  Variable program : nat -> list (nat * prcall RO).
  Variable o : nat.
  Variables (r0 : R) (k0 : Z).
  Hypothesis Hz : forall j, ~ In (o, PrRate (O := RO) 0%R) (program j).
  Definition pgood (g : prate RO) : Prop := (a_prate program o r0 (qrate g) /\ (0 < qrate g)%R) /\ a_porder program o k0 (qorder g).
  Definition RP (g g' : prate RO) : Prop := pgood g -> pgood g'.
  Definition QP (a : prcall RO) (y : prout RO) (_ : prate RO) : Prop := pr_answer rnd fit program o r0 k0 a y.
  Lemma pgood_stable : stable RP pgood. Proof. intros w w' X Y. exact (Y X). Qed.
  Lemma pkeeps_act a f k : (forall w, pgood w -> pgood (f w) /\ keeps RP QP a pgood (k w)) -> keeps RP QP a pgood (Act f k).
  Proof. intros H w Hw. destruct (H w Hw) as [H1 H2]. split; [intros _; exact H1|]. exists pgood. split; [exact pgood_stable|]. auto. Qed.
  Lemma outer_keeps x r v : 2 <= length x -> a_prate program o r0 r -> (exists k, a_porder program o k0 k /\ k <> 1%Z) ->
    forall c i ny index out, i + c = length x -> (Z.of_nat (length out + ny) <= rnd (INR (length x) * r)%R)%Z -> Forall (fitted fit program o k0 x) out ->
    keeps RP QP (PrFilter x) pgood (@pr_outer RO fit [-1; 0; 1; 2]%R c (skipn i (continued x)) ny v index out).
  Proof.
    intros Lx Hr Hk. induction c as [|c IH]; intros i ny index out Ei Ln F.
    - intros w _. right. split; [exact Lx|]. exists out, r. split; [reflexivity|]. split; [exact Hr|]. split; [change (@length (carrier RO)) with (@length R) in *; lia|]. right. auto.
    - cbn [pr_outer]. assert (Et : tl (skipn i (continued x)) = skipn (S i) (continued x)).
      { generalize (continued x). clear. intros l. revert i. induction l as [|z l IH]; intros [|i]; try reflexivity. cbn [skipn]. rewrite IH. destruct l; reflexivity. }
      change (@tl (carrier RO)) with (@tl R). rewrite Et. destruct (oltb index one); [|apply IH; [lia|exact Ln|exact F]].
      apply pkeeps_act. intros g Hg. split; [exact Hg|]. destruct Hg as [_ Ho]. pose proof (inner_spec (fit [-1; 0; 1; 2]%R (firstn 4 (skipn i (continued x))) (qorder g)) v ny index) as Hi.
      destruct (prate_inner ny _ v index) as [[ny' index'] ys]. destruct Hi as [L Fi]. apply IH; [lia|rewrite app_length; change (@length (carrier RO)) with (@length R) in *; lia|]. apply Forall_app. split; [exact F|].
      eapply Forall_impl; [|exact Fi]. intros y (t & Ht & ->). exists (qorder g), i, t. split; [exact Ho|]. split; [lia|]. auto.
  Qed.
  Lemma pcall_keeps j a : In (o, a) (program j) -> keeps RP QP a pgood (@pr_code RO rnd trunc fit linspace a).
  Proof.
    intros I. destruct a as [x|r|k]; cbn [pr_code].
    - assert (z2 : @of_Z RO 2 = 2%R) by exact (of_Z_IZR 2). assert (z3 : @of_Z RO 3 = 3%R) by exact (of_Z_IZR 3). assert (z1 : @of_Z RO (-1) = (-1)%R) by exact (of_Z_IZR (-1)). assert (z4 : @of_Z RO 1 = 1%R) by exact (of_Z_IZR 1). assert (z0 : @of_Z RO 0 = 0%R) by exact (of_Z_IZR 0).
      destruct (Nat.ltb_spec (length x) 2) as [L|L]; [intros w _; left; auto|].
      apply pkeeps_act. intros g1 G1. split; [exact G1|]. destruct G1 as [[R1 P1] _]. apply pkeeps_act. intros g2 G2. split; [exact G2|]. destruct G2 as [_ K2].
      assert (J : @mul RO (of_nat (length x)) (qrate g1) = (INR (length x) * qrate g1)%R) by (rewrite of_nat_R; reflexivity).
      assert (J0 : (0 <= rnd (INR (length x) * qrate g1)%R)%Z) by (apply Hrnd; apply Rmult_le_pos; [apply pos_INR|lra]).
      destruct (Z.eqb_spec (qorder g2) 1) as [E|N].
      + rewrite E in K2. apply pkeeps_act. intros g3 G3. split; [exact G3|]. apply pkeeps_act. intros g4 G4. split; [exact G4|]. destruct G4 as [[_ P4] _].
        match goal with |- context [if (?n <? 0)%Z then _ else _] => assert (X : (0 <= n)%Z) end.
        { apply Htrunc. rewrite of_nat_R. generalize (INR (length (x ++ [@sub RO (mul (of_Z 2) (last1 x)) (last2 x)]))) (pos_INR (length (x ++ [@sub RO (mul (of_Z 2) (last1 x)) (last2 x)]))). intros m Hm.
          pose proof (of_Z_IZR 2) as Z2. change (0 <= m * qrate g4 + 1 / @of_Z RA 2)%R. rewrite Z2. change (qrate g4 : R) with (qrate g4) in *. pose proof (Rmult_le_pos m (qrate g4) Hm (Rlt_le _ _ P4)). lra. }
        destruct (Z.ltb_spec (trunc (add (mul (of_nat (length (x ++ [@sub RO (mul (of_Z 2) (last1 x)) (last2 x)]))) (qrate g4)) (div one (of_Z 2)))) 0) as [Y|_]; [exfalso; apply (Z.lt_irrefl 0); exact (Z.le_lt_trans _ _ _ X Y)|].
        apply pkeeps_act. intros g5 G5. split; [exact G5|]. intros w _. right. split; [exact L|]. eexists. exists (qrate g1). split; [reflexivity|]. split; [exact R1|]. split.
        * rewrite J. rewrite firstn_length. change (@length (carrier RO)) with (@length R) in *. lia.
        * left. split; [exact K2|]. apply Forall_forall. intros v Hv. apply firstn_incl in Hv. apply in_map_iff in Hv. destruct Hv as (t & <- & _).
          rewrite z2. apply between_one. change (x ++ [(2 * nth (length x - 1) x 0 - nth (length x - 2) x 0)%R]) with (x ++ [@sub RO (mul 2%R (last1 x)) (last2 x)]). apply interp_between. destruct x; discriminate.
      + destruct (Z.ltb_spec (rnd (@mul RO (of_nat (length x)) (qrate g1))) 0) as [Y|_]; [exfalso; rewrite J in Y; exact (Z.lt_irrefl 0 (Z.le_lt_trans _ _ _ J0 Y))|].
        apply pkeeps_act. intros g3 G3. split; [exact G3|]. destruct G3 as [[_ P3] _]. change (@eqb RO (qrate g3) zero) with (Reqb (qrate g3) 0). destruct (Reqb (qrate g3) 0) eqn:E; [apply Reqb_iff in E; lra|].
        rewrite z1, z0, z4, z2, z3. apply (outer_keeps x (qrate g1) (@div RO one (qrate g3)) L R1 (ex_intro _ (qorder g2) (conj K2 N)) (length x) 0); [reflexivity| |constructor].
        rewrite J. cbn [length Nat.add]. rewrite Z2Nat.id by exact J0. apply Z.le_refl.
    - change (@oltb RO r zero) with (Rltb r 0). destruct (Rltb r 0) eqn:E.
      + apply Rltb_iff in E. intros w _. right. auto.
      + assert (X : (0 <= r)%R) by (apply Rnot_lt_le; intros H; apply Rltb_iff in H; congruence). assert (Hr : a_prate program o r0 r) by (right; exists j; exact I).
        apply pkeeps_act. intros w [_ G2]. split; [|intros w' _; left; auto]. split; [|exact G2]. split; [exact Hr|]. cbn [qrate]. destruct X as [X|X]; [exact X|]. subst r. destruct (Hz j I).
    - destruct (Z.leb_spec k 0) as [L|L]; [intros w _; right; auto|].
      apply pkeeps_act. intros w [G1 _]. split; [|intros w' _; left; auto]. split; [exact G1|]. right. split; [exact L|exists j; exact I].
  Qed.
End Shared.

(** C206.  Under any schedule, with rates above zero, a shared PolynomialRateFilter refuses
    exactly what it refuses alone and never fails otherwise; an answer is no longer than one of
    the rates allows; and its samples lie between samples of the signal (order one), or are
    values of fits to four neighbours, each of an order that the filter had. *)
Theorem C206_shared_rate (rnd trunc : R -> Z) fit linspace (st : nat -> prate RO) program c o :
  (forall v, (0 <= v)%R -> (0 <= rnd v)%Z) -> (forall v, (0 <= v)%R -> (0 <= trunc v)%Z) ->
  (0 < qrate (st o))%R -> (forall j, ~ In (o, PrRate (O := RO) 0%R) (program j)) ->
  steps (@pr_code RO rnd trunc fit linspace) (start st program) c ->
  ((a_prate program o (qrate (st o)) (qrate (store c o)) /\ (0 < qrate (store c o))%R) /\ a_porder program o (qorder (st o)) (qorder (store c o))) /\
  forall i, finished (threads c i) ->
    Forall2 (fun p y => fst p = o -> pr_answer rnd fit program o (qrate (st o)) (qorder (st o)) (snd p) y) (program i) (results (threads c i)).
Proof.
  intros Hr Ht H0 Hz S. set (R := RP program o (qrate (st o)) (qorder (st o))). set (Q := QP rnd fit program o (qrate (st o)) (qorder (st o))).
  assert (G0 : pgood program o (qrate (st o)) (qorder (st o)) (st o)) by (split; [split; [left; reflexivity|exact H0]|left; reflexivity]).
  assert (K : forall j a, In (o, a) (program j) -> keeps R Q a (R (st o)) (@pr_code RO rnd trunc fit linspace a)).
  { intros j a I. assert (G := pcall_keeps rnd trunc fit linspace Hr Ht program o (qrate (st o)) (qorder (st o)) Hz j a I). fold R Q in G. destruct (pr_code rnd trunc fit linspace a) as [y|f k]; intros w Hw; apply G; apply Hw; exact G0. }
  assert (Rr : forall w, R w w) by (intros w A; exact A). assert (Rt : forall a b d, R a b -> R b d -> R a d) by (intros a b d A B C; exact (B (A C))).
  assert (Qs : forall a y, stable R (Q a y)) by (intros a y w w' A _; exact A).
  destruct (shared_kept (@pr_code RO rnd trunc fit linspace) program st o R Rr Rt Q Qs K c S) as [H _]. split; [exact (H G0)|].
  intros i Fi. exact (finished_results (@pr_code RO rnd trunc fit linspace) program st o R Q c i Rr Rt Qs K S Fi).
Qed.
Print Assumptions C206_shared_rate.

Lemma const_ext (a : R) n z : 2 <= n -> In z (repeat a n ++ [(2 * nth (length (repeat a n) - 1) (repeat a n) 0 - nth (length (repeat a n) - 2) (repeat a n) 0)%R]) -> z = a.
Proof. intros Hn Iz. apply in_app_or in Iz. destruct Iz as [Iz|[<-|[]]]; [exact (repeat_spec _ _ _ Iz)|]. rewrite repeat_length, !nth_repeat_lt by lia. ring. Qed.
(** C206.  While the order is one, a constant signal stays constant, whatever rates are set in
    the meantime. *)
Theorem C206_constant_signal (rnd trunc : R -> Z) fit linspace (st : nat -> prate RO) program c o :
  (forall v, (0 <= v)%R -> (0 <= rnd v)%Z) -> (forall v, (0 <= v)%R -> (0 <= trunc v)%Z) ->
  (0 < qrate (st o))%R -> (forall j, ~ In (o, PrRate (O := RO) 0%R) (program j)) ->
  qorder (st o) = 1%Z -> (forall j k, In (o, PrOrder (O := RO) k) (program j) -> k = 1%Z) ->
  steps (@pr_code RO rnd trunc fit linspace) (start st program) c -> forall i, finished (threads c i) ->
    Forall2 (fun p y => fst p = o -> forall a n, 2 <= n -> snd p = PrFilter (O := RO) (repeat a n) -> exists out, y = Ok out /\ Forall (fun v => v = a) out) (program i) (results (threads c i)).
Proof.
  intros Hr Ht H0 Hz E1 Hk S i F. destruct (C206_shared_rate rnd trunc fit linspace st program c o Hr Ht H0 Hz S) as [_ A]. specialize (A i F). rewrite E1 in A. revert A.
  generalize (program i) (results (threads c i)). intros ps rs. induction 1 as [|p y l l' E _ IH]; constructor; [|exact IH].
  intros Eo a n Hn Ep. specialize (E Eo). rewrite Ep in E. destruct E as [[E _]|(_ & out & r & -> & _ & _ & E)]; [exfalso; exact (Nat.lt_irrefl 2 (Nat.le_lt_trans _ _ _ Hn (eq_ind _ (fun m => m < 2) E _ (repeat_length _ _))))|].
  exists out. split; [reflexivity|]. destruct E as [[_ E]|[(k & Kk & N) _]]; [|destruct Kk as [->|(_ & j & I)]; [congruence|destruct (N (Hk _ _ I))]].
  eapply Forall_impl; [|exact E]. intros v (u & w & Iu & Iw & L). rewrite ext_one in Iu, Iw.
  apply (const_ext a n u Hn) in Iu. apply (const_ext a n w Hn) in Iw. subst u w. apply Rle_antisym; apply L.
Qed.
Print Assumptions C206_constant_signal.

(** ** One call, two rates *)
Definition floorQ (x : QO) : Z := Qfloor (this x).
Definition roundQ (x : QO) : Z := Qfloor (this x + (1 # 2))%Q.
Definition linQ (stop : Z) (num : nat) : list QO := map (fun j => Qcdiv (Qcmult (Q2Qc (inject_Z (Z.of_nat j))) (Q2Qc (inject_Z stop))) (Q2Qc (inject_Z (Z.of_nat num - 1)))) (seq 0 num).
Definition prQ : prcall QO -> code (prate QO) (prout QO) := @pr_code QO roundQ floorQ (fun _ _ _ => []) linQ.
Definition one_rate (i : nat) : list (nat * prcall QO) := match i with 0 => [(0, PrFilter (O := QO) [q 0 1; q 1 1])] | 1 => [(0, PrRate (O := QO) (q 2 1))] | _ => [] end.
Definition answers (l : list (prout QO)) : list (res (list Q)) := map (rmap (map this)) l.
(** C206.  It is false that an answer is that of one rate: of a ramp, with the rate set from one
    to two meanwhile, filter can return the first half at the new rate, or samples that are
    apart by neither rate. *)
Theorem C206_one_rate_refuted :
  answers (snd (serial (pr_do roundQ floorQ (fun _ _ _ => [])) (fun _ => @mkPrate QO (q 1 1) 1) (one_rate 0 ++ one_rate 1))) = [Ok [0; 1]; Ok []]%Q /\
  answers (snd (serial (pr_do roundQ floorQ (fun _ _ _ => [])) (fun _ => @mkPrate QO (q 1 1) 1) (one_rate 1 ++ one_rate 0))) = [Ok []; Ok [0; 1 # 2; 1; 3 # 2]]%Q /\
  forall r, In r [Ok [0; 1 # 2]; Ok [0; 1 # 5]]%Q ->
    exists c, steps prQ (start (fun _ => @mkPrate QO (q 1 1) 1) one_rate) c /\ finished (threads c 0) /\ finished (threads c 1) /\ answers (results (threads c 0)) = [r].
Proof.
  split; [vm_compute; reflexivity|]. split; [vm_compute; reflexivity|].
  assert (G : forall l, let c := schedule prQ (l ++ repeat 0 30 ++ repeat 1 30) (start (fun _ => @mkPrate QO (q 1 1) 1) one_rate) in
     finishedb (threads c 0) = true -> finishedb (threads c 1) = true ->
     exists c', steps prQ (start (fun _ => @mkPrate QO (q 1 1) 1) one_rate) c' /\ finished (threads c' 0) /\ finished (threads c' 1) /\ answers (results (threads c' 0)) = answers (results (threads c 0))).
  { intros l c F0 F1. exists c. split; [apply schedule_ok; apply TNil|]. split; [apply finishedb_ok; exact F0|]. split; [apply finishedb_ok; exact F1|reflexivity]. }
  cbn [In]. intros r [<-|[<-|[]]].
  - refine (eq_ind _ (fun a => exists c', _ /\ _ /\ _ /\ _ = a) (G (repeat 0 3 ++ repeat 1 9) _ _) _ _); vm_compute; reflexivity.
  - refine (eq_ind _ (fun a => exists c', _ /\ _ /\ _ /\ _ = a) (G (repeat 0 4 ++ repeat 1 9) _ _) _ _); vm_compute; reflexivity.
Qed.
Print Assumptions C206_one_rate_refuted.

(** exact rounding and numpy.linspace meet the hypotheses; a thread resamples a constant while
    another sets the rate *)
Definition linR (stop : Z) (num : nat) : list R := map (fun j => (INR j * IZR stop / INR (num - 1))%R) (seq 0 num).
Example C206_example :
  (forall v, (0 <= v)%R -> (0 <= rheR v)%Z) /\ (forall v, (0 <= v)%R -> (0 <= truncZ v)%Z) /\
  (forall n, linR (Z.of_nat n - 1) n = map (@of_nat RO) (seq 0 n)) /\
  exists g, prmake 1 1 = Ok g /\ (0 < qrate g)%R /\ qorder g = 1%Z /\
  let program := fun i => match i with 0 => [(0, PrFilter (O := RO) (repeat 3%R 5))] | 1 => [(0, PrRate (O := RO) 2%R)] | _ => [] end in
  forall j, ~ In (0, PrRate (O := RO) 0%R) (program j).
Proof.
  split; [|split; [|split]].
  - intros v Hv. apply rheR_nonneg. exact Hv.
  - intros v Hv. rewrite truncZ_pos by exact Hv. apply Int_part_ge. exact Hv.
  - intros n. apply map_ext_in. intros j Hj. apply in_seq in Hj. rewrite of_nat_R. rewrite minus_IZR, <- INR_IZR_INZ. destruct n as [|[|n]]; [lia| |].
    + assert (j = 0) as -> by lia. cbn. unfold Rdiv. rewrite !Rmult_0_l. reflexivity.
    + replace (S (S n) - 1) with (S n) by lia. rewrite (S_INR (S n)). replace (INR (S n) + 1 - 1)%R with (INR (S n)) by ring. assert (N : INR (S n) <> 0%R) by (apply not_0_INR; lia). change ((INR j * INR (S n) / INR (S n))%R = INR j). field. exact N.
  - eexists. split; [unfold prmake, prate_make; change (@oltb RO 1%R zero) with (Rltb 1 0); destruct (Rltb 1 0) eqn:E; [apply Rltb_iff in E; lra|]; reflexivity|].
    split; [cbn; lra|]. split; [reflexivity|]. intros program j H. destruct j as [|[|j]]; cbn in H; [destruct H as [H|[]]; discriminate| |destruct H]. destruct H as [H|[]]. injection H. lra.
Qed.
