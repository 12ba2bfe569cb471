(** Properties C37-C40: ComplexExponentialFilter. *)
From Coq Require Import List Arith ZArith Lia Bool Reals Lra Floats.
From Coquelicot Require Import Complex.
From Verif Require Import Base BaseLemmas Instances CalculusModel CalculusProps CExpModel.
Import ListNotations.
Set Asymmetric Patterns.
Open Scope R_scope.

Definition admissible (x : list R) : Prop := x <> [] /\ Forall (fun v => Rabs v <= 1) x.

(** Partial sums. *)
Fixpoint psum (x : list R) (n : nat) : R := match n with 0%nat => 0 | S m => psum x m + nth m x 0 end.

Lemma phase_bad_iff p : @phase_bad RO p = true <-> p < -1 \/ 1 < p.
Proof.
  unfold phase_bad. rewrite orb_true_iff.
  change (@oltb RO p (of_Z (-1))) with (Rltb p (@of_Z RA (-1))). change (@oltb RO (of_Z 1) p) with (Rltb (@of_Z RA 1) p).
  rewrite !of_Z_IZR, !Rltb_iff. lra.
Qed.

Ltac ro := match goal with |- @eq _ ?a ?b => change (@eq R a b) end.
Lemma cexp_loop_R : forall (x : list R) (p : R),
  @cexp_loop RO C expjR p x = (p + psum x (length x), map (fun n => expjR (p + psum x n)) (seq 0 (length x))).
Proof.
  assert (Hps : forall v x n, psum (v :: x) (S n) = v + psum x n).
  { intros v x n. induction n as [|n IH]; [cbn; ring|]. cbn [psum] in *. rewrite IH. cbn [nth]. ring. }
  induction x as [|v x IH]; intros p; cbn [cexp_loop].
  - cbn. f_equal. ro. ring.
  - rewrite IH. cbn [length]. rewrite Hps. change (@add RO p v) with (p + v). f_equal; [ro; ring|].
    cbn [seq map psum]. f_equal; [f_equal; ro; ring|]. rewrite <- seq_shift, map_map. apply map_ext. intros n.
    rewrite Hps. f_equal. ro. ring.
Qed.

Lemma Rtrunc_near x : Rabs (x - Rtrunc x) < 1.
Proof.
  unfold Rtrunc. destruct (Rle_dec 0 x) as [H|H].
  - destruct (base_Int_part x) as [H1 H2]. apply Rabs_def1; lra.
  - destruct (base_Int_part (- x)) as [H1 H2]. apply Rabs_def1; lra.
Qed.

Lemma fmod2R_lt p : Rabs (fmod2R p) < 2.
Proof.
  unfold fmod2R. pose proof (Rtrunc_near (p / 2)) as H. apply Rabs_def2 in H. apply Rabs_def1; lra.
Qed.

(** The wrapped phase is in [-1, 1] and differs from the phase by full turns. *)
Lemma cexp_wrap_R (p : R) : -1 <= wrapR p <= 1 /\
  exists k : Z, wrapR p = p + 2 * IZR k.
Proof.
  unfold wrapR, cexp_wrap. change (@oltb RO (of_Z 1) (oabs (fmod2R p))) with (Rltb (@of_Z RA 1) (Rabs (fmod2R p))).
  rewrite of_Z_IZR. pose proof (fmod2R_lt p) as H. apply Rabs_def2 in H.
  destruct (Rtrunc_is_IZR (p / 2)) as [z Hz].
  assert (E : fmod2R p = p + 2 * IZR (- z)) by (unfold fmod2R; rewrite Hz, opp_IZR; ring).
  change (@sub RO) with Rminus. change (@mul RO) with Rmult. change (@of_Z RO 2) with (@of_Z RA 2). rewrite of_Z_IZR.
  destruct (Rltb 1 (Rabs (fmod2R p))) eqn:E1.
  - apply Rltb_iff in E1. unfold sgnR. destruct (Rltb 0 (fmod2R p)) eqn:E2.
    + apply Rltb_iff in E2. rewrite Rabs_pos_eq in E1 by lra. split; [lra|].
      exists (- z - 1)%Z. rewrite E at 1. rewrite minus_IZR. ring.
    + assert (~ 0 < fmod2R p) by (intros C; apply Rltb_iff in C; congruence).
      assert (Hn : fmod2R p < 0).
      { destruct (Req_dec (fmod2R p) 0) as [C|C]; [rewrite C, Rabs_R0 in E1; lra|lra]. }
      pose proof Hn as Hn'. apply Rltb_iff in Hn'. rewrite Hn'. rewrite Rabs_left in E1 by exact Hn. split; [lra|].
      exists (- z + 1)%Z. rewrite E at 1. rewrite plus_IZR. ring.
  - assert (H1 : ~ 1 < Rabs (fmod2R p)) by (intros C; apply Rltb_iff in C; congruence).
    assert (H2 : Rabs (fmod2R p) <= 1) by lra. split; [unfold Rabs in H2; destruct (Rcase_abs _); lra|]. exists (- z)%Z. exact E.
Qed.

Lemma phase_ok p : -1 <= p <= 1 -> @phase_bad RO p = false.
Proof. intros H. destruct (phase_bad p) eqn:E; [|reflexivity]. apply phase_bad_iff in E. lra. Qed.

Lemma input_ok x : admissible x ->
  (fimag (real_sig x) || Nat.eqb (length (fre (real_sig x))) 0 ||
   existsb (fun v => @oltb RO (of_Z 1) (oabs v)) (fre (real_sig x)))%bool = false.
Proof.
  intros [Hx HF]. cbn [fimag fre real_sig]. destruct x as [|v x]; [congruence|]. cbn [length Nat.eqb orb].
  destruct (existsb _ _) eqn:E; [|reflexivity]. apply existsb_exists in E. destruct E as (u & Hu & E).
  change (Rltb (@of_Z RA 1) (Rabs u) = true) in E. rewrite of_Z_IZR in E. apply Rltb_iff in E.
  rewrite Forall_forall in HF. specialize (HF u Hu). lra.
Qed.

Lemma cexp_filter_R p x : admissible x ->
  cexp_filterR p (real_sig x) =
  (wrapR (p + psum x (length x)), Ok (map (fun n => expjR (p + psum x n)) (seq 0 (length x)))).
Proof.
  intros Hx. unfold cexp_filterR, cexp_filter. rewrite input_ok by exact Hx. cbn [fre fcomplex real_sig].
  rewrite cexp_loop_R. unfold cexp_set_phase. change (cexp_wrap fmod2R sgnR) with wrapR. rewrite phase_ok by apply cexp_wrap_R. reflexivity.
Qed.

(** C37. *)
Theorem C37_cexp_output (p : R) (x : list R) :
  admissible x ->
  exists p' y, cexp_filterR p (real_sig x) = (p', Ok y) /\ length y = length x /\
    forall n, (n < length x)%nat ->
      nth n y (RtoC 0) = cis (PI * (p + psum x n)) /\ Cmod (nth n y (RtoC 0)) = 1.
Proof.
  intros Hx. rewrite cexp_filter_R by exact Hx. eexists _, _. split; [reflexivity|].
  split; [rewrite map_length, seq_length; reflexivity|]. intros n Hn. rewrite nth_map_seq by exact Hn.
  split; [reflexivity|]. apply Cmod_cis.
Qed.
Print Assumptions C37_cexp_output.
Example C37_example : admissible [1 / 2; -1; 3 / 4] /\ psum [1 / 2; -1; 3 / 4] 2 = - (1 / 2).
Proof.
  split; [|cbn; lra]. split; [discriminate|].
  repeat first [apply Forall_nil | apply Forall_cons; [apply Rabs_le; lra|]].
Qed.

(** C38.  Histories of assignments and filter calls. *)
Inductive cexp_op : Type := CSet (p : R) | CRun (x : fsig RO).
Definition cexp_exec (s : R) (o : cexp_op) : R :=
  match o with CSet p => fst (@cexp_set_phase RO s p) | CRun x => fst (cexp_filterR s x) end.

Theorem C38_phase_in_range (p0 s : R) (ops : list cexp_op) :
  @cexp_make RO p0 = Ok s ->
  -1 <= fold_left cexp_exec ops s <= 1 /\
  forall x, admissible x -> exists y, snd (cexp_filterR (fold_left cexp_exec ops s) (real_sig x)) = Ok y.
Proof.
  intros E. split.
  - assert (Hs : -1 <= s <= 1).
    { unfold cexp_make in E. destruct (phase_bad p0) eqn:Eb; [discriminate|]. injection E as E. subst s.
      destruct (Rlt_le_dec p0 (-1)) as [C|C]; [assert (@phase_bad RO p0 = true) by (apply phase_bad_iff; lra); congruence|].
      destruct (Rlt_le_dec 1 p0) as [D|D]; [assert (@phase_bad RO p0 = true) by (apply phase_bad_iff; lra); congruence|]. lra. }
    clear E. revert s Hs. induction ops as [|o ops IH]; intros s Hs; [exact Hs|]. cbn [fold_left]. apply IH.
    destruct o as [p|x]; cbn [cexp_exec].
    + unfold cexp_set_phase. destruct (phase_bad p) eqn:Eb; [exact Hs|]. cbn [fst].
      destruct (Rlt_le_dec p (-1)) as [C|C]; [assert (@phase_bad RO p = true) by (apply phase_bad_iff; lra); congruence|].
      destruct (Rlt_le_dec 1 p) as [D|D]; [assert (@phase_bad RO p = true) by (apply phase_bad_iff; lra); congruence|]. lra.
    + unfold cexp_filterR, cexp_filter. destruct (_ || _)%bool; [exact Hs|].
      destruct (cexp_loop expjR s (fre x)) as [q ys]. destruct (fcomplex x); [exact Hs|].
      unfold cexp_set_phase. change (cexp_wrap fmod2R sgnR) with wrapR. rewrite phase_ok by apply cexp_wrap_R. apply cexp_wrap_R.
  - intros x Hx. rewrite cexp_filter_R by exact Hx. eexists. reflexivity.
Qed.
Print Assumptions C38_phase_in_range.
Example C38_example : @cexp_make RO (1 / 2) = Ok (1 / 2) /\ admissible [3 / 4].
Proof.
  split; [unfold cexp_make; rewrite phase_ok by lra; reflexivity|]. split; [discriminate|].
  repeat first [apply Forall_nil | apply Forall_cons; [apply Rabs_le; lra|]].
Qed.

(** C39.  Chunks. *)
Lemma expjR_turn p k : expjR (p + 2 * IZR k) = expjR p.
Proof.
  unfold expjR. replace (PI * (p + 2 * IZR k)) with (PI * p + 2 * IZR k * PI) by ring.
  apply cis_2PI_IZR.
Qed.

Lemma psum_app x z n : psum (x ++ z) (length x + n) = psum x (length x) + psum z n.
Proof.
  induction n as [|n IH].
  - rewrite Nat.add_0_r. cbn [psum]. rewrite Rplus_0_r.
    assert (H : forall m, (m <= length x)%nat -> psum (x ++ z) m = psum x m).
    { induction m as [|m IHm]; intros Hm; [reflexivity|]. cbn [psum]. rewrite IHm by lia. rewrite app_nth1 by lia. reflexivity. }
    apply H. lia.
  - rewrite Nat.add_succ_r. cbn [psum]. rewrite IH, app_nth2 by lia.
    replace (length x + n - length x)%nat with n by lia. ring.
Qed.
Lemma psum_app_l x z n : (n <= length x)%nat -> psum (x ++ z) n = psum x n.
Proof. induction n as [|n IH]; intros H; [reflexivity|]. cbn [psum]. rewrite IH by lia. rewrite app_nth1 by lia. reflexivity. Qed.

Theorem C39_cexp_chunks (p : R) (chunks : list (list R)) :
  chunks <> [] -> Forall admissible chunks ->
  exists p1 p2 y, call_chunks (fun s x => cexp_filterR s (real_sig x)) p chunks = (p1, Ok y) /\
    cexp_filterR p (real_sig (concat chunks)) = (p2, Ok y) /\ exists k : Z, p1 = p2 + 2 * IZR k.
Proof.
  intros Hne HF.
  assert (H : forall cs p q k, Forall admissible cs -> q = p + 2 * IZR k ->
    exists p1 k', call_chunks (fun s x => cexp_filterR s (real_sig x)) p cs =
       (p1, Ok (map (fun n => expjR (q + psum (concat cs) n)) (seq 0 (length (concat cs))))) /\
       p1 = q + psum (concat cs) (length (concat cs)) + 2 * IZR k').
  { induction cs as [|c cs IH]; intros p0 q k Hcs Hq.
    - cbn. exists p0, (- k)%Z. split; [reflexivity|]. rewrite opp_IZR. lra.
    - inversion Hcs; subst. cbn [call_chunks concat]. rewrite cexp_filter_R by assumption.
      destruct (cexp_wrap_R (p0 + psum c (length c))) as [_ (k1 & E1)].
      destruct (IH (wrapR (p0 + psum c (length c)))
                   (p0 + 2 * IZR k + psum c (length c)) (k - k1)%Z) as (p1 & k' & E & Ep).
      { assumption. } { rewrite E1, minus_IZR. ring. }
      rewrite E. exists p1, k'. rewrite app_length, psum_app. split; [|rewrite Ep; ring].
      f_equal. f_equal. rewrite seq_app, map_app. f_equal.
      + apply map_ext_in. intros n Hn. apply in_seq in Hn. rewrite psum_app_l by lia.
        rewrite <- (expjR_turn (p0 + psum c n) k). f_equal. ring.
      + assert (Hseq : forall a m, seq a m = map (fun i => (a + i)%nat) (seq 0 m)).
        { intros a m. induction m as [|m IHm] in a |- *; [reflexivity|].
          cbn [seq map]. rewrite Nat.add_0_r. f_equal. rewrite IHm. rewrite <- seq_shift, map_map. apply map_ext. intros; lia. }
        change (0 + length c)%nat with (length c).
        rewrite (Hseq (length c)), map_map. apply map_ext. intros n. rewrite psum_app. f_equal. ring. }
  destruct (H chunks p p 0%Z HF ltac:(ring)) as (p1 & k' & E & Ep).
  rewrite E. rewrite cexp_filter_R.
  - eexists _, _, _. split; [reflexivity|]. split; [reflexivity|].
    destruct (cexp_wrap_R (p + psum (concat chunks) (length (concat chunks)))) as [_ (k & Ek)].
    exists (k' - k)%Z. rewrite Ek, Ep, minus_IZR. ring.
  - destruct chunks as [|c cs]; [congruence|]. inversion HF as [|? ? [Hc _]]; subst. split.
    + destruct c; [congruence|discriminate].
    + apply Forall_concat. eapply Forall_impl; [|exact HF]. intros a [_ Ha]. exact Ha.
Qed.
Print Assumptions C39_cexp_chunks.
Example C39_example : Forall admissible [[1; 1 / 2]; [-1]; [1; 1; 1]].
Proof.
  repeat first [apply Forall_nil | apply Forall_cons]; (split; [discriminate|]);
  repeat first [apply Forall_nil | apply Forall_cons; [apply Rabs_le; lra|]].
Qed.

(** C40.  Rejection is exact and atomic, in any arithmetic. *)
Theorem C40_cexp_rejects (O : OArith) (Y : Type) fmod2 sgn (expj : O -> Y) (s : O) (x : fsig O) :
  (fimag x = true \/ fre x = [] \/ Exists (fun v => oltb (of_Z 1) (oabs v) = true) (fre x)) ->
  cexp_filter fmod2 sgn expj s x = (s, Err ValueError).
Proof.
  intros H. unfold cexp_filter.
  assert (E : (fimag x || Nat.eqb (length (fre x)) 0 || existsb (fun v => oltb (of_Z 1) (oabs v)) (fre x) = true)%bool).
  { rewrite !orb_true_iff. destruct H as [H|[H|H]].
    - left; left; exact H.
    - left; right. rewrite H. reflexivity.
    - right. apply existsb_exists. apply Exists_exists in H. exact H. }
  rewrite E. reflexivity.
Qed.
Print Assumptions C40_cexp_rejects.
(** Otherwise the call succeeds in exact arithmetic, unless the dtype is complex: then
    numpy.fmod raises TypeError, again without changing the phase. *)
Theorem C40_cexp_accepts (s : R) (x : fsig RO) :
  ~ (fimag x = true \/ fre x = [] \/ Exists (fun v => 1 < Rabs v) (fre x)) ->
  if fcomplex x then cexp_filterR s x = (s, Err TypeError)
  else exists y, snd (cexp_filterR s x) = Ok y.
Proof.
  intros H. destruct x as [l c im]. cbn [fimag fre fcomplex] in *.
  assert (Ha : admissible l).
  { split; [tauto|]. apply Forall_forall. intros v Hv. destruct (Rle_lt_dec (Rabs v) 1) as [C|C]; [exact C|].
    exfalso. apply H. right; right. apply Exists_exists. eauto. }
  destruct im; [tauto|]. destruct c.
  - unfold cexp_filterR, cexp_filter. pose proof (input_ok l Ha) as E. cbn [fimag fre real_sig fcomplex] in *. rewrite E.
    destruct (cexp_loop expjR s l) as [p ys]. reflexivity.
  - change (mkFsig l false false) with (real_sig l). rewrite (cexp_filter_R s l Ha). eexists. reflexivity.
Qed.
Print Assumptions C40_cexp_accepts.
Example C40_example : cexp_filterR (1 / 3) (real_sig []) = (1 / 3, Err ValueError) /\
  ~ (false = true \/ [1 / 2] = [] \/ Exists (fun v => 1 < Rabs v) [1 / 2]).
Proof.
  split; [apply C40_cexp_rejects; right; left; reflexivity|].
  intros [C|[C|C]]; try discriminate. inversion C as [? ? C1|? ? C1]; subst; [|inversion C1].
  rewrite Rabs_pos_eq in C1; lra.
Qed.

(** IEEE: NaN passes every check; for any fmod and sign that return NaN on NaN the phase
    becomes NaN. *)
Theorem C40_cexp_nan_passes (Y : Type) (fmod2 sgn : float -> float) (expj : float -> Y) (s : float) :
  (forall v, is_nan v = true -> is_nan (fmod2 v) = true) ->
  (exists y, snd (@cexp_filter FO Y fmod2 sgn expj s (mkFsig [nan] false false)) = Ok y) /\
  is_nan (fst (@cexp_filter FO Y fmod2 sgn expj s (mkFsig [nan] false false))) = true /\
  (forall p, is_nan p = true -> @cexp_set_phase FO s p = (p, Ok tt) /\ @cexp_make FO p = Ok p).
Proof.
  intros Hf.
  assert (Hnan : forall v, is_nan v = true -> Prim2SF v = S754_nan).
  { intros v H. unfold is_nan in H. rewrite FloatAxioms.eqb_spec in H. destruct (Prim2SF v) as [a|a| |a m e]; try reflexivity; exfalso.
    - destruct a; discriminate.
    - destruct a; discriminate.
    - revert H. unfold SpecFloat.SFeqb. cbn. destruct a; rewrite ?Z.compare_refl, ?Pos.compare_cont_refl; discriminate. }
  assert (Hltl : forall a b, is_nan a = true -> (a <? b)%float = false).
  { intros a b H. rewrite FloatAxioms.ltb_spec, (Hnan a H). reflexivity. }
  assert (Hltr : forall a b, is_nan b = true -> (a <? b)%float = false).
  { intros a b H. rewrite FloatAxioms.ltb_spec, (Hnan b H). destruct (Prim2SF a); reflexivity. }
  assert (Hbad : forall p, is_nan p = true -> @phase_bad FO p = false).
  { intros p H. unfold phase_bad. change (@oltb FO) with PrimFloat.ltb. rewrite Hltl, Hltr by exact H. reflexivity. }
  assert (Habs : forall p, is_nan p = true -> is_nan (abs p) = true).
  { intros p H. unfold is_nan. rewrite FloatAxioms.eqb_spec, FloatAxioms.abs_spec, (Hnan p H). reflexivity. }
  assert (Hadd : is_nan (s + nan) = true).
  { unfold is_nan. rewrite FloatAxioms.eqb_spec, FloatAxioms.add_spec. change (Prim2SF nan) with S754_nan.
    destruct (Prim2SF s) as [[]|[]| |[]]; reflexivity. }
  assert (Hwrap : is_nan (@cexp_wrap FO fmod2 sgn (s + nan)%float) = true).
  { unfold cexp_wrap. change (@oltb FO) with PrimFloat.ltb. change (@oabs FO) with PrimFloat.abs.
    rewrite Hltr by (apply Habs, Hf, Hadd). apply Hf, Hadd. }
  assert (E : @cexp_filter FO Y fmod2 sgn expj s (mkFsig [nan] false false) =
    (@cexp_wrap FO fmod2 sgn (s + nan)%float, Ok [expj s])).
  { unfold cexp_filter. cbn [fimag fre fcomplex length Nat.eqb orb existsb cexp_loop].
    change (@oltb FO (of_Z 1) (oabs nan)) with false. cbn [orb].
    change (@add FO s nan) with (s + nan)%float. unfold cexp_set_phase. rewrite (Hbad _ Hwrap). reflexivity. }
  rewrite E. cbn [fst snd]. split; [eexists; reflexivity|]. split; [exact Hwrap|].
  intros p Hp. unfold cexp_set_phase, cexp_make. rewrite (Hbad p Hp). split; reflexivity.
Qed.
Print Assumptions C40_cexp_nan_passes.
Example C40_nan_example : forall v, is_nan v = true -> is_nan ((fun v => v - v)%float v) = true.
Proof.
  intros v H. unfold is_nan in *. rewrite FloatAxioms.eqb_spec in *. rewrite FloatAxioms.sub_spec.
  destruct (Prim2SF v) as [[]|[]| |[] m e]; try discriminate; try reflexivity;
   revert H; unfold SpecFloat.SFeqb; cbn; rewrite ?Z.compare_refl, ?Pos.compare_cont_refl; discriminate.
Qed.
