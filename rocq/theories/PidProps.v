(** Properties C28-C31: PidFilter. *)
From Coq Require Import List Arith ZArith Lia Bool Reals Lra QArith Qcanon Floats.
From Verif Require Import Base BaseLemmas Instances FirModel FirSpec FirProofs PidModel.
Import ListNotations.
Set Asymmetric Patterns.
Close Scope Q_scope. Close Scope R_scope. Open Scope nat_scope.

(** ** Specification *)
Section Spec.
  Context {O : OArith}.
  (** The integral after each sample: a sample is integrated only if the result stays
      strictly within the limit.  [keep] stores a value in the state. *)
  Fixpoint held (keep : O -> O) (inside : O -> bool) (i : O) (x : list O) : list O :=
    match x with
    | [] => []
    | v :: x' => let i' := if inside (add i v) then keep (add i v) else i in i' :: held keep inside i' x'
    end.
  (** The sample before sample [n]. *)
  Definition previous (keep : O -> O) (prev : O) (x : list O) (n : nat) : O :=
    match n with 0 => prev | S k => keep (nth k x zero) end.
End Spec.

Lemma last_cons2 {X} (a : X) l d : last (a :: l) d = last l a.
Proof. revert a d. induction l as [|b l IH]; intros a d; [reflexivity|]. change (last (b :: l) d = last (b :: l) a). rewrite !IH. reflexivity. Qed.

Section Gen.
  Context {O : OArith}.

  Lemma held_step keep inside : forall (x : list O) i n, n < length x ->
    let ip := match n with 0 => i | S k => nth k (held keep inside i x) zero end in
    nth n (held keep inside i x) zero =
    if inside (add ip (nth n x zero)) then keep (add ip (nth n x zero)) else ip.
  Proof.
    induction x as [|v x IH]; intros i n Hn; [cbn in Hn; lia|]. destruct n as [|n]; [reflexivity|].
    cbn [held nth]. cbn [length] in Hn. rewrite IH by lia. destruct n; reflexivity.
  Qed.

  Lemma length_held keep inside : forall (x : list O) i, length (held keep inside i x) = length x.
  Proof. induction x as [|v x IH]; intros i; cbn; [reflexivity|]. rewrite IH. reflexivity. Qed.

  Lemma np_dot3 (b : list O) u v w : length b = 3 -> np_dot b [u; v; w] = Ok (dot b [u; v; w]).
  Proof. intros H. unfold np_dot. rewrite H. reflexivity. Qed.

  Lemma pid_run dt b l : length b = 3 -> forall (x : list O) s0 s1 s2,
    exists s', run (pid_step dt b l) [s0; s1; s2] x =
      (s', Ok (map (fun n => cast dt (dot b [cast dt (nth n x zero);
                                nth n (held (cast dt) (below l) s1 x) zero;
                                cast dt (sub (nth n x zero) (previous (cast dt) s0 x n))]))
                   (seq 0 (length x)))) /\ length s' = 3 /\
      nth 1 s' zero = last (held (cast dt) (below l) s1 x) s1.
  Proof.
    intros Hb. induction x as [|v x IH]; intros s0 s1 s2; cbn [run].
    - eexists. split; [reflexivity|]. split; reflexivity.
    - unfold pid_step at 1. rewrite np_dot3 by exact Hb. cbn [rmap].
      set (s1' := if below l (add s1 v) then cast dt (add s1 v) else s1).
      destruct (IH (cast dt v) s1' (cast dt (sub v s0))) as (s' & E & Hl & Hn).
      rewrite E. exists s'. split; [|split; [exact Hl|]].
      + f_equal. f_equal. cbn [length seq map]. f_equal.
        rewrite <- seq_shift, map_map. apply map_ext. intros n. f_equal. f_equal.
        cbn [nth held]. fold s1'. f_equal. f_equal. f_equal. f_equal. f_equal. destruct n; reflexivity.
      + rewrite Hn. cbn [held]. fold s1'. 
        rewrite last_cons2. reflexivity.
  Qed.

  (** Well-formed: three gains and three registers. *)
  Definition pid_inv (p : pid O) : Prop := length (fb (pfir p)) = 3 /\ length (fs (pfir p)) = 3.

  Lemma pid_make_eq (b : arr O) (p : pid O) : pid_make b = Ok p ->
    length (els b) = 3 /\ p = mkPid (mkFir (adt b) (els b) (map (cast (adt b)) (zeros 3))) None.
  Proof.
    unfold pid_make. destruct (Nat.eqb_spec (length (els b)) 3) as [H|]; [|discriminate]. cbn [negb].
    unfold fir_make. rewrite H. cbn [els length Nat.eqb zeros repeat].
    rewrite (proj2 (Nat.ltb_ge 3 3)) by lia. rewrite H.
    rewrite (proj2 (Nat.ltb_ge 3 3)) by lia. intros E. injection E as <-. split; reflexivity.
  Qed.
End Gen.

Section Used.
  Context {O : OArith}.
  Inductive pid_op : Type := PFilter (x : list O) | PReset (x : option O) | PLimit (l : option O).
  Definition pid_exec (p : pid O) (o : pid_op) : pid O :=
    match o with
    | PFilter x => fst (pid_filter p x)
    | PReset x => fst (pid_reset p x)
    | PLimit l => fst (pid_set_limit p l)
    end.

  Lemma pid_filter_eq (p : pid O) x : pid_inv p -> x <> [] ->
    exists p' y, pid_filter p x = (p', Ok y) /\ length y = length x /\
      (forall n, n < length x ->
        nth n y zero = cast (fdt (pfir p)) (dot (fb (pfir p))
          [cast (fdt (pfir p)) (nth n x zero);
           nth n (held (cast (fdt (pfir p))) (below (plimit p)) (pid_integral p) x) zero;
           cast (fdt (pfir p)) (sub (nth n x zero)
             (previous (cast (fdt (pfir p))) (nth 0 (fs (pfir p)) zero) x n))])) /\
      pid_inv p' /\ fdt (pfir p') = fdt (pfir p) /\ fb (pfir p') = fb (pfir p) /\ plimit p' = plimit p /\
      pid_integral p' = last (held (cast (fdt (pfir p))) (below (plimit p)) (pid_integral p) x) (pid_integral p).
  Proof.
    intros [Hb Hs] Hx. unfold pid_filter.
    destruct (Nat.eqb_spec (length x) 0) as [C|_]; [destruct x; cbn in *; congruence|].
    destruct (fb (pfir p)) as [|b0 bt] eqn:Eb; [discriminate|]. rewrite <- Eb in *.
    unfold pid_integral. destruct (fs (pfir p)) as [|s0 [|s1 [|s2 [|]]]]; cbn in Hs; try discriminate.
    destruct (pid_run (fdt (pfir p)) (fb (pfir p)) (plimit p) Hb x s0 s1 s2) as (s' & E & Hl & Hn).
    rewrite E. eexists _, _. split; [reflexivity|]. split; [rewrite map_length, seq_length; reflexivity|].
    split; [|cbn [pfir with_s fs fb fdt plimit]; repeat split; auto].
    intros n Hln. rewrite nth_map_seq by exact Hln. reflexivity.
  Qed.

  Lemma pid_exec_inv (p : pid O) o : pid_inv p ->
    pid_inv (pid_exec p o) /\ fdt (pfir (pid_exec p o)) = fdt (pfir p) /\ fb (pfir (pid_exec p o)) = fb (pfir p).
  Proof.
    intros H. destruct o as [x|[v|]|[v|]]; cbn [pid_exec]; auto.
    - destruct x as [|v x]; [auto|].
      destruct (pid_filter_eq p (v :: x) H ltac:(discriminate)) as (p' & y & E & _ & _ & H1 & H2 & H3 & _).
      rewrite E. auto.
    - destruct H as [Hb Hs]. unfold pid_inv. cbn [pid_reset fir_reset fst pfir with_s fs fb fdt]. rewrite map_length. auto.
    - unfold pid_set_limit. destruct (oltb v zero); auto.
  Qed.

  (** A filter built by the constructor and then used in any way. *)
  Definition pid_used (b : arr O) (ops : list pid_op) (p : pid O) : Prop :=
    exists p0, pid_make b = Ok p0 /\ p = fold_left pid_exec ops p0.

  Lemma pid_used_inv b ops p : pid_used b ops p ->
    pid_inv p /\ fdt (pfir p) = adt b /\ fb (pfir p) = els b.
  Proof.
    intros (p0 & E & ->). apply pid_make_eq in E. destruct E as [Hl ->].
    assert (H : forall q : pid O, pid_inv q /\ fdt (pfir q) = adt b /\ fb (pfir q) = els b ->
      let q' := fold_left pid_exec ops q in pid_inv q' /\ fdt (pfir q') = adt b /\ fb (pfir q') = els b).
    { induction ops as [|o ops IH]; intros q H; [exact H|]. cbn [fold_left]. apply IH.
      destruct H as (H1 & H2 & H3). destruct (pid_exec_inv q o H1) as (A & B & C). repeat split; try apply A; congruence. }
    apply H. cbn [pfir fdt fb]. repeat split; auto.
  Qed.
End Used.
Arguments pid_op O : clear implicits.

(** C28.  Proportional, integral and derivative terms; with infinite limit the integral is
    the plain running sum. *)
Theorem C28_pid_terms (b : list R) ops (p : pid RO) (x : list R) :
  @pid_used RO (mkArr DFloat b) ops p -> x <> [] ->
  exists p' y I, @pid_filter RO p x = (p', Ok y) /\ length y = length x /\ length I = length x /\
    pid_integral p' = last I 0%R /\
    forall n, n < length x ->
      let xp := match n with 0 => nth 0 (fs (pfir p)) 0%R | S k => nth k x 0%R end in
      let ip := match n with 0 => pid_integral p | S k => nth k I 0%R end in
      (nth n y 0 = nth 0 b 0 * nth n x 0 + nth 1 b 0 * nth n I 0 + nth 2 b 0 * (nth n x 0 - xp))%R /\
      (plimit p = None -> nth n I 0 = ip + nth n x 0)%R /\
      (forall L, plimit p = Some L ->
        ((Rabs (ip + nth n x 0) < L)%R -> nth n I 0 = ip + nth n x 0)%R /\
        ((L <= Rabs (ip + nth n x 0))%R -> nth n I 0%R = ip)).
Proof.
  intros Hu Hx. destruct (pid_used_inv _ _ _ Hu) as (Hi & Hd & Hb). cbn [adt els] in Hd, Hb.
  destruct (@pid_filter_eq RO p x Hi Hx) as (p' & y & E & Hly & Hy & _ & _ & _ & _ & Hn).
  set (I := held (@cast RO (fdt (pfir p))) (below (plimit p)) (pid_integral p) x) in *.
  exists p', y, I. split; [exact E|]. split; [exact Hly|]. split; [apply length_held|].
  assert (HI : I <> []) by (destruct x; [congruence|discriminate]).
  split.
  { rewrite Hn. destruct I as [|i0 I']; [congruence|]. clear. revert i0. induction I' as [|a l IH]; intros; [reflexivity|].
    exact (IH a). }
  intros n Hln xp ip. split; [|split].
  - specialize (Hy n Hln). rewrite Hd, Hb in Hy.
    destruct Hi as [Hb3 _]. rewrite Hb in Hb3.
    destruct b as [|b0 [|b1 [|b2 [|]]]]; cbn in Hb3; try discriminate.
    etransitivity; [exact Hy|]. unfold xp. destruct n; cbn; ring.
  - intros EL. pose proof (held_step (@cast RO (fdt (pfir p))) (below (plimit p)) x (pid_integral p) n Hln) as H.
    cbv zeta in H. fold I in H. rewrite Hd, EL in H. cbn [below] in H. exact H.
  - intros L EL. pose proof (held_step (@cast RO (fdt (pfir p))) (below (plimit p)) x (pid_integral p) n Hln) as H.
    cbv zeta in H. fold I in H. rewrite Hd, EL in H. cbn [below] in H.
    assert (H' : @nth R n I 0%R = if Rltb (Rabs (Rplus ip (@nth R n x 0%R))) L then Rplus ip (@nth R n x 0%R) else ip)
      by exact H. clear H.
    split; intros HL.
    + apply Rltb_iff in HL. rewrite H'. destruct (Rltb _ _) eqn:E1; [reflexivity|].
      discriminate HL.
    + rewrite H'. destruct (Rltb _ _) eqn:E1; [|reflexivity]. apply Rltb_iff in E1.
      exfalso. exact (Rlt_not_le _ _ E1 HL).
Qed.
Print Assumptions C28_pid_terms.
Example C28_example : exists p : pid RO,
  @pid_used RO (mkArr DFloat [1; 2; 3]%R) [PFilter [1; 2]%R; PLimit (Some 5%R)] p /\ plimit p = Some 5%R.
Proof.
  eexists. split; [eexists; split; reflexivity|]. cbn [fold_left pid_exec].
  unfold pid_set_limit. change (oltb (5%R : RO) zero) with (Rltb 5 0).
  destruct (Rltb 5 0) eqn:E; [apply Rltb_iff in E; lra|reflexivity].
Qed.
Definition qpid : pid QO := mkPid (mkFir DFloat [q 1 1; q 2 1; q 3 1] [q 0 1; q 0 1; q 0 1]) None.
Example C28_example_make : exists p : pid QO, pid_make (mkArr DFloat [q 1 1; q 2 1; q 3 1]) = Ok p /\
  qs (fs (pfir p)) = [0; 0; 0]%Q /\ plimit p = None.
Proof. eexists. repeat split. Qed.
Example C28_example_run : rqs (snd (pid_filter qpid [q 1 1; q 3 1; q (-1) 2])) = Ok [6; 17; -4]%Q.
Proof. vm_compute. reflexivity. Qed.

(** C29.  The integral never reaches the limit, in any arithmetic. *)
Theorem C29_pid_integral_below_limit (O : OArith) (b : arr O) (p0 p1 : pid O) L (xs : list (list O)) :
  (forall v, oltb (oabs v) L = true -> oltb (oabs (cast (adt b) v)) L = true) ->
  cast (adt b) zero = (zero : O) ->
  pid_make b = Ok p0 -> pid_set_limit p0 (Some L) = (p1, Ok tt) ->
  let p := fold_left (fun p x => fst (pid_filter p x)) xs p1 in
  pid_integral p = zero \/ oltb (oabs (pid_integral p)) L = true.
Proof.
  intros Hc Hz E EL.
  apply pid_make_eq in E. destruct E as [Hl ->]. unfold pid_set_limit in EL.
  destruct (oltb L zero); [discriminate|]. injection EL as <-.
  assert (H : forall (xs : list (list O)) p, pid_inv p -> fdt (pfir p) = adt b -> plimit p = Some L ->
     (pid_integral p = zero \/ oltb (oabs (pid_integral p)) L = true) ->
     let p' := fold_left (fun p x => fst (pid_filter p x)) xs p in
     pid_integral p' = zero \/ oltb (oabs (pid_integral p')) L = true).
  { clear - Hc. induction xs as [|x xs IH]; intros p Hi Hd HL Hp; [exact Hp|]. cbn [fold_left].
    destruct x as [|v x]; [apply IH; auto|].
    destruct (pid_filter_eq p (v :: x) Hi ltac:(discriminate)) as (p' & y & E & _ & _ & H1 & H2 & _ & H4 & H5).
    rewrite E. cbn [fst]. apply IH; auto; try congruence. rewrite H5, Hd, HL. clear - Hc Hp.
    revert Hp. generalize (pid_integral p). generalize (v :: x). clear v x.
    induction l as [|v x IH]; intros i Hi; [exact Hi|]. cbn [held]. rewrite last_cons2. apply IH.
    destruct (below (Some L) (add i v)) eqn:Eb; [|exact Hi]. right. apply Hc. exact Eb. }
  apply H; [split; [exact Hl|reflexivity]|reflexivity|reflexivity|]. left. exact Hz.
Qed.
Print Assumptions C29_pid_integral_below_limit.

(** The storage hypotheses hold for float coefficients in exact and in IEEE arithmetic, and
    for integer coefficients (whose state truncates) in exact arithmetic. *)
Example C29_storage_float (L v : float) : oltb (@oabs FO v) L = true -> oltb (@oabs FO (cast DFloat v)) L = true.
Proof. exact (fun H => H). Qed.
Lemma Rabs_Rtrunc v : (Rabs (Rtrunc v) <= Rabs v)%R.
Proof.
  assert (H : forall u, (0 <= u)%R -> (0 <= IZR (Int_part u) <= u)%R).
  { intros u Hu. destruct (base_Int_part u) as [H1 H2]. split; [|exact H1].
    apply IZR_le. assert (-1 < IZR (Int_part u))%R by lra. apply lt_IZR in H. lia. }
  unfold Rtrunc. destruct (Rle_dec 0 v) as [Hv|Hv].
  - specialize (H v Hv). rewrite !Rabs_pos_eq by lra. lra.
  - specialize (H (- v)%R ltac:(lra)). rewrite Rabs_Ropp, (Rabs_left v), Rabs_pos_eq by lra. lra.
Qed.
Example C29_storage_int (L v : R) : @oltb RO (@oabs RO v) L = true -> @oltb RO (@oabs RO (cast DInt v)) L = true.
Proof.
  intros H. change (Rltb (Rabs v) L = true) in H. change (Rltb (Rabs (Rtrunc v)) L = true).
  apply Rltb_iff. apply Rltb_iff in H. pose proof (Rabs_Rtrunc v). lra.
Qed.
Example C29_example : exists (p0 p1 : pid FO), pid_make (mkArr DFloat [1; 0.5; 0]%float) = Ok p0 /\
  pid_set_limit p0 (Some 2%float) = (p1, Ok tt) /\
  pid_integral (fold_left (fun p x => fst (pid_filter p x))
    [[1; 0.75]%float; [nan; infinity]; [neg_infinity; 0.125; 0.125]%float] p1) = 1.875%float.
Proof. eexists _, _. repeat split. Qed.

(** C30.  The documented clamp: the sum of all samples clipped to the limit. *)
Definition clamp (L v : Qc) : Qc := let m := if Qcltb L v then L else v in if Qcltb m (Qcopp L) then Qcopp L else m.
Fixpoint clamped_outputs (b : list Qc) (L sum prev : Qc) (x : list Qc) : list Qc :=
  match x with
  | [] => []
  | v :: x' => (nth 0 b (q 0 1) * v + nth 1 b (q 0 1) * clamp L (sum + v) + nth 2 b (q 0 1) * (v - prev))%Qc
               :: clamped_outputs b L (sum + v)%Qc v x'
  end.
Definition qpid_lim (L : Qc) : pid QO := fst (pid_set_limit qpid (Some L)).
Theorem C30_documented_clamp_refuted :
  ~ forall L x y, (q 0 1 < L)%Qc -> snd (pid_filter (qpid_lim L) x) = Ok y ->
      y = clamped_outputs [q 1 1; q 2 1; q 3 1] L (q 0 1) (q 0 1) x.
Proof.
  intros H. specialize (H (q 3 1) [q 2 1; q 2 1]
     [q 12 1; q 6 1] ltac:(vm_compute; reflexivity) ltac:(vm_compute; reflexivity)).
  apply (f_equal qs) in H. vm_compute in H. discriminate.
Qed.
Print Assumptions C30_documented_clamp_refuted.

(** The hold law itself, over any history, limit and arithmetic: the integral after one
    more sample. *)
Theorem C30_pid_hold (O : OArith) (b : arr O) ops (p : pid O) (v : O) :
  pid_used b ops p ->
  exists p' y, pid_filter p [v] = (p', Ok [y]) /\
    pid_integral p' = (if (match plimit p with
                           | None => oltinf (oabs (add (pid_integral p) v))
                           | Some L => oltb (oabs (add (pid_integral p) v)) L
                           end)
                       then cast (adt b) (add (pid_integral p) v)
                       else pid_integral p).
Proof.
  intros Hu. destruct (pid_used_inv _ _ _ Hu) as (Hi & Hd & _).
  destruct (pid_filter_eq p [v] Hi ltac:(discriminate)) as (p' & y & E & Hl & _ & _ & _ & _ & _ & HI).
  destruct y as [|y0 [|]]; cbn in Hl; try discriminate.
  exists p', y0. split; [exact E|]. rewrite HI, Hd. reflexivity.
Qed.
Print Assumptions C30_pid_hold.
Example C30_hold_example : exists p : pid QO,
  pid_used (mkArr DFloat [q 1 1; q 2 1; q 3 1]) [PLimit (Some (q 3 1)); PFilter [q 2 1; q 2 1]; PLimit (Some (q (-1) 1))] p /\
  this (pid_integral p) = 2%Q.
Proof. eexists. split; [eexists; split; reflexivity|]. vm_compute. reflexivity. Qed.

(** A reset, or a limit lowered after use, leaves the integral outside the limit. *)
Theorem C30_integral_within_limit_refuted :
  (~ forall c, let p := fst (pid_reset (qpid_lim (q 3 1)) (Some c)) in
       oltb (oabs (pid_integral p)) (q 3 1) = true) /\
  (~ forall x L, let p := fst (pid_set_limit (fst (pid_filter qpid x)) (Some L)) in
       plimit p = Some L -> oltb (oabs (pid_integral p)) L = true).
Proof.
  split; intros H.
  - specialize (H (q 7 1)). vm_compute in H. discriminate.
  - specialize (H [q 7 1] (q 3 1) eq_refl). vm_compute in H. discriminate.
Qed.
Print Assumptions C30_integral_within_limit_refuted.

(** C31.  IEEE: the integral stays finite whatever the inputs. *)
Lemma ltb_abs_finite (v L : float) : (abs v <? L)%float = true -> is_finite v = true.
Proof.
  intros H. unfold is_finite, is_nan, is_infinity.
  rewrite FloatAxioms.ltb_spec in H. rewrite !FloatAxioms.eqb_spec. rewrite FloatAxioms.abs_spec in H |- *.
  change (Prim2SF infinity) with (S754_infinity false).
  destruct (Prim2SF v) as [s|s| |s m e]; cbn in H |- *.
  - reflexivity.
  - destruct (Prim2SF L) as [s'|[]| |[] m' e']; discriminate.
  - discriminate.
  - unfold SpecFloat.SFeqb. cbn. rewrite Z.compare_refl, Pcompare_refl.
    destruct s; rewrite ?Z.compare_refl, ?Pcompare_refl; reflexivity.
Qed.

Lemma below_finite (l : option FO) (v : float) : below l v = true -> is_finite v = true.
Proof. destruct l as [L|]; intros H; eapply ltb_abs_finite; exact H. Qed.

Theorem C31_pid_integral_finite (b : list float) ops (p : pid FO) (x : list float) :
  @pid_used FO (mkArr DFloat b) ops p -> is_finite (pid_integral p) = true -> x <> [] ->
  exists p' y I, @pid_filter FO p x = (p', Ok y) /\ length y = length x /\ length I = length x /\
    is_finite (pid_integral p') = true /\ Forall (fun i => is_finite i = true) I /\
    forall n, n < length x ->
      nth n y 0%float = @dot FO b [nth n x 0%float; nth n I 0%float;
        PrimFloat.sub (nth n x 0%float) (match n with 0 => nth 0 (fs (pfir p)) 0%float | S k => nth k x 0%float end)].
Proof.
  intros Hu Hf Hx. destruct (pid_used_inv _ _ _ Hu) as (Hi & Hd & Hb). cbn [adt els] in Hd, Hb.
  destruct (@pid_filter_eq FO p x Hi Hx) as (p' & y & E & Hly & Hy & _ & _ & _ & _ & Hn).
  set (I := held (@cast FO (fdt (pfir p))) (below (plimit p)) (pid_integral p) x) in *.
  assert (HF : Forall (fun i => is_finite i = true) I).
  { unfold I. rewrite Hd. clear - Hf. revert Hf. generalize (pid_integral p).
    induction x as [|v x IH]; intros i Hf; [constructor|]. cbn [held]. constructor.
    - destruct (below (plimit p) (add i v)) eqn:E; [apply (below_finite _ _ E)|exact Hf].
    - apply IH. destruct (below (plimit p) (add i v)) eqn:E; [apply (below_finite _ _ E)|exact Hf]. }
  exists p', y, I. split; [exact E|]. split; [exact Hly|]. split; [apply length_held|].
  split; [|split; [exact HF|]].
  - rewrite Hn. destruct I as [|i0 I0]; [exact Hf|]. rewrite Forall_forall in HF. apply HF.
    clear. generalize (pid_integral p). revert i0. induction I0 as [|a l IH]; intros i0 d; [left; reflexivity|].
    right. exact (IH a d).
  - intros n Hln. specialize (Hy n Hln). rewrite Hd, Hb in Hy. etransitivity; [exact Hy|].
    destruct n; reflexivity.
Qed.
Print Assumptions C31_pid_integral_finite.
Example C31_example : exists p : pid FO,
  @pid_used FO (mkArr DFloat [1; 0.5; 0.25]%float) [PFilter [1; nan; infinity]%float; PLimit (Some nan)] p /\
  is_finite (pid_integral p) = true /\
  fls (snd (pid_filter p [nan; neg_infinity; 2; 3]%float)) = Ok [nan; nan; infinity; 3.75]%float.
Proof. eexists. split; [eexists; split; reflexivity|]. split; vm_compute; reflexivity. Qed.
