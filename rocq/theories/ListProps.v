(** C177: FirFilter and IirFilter holding Python lists. *)
From Coq Require Import List Arith ZArith Bool Lia QArith Qcanon Reals Floats.
From Verif Require Import Base BaseLemmas Instances FirModel FirSpec FirProofs IirModel IirSpec IirProofs ListModel.
Import ListNotations.
Set Asymmetric Patterns.
Close Scope Q_scope. Close Scope Qc_scope. Close Scope R_scope. Open Scope nat_scope.

Section Proofs.
  Context {A : Arith}.

  Lemma map_removelast {X Y} (f : X -> Y) l : map f (removelast l) = removelast (map f l).
  Proof. induction l as [|a [|b l] IH]; [reflexivity..|]. cbn [map removelast] in *. f_equal. exact IH. Qed.

  Lemma shift_map {X Y} (f : X -> Y) l : map f (np_shift_gt1 l) = np_shift_gt1 (map f l).
  Proof.
    unfold np_shift_gt1. rewrite map_length. destruct (Nat.ltb _ _); [|reflexivity].
    unfold np_shift. destruct l as [|a l]; [reflexivity|].
    exact (f_equal (cons (f a)) (map_removelast f (a :: l))).
  Qed.

  (** What an array or a list keeps of a sample. *)
  Definition kept (s : vec A) (x : A) : A := match s with VA v => cast (adt v) x | VL _ => x end.
  (** Registers of the same kind, and for arrays of the same type. *)
  Definition alike (s s' : vec A) : Prop :=
    match s, s' with VA v, VA v' => adt v = adt v' | VL _, VL _ => True | _, _ => False end.

  Lemma alike_kept s s' x : alike s s' -> kept s' x = kept s x.
  Proof. destruct s, s'; cbn; intros H; try contradiction; [rewrite H|]; reflexivity. Qed.

  Lemma alike_trans s s' s'' : alike s s' -> alike s' s'' -> alike s s''.
  Proof. destruct s, s', s''; cbn; intros; try contradiction; congruence. Qed.

  Lemma enter s t x : vels s <> [] ->
    exists s', vset0 (vshift s) t x = Ok s' /\ alike s s' /\ vels s' = firstn (length (vels s)) (kept s x :: vels s).
  Proof.
    destruct s as [v|l]; cbn [vels vshift vset0]; intros H.
    - cbn [els adt]. rewrite shift_set by exact H. eexists. split; [reflexivity|]. split; reflexivity.
    - assert (Hl : l <> []) by (intros ->; apply H; reflexivity).
      rewrite shift_set by exact Hl. eexists. split; [reflexivity|]. split; [exact I|].
      cbn [vels kept]. rewrite map_length, <- firstn_map. reflexivity.
  Qed.

  Definition ys_of (b : list A) (t0 : dtype) (h x : list A) : list A :=
    map (fun n => cast t0 (dot b (firstn (length b) (rev (firstn (S n) x) ++ h)))) (seq 0 (length x)).

  Lemma vfir_run b t0 t x : forall s, els b <> [] -> length (vels s) = length (els b) ->
    exists s', run (vfir_step (VA b) t0 t) s x = (s', Ok (ys_of (els b) t0 (vels s) (map (kept s) x))) /\ alike s s' /\
      vels s' = firstn (length (els b)) (rev (map (kept s) x) ++ vels s).
  Proof.
    induction x as [|v x IH]; intros s Hb Hl.
    - exists s. cbn [run map rev app]. split; [reflexivity|]. split; [destruct s; reflexivity || exact I|].
      rewrite <- Hl, firstn_all. reflexivity.
    - cbn [run]. unfold vfir_step at 1.
      assert (Hs : vels s <> []) by (destruct (vels s), (els b); cbn in *; congruence).
      destruct (enter s t v Hs) as (s1 & E & Ha & Hv). rewrite E, Hv, Hl.
      unfold np_dot. rewrite firstn_length. cbn [length]. rewrite Nat.min_l by lia. rewrite Nat.eqb_refl. cbn [rmap].
      destruct (IH s1 Hb) as (s' & E' & Ha' & Hv').
      { rewrite Hv, Hl, firstn_length. cbn [length]. lia. }
      exists s'. rewrite E'. split; [|split; [eapply alike_trans; eassumption|]].
      + f_equal. f_equal. unfold ys_of. rewrite !map_length. cbn [length seq map]. f_equal.
        rewrite <- seq_shift, map_map. apply map_ext. intros n. rewrite Hv, Hl.
        rewrite firstn_app_firstn. cbn [firstn rev]. rewrite <- app_assoc.
        rewrite (map_ext _ _ (fun z => alike_kept s s1 z Ha)). reflexivity.
      + rewrite Hv', Hv, Hl, firstn_app_firstn. cbn [map rev]. rewrite <- app_assoc.
        rewrite (map_ext _ _ (fun z => alike_kept s s1 z Ha)). reflexivity.
  Qed.
End Proofs.

(** Rational literals and results for the examples: the types and numbers of the registers,
    the outcome. *)
Definition ql (l : list Q) : list QA := map Q2Qc l.
Definition view {T} (o : T -> list Q) (p : vec QA * res T) : option dtype * list Q * res (list Q) :=
  (match fst p with VA v => Some (adt v) | VL _ => None end, qs (vels (fst p)), rmap o (snd p)).
Definition viewa := view (fun y : arr QA => qs (els y)).
Definition viewu := view (fun _ : unit => []).

(** ** FirFilter *)

(** With arrays in both places this is the filter of FirModel.v. *)
Theorem C177_fir_arrays (A : Arith) (f : fir A) (x : arr A) :
  fb f <> [] -> length (fs f) = length (fb f) -> els x <> [] ->
  exists s' y, fir_filter f (els x) = (mkFir (fdt f) (fb f) s', Ok y) /\
    vfir_filter (VA (mkArr (fdt f) (fb f))) (VA (mkArr (fdt f) (fs f))) x =
      (VA (mkArr (fdt f) s'), Ok (mkArr (fdt f) y)).
Proof.
  intros Hb Hl Hx. rewrite fir_filter_eq by assumption. eexists _, _. split; [reflexivity|].
  unfold vfir_filter. destruct (els x) as [|v x'] eqn:Ex; [congruence|]. rewrite <- Ex. clear Hx.
  replace (length (els x) =? 0) with false by (rewrite Ex; reflexivity).
  cbn [type0 els]. destruct (fb f) as [|b0 b'] eqn:Eb; [congruence|]. rewrite <- Eb in *.
  cbn [adt].
  destruct (vfir_run (mkArr (fdt f) (fb f)) (fdt f) (adt x) (els x) (VA (mkArr (fdt f) (fs f)))) as (s' & E & Ha & Hv);
    [exact Hb|exact Hl|].
  rewrite E. destruct s' as [v'|]; [|destruct Ha]. cbn [alike adt] in Ha. destruct v' as [d l]; cbn [adt vels els] in *. subst d l.
  cbn [rmap]. f_equal. f_equal. f_equal. unfold ys_of, fir_ys. rewrite map_length. reflexivity.
Qed.
Print Assumptions C177_fir_arrays.

Example C177_fir_arrays_example :
  viewa (vfir_filter (A := QA) (VA (mkArr DInt (ql [2; 3]%Q))) (VA (mkArr DInt (ql [1; 5]%Q)))
    (mkArr DFloat (ql [5#2; 4]%Q))) = (Some DInt, [4; 2]%Q, Ok [7; 14]%Q).
Proof. reflexivity. Qed.

(** A list of coefficients: every call fails, but only after the first sample has entered
    the registers. *)
Theorem C177_fir_list_b (A : Arith) (c : dtype * A) (l : list (dtype * A)) (s : vec A) (x : arr A) x0 x' :
  els x = x0 :: x' -> vels s <> [] ->
  exists s', vfir_filter (VL (c :: l)) s x = (s', Err OtherError) /\
    vels s' = firstn (length (vels s)) (kept s x0 :: vels s).
Proof.
  intros Ex Hs. unfold vfir_filter. rewrite Ex. cbn [length Nat.eqb type0]. destruct c as [t c].
  cbn [run]. unfold vfir_step at 1. destruct (enter s (adt x) x0 Hs) as (s' & E & _ & Hv). rewrite E.
  exists s'. split; [reflexivity|exact Hv].
Qed.
Print Assumptions C177_fir_list_b.

Example C177_fir_list_b_example :
  viewa (vfir_filter (A := QA) (VL [(DFloat, q 1 2); (DFloat, q 1 2)]) (VA (mkArr DFloat (ql [3; 4]%Q)))
    (mkArr DFloat (ql [7; 8]%Q))) = (Some DFloat, [7; 3]%Q, Err OtherError).
Proof. reflexivity. Qed.

(** A list of registers under an array of coefficients: the samples stay as they are, the
    output alone is converted to the type of the coefficients; no exact arithmetic is
    assumed. *)
Theorem C177_fir_list_s (A : Arith) (b : arr A) (l : list (dtype * A)) (x : arr A) :
  els b <> [] -> length l = length (els b) -> els x <> [] ->
  exists l' y, vfir_filter (VA b) (VL l) x = (VL l', Ok (mkArr (adt b) y)) /\
    length y = length (els x) /\ length l' = length l /\
    (forall n, n < length (els x) -> nth n y zero =
       cast (adt b) (dot (els b) (map (fun i => sig (map snd l) (els x) (Z.of_nat n - Z.of_nat i)) (seq 0 (length l))))) /\
    (forall i, i < length l ->
       nth i (map snd l') zero = sig (map snd l) (els x) (Z.of_nat (length (els x)) - 1 - Z.of_nat i)).
Proof.
  intros Hb Hl Hx. unfold vfir_filter. destruct (els x) as [|x0 x'] eqn:Ex; [congruence|]. rewrite <- Ex in *.
  replace (length (els x) =? 0) with false by (rewrite Ex; reflexivity).
  cbn [type0]. destruct (els b) as [|b0 b'] eqn:Eb; [congruence|]. rewrite <- Eb in *.
  destruct (vfir_run b (adt b) (adt x) (els x) (VL l)) as (s' & E & Ha & Hv); [exact Hb|cbn [vels]; rewrite map_length; exact Hl|].
  rewrite E. destruct s' as [|l']; [destruct Ha|]. cbn [vels kept rmap] in *. rewrite map_id in Hv.
  exists l'. eexists. split; [reflexivity|]. rewrite map_id. split; [unfold ys_of; rewrite map_length, seq_length; reflexivity|].
  split; [|split].
  - rewrite <- (map_length snd l'), Hv, firstn_length, app_length, rev_length, map_length. lia.
  - intros n Hn. unfold ys_of. set (g := fun n => _).
    rewrite (nth_indep _ zero (g 0)) by (rewrite map_length, seq_length; exact Hn).
    rewrite map_nth, seq_nth by exact Hn. unfold g. f_equal. f_equal. rewrite Nat.add_0_l.
    apply (nth_ext _ _ zero zero).
    { rewrite map_length, seq_length, firstn_length, app_length, rev_length, map_length. lia. }
    intros i Hi. rewrite firstn_length, app_length, map_length in Hi.
    rewrite nth_firstn by lia. rewrite nth_sig by exact Hn.
    set (h := fun i => _). rewrite (nth_indep _ zero (h 0)) by (rewrite map_length, seq_length; lia).
    rewrite map_nth, seq_nth by lia. reflexivity.
  - intros i Hi. rewrite Hv. rewrite nth_firstn by lia.
    rewrite <- (sig_rev_app (map snd l) (els x) []) by lia. unfold sig.
    destruct (Z.ltb_spec (- Z.of_nat i - 1) 0); [|lia]. f_equal. lia.
Qed.
Print Assumptions C177_fir_list_s.

(** Two taps of integer 2 over list registers: the half is kept, and the sum truncated. *)
Example C177_fir_list_s_example :
  viewa (vfir_filter (A := QA) (VA (mkArr DInt (ql [2; 2]%Q))) (VL [(DInt, q 0 1); (DInt, q 0 1)])
    (mkArr DFloat (ql [1#2; 3#4; 1#4]%Q))) = (None, [1#4; 3#4]%Q, Ok [1; 2; 2]%Q).
Proof. reflexivity. Qed.

(** So a list of registers is not the array of the same numbers when b holds integers:
    there each sample is truncated on entry. *)
Theorem C177_list_s_like_array_refuted :
  ~ (forall (b : arr QA) l (x : arr QA), els b <> [] -> length l = length (els b) -> els x <> [] ->
       snd (vfir_filter (VA b) (VL l) x) = snd (vfir_filter (VA b) (VA (mkArr (adt b) (map snd l))) x)).
Proof.
  intros H.
  specialize (H (mkArr DInt (ql [2]%Q)) [(DInt, q 0 1)] (mkArr DFloat (ql [1#2]%Q)) ltac:(discriminate) eq_refl ltac:(discriminate)).
  apply (f_equal (fun r => match r with Ok y => eqb (hd (q 0 1) (els y)) (q 0 1) | Err _ => true end)) in H.
  vm_compute in H. discriminate.
Qed.
Print Assumptions C177_list_s_like_array_refuted.

(** reset raises TypeError on list registers and changes nothing. *)
Theorem C177_fir_reset_list (A : Arith) (l : list (dtype * A)) (v : A) :
  vfir_reset (VL l) (Some v) = (VL l, Err TypeError).
Proof. reflexivity. Qed.
Print Assumptions C177_fir_reset_list.

Example C177_fir_reset_array :
  viewu (vfir_reset (A := QA) (VA (mkArr DInt (ql [1; 2]%Q))) (Some (q 7 2))) = (Some DInt, [3; 3]%Q, Ok []).
Proof. reflexivity. Qed.

(** ** IirFilter *)
Section Iir.
  Context {A : Arith}.

  (** One iteration with arrays a and s and any b, beside the same with b an array. *)
  Lemma viir_step_eq (a b : vec A) ta va dt t0 t s x :
    a = VA (mkArr ta va) -> vels b <> [] -> length va = length (vels b) -> length s = length (vels b) ->
    viir_step a b t0 t (VA (mkArr dt s)) x =
    (VA (mkArr dt (cast dt x :: hist dt va s)), Ok (cast t0 (dot (cvec va (vels b)) (cast dt x :: hist dt va s)))).
  Proof.
    intros -> Hb Ha Hs.
    assert (Hc : length (cvec va (vels b)) = S (length (hist dt va s))).
    { unfold cvec. rewrite map_length, combine_length, length_hist. destruct (vels b); [congruence|]. cbn [length] in *. lia. }
    assert (O : match vels b with [] => Err IndexError | b0 :: _ =>
       match bcast (fun ai bi => add (mul ai b0) bi) va (vels b) with
       | Err e => Err e | Ok c => rmap (cast t0) (np_dot c (cast dt x :: hist dt va s)) end end
       = Ok (cast t0 (dot (cvec va (vels b)) (cast dt x :: hist dt va s)))).
    { destruct (vels b) as [|b0 b']; [congruence|]. rewrite bcast_eq by exact Ha.
      unfold np_dot. fold (@cvec A va (b0 :: b')). cbn [length].
      unfold cvec in Hc at 1. cbn [nth] in Hc. rewrite Hc, Nat.eqb_refl. reflexivity. }
    destruct s as [|s0 [|s1 s]]; [destruct (vels b); cbn in *; congruence| |].
    - unfold viir_step. cbn [vlen vels els length Nat.ltb Nat.leb vset0 np_set0 rmap]. rewrite <- O. reflexivity.
    - unfold viir_step. unfold vlen. cbn [vels els].
      change (1 <? length (s0 :: s1 :: s)) with true. cbv iota. unfold np_dot at 1.
      rewrite Ha, <- Hs, Nat.eqb_refl. cbn [vset0 els adt np_set0 rmap hd vshift].
      unfold np_shift_gt1. change (1 <? length (cast dt (add s0 (dot va (s0 :: s1 :: s))) :: s1 :: s)) with true. cbv iota.
      cbn [np_shift np_set0 rmap vset0 els adt vels]. rewrite removelast_firstn_eq.
      rewrite <- O. cbn [hist]. cbn [length]. rewrite Nat.sub_succ, Nat.sub_0_r. reflexivity.
  Qed.

  Lemma viir_run (b : vec A) ta va dt t0 t : vels b <> [] -> length va = length (vels b) ->
    (forall v : A, cast dt v = v) ->
    forall x s, length s = length (vels b) ->
    exists s' y, run (iir_step dt va (vels b)) s x = (s', Ok y) /\
      run (viir_step (VA (mkArr ta va)) b t0 t) (VA (mkArr dt s)) x = (VA (mkArr dt s'), Ok (map (cast t0) y)).
  Proof.
    intros Hb Ha Hd. induction x as [|v x IH]; intros s Hs.
    - exists s, []. split; reflexivity.
    - cbn [run]. rewrite iir_step_eq by assumption.
      rewrite (viir_step_eq _ b ta va dt t0 t s v eq_refl Hb Ha Hs).
      destruct (IH (cast dt v :: hist dt va s)) as (s' & y & E1 & E2).
      { cbn [length]. rewrite length_hist. destruct (vels b); [congruence|]. cbn [length] in *. lia. }
      rewrite E1, E2. eexists _, _. split; [reflexivity|]. cbn [map]. rewrite !Hd. reflexivity.
  Qed.
End Iir.

(** A list b beside arrays a and s of floats: the registers develop exactly as with the array
    of the same numbers, and every output is that of the array, converted to the type of the
    first coefficient alone.  The arithmetic is any in which a float is its own conversion,
    doubles included. *)
Theorem C177_iir_list_b (A : Arith) (f : iir A) (ta t0 : dtype) (b0 : A) (l : list (dtype * A)) (x : arr A) :
  (forall v : A, cast (idt f) v = v) ->
  ib f = b0 :: map snd l -> length (ia f) = length (ib f) -> length (is_ f) = length (ib f) -> els x <> [] ->
  exists s' y, iir_filter f (els x) = (iir_with_s f s', Ok y) /\
    viir_filter (VA (mkArr ta (ia f))) (VL ((t0, b0) :: l)) (VA (mkArr (idt f) (is_ f))) x =
      (VA (mkArr (idt f) s'), Ok (mkArr t0 (map (cast t0) y))).
Proof.
  intros Hd Eb Ha Hs Hx.
  assert (Ev : vels (VL ((t0, b0) :: l)) = ib f) by (cbn [vels map snd]; symmetry; exact Eb).
  assert (Hb : ib f <> []) by (rewrite Eb; discriminate).
  rewrite iir_filter_run by assumption.
  destruct (viir_run (VL ((t0, b0) :: l)) ta (ia f) (idt f) t0 (adt x)) with (x := els x) (s := is_ f) as (s' & y & E1 & E2);
    rewrite ?Ev; try assumption.
  rewrite Ev in E1. rewrite E1. exists s', y. split; [reflexivity|].
  unfold viir_filter. destruct (els x) as [|x0 x'] eqn:Ex; [congruence|]. rewrite <- Ex in *.
  replace (length (els x) =? 0) with false by (rewrite Ex; reflexivity). cbn [type0]. rewrite E2. reflexivity.
Qed.
Print Assumptions C177_iir_list_b.

(** b = [1, 0.5] as a list: the int 1 comes first, so the outputs 1, 1.75, … are truncated. *)
Example C177_iir_list_b_example :
  snd (viewa (viir_filter (A := QA) (VA (mkArr DFloat (ql [0; 1#4]%Q))) (VL [(DInt, q 1 1); (DFloat, q 1 2)])
    (VA (mkArr DFloat (ql [0; 0]%Q))) (mkArr DFloat (ql [1; 1; 1]%Q)))) = Ok [1; 1; 1]%Q /\
  rqs (snd (iir_filter (A := QA) (mkIir DFloat (ql [0; 1#4]%Q) (ql [1; 1#2]%Q) (ql [0; 0]%Q))
    (ql [1; 1; 1]%Q))) = Ok [1; 7#4; 31#16]%Q.
Proof. split; reflexivity. Qed.
Example C177_iir_list_b_doubles (v : FA) : @cast FA DFloat v = v.
Proof. reflexivity. Qed.

Theorem C177_list_b_like_array_refuted :
  ~ (forall (f : iir QA) t0 b0 l (x : arr QA), idt f = DFloat ->
       ib f = b0 :: map snd l -> length (ia f) = length (ib f) -> length (is_ f) = length (ib f) -> els x <> [] ->
       snd (viir_filter (VA (mkArr DFloat (ia f))) (VL ((t0, b0) :: l)) (VA (mkArr DFloat (is_ f))) x) =
       rmap (mkArr t0) (snd (iir_filter f (els x)))).
Proof.
  intros H.
  specialize (H (mkIir DFloat (ql [0; 1#4]%Q) (ql [1; 1#2]%Q) (ql [0; 0]%Q)) DInt (q 1 1) [(DFloat, q 1 2)]
    (mkArr DFloat (ql [1; 1]%Q)) eq_refl eq_refl eq_refl eq_refl ltac:(discriminate)).
  apply (f_equal (fun r => match r with Ok y => eqb (nth 1 (els y) (q 0 1)) (q 1 1) | Err _ => true end)) in H.
  vm_compute in H. discriminate.
Qed.
Print Assumptions C177_list_b_like_array_refuted.

(** A list a with more than one register: every call fails and changes nothing. *)
Theorem C177_iir_list_a (A : Arith) l (b s : vec A) (x : arr A) :
  els x <> [] -> vels b <> [] -> 1 < length (vels s) ->
  viir_filter (VL l) b s x = (s, Err OtherError).
Proof.
  intros Hx Hb Hs. unfold viir_filter. destruct (els x) as [|x0 x']; [congruence|]. cbn [length Nat.eqb].
  assert (E : exists t0, type0 b = Some t0).
  { destruct b as [v|[|[t c] m]]; cbn [type0 vels] in *; [|exfalso; apply Hb; reflexivity|eauto].
    destruct (els v); [congruence|eauto]. }
  destruct E as [t0 ->]. cbn [run]. unfold viir_step at 1, vlen at 1.
  destruct (Nat.ltb_spec 1 (length (vels s))); [reflexivity|lia].
Qed.
Print Assumptions C177_iir_list_a.

Example C177_iir_list_a_example :
  viewa (viir_filter (A := QA) (VL [(DInt, q 0 1); (DFloat, q 1 4)]) (VA (mkArr DFloat (ql [1; 1#2]%Q)))
    (VA (mkArr DFloat (ql [3; 4]%Q))) (mkArr DFloat (ql [1]%Q))) = (Some DFloat, [3; 4]%Q, Err OtherError).
Proof. reflexivity. Qed.

(** reset with list registers: TypeError and nothing changed when there are several, the
    sample itself when there is one. *)
Theorem C177_iir_reset_list (A : Arith) (a : arr A) (b : vec A) (l : list (dtype * A)) (v : A) t :
  length (els a) = length (vels b) -> length l = length (vels b) -> l <> [] ->
  viir_reset a b (VL l) (Some v) t =
  if Nat.ltb 1 (length l) then (VL l, Err TypeError) else (VL [(t, v)], Ok tt).
Proof.
  intros Ha Hl Hn. unfold viir_reset, vlen. cbn [vels]. rewrite map_length.
  destruct (Nat.ltb_spec 1 (length l)) as [H|H].
  - destruct (vels b) as [|b0 b']; [cbn in *; lia|].
    rewrite bcast_eq; [reflexivity|]. destruct (els a); cbn [tl length] in *; lia.
  - destruct l as [|c [|d l]]; [congruence|reflexivity|cbn in H; lia].
Qed.
Print Assumptions C177_iir_reset_list.

Example C177_iir_reset_list_example :
  viewu (viir_reset (A := QA) (mkArr DFloat (ql [0; 1#4]%Q)) (VL [(DFloat, q 1 1); (DFloat, q 1 2)])
    (VL [(DFloat, q 3 1); (DFloat, q 4 1)]) (Some (q 2 1)) DFloat) = (None, [3; 4]%Q, Err TypeError) /\
  viewu (viir_reset (A := QA) (mkArr DFloat (ql [0]%Q)) (VL [(DFloat, q 1 1)]) (VL [(DInt, q 3 1)]) (Some (q 2 1)) DFloat) =
    (None, [2]%Q, Ok []).
Proof. split; reflexivity. Qed.

(** With an array of states reset does the same for a list b as for an array b. *)
Theorem C177_iir_reset_array (A : Arith) (f : iir A) (ta : dtype) (b : vec A) (v : A) t :
  vels b = ib f ->
  exists r, iir_reset f (Some v) = (iir_with_s f (fst r), snd r) /\
    viir_reset (mkArr ta (ia f)) b (VA (mkArr (idt f) (is_ f))) (Some v) t = (VA (mkArr (idt f) (fst r)), snd r).
Proof.
  intros Eb. unfold iir_reset, viir_reset, vlen. cbn [vels els]. rewrite Eb. destruct f as [dt a b1 s]. cbn [is_ ib ia idt iir_with_s].
  destruct s as [|s0 [|s1 s]]; cbn [length].
  - exists ([], Err IndexError). split; reflexivity.
  - exists ([cast dt v], Ok tt). split; destruct b1; reflexivity.
  - destruct b1 as [|b0 b']; [exists (s0 :: s1 :: s, Err IndexError); split; reflexivity|].
    change (Nat.ltb 1 (S (S (length s)))) with true. cbn iota.
    destruct (bcast _ (tl a) b') as [c|e]; [|exists (s0 :: s1 :: s, Err e); split; reflexivity].
    eexists (_, Ok tt). split; reflexivity.
Qed.
Print Assumptions C177_iir_reset_array.

Example C177_iir_reset_array_example :
  viewu (viir_reset (A := QA) (mkArr DFloat (ql [0; 1#4]%Q)) (VL [(DInt, q 1 2); (DFloat, q 1 4)]) (VA (mkArr DFloat (ql [9; 9]%Q))) (Some (q 3 1)) DFloat) =
  (Some DFloat, [3; 4]%Q, Ok []).
Proof. vm_compute. reflexivity. Qed.
