(** Properties C138-C141: filters as objects holding references to arrays. *)
From Coq Require Import List Arith ZArith Bool Lia QArith Qcanon.
From Verif Require Import Base BaseLemmas Instances FirModel IirModel RankModel RankProps PolyphaseModel
  HeapModel HeapSpec HeapProofs.
Import ListNotations.
Set Asymmetric Patterns.
Close Scope Q_scope. Open Scope nat_scope.

(** ** C138: programs that share nothing *)

(** Whatever program a caller runs, with any number of filters, as long as it never fetches
    f.a, f.b, f.s and never touches an array again that it assigned to one of them, what it
    sees is what value semantics predicts. *)
Theorem C138_tidy_programs (A : Arith) (p : list (op A)) : tidy [] p -> outputs p = voutputs p.
Proof. apply exec_rel, rel_empty. Qed.
Print Assumptions C138_tidy_programs.

(** In particular every program that only constructs, filters, resets and works on its own arrays. *)
Definition plain {A} (c : op A) : bool := match c with Set_ _ _ _ | Get_ _ _ => false | _ => true end.
Theorem C138_constructors_copy (A : Arith) (p : list (op A)) :
  Forall (fun c => plain c = true) p -> outputs p = voutputs p.
Proof.
  intros F. apply C138_tidy_programs. induction F as [|c p F _ IH]; [exact I|].
  split; [destruct c; auto; discriminate|]. split; [intros h _ []|].
  destruct c; try discriminate; exact IH.
Qed.
Print Assumptions C138_constructors_copy.

(** Value semantics on a constructed filter is the value model of FirModel.v and IirModel.v. *)
Theorem C138_value_models (A : Arith) (f : fir A) (g : iir A) da (x : list A) (c : option A) :
  v_filter (v_of_fir f) x = (v_of_fir (fst (fir_filter f x)), rmap (mkArr (fdt f)) (snd (fir_filter f x))) /\
  v_reset (v_of_fir f) c = (v_of_fir (fst (fir_reset f c)), snd (fir_reset f c)) /\
  v_filter (v_of_iir da g) x = (v_of_iir da (fst (iir_filter g x)), rmap (mkArr (idt g)) (snd (iir_filter g x))) /\
  v_reset (v_of_iir da g) c = (v_of_iir da (fst (iir_reset g c)), snd (iir_reset g c)).
Proof.
  repeat split.
  - unfold v_filter, fir_filter. destruct (Nat.eqb _ 0); [reflexivity|].
    change (els (vb (v_of_fir f))) with (fb f). change (els (vs (v_of_fir f))) with (fs f).
    destruct (fb f) eqn:Eb; [reflexivity|]. rewrite <- Eb. clear Eb.
    assert (E : forall s, run (v_step (v_of_fir f)) s x = run (fir_step (fdt f) (fb f)) s x).
    { induction x as [|v x IH]; intros s; [reflexivity|]. cbn [run].
      assert (Ev : v_step (v_of_fir f) s v = fir_step (fdt f) (fb f) s v).
      { unfold v_step, fir_step, v_of_fir; cbn [va vb vs adt els]. destruct (np_set0 _ _); reflexivity. }
      rewrite Ev. destruct (fir_step _ _ _ _) as [s1 [y|e]]; [|reflexivity]. rewrite IH. reflexivity. }
    rewrite E. destruct (run _ _ _); reflexivity.
  - destruct c; reflexivity.
  - unfold v_filter, iir_filter. destruct (Nat.eqb _ 0); [reflexivity|].
    change (els (vb (v_of_iir da g))) with (ib g). change (els (vs (v_of_iir da g))) with (is_ g).
    destruct (ib g) eqn:Eb; [reflexivity|]. rewrite <- Eb. clear Eb.
    assert (E : forall s, run (v_step (v_of_iir da g)) s x = run (iir_step (idt g) (ia g) (ib g)) s x).
    { induction x as [|v x IH]; intros s; [reflexivity|]. cbn [run].
      assert (Ev : v_step (v_of_iir da g) s v = iir_step (idt g) (ia g) (ib g) s v).
      { unfold v_step, iir_step, v_of_iir; cbn [va vb vs adt els].
        destruct (Nat.ltb_spec 1 (length s)) as [L|L].
        - destruct s as [|s0 t]; [simpl in L; lia|].
          destruct (np_dot _ _); cbn [rmap hd tl]; [|reflexivity].
          destruct (np_set0 _ _); [|reflexivity]. destruct (ib g); reflexivity.
        - destruct (np_set0 _ _); [|reflexivity]. destruct (ib g); reflexivity. }
      rewrite Ev. destruct (iir_step _ _ _ _ _) as [s1 [y|e]]; [|reflexivity]. rewrite IH. reflexivity. }
    rewrite E. destruct (run _ _ _); reflexivity.
  - unfold v_reset, iir_reset, v_of_iir. destruct c as [v|]; [|reflexivity]. cbn [va vb vs adt els].
    destruct (is_ g) as [|s0 [|s1 t]] eqn:Es; cbn [length Nat.ltb Nat.leb].
    + cbn. unfold iir_with_s; destruct g; cbn in *; subst; reflexivity.
    + destruct (ib g) eqn:Eb; cbn; rewrite ?Es, ?Eb; reflexivity.
    + destruct (ib g) as [|b0 b'] eqn:Eb; cbn [fst snd]; [rewrite Es, Eb; reflexivity|].
      destruct (bcast _ _ _); cbn; rewrite ?Es, ?Eb; reflexivity.
Qed.
Print Assumptions C138_value_models.

(** What a caller sees, as rationals. *)
Definition oq (o : out QA) : option (res (dtype * list Q)) :=
  match o with
  | ODone => None
  | OArr v => Some (Ok (adt v, qs (els v)))
  | OFail e => Some (Err e)
  | OName => Some (Err OtherError)
  end.
Definition fa (l : list Qc) : arr QA := mkArr DFloat l.

(** Two filters built from the same arrays, which are overwritten afterwards; a state array
    handed over to the first filter. *)
Definition P0 : list (op QA) :=
  [Alloc (fa [q 1 1; q 1 2]); Alloc (fa [q 0 1; q 0 1]); NewFir 0 1; NewFir 0 1;
   Write 0 0 (q 9 1); Filter 0 0; Read 1; Filter 1 1; Alloc (fa [q 3 1; q 5 1]);
   Set_ 0 FS_ 4; Filter 0 2; Reset 0 (Some (q 1 1)); Filter 0 1].
Example C138_example : tidy [] P0 /\
  map oq (outputs P0) =
    [None; None; None; None; None; Some (Ok (DFloat, [9 # 1; 5 # 1]%Q)); Some (Ok (DFloat, [0 # 1; 0 # 1]%Q));
     Some (Ok (DFloat, [0 # 1; 0 # 1]%Q)); None; None; Some (Ok (DFloat, [21 # 2; 19 # 2]%Q)); None;
     Some (Ok (DFloat, [1 # 2; 0 # 1]%Q))].
Proof. split; [|vm_compute; reflexivity]. cbn. intuition (subst; discriminate). Qed.

(** ** C139: the setters and getters share *)

(** A caller that holds a reference to the state array of a filter sees it change under each
    call: after a call of filter it holds the new delay line. *)
Theorem C139_caller_sees_state (A : Arith) (w : world A) k o h hx px :
  nth_error (objs w) k = Some o -> nth_error (hands w) h = Some (os o) ->
  nth_error (hands w) hx = Some px -> apart (heap w) o px ->
  snd (step (fst (step w (Filter k hx))) (Read h)) =
    OArr (vs (fst (v_filter (val (heap w) o) (els (get (heap w) px))))).
Proof.
  intros Eo Eh Ex Ap. unfold step at 2. rewrite Eo, Ex. rewrite h_filter_spec by auto.
  assert (L : os o < length (heap w)) by apply Ap.
  destruct (v_filter_same (val (heap w) o) (els (get (heap w) px))) as [l Hl].
  destruct (v_filter _ _) as [o' r]. cbn [fst snd] in *. subst o'. cbn [v_with_s vs els].
  destruct r as [y|e]; cbn [fst alloc heap objs hands step].
  - rewrite nth_error_app1 by (apply nth_error_Some; congruence). rewrite Eh. cbn [snd].
    rewrite get_app by (rewrite put_length; auto). rewrite get_put_eq by auto. reflexivity.
  - rewrite Eh. cbn [snd]. rewrite get_put_eq by auto. reflexivity.
Qed.
Print Assumptions C139_caller_sees_state.

(** Two filters with the same state array have one delay line between them: the second one
    continues where the first one stopped. *)
Theorem C139_one_delay_line (A : Arith) (w : world A) k1 k2 o1 o2 h1 h2 p1 p2 :
  nth_error (objs w) k1 = Some o1 -> nth_error (objs w) k2 = Some o2 -> os o1 = os o2 ->
  nth_error (hands w) h1 = Some p1 -> nth_error (hands w) h2 = Some p2 ->
  apart (heap w) o1 p1 -> apart (heap w) o2 p2 -> p2 < length (heap w) ->
  ob o2 < length (heap w) -> (forall pa, oa o2 = Some pa -> pa < length (heap w)) ->
  let o1' := fst (v_filter (val (heap w) o1) (els (get (heap w) p1))) in
  snd (step (fst (step w (Filter k1 h1))) (Filter k2 h2)) =
    match snd (v_filter (mkV (va (val (heap w) o2)) (vb (val (heap w) o2)) (vs o1')) (els (get (heap w) p2))) with
    | Ok y => OArr y
    | Err e => OFail e
    end.
Proof.
  intros E1 E2 Es X1 X2 A1 A2 L2 Lb La o1'. unfold step at 2. rewrite E1, X1. rewrite h_filter_spec by auto.
  assert (L : os o1 < length (heap w)) by apply A1.
  fold o1'. destruct (v_filter_same (val (heap w) o1) (els (get (heap w) p1))) as [l Hl].
  fold o1' in Hl. set (r := snd (v_filter _ _)).
  assert (K : forall w1, objs w1 = objs w -> nth_error (hands w1) h2 = Some p2 ->
            length (heap w) <= length (heap w1) ->
            (forall p, p < length (heap w) -> get (heap w1) p = get (put (heap w) (os o1) l) p) ->
            snd (step w1 (Filter k2 h2)) =
            match snd (v_filter (mkV (va (val (heap w) o2)) (vb (val (heap w) o2)) (vs o1')) (els (get (heap w) p2))) with
            | Ok y => OArr y
            | Err e => OFail e
            end).
  { intros w1 Ho Hh Hl1 Hg. unfold step. rewrite Ho, E2, Hh.
    destruct A2 as (_ & Nb & Nx & Na).
    assert (Ap : apart (heap w1) o2 p2) by (repeat split; auto; rewrite <- Es; lia).
    rewrite h_filter_spec by auto.
    assert (V : val (heap w1) o2 = mkV (va (val (heap w) o2)) (vb (val (heap w) o2)) (vs o1')).
    { unfold val. cbn [va vb vs]. rewrite !Hg by (auto; rewrite <- Es; auto).
      rewrite get_put_neq by (rewrite Es; auto). rewrite <- Es at 1. rewrite get_put_eq by auto.
      rewrite Hl. cbn [v_with_s vs val]. f_equal.
      destruct (oa o2) as [pa|] eqn:Ea; cbn; [|reflexivity]. rewrite Hg by auto. rewrite get_put_neq; auto.
      rewrite Es; auto. }
    rewrite V, Hg, get_put_neq by (auto; rewrite Es; auto).
    destruct (snd (v_filter _ (els (get (heap w) p2)))); reflexivity. }
  assert (El : els (vs o1') = l) by (rewrite Hl; reflexivity). rewrite El.
  destruct r as [y|e]; cbn [fst].
  - apply K; cbn [alloc objs hands heap]; auto.
    + rewrite nth_error_app1 by (apply nth_error_Some; congruence). auto.
    + rewrite app_length, put_length. lia.
    + intros p Hp. apply get_app. rewrite put_length; auto.
  - apply K; cbn [alloc objs hands heap]; auto. rewrite put_length; auto.
Qed.
Print Assumptions C139_one_delay_line.

(** A world that meets the hypotheses of both: two filters whose state is handle 2. *)
Definition w_ex : world QA := fst (exec (mkWorld [] [] [])
  [Alloc (fa [q 1 1; q 1 2]); Alloc (fa [q 0 1; q 0 1]); NewFir 0 1; NewFir 0 1; Alloc (fa [q 0 1; q 4 1]); Set_ 0 FS_ 2; Set_ 1 FS_ 2]).
Example C139_world_example : exists o1 o2, nth_error (objs w_ex) 0 = Some o1 /\ nth_error (objs w_ex) 1 = Some o2 /\
  os o1 = os o2 /\ nth_error (hands w_ex) 2 = Some (os o1) /\ nth_error (hands w_ex) 0 = Some 0 /\
  apart (heap w_ex) o1 0 /\ apart (heap w_ex) o2 0 /\
  map oq (snd (exec w_ex [Filter 0 0; Read 2; Filter 1 0])) =
    [Some (Ok (DFloat, [1 # 1; 1 # 1]%Q)); Some (Ok (DFloat, [1 # 2; 1 # 1]%Q)); Some (Ok (DFloat, [5 # 4; 1 # 1]%Q))].
Proof.
  exists (mkObj None 2 6), (mkObj None 4 6).
  do 5 (split; [reflexivity|]). split; [|split; [|vm_compute; reflexivity]];
    (split; [apply Nat.ltb_lt; reflexivity|]; split; [discriminate|]; split; [discriminate|]; intros pa E; discriminate E).
Qed.

(** Value semantics fails as soon as an array is shared. *)
Definition mk : list (op QA) := [Alloc (fa [q 1 1; q 1 2]); Alloc (fa [q 0 1; q 0 1]); NewFir 0 1; Alloc (fa [q 0 1; q 0 1])].
(** f.s = z; f.filter(x); z *)
Definition P1 := mk ++ [Set_ 0 FS_ 2; Filter 0 0; Read 2].
(** f.s = z; g.s = z; f.filter(x); g.filter(x) *)
Definition P2 := mk ++ [NewFir 0 1; Set_ 0 FS_ 2; Set_ 1 FS_ 2; Filter 0 0; Filter 1 0].
(** s = f.s; f.filter(x); s *)
Definition P3 := mk ++ [Get_ 0 FS_; Filter 0 0; Read 3].
(** b = f.b; f.s = b; f.filter(x); b *)
Definition P4 := mk ++ [Get_ 0 FB_; Set_ 0 FS_ 3; Filter 0 0; Read 3].
(** f.reset(1); f.filter(f.s) *)
Definition P5 := mk ++ [Filter 0 0; Get_ 0 FS_; Filter 0 4].
(** f.b = z; z[0] = 9; f.filter(x) *)
Definition P6 := mk ++ [Set_ 0 FB_ 2; Write 2 0 (q 9 1); Filter 0 0].
Theorem C139_assignment_copies_refuted :
  Forall (fun p => outputs p <> voutputs p) [P1; P2; P3; P4; P5; P6].
Proof.
  repeat constructor; intros H; apply (f_equal (map oq)) in H; vm_compute in H; discriminate.
Qed.
Print Assumptions C139_assignment_copies_refuted.
Example C139_example_P1 : map oq (outputs P1) =
  [None; None; None; None; None; Some (Ok (DFloat, [1 # 1; 1 # 1]%Q)); Some (Ok (DFloat, [1 # 2; 1 # 1]%Q))].
Proof. vm_compute. reflexivity. Qed.
(** The second filter answers 3/2 to the sample 1 and then 1, where it would answer 1 and 1 on its own. *)
Example C139_example_P2 : map oq (skipn 7 (outputs P2)) =
  [Some (Ok (DFloat, [1 # 1; 1 # 1]%Q)); Some (Ok (DFloat, [5 # 4; 1 # 1]%Q))].
Proof. vm_compute. reflexivity. Qed.
(** The coefficients are overwritten by the signal. *)
Example C139_example_P4 : map oq (skipn 6 (outputs P4)) =
  [Some (Ok (DFloat, [2 # 1; 5 # 4]%Q)); Some (Ok (DFloat, [1 # 2; 1 # 1]%Q))].
Proof. vm_compute. reflexivity. Qed.

(** ** C140: changing coefficients and state of a running filter *)

Lemma bcast_len {X Y Z} (f : X -> Y -> Z) xs ys : length xs = length ys ->
  exists c, bcast f xs ys = Ok c /\ length c = length xs.
Proof.
  intros E. unfold bcast. rewrite (proj2 (Nat.eqb_eq _ _) E). eexists. split; [reflexivity|].
  rewrite map_length, combine_length. lia.
Qed.

Lemma v_step_aligned (A : Arith) (o : vobj A) s x : aligned o -> length s = length (els (vb o)) ->
  exists s' y, v_step o s x = (s', Ok y) /\ length s' = length (els (vb o)) /\
    forall b', length b' = length (els (vb o)) -> forall d, exists y', v_step (with_b o (mkArr d b')) s x = (s', Ok y').
Proof.
  intros (Hb & _ & Ha) Hs.
  assert (Sn : s <> []) by (intros ->; apply Hb, length_zero_iff_nil; auto).
  unfold v_step. cbn [with_b va vb vs]. destruct (va o) as [a|] eqn:Ea.
  - specialize (Ha a eq_refl).
    set (pre := if Nat.ltb 1 (length s) then _ else _).
    assert (P : exists s1, pre = Ok s1 /\ length s1 = length s /\ s1 <> []).
    { unfold pre. destruct (Nat.ltb_spec 1 (length s)) as [L|L]; [|eauto].
      unfold np_dot. rewrite Ha, Hs, Nat.eqb_refl. cbn [rmap]. destruct s as [|s0 t]; [congruence|].
      eexists; split; [reflexivity|]. rewrite length_np_shift. cbn. split; [auto|discriminate]. }
    destruct P as (s1 & -> & L1 & N1). destruct s1 as [|u t]; [congruence|]. cbn [np_set0].
    assert (K : forall b d, length b = length (els (vb o)) -> exists y,
              match b with
              | [] => Err IndexError
              | b0 :: _ => match bcast (fun ai bi => add (mul ai b0) bi) (els a) b with
                           | Ok c => rmap (cast d) (np_dot c (cast (adt (vs o)) x :: t))
                           | Err e => Err e
                           end
              end = Ok y).
    { intros b d Lb. destruct b as [|b0 b1]; [destruct (els (vb o)); [congruence|discriminate]|].
      destruct (bcast_len (fun ai bi => add (mul ai b0) bi) (els a) (b0 :: b1)) as (c & -> & Lc); [congruence|].
      unfold np_dot. replace (length c =? _) with true; [eexists; reflexivity|].
      symmetry. apply Nat.eqb_eq. cbn [length] in *. congruence. }
    destruct (K (els (vb o)) (adt (vb o)) eq_refl) as [y Ey].
    eexists _, y. split; [rewrite <- Ey; reflexivity|]. split; [cbn [length] in *; congruence|].
    intros b' Hb' d. cbn [els adt]. destruct (K b' d Hb') as [y' Ey']. exists y'. rewrite <- Ey'. reflexivity.
  - rewrite shift_set by auto. 
    assert (Lf : length (firstn (length s) (cast (adt (vs o)) x :: s)) = length s).
    { rewrite firstn_length. cbn. lia. }
    assert (K : forall b d, length b = length (els (vb o)) -> exists y,
              rmap (cast d) (np_dot b (firstn (length s) (cast (adt (vs o)) x :: s))) = Ok y).
    { intros b d Lb. unfold np_dot. replace (length b =? _) with true; [eexists; reflexivity|].
      symmetry. apply Nat.eqb_eq. congruence. }
    destruct (K (els (vb o)) (adt (vb o)) eq_refl) as [y Ey].
    eexists _, y. split; [rewrite <- Ey; reflexivity|]. split; [congruence|].
    intros b' Hb' d. cbn [els adt]. destruct (K b' d Hb') as [y' Ey']. exists y'. rewrite <- Ey'. reflexivity.
Qed.

Lemma v_run_aligned (A : Arith) (o : vobj A) b' d : aligned o -> length b' = length (els (vb o)) ->
  forall x s, length s = length (els (vb o)) ->
  exists s' y y', run (v_step o) s x = (s', Ok y) /\ run (v_step (with_b o (mkArr d b'))) s x = (s', Ok y') /\
    length y = length x /\ length y' = length x.
Proof.
  intros Ho Hb'. induction x as [|v x IH]; intros s Hs; cbn [run]; [exists s, [], []; auto|].
  destruct (v_step_aligned A o s v Ho Hs) as (s1 & y & E & L & F). destruct (F b' Hb' d) as [y' E'].
  rewrite E, E'. destruct (IH s1 L) as (s2 & ys & ys' & E2 & E2' & L2 & L2'). rewrite E2, E2'.
  exists s2, (y :: ys), (y' :: ys'). cbn. auto.
Qed.

(** Changing f.b to an array of the same length keeps the history: from then on the filter
    answers as if it had had the new forward coefficients from the start.  This holds for
    FirFilter and IirFilter, in any arithmetic. *)
Theorem C140_switch_b (A : Arith) (o : vobj A) (b' : arr A) (x1 : list A) :
  aligned o -> length (els b') = length (els (vb o)) -> x1 <> [] ->
  exists o1 y1, v_filter o x1 = (o1, Ok y1) /\ aligned o1 /\ length (els y1) = length x1 /\
    with_b o1 b' = fst (v_filter (with_b o b') x1) /\
    forall x2, v_filter (with_b o1 b') x2 = v_filter (fst (v_filter (with_b o b') x1)) x2.
Proof.
  intros Ho Hb' Hx. destruct b' as [d b']. cbn [els] in Hb'.
  pose proof Ho as (Hb & Hs & Ha).
  destruct (v_run_aligned A o b' d Ho Hb' x1 (els (vs o)) Hs) as (s' & y & y' & E & E' & L & L').
  assert (Ls : length s' = length (els (vb o))).
  { assert (I : length (fst (run (v_step o) (els (vs o)) x1)) = length (els (vb o))).
    { apply (run_inv (v_step o) (fun s => length s = length (els (vb o)))); auto.
      intros s v Is. destruct (v_step_aligned A o s v Ho Is) as (s1 & yy & E1 & L1 & _). rewrite E1. exact L1. }
    rewrite E in I. exact I. }
  assert (W : with_b (v_with_s o s') (mkArr d b') = fst (v_filter (with_b o (mkArr d b')) x1)).
  { unfold v_filter. destruct x1 as [|v x1]; [congruence|]. cbn [length Nat.eqb].
    cbn [with_b vb els vs]. destruct b' as [|b0 b1]; [destruct (els (vb o)); [congruence|discriminate]|].
    fold (with_b o (mkArr d (b0 :: b1))). rewrite E'. reflexivity. }
  exists (v_with_s o s'), (mkArr (adt (vb o)) y). split; [|split; [|split; [|split]]]; auto.
  - unfold v_filter. destruct x1 as [|v x1]; [congruence|]. cbn [length Nat.eqb].
    destruct (els (vb o)) eqn:Eb; [congruence|]. rewrite E. reflexivity.
  - repeat split; auto.
  - intros x2. rewrite W. reflexivity.
Qed.
Print Assumptions C140_switch_b.

Definition qf (l : list Qc) : arr QA := mkArr DFloat l.
Definition rqa (r : res (arr QA)) : res (list Q) := rmap (fun v => qs (els v)) r.
Definition o_ex : vobj QA := mkV (Some (qf [q 0 1; q 1 2])) (qf [q 1 1; q 1 1]) (qf [q 0 1; q 0 1]).
Example C140_example : aligned o_ex /\
  rqa (snd (v_filter o_ex [q 1 1; q 2 1])) = Ok [1 # 1; 7 # 2]%Q /\
  rqa (snd (v_filter (with_b (fst (v_filter o_ex [q 1 1; q 2 1])) (qf [q 1 1; q 0 1])) [q 1 1])) = Ok [9 # 4]%Q.
Proof.
  split; [|split; vm_compute; reflexivity]. split; [discriminate|]. split; [reflexivity|].
  intros a E. injection E as <-. reflexivity.
Qed.

(** For the recursive coefficients this is false: what the filter remembers depends on them. *)
Theorem C140_switch_a_refuted :
  ~ forall (o : vobj QA) a' x1 x2, aligned o -> length (els a') = length (els (vb o)) -> x1 <> [] ->
      v_filter (with_a (fst (v_filter o x1)) a') x2 = v_filter (fst (v_filter (with_a o a') x1)) x2.
Proof.
  intros H. specialize (H o_ex (qf [q 0 1; q 1 1]) [q 1 1; q 2 1; q 0 1] [q 0 1]).
  assert (K : aligned o_ex) by apply C140_example.
  specialize (H K eq_refl ltac:(discriminate)). apply (f_equal (fun r => rqa (snd r))) in H.
  vm_compute in H. discriminate.
Qed.
Print Assumptions C140_switch_a_refuted.

(** The setters check nothing.  A state whose length differs from that of the coefficients
    makes filter raise ValueError, but only after the first sample has been stored. *)
Theorem C140_unequal_lengths (A : Arith) (b s : arr A) (v : A) (x : list A) :
  els b <> [] -> els s <> [] -> length (els b) <> length (els s) ->
  v_filter (mkV None b s) (v :: x) =
    (mkV None b (mkArr (adt s) (firstn (length (els s)) (cast (adt s) v :: els s))), Err ValueError).
Proof.
  intros Hb Hs Hn. unfold v_filter. cbn [length Nat.eqb vb vs]. destruct (els b) as [|b0 b1] eqn:Eb; [congruence|].
  cbn [run]. unfold v_step at 1. cbn [va vb vs]. rewrite shift_set by auto. unfold np_dot.
  rewrite firstn_length. cbn [length]. rewrite Nat.min_l by lia. rewrite Eb.
  destruct (Nat.eqb_spec (length (b0 :: b1)) (length (els s))) as [E|E]; [congruence|]. reflexivity.
Qed.
Print Assumptions C140_unequal_lengths.
Theorem C140_empty_arrays (A : Arith) (b s : arr A) (v : A) (x : list A) :
  (els b = [] -> v_filter (mkV None b s) (v :: x) = (mkV None b s, Err IndexError)) /\
  (els b <> [] -> els s = [] -> v_filter (mkV None b s) (v :: x) = (mkV None b s, Err IndexError)).
Proof.
  split; unfold v_filter; cbn [length Nat.eqb vb vs].
  - intros ->. reflexivity.
  - intros Hb Hs. destruct (els b) eqn:Eb; [congruence|]. cbn [run]. unfold v_step at 1. cbn [va vb vs].
    rewrite Hs. cbn. destruct s as [d s]; cbn in *; subst; reflexivity.
Qed.
Print Assumptions C140_empty_arrays.
Example C140_unequal_example :
  let (o, r) := v_filter (mkV None (qf [q 1 1]) (qf [q 3 1; q 4 1])) [q 1 1; q 2 1] in
  r = Err ValueError /\ qs (els (vs o)) = [1 # 1; 3 # 1]%Q.
Proof. vm_compute. auto. Qed.
(** So repeating a failed call after repairing the coefficients processes its first sample twice. *)
Theorem C140_failed_call_harmless_refuted :
  ~ forall (o : vobj QA) (bad : arr QA) x, aligned o ->
      snd (v_filter (with_b o bad) x) = Err ValueError ->
      snd (v_filter (with_b (fst (v_filter (with_b o bad) x)) (vb o)) x) = snd (v_filter o x).
Proof.
  intros H. specialize (H (mkV None (qf [q 1 1; q 1 1]) (qf [q 0 1; q 0 1])) (qf [q 1 1]) [q 1 1; q 2 1]).
  assert (K : aligned (mkV None (qf [q 1 1; q 1 1]) (qf [q 0 1; q 0 1]))) by (repeat split; discriminate).
  specialize (H K eq_refl). apply (f_equal rqa) in H. vm_compute in H. discriminate.
Qed.
Print Assumptions C140_failed_call_harmless_refuted.

(** The state keeps its own element type, and every sample is converted to it: with an
    integer state array a filter with float coefficients sees only the whole part of its input. *)
Theorem C140_state_dtype (A : Arith) (o : vobj A) (x : list A) :
  (forall v : A, cast (adt (vs o)) (cast (adt (vs o)) v) = cast (adt (vs o)) v) ->
  v_filter o (map (cast (adt (vs o))) x) = v_filter o x.
Proof.
  intros I. unfold v_filter. rewrite map_length. destruct (Nat.eqb _ 0); [reflexivity|].
  destruct (els (vb o)); [reflexivity|].
  assert (E : forall s, run (v_step o) s (map (cast (adt (vs o))) x) = run (v_step o) s x).
  { induction x as [|v x IH]; intros s; [reflexivity|]. cbn [map run].
    assert (Ev : v_step o s (cast (adt (vs o)) v) = v_step o s v) by (unfold v_step; rewrite I; reflexivity).
    rewrite Ev. destruct (v_step o s v) as [s1 [y|e]]; [|reflexivity]. rewrite IH. reflexivity. }
  rewrite E. reflexivity.
Qed.
Print Assumptions C140_state_dtype.
Example C140_state_dtype_example :
  (forall v : QA, @cast QA DInt (@cast QA DInt v) = @cast QA DInt v) /\
  rqa (snd (v_filter (mkV None (qf [q 1 2; q 1 2]) (mkArr DInt [q 0 1; q 0 1])) [q 3 2; q 9 10])) = Ok [1 # 2; 1 # 2]%Q.
Proof. split; [intros v; apply (law_cast_idem QA_laws)|vm_compute; reflexivity]. Qed.

(** ** C141: replacing the state of RankFilter and PolyphaseRateFilter *)

(** A state too short for the index makes RankFilter.filter fail with IndexError, after the
    first sample has been stored in it. *)
Theorem C141_rank_short_state (O : OArith) (argsort : list O -> list nat) (r : rank O) dtx s0 s v x :
  is_argsort argsort -> (0 <= rindex r)%Z -> (Z.of_nat (length (s0 :: s)) <= rindex r)%Z ->
  rank_filter argsort (rank_set_s r (s0 :: s)) dtx (v :: x) =
    (rank_set_s r (cast (fdt (rfir r)) v :: s), Err IndexError).
Proof.
  intros Hs H0 Hi. unfold rank_filter, rank_set_s. cbn [length Nat.eqb rfir fs with_s fdt rindex run].
  unfold rank_step. cbn [np_set0].
  destruct (Hs (map oabs (cast (fdt (rfir r)) v :: s))) as [Hp _]. rewrite map_length in Hp.
  rewrite (np_take_ok _ _ zero).
  2:{ rewrite Forall_forall. intros k Hk. eapply Permutation.Permutation_in in Hk; [|exact Hp]. apply in_seq in Hk. lia. }
  unfold py_nth. rewrite map_length, (Permutation.Permutation_length Hp), seq_length.
  destruct (Z.ltb_spec (rindex r) 0); [lia|].
  destruct (Z.leb_spec 0 (rindex r)); [|lia].
  destruct (Z.ltb_spec (rindex r) (Z.of_nat (length (cast (fdt (rfir r)) v :: s)))) as [C|C]; [cbn [length] in *; lia|].
  reflexivity.
Qed.
Print Assumptions C141_rank_short_state.
Example C141_rank_example : exists r : rank QO, @rank_make QO 2 2 = Ok r /\
  let (r', y) := rank_filter isort (rank_set_s r [q 0 1; q 0 1]) DFloat [q 5 1; q 6 1] in
  y = Err IndexError /\ qs (fs (rfir r')) = [5 # 1; 0 # 1]%Q.
Proof. eexists. split; [reflexivity|]. vm_compute. auto. Qed.

(** A state of another length than the rows of the bank makes PolyphaseRateFilter.filter fail
    with ValueError at its first output, after the position has moved on. *)
Theorem C141_poly_unequal_state (O : OArith) rnd (B : bank O) (f : poly O) s0 s v x :
  B <> [] -> Forall (fun row => length row <> length (s0 :: s)) B ->
  (1 <= rnd (mul (of_nat (length (v :: x))) (prate f)))%Z ->
  oltb (pindex f) (of_nat (length B)) = true -> (0 <= rnd (pindex f))%Z ->
  poly_filter rnd B (poly_set_s f (s0 :: s)) (v :: x) =
    Some (mkPoly (add (pindex f) (div (of_nat (length B)) (prate f))) (prate f) (v :: s), Err ValueError).
Proof.
  intros HB HF Hn Hi Hr. unfold poly_filter, poly_set_s. cbn [prate pindex ps].
  set (n := rnd (mul _ _)) in *. replace (length (v :: x) =? 0) with false by reflexivity.
  destruct (Z.ltb_spec n 0); [lia|].
  destruct (Z.to_nat n) as [|m] eqn:Em; [lia|]. cbn [length Nat.add poly_loop]. rewrite Hi. cbn [np_set0].
  unfold py_nth at 1. set (kk := Z.min _ _).
  assert (Lb : 0 < length B) by (destruct B; [congruence|cbn; lia]).
  assert (Hk : (0 <= kk < Z.of_nat (length B))%Z) by (unfold kk; lia).
  destruct (Z.ltb_spec kk 0); [lia|]. destruct (Z.leb_spec 0 kk); [|lia].
  destruct (Z.ltb_spec kk (Z.of_nat (length B))); [|lia]. cbn [andb].
  destruct (nth_error B (Z.to_nat kk)) as [row|] eqn:Er.
  2:{ apply nth_error_None in Er. lia. }
  cbn [bind]. unfold np_dot. rewrite Forall_forall in HF. specialize (HF row (nth_error_In _ _ Er)).
  destruct (Nat.eqb_spec (length row) (length (v :: s))) as [C|C]; [cbn [length] in *; congruence|]. reflexivity.
Qed.
Print Assumptions C141_poly_unequal_state.
Example C141_poly_example : exists f : poly QO, @poly_make QO 1 2 (q 1 1) = Ok f /\
  match poly_filter (fun _ => 1%Z) [[q 1 1; q 1 1]] (poly_set_s f [q 0 1; q 0 1; q 0 1]) [q 5 1] with
  | Some (f', y) => y = Err ValueError /\ this (pindex f') = (1 # 1)%Q /\ qs (ps f') = [5 # 1; 0 # 1; 0 # 1]%Q
  | None => False
  end.
Proof. eexists. split; [reflexivity|]. vm_compute. auto. Qed.
