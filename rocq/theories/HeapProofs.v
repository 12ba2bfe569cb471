(** Lemmas for HeapProps.v: tidy programs cannot tell references from values. *)
From Coq Require Import List Arith ZArith Bool Lia.
From Verif Require Import Base FirModel IirModel HeapModel HeapSpec.
Import ListNotations.
Set Asymmetric Patterns.

Lemma upd_length {X} n (x : X) l : length (upd n x l) = length l.
Proof. revert n; induction l as [|a t IH]; intros [|n]; simpl; auto. Qed.
Lemma nth_error_upd_eq {X} n (x : X) l : n < length l -> nth_error (upd n x l) n = Some x.
Proof. revert n; induction l as [|a t IH]; intros [|n] H; simpl in *; try lia; auto. apply IH; lia. Qed.
Lemma nth_error_upd_neq {X} n m (x : X) l : m <> n -> nth_error (upd n x l) m = nth_error l m.
Proof. revert n m; induction l as [|a t IH]; intros [|n] [|m] H; simpl; auto; try lia. Qed.
Lemma nth_upd_eq {X} n (x d : X) l : n < length l -> nth n (upd n x l) d = x.
Proof. revert n; induction l as [|a t IH]; intros [|n] H; simpl in *; try lia; auto. apply IH; lia. Qed.
Lemma nth_upd_neq {X} n m (x d : X) l : m <> n -> nth m (upd n x l) d = nth m l d.
Proof. revert n m; induction l as [|a t IH]; intros [|n] [|m] H; simpl; auto; try lia. Qed.
Lemma upd_upd {X} n (x y : X) l : upd n y (upd n x l) = upd n y l.
Proof. revert n; induction l as [|a t IH]; intros [|n]; simpl; f_equal; auto. Qed.
Lemma upd_same {X} n (x d : X) l : n < length l -> nth n l d = x -> upd n x l = l.
Proof.
  revert n; induction l as [|a t IH]; intros [|n] H E; simpl in *; try lia; subst; auto.
  f_equal; apply IH; auto; lia.
Qed.

Lemma nth_error_nil {X} n : nth_error (@nil X) n = None.
Proof. destruct n; reflexivity. Qed.

Section P.
  Context {A : Arith}.
  Implicit Types (H : list (arr A)) (o : obj) (x : A).

  Lemma put_length H p l : length (put H p l) = length H.
  Proof. apply upd_length. Qed.
  Lemma get_put_eq H p l : p < length H -> get (put H p l) p = mkArr (adt (get H p)) l.
  Proof. apply nth_upd_eq. Qed.
  Lemma get_put_neq H p q l : q <> p -> get (put H p l) q = get H q.
  Proof. apply nth_upd_neq. Qed.
  Lemma put_put H p l l' : p < length H -> put (put H p l) p l' = put H p l'.
  Proof. intros L; unfold put at 1. rewrite get_put_eq by auto. cbn. apply upd_upd. Qed.
  Lemma put_same H p : p < length H -> put H p (els (get H p)) = H.
  Proof.
    intros L; apply (upd_same p _ nil_arr); auto. unfold get. destruct (nth p H nil_arr); reflexivity.
  Qed.

  Lemma iter_spec H o px i x l : apart H o px -> nth_error (els (get H px)) i = Some x ->
    exists r, iter (put H (os o) l) o px i = (put H (os o) (fst (v_step (val H o) l x)), r) /\
      snd (v_step (val H o) l x) = rmap (cast (adt (get H (ob o)))) r.
  Proof.
    intros (L & Nb & Nx & Na) E.
    assert (G : forall l', get (put H (os o) l') (os o) = mkArr (adt (get H (os o))) l') by (intros; apply get_put_eq, L).
    assert (Gb : forall l', get (put H (os o) l') (ob o) = get H (ob o)) by (intros; apply get_put_neq, Nb).
    assert (Gx : forall l', get (put H (os o) l') px = get H px) by (intros; apply get_put_neq, Nx).
    assert (PP : forall l1 l2, put (put H (os o) l1) (os o) l2 = put H (os o) l2) by (intros; apply put_put, L).
    unfold iter, v_step, val. cbn [va vb vs]. destruct (oa o) as [pa|] eqn:Ea; cbn [option_map].
    - assert (Ga : forall l', get (put H (os o) l') pa = get H pa) by (intros; apply get_put_neq, Na; auto).
      unfold iir_iter. rewrite G, Ga; cbn [adt els].
      destruct (Nat.ltb_spec 1 (length l)) as [Hl|Hl].
      + destruct l as [|l0 l']; [simpl in Hl; lia|].
        destruct (np_dot (els (get H pa)) (l0 :: l')) as [v|e]; cbn [rmap np_set0 hd tl].
        2:{ cbn. eexists; split; reflexivity. }
        rewrite !PP, !G, ?PP, ?Gx, E; cbn [els adt]. rewrite ?G; cbn [els adt].
        destruct (np_set0 _ _) as [s2|e]; rewrite ?PP, ?G, ?Gb, ?Ga; cbn [els].
        2:{ eexists; split; reflexivity. }
        destruct (els (get H (ob o))) as [|b0 b'] eqn:Eb; rewrite ?PP, ?G; cbn [els].
        * eexists; split; reflexivity.
        * eexists; split; [reflexivity|]. destruct (bcast _ _ _); reflexivity.
      + rewrite ?Gx, E, ?G; cbn [els adt].
        destruct (np_set0 _ _) as [s2|e]; rewrite ?PP, ?G, ?Gb, ?Ga; cbn [els].
        2:{ eexists; split; reflexivity. }
        destruct (els (get H (ob o))) as [|b0 b'] eqn:Eb; rewrite ?PP, ?G; cbn [els].
        * eexists; split; reflexivity.
        * eexists; split; [reflexivity|]. destruct (bcast _ _ _); reflexivity.
    - unfold fir_iter. rewrite ?PP, ?G; cbn [els adt]. rewrite ?PP, ?Gx, E, ?G; cbn [els adt].
      destruct (np_set0 _ _) as [s2|e]; rewrite ?PP, ?G, ?Gb; cbn [els]; eexists; split; reflexivity.
  Qed.

  Lemma iters_spec H o px n : apart H o px -> forall i l, i + n = length (els (get H px)) ->
    iters (put H (os o) l) o px (adt (get H (ob o))) n i =
      (put H (os o) (fst (run (v_step (val H o)) l (skipn i (els (get H px))))),
       snd (run (v_step (val H o)) l (skipn i (els (get H px))))).
  Proof.
    intros Ap; induction n as [|n IH]; intros i l E.
    - rewrite skipn_all2 by lia. reflexivity.
    - destruct (nth_error (els (get H px)) i) as [x|] eqn:Ex.
      2:{ apply nth_error_None in Ex; lia. }
      assert (Es : skipn i (els (get H px)) = x :: skipn (S i) (els (get H px))).
      { clear - Ex. revert i Ex. induction (els (get H px)) as [|y t IH]; intros [|i] Ex; simpl in *; try discriminate.
        - congruence.
        - apply IH; auto. }
      rewrite Es. destruct (iter_spec H o px i x l Ap Ex) as (r & E1 & E2).
      cbn [iters run]. rewrite E1. destruct (v_step (val H o) l x) as [l' r'] eqn:Ev. cbn [fst snd] in *.
      subst r'. destruct r as [y|e]; cbn [rmap]; [|reflexivity].
      rewrite IH by lia. destruct (run _ _ _) as [l2 [ys|e]]; reflexivity.
  Qed.

  Lemma h_filter_spec H o px : apart H o px ->
    h_filter H o px =
      (put H (os o) (els (vs (fst (v_filter (val H o) (els (get H px)))))),
       snd (v_filter (val H o) (els (get H px)))).
  Proof.
    intros Ap. assert (L : os o < length H) by apply Ap. unfold h_filter, v_filter.
    destruct (Nat.eqb _ 0) eqn:E0; cbn [fst snd].
    { cbn [val vs]. rewrite put_same by auto. reflexivity. }
    cbn [val vb]. destruct (els (get H (ob o))) eqn:Eb; cbn [fst snd].
    { cbn [vs]. rewrite put_same by auto. reflexivity. }
    pose proof (iters_spec H o px (length (els (get H px))) Ap 0 (els (get H (os o))) eq_refl) as I.
    rewrite put_same in I by auto. rewrite I. cbn [skipn]. fold (val H o). cbn [vs].
    destruct (run _ _ _) as [l1 r]; reflexivity.
  Qed.

  Lemma h_reset_spec H o (x : option A) : os o < length H -> (forall pa, oa o = Some pa -> pa <> os o) -> ob o <> os o ->
    h_reset H o x =
      (put H (os o) (els (vs (fst (v_reset (val H o) x)))), snd (v_reset (val H o) x)).
  Proof.
    intros L Na Nb. unfold h_reset, v_reset. destruct x as [v|]; cbn [fst snd].
    2:{ cbn [val vs]. rewrite put_same by auto. reflexivity. }
    unfold val. destruct (oa o) as [pa|] eqn:Ea; cbn [option_map va vb vs]; [|reflexivity].
    destruct (Nat.ltb_spec 1 (length (els (get H (os o))))) as [Hl|Hl].
    - destruct (els (get H (ob o))) as [|b0 b']; cbn [fst snd vs].
      { rewrite put_same by auto. reflexivity. }
      destruct (bcast _ _ _) as [c|e]; cbn [fst snd vs].
      2:{ rewrite put_same by auto. reflexivity. }
      rewrite get_put_eq by auto. cbn [els np_set0]. rewrite put_put by auto. reflexivity.
    - destruct (els (get H (os o))) as [|s0 t] eqn:Es; cbn [np_set0 fst snd vs].
      { rewrite put_same by auto. reflexivity. }
      reflexivity.
  Qed.

  (** ** The relation between the two semantics *)
  Inductive role : Type := RH (h : nat) | RF (k : nat) (fl : field).
  Definition loc (w : world A) (r : role) : option nat :=
    match r with
    | RH h => nth_error (hands w) h
    | RF k fl => match nth_error (objs w) k with Some o => obj_get o fl | None => None end
    end.
  Definition live (D : list nat) (r : role) : Prop := match r with RH h => ~ In h D | RF _ _ => True end.

  Record Rel (D : list nat) (w : world A) (v : vworld A) : Prop := {
    R_sep : forall r1 r2 p, live D r1 -> live D r2 -> loc w r1 = Some p -> loc w r2 = Some p -> r1 = r2;
    R_bnd : forall r p, loc w r = Some p -> p < length (heap w);
    R_len : length (hands w) = length (varrs v);
    R_arr : forall h p, ~ In h D -> nth_error (hands w) h = Some p ->
              nth_error (varrs v) h = Some (get (heap w) p);
    R_obj : vobjs v = map (val (heap w)) (objs w) }.

  Lemma arg_none D w v h : Rel D w v -> nth_error (hands w) h = None -> nth_error (varrs v) h = None.
  Proof. intros R E. apply nth_error_None. rewrite <- (R_len _ _ _ R). apply nth_error_None; auto. Qed.

  Lemma get_app H H' p : p < length H -> get (H ++ H') p = get H p.
  Proof. intros; unfold get; apply app_nth1; auto. Qed.
  Lemma val_ext H H' o : (forall fl p, obj_get o fl = Some p -> get H' p = get H p) -> val H' o = val H o.
  Proof.
    intros E. unfold val. rewrite (E FB_ (ob o) eq_refl), (E FS_ (os o) eq_refl).
    specialize (E FA_). cbn in E. destruct (oa o); cbn; [rewrite (E _ eq_refl)|]; reflexivity.
  Qed.
  Lemma map_val_ext H H' l :
    (forall k o fl p, nth_error l k = Some o -> obj_get o fl = Some p -> get H' p = get H p) ->
    map (val H') l = map (val H) l.
  Proof.
    intros E. apply map_ext_in. intros o I. apply In_nth_error in I as [k I]. apply val_ext. eauto.
  Qed.
  Lemma map_upd {X Y} (f : X -> Y) n (x : X) l : map f (upd n x l) = upd n (f x) (map f l).
  Proof. revert n; induction l; intros [|n]; simpl; f_equal; auto. Qed.
  Lemma upd_nth_ext {X} (l l' : list X) n (x : X) : length l = length l' -> nth_error l n = Some x ->
    (forall m, m <> n -> nth_error l m = nth_error l' m) -> l = upd n x l'.
  Proof.
    revert l l'; induction n as [|n IH]; intros [|a t] [|a' t'] L E F; simpl in *; try discriminate.
    - f_equal; [congruence|]. clear - L F. assert (G : forall m, nth_error t m = nth_error t' m).
      { intros m. apply (F (S m)). lia. }
      clear F. revert t' L G; induction t as [|b t IH]; intros [|b' t'] L G; simpl in *; try discriminate; auto.
      f_equal. + specialize (G 0); simpl in G; congruence. + apply IH; [lia|]. intros m; apply (G (S m)).
    - f_equal. + specialize (F 0 ltac:(lia)); simpl in F; congruence.
      + apply IH; auto. intros m Hm; apply (F (S m)); lia.
  Qed.

  (** writing the state of filter k *)
  Lemma map_val_put D w v k o l : Rel D w v -> nth_error (objs w) k = Some o ->
    map (val (put (heap w) (os o) l)) (objs w) = upd k (v_with_s (val (heap w) o) l) (map (val (heap w)) (objs w)).
  Proof.
    intros R E. pose proof (R_sep _ _ _ R) as S.
    assert (Lo : loc w (RF k FS_) = Some (os o)) by (cbn; rewrite E; reflexivity).
    pose proof (R_bnd _ _ _ R _ _ Lo) as B.
    apply upd_nth_ext.
    - rewrite !map_length; auto.
    - rewrite nth_error_map, E. cbn. f_equal. unfold v_with_s, val. cbn [va vb vs].
      rewrite get_put_eq by auto. f_equal.
      + destruct (oa o) as [pa|] eqn:Ea; cbn; auto. rewrite get_put_neq; auto. intros ->.
        assert (C : RF k FA_ = RF k FS_) by (apply (S _ _ (os o)); cbn; auto; rewrite E; cbn; auto). discriminate.
      + rewrite get_put_neq; auto. intros C.
        assert (C' : RF k FB_ = RF k FS_) by (apply (S _ _ (os o)); cbn; auto; rewrite E; cbn; congruence). discriminate.
    - intros m Hm. rewrite !nth_error_map. destruct (nth_error (objs w) m) as [o'|] eqn:E'; cbn; auto.
      f_equal. apply val_ext. intros fl p G. apply get_put_neq. intros ->.
      assert (C : RF m fl = RF k FS_) by (apply (S _ _ (os o)); cbn; auto; rewrite E'; auto). congruence.
  Qed.

  (** the caller's arrays survive *)
  Lemma arr_put D w v k o l h p : Rel D w v -> nth_error (objs w) k = Some o -> ~ In h D ->
    nth_error (hands w) h = Some p -> get (put (heap w) (os o) l) p = get (heap w) p.
  Proof.
    intros R E N P. apply get_put_neq. intros ->.
    assert (C : RH h = RF k FS_) by (apply (R_sep _ _ _ R _ _ (os o)); cbn; auto; rewrite E; auto). discriminate.
  Qed.

  Lemma rel_apart D w v k o h px : Rel D w v -> nth_error (objs w) k = Some o -> ~ In h D ->
    nth_error (hands w) h = Some px -> apart (heap w) o px.
  Proof.
    intros R E N P. pose proof (R_sep _ _ _ R) as S.
    assert (Lo : loc w (RF k FS_) = Some (os o)) by (cbn; rewrite E; reflexivity).
    repeat split.
    - apply (R_bnd _ _ _ R _ _ Lo).
    - intros C. assert (C' : RF k FB_ = RF k FS_) by (apply (S _ _ (os o)); cbn; auto; rewrite E; cbn; congruence). discriminate.
    - intros ->. assert (C : RH h = RF k FS_) by (apply (S _ _ (os o)); cbn; auto; rewrite E; auto). discriminate.
    - intros pa Ea ->. assert (C : RF k FA_ = RF k FS_) by (apply (S _ _ (os o)); cbn; auto; rewrite E; cbn; auto). discriminate.
  Qed.
  Lemma rel_apart0 D w v k o : Rel D w v -> nth_error (objs w) k = Some o ->
    os o < length (heap w) /\ (forall pa, oa o = Some pa -> pa <> os o) /\ ob o <> os o.
  Proof.
    intros R E. pose proof (R_sep _ _ _ R) as S.
    assert (Lo : loc w (RF k FS_) = Some (os o)) by (cbn; rewrite E; reflexivity).
    repeat split.
    - apply (R_bnd _ _ _ R _ _ Lo).
    - intros pa Ea ->. assert (C : RF k FA_ = RF k FS_) by (apply (S _ _ (os o)); cbn; auto; rewrite E; cbn; auto). discriminate.
    - intros C. assert (C' : RF k FB_ = RF k FS_) by (apply (S _ _ (os o)); cbn; auto; rewrite E; cbn; congruence). discriminate.
  Qed.

  Lemma rel_put D w v k o l : Rel D w v -> nth_error (objs w) k = Some o ->
    Rel D (mkWorld (put (heap w) (os o) l) (objs w) (hands w))
          (mkVW (varrs v) (upd k (v_with_s (val (heap w) o) l) (vobjs v))).
  Proof.
    intros R E. split.
    - exact (R_sep _ _ _ R).
    - intros r p L. cbn. rewrite put_length. exact (R_bnd _ _ _ R r p L).
    - exact (R_len _ _ _ R).
    - intros h p N P. cbn [heap hands objs varrs vobjs] in *. rewrite (arr_put D w v k o l h p) by auto. apply (R_arr _ _ _ R); auto.
    - cbn. rewrite (map_val_put D w v k o l) by auto. rewrite (R_obj _ _ _ R). reflexivity.
  Qed.

  Lemma nth_error_snoc {X} (l : list X) (x : X) n y : nth_error (l ++ [x]) n = Some y ->
    nth_error l n = Some y \/ (n = length l /\ y = x).
  Proof.
    intros E. destruct (lt_dec n (length l)) as [L|L].
    - rewrite nth_error_app1 in E by auto. auto.
    - rewrite nth_error_app2 in E by lia. right. destruct (n - length l) eqn:D; simpl in E.
      + split; [lia|congruence].
      + rewrite nth_error_nil in E; discriminate.
  Qed.

  Lemma rel_alloc D w v a : Rel D w v -> Rel D (alloc w a) (mkVW (varrs v ++ [a]) (vobjs v)).
  Proof.
    intros R. pose proof (R_bnd _ _ _ R) as B.
    assert (L : forall r p, loc (alloc w a) r = Some p ->
              loc w r = Some p \/ (r = RH (length (hands w)) /\ p = length (heap w))).
    { intros [h|k fl] p L; cbn in *; [|auto]. apply nth_error_snoc in L as [L|[-> ->]]; auto. }
    split.
    - intros r1 r2 p L1 L2 E1 E2. apply L in E1, E2.
      destruct E1 as [E1|[-> E1]], E2 as [E2|[-> E2]]; auto.
      + apply (R_sep _ _ _ R r1 r2 p); auto.
      + apply B in E1. lia.
      + apply B in E2. lia.
    - intros r p E. cbn. rewrite app_length. cbn. apply L in E as [E|[-> ->]]; [apply B in E|]; lia.
    - cbn. rewrite !app_length, (R_len _ _ _ R). reflexivity.
    - intros h p N E. cbn [alloc heap hands objs varrs vobjs] in *. apply nth_error_snoc in E as [E|[-> ->]].
      + rewrite nth_error_app1 by (apply nth_error_Some; rewrite (R_arr _ _ _ R h p); auto; discriminate).
        rewrite get_app by (apply (B (RH h)); auto). apply (R_arr _ _ _ R); auto.
      + rewrite (R_len _ _ _ R), nth_error_app2, Nat.sub_diag by auto. cbn. unfold get.
        rewrite app_nth2, Nat.sub_diag by auto. reflexivity.
    - cbn. rewrite (R_obj _ _ _ R). symmetry. apply map_val_ext. intros k o fl p E G.
      apply get_app. apply (B (RF k fl)). cbn. rewrite E. auto.
  Qed.

  Lemma obj_set_get o fl p o' : obj_set o fl p = Some o' ->
    forall fl' q, obj_get o' fl' = Some q -> (fl' = fl /\ q = p) \/ (fl' <> fl /\ obj_get o fl' = Some q).
  Proof.
    destruct fl; cbn; intros E fl' q; [destruct (oa o); [|discriminate]| |]; injection E as <-;
      destruct fl'; cbn; intros G; try (left; split; congruence); right; split; congruence.
  Qed.
  Lemma v_set_val H o fl p o' : obj_set o fl p = Some o' -> v_set (val H o) fl (get H p) = Some (val H o').
  Proof.
    unfold val. destruct fl; cbn; intros E; [destruct (oa o); cbn; [|discriminate]| |]; injection E as <-; reflexivity.
  Qed.
  Lemma v_set_none H o fl p : obj_set o fl p = None -> v_set (val H o) fl (get H p) = None.
  Proof. unfold val. destruct fl; cbn; try discriminate. destruct (oa o); cbn; [discriminate|auto]. Qed.

  (** objects with fresh references *)
  Lemma rel_new D w v o new : Rel D w v ->
    (forall fl p, obj_get o fl = Some p -> length (heap w) <= p < length (heap w) + length new) ->
    (forall fl1 fl2 p, obj_get o fl1 = Some p -> obj_get o fl2 = Some p -> fl1 = fl2) ->
    Rel D (mkWorld (heap w ++ new) (objs w ++ [o]) (hands w)) (mkVW (varrs v) (vobjs v ++ [val (heap w ++ new) o])).
  Proof.
    intros R N S. pose proof (R_bnd _ _ _ R) as B.
    assert (L : forall r p, loc (mkWorld (heap w ++ new) (objs w ++ [o]) (hands w)) r = Some p ->
              loc w r = Some p \/ (exists fl, r = RF (length (objs w)) fl /\ obj_get o fl = Some p)).
    { intros [h|k fl] p L; cbn in *; [auto|].
      destruct (nth_error (objs w ++ [o]) k) as [o'|] eqn:E; [|discriminate].
      apply nth_error_snoc in E as [E|[-> ->]]; [rewrite E; auto|eauto]. }
    split.
    - intros r1 r2 p L1 L2 E1 E2. apply L in E1, E2.
      destruct E1 as [E1|[f1 [-> E1]]], E2 as [E2|[f2 [-> E2]]].
      + apply (R_sep _ _ _ R r1 r2 p); auto.
      + apply B in E1. apply N in E2. lia.
      + apply B in E2. apply N in E1. lia.
      + f_equal. apply (S _ _ p); auto.
    - intros r p E. cbn. rewrite app_length. apply L in E as [E|[fl [-> E]]]; [apply B in E|apply N in E]; lia.
    - exact (R_len _ _ _ R).
    - intros h p Nh E. cbn [heap hands objs varrs vobjs] in *. rewrite get_app by (apply (B (RH h)); auto). apply (R_arr _ _ _ R); auto.
    - cbn. rewrite map_app. cbn. f_equal. rewrite (R_obj _ _ _ R). symmetry. apply map_val_ext.
      intros k o' fl p E G. apply get_app. apply (B (RF k fl)). cbn. rewrite E. auto.
  Qed.

  Lemma rel_weaken D D' w v : Rel D w v -> Rel (D' ++ D) w v.
  Proof.
    intros [S B L Ar Ob]. split; auto.
    - intros r1 r2 p L1 L2. apply S; [destruct r1|destruct r2]; cbn in *; auto; intros I; [apply L1|apply L2]; apply in_or_app; auto.
    - intros h p N. apply Ar. intros I; apply N, in_or_app; auto.
  Qed.

  Lemma vobj_of D w v k : Rel D w v ->
    nth_error (vobjs v) k = option_map (val (heap w)) (nth_error (objs w) k).
  Proof. intros R. rewrite (R_obj _ _ _ R). apply nth_error_map. Qed.

  Lemma v_filter_same (o : vobj A) (x : list A) : exists l, fst (v_filter o x) = v_with_s (A := A) o l.
  Proof.
    unfold v_filter. destruct (Nat.eqb _ 0); [exists (els (vs o)); destruct o as [? ? []]; reflexivity|].
    destruct (els (vb o)); [exists (els (vs o)); destruct o as [? ? []]; reflexivity|].
    destruct (run _ _ _). eexists; reflexivity.
  Qed.
  Lemma v_reset_same (o : vobj A) (x : option A) : exists l, fst (v_reset o x) = v_with_s (A := A) o l.
  Proof.
    assert (K : exists l, o = v_with_s o l) by (exists (els (vs o)); destruct o as [? ? []]; reflexivity).
    unfold v_reset. destruct x as [x|]; [|exact K].
    destruct (va o); [|eexists; reflexivity]. destruct (Nat.ltb _ _).
    - destruct (els (vb o)); [exact K|]. destruct (bcast _ _ _); [eexists; reflexivity|exact K].
    - destruct (els (vs o)) eqn:E; [exact K|eexists; reflexivity].
  Qed.

  Lemma step_rel D w v c : Rel D w v -> fetches c = false -> (forall h, In h (uses c) -> ~ In h D) ->
    snd (step w c) = snd (vstep v c) /\ Rel (gives c ++ D) (fst (step w c)) (fst (vstep v c)).
  Proof.
    intros R F U. destruct c as [a|h i x|h|b s|a b s|k fl h|k fl|k h|k x]; cbn [uses gives fetches app] in *;
      try discriminate; unfold step, vstep; cbv zeta.
    - split; [reflexivity|]. apply rel_alloc; auto.
    - (* Write *)
      assert (N : ~ In h D) by (apply U; cbn; auto).
      destruct (nth_error (hands w) h) as [p|] eqn:E.
      2:{ rewrite (arg_none D w v h) by auto. auto. }
      rewrite (R_arr _ _ _ R h p) by auto.
      destruct (Nat.ltb _ _) eqn:Ei; [|auto]. split; [reflexivity|]. cbn [fst].
      assert (B : p < length (heap w)) by (apply (R_bnd _ _ _ R (RH h)); auto).
      split.
      + exact (R_sep _ _ _ R).
      + intros r q L. cbn. rewrite put_length. exact (R_bnd _ _ _ R r q L).
      + cbn. rewrite upd_length. exact (R_len _ _ _ R).
      + intros h' q N' E'. cbn [heap hands objs varrs vobjs] in *. destruct (Nat.eq_dec h' h) as [->|Hh].
        * assert (q = p) as -> by congruence. rewrite get_put_eq by auto.
          apply nth_error_upd_eq. rewrite <- (R_len _ _ _ R). apply nth_error_Some. congruence.
        * rewrite nth_error_upd_neq by auto. rewrite get_put_neq.
          { apply (R_arr _ _ _ R); auto. }
          intros ->. assert (C : RH h' = RH h) by (apply (R_sep _ _ _ R _ _ p); cbn; auto). congruence.
      + cbn. rewrite (R_obj _ _ _ R). symmetry. apply map_val_ext. intros k o fl q Eo G.
        apply get_put_neq. intros ->.
        assert (C : RF k fl = RH h) by (apply (R_sep _ _ _ R _ _ p); cbn; auto; rewrite Eo; auto). discriminate.
    - (* Read *)
      assert (N : ~ In h D) by (apply U; cbn; auto).
      destruct (nth_error (hands w) h) as [p|] eqn:E.
      2:{ rewrite (arg_none D w v h) by auto. auto. }
      rewrite (R_arr _ _ _ R h p) by auto. auto.
    - (* NewFir *)
      assert (Nb : ~ In b D) by (apply U; cbn; auto). assert (Ns : ~ In s D) by (apply U; cbn; auto).
      destruct (nth_error (hands w) b) as [pb|] eqn:Eb.
      2:{ rewrite (arg_none D w v b) by auto. auto. }
      rewrite (R_arr _ _ _ R b pb) by auto.
      destruct (nth_error (hands w) s) as [ps|] eqn:Es.
      2:{ rewrite (arg_none D w v s) by auto. auto. }
      rewrite (R_arr _ _ _ R s ps) by auto.
      destruct (fir_make _ _) as [f|e]; [|auto]. split; [reflexivity|]. cbn [fst].
      set (o := mkObj None (length (heap w)) (S (length (heap w)))).
      set (new := [mkArr (fdt f) (fb f); mkArr (fdt f) (fs f)]).
      assert (V : v_of_fir f = val (heap w ++ new) o).
      { unfold val, o, new, get, v_of_fir; cbn. rewrite !app_nth2 by lia.
        rewrite Nat.sub_diag. replace (S (length (heap w)) - length (heap w)) with 1 by lia. reflexivity. }
      rewrite V. apply rel_new; auto.
      + intros fl p; destruct fl; cbn; intros G; try discriminate; injection G as <-; lia.
      + intros f1 f2 p; destruct f1, f2; cbn; intros G1 G2; try discriminate; auto; exfalso; injection G1; injection G2; lia.
    - (* NewIir *)
      assert (Na : ~ In a D) by (apply U; cbn; auto).
      assert (Nb : ~ In b D) by (apply U; cbn; auto). assert (Ns : ~ In s D) by (apply U; cbn; auto).
      destruct (nth_error (hands w) a) as [pa|] eqn:Ea.
      2:{ rewrite (arg_none D w v a) by auto. auto. }
      rewrite (R_arr _ _ _ R a pa) by auto.
      destruct (nth_error (hands w) b) as [pb|] eqn:Eb.
      2:{ rewrite (arg_none D w v b) by auto. auto. }
      rewrite (R_arr _ _ _ R b pb) by auto.
      destruct (nth_error (hands w) s) as [ps|] eqn:Es.
      2:{ rewrite (arg_none D w v s) by auto. auto. }
      rewrite (R_arr _ _ _ R s ps) by auto.
      destruct (iir_make _ _ _) as [f|e]; [|auto]. split; [reflexivity|]. cbn [fst].
      set (o := mkObj (Some (S (S (length (heap w))))) (length (heap w)) (S (length (heap w)))).
      set (new := [mkArr (idt f) (ib f); mkArr (idt f) (is_ f); mkArr (a_dtype (get (heap w) pa) (get (heap w) pb)) (ia f)]).
      assert (V : v_of_iir (a_dtype (get (heap w) pa) (get (heap w) pb)) f = val (heap w ++ new) o).
      { unfold val, o, new, get at 3 4 5, v_of_iir; cbn. unfold get. rewrite !app_nth2 by lia.
        rewrite Nat.sub_diag. replace (S (length (heap w)) - length (heap w)) with 1 by lia.
        replace (S (S (length (heap w))) - length (heap w)) with 2 by lia. reflexivity. }
      rewrite V. apply rel_new; auto.
      + intros fl p; destruct fl; cbn; intros G; try discriminate; injection G as <-; lia.
      + intros f1 f2 p; destruct f1, f2; cbn; intros G1 G2; try discriminate; auto; exfalso; injection G1; injection G2; lia.
    - (* Set_ *)
      assert (N : ~ In h D) by (apply U; cbn; auto).
      rewrite (vobj_of D w v) by auto.
      destruct (nth_error (objs w) k) as [o|] eqn:Eo; cbn [option_map].
      2:{ split; [reflexivity|]. apply (rel_weaken D [h]); auto. }
      destruct (nth_error (hands w) h) as [p|] eqn:E.
      2:{ rewrite (arg_none D w v h) by auto. split; [reflexivity|]. apply (rel_weaken D [h]); auto. }
      rewrite (R_arr _ _ _ R h p) by auto.
      destruct (obj_set o fl p) as [o'|] eqn:Es.
      2:{ rewrite v_set_none by auto. split; [reflexivity|]. apply (rel_weaken D [h]); auto. }
      rewrite (v_set_val _ _ _ _ _ Es). split; [reflexivity|]. cbn [fst].
      assert (Lk : k < length (objs w)) by (apply nth_error_Some; congruence).
      assert (L : forall r q, loc (mkWorld (heap w) (upd k o' (objs w)) (hands w)) r = Some q ->
                (r = RF k fl /\ q = p) \/ (r <> RF k fl /\ loc w r = Some q)).
      { intros [h'|k' fl'] q; cbn; intros G.
        - right. split; [discriminate|auto].
        - destruct (Nat.eq_dec k' k) as [->|Hk].
          + rewrite nth_error_upd_eq in G by auto. rewrite Eo.
            destruct (obj_set_get _ _ _ _ Es _ _ G) as [[-> ->]|[Hf Hq]]; [left; auto|].
            right. split; [congruence|auto].
          + rewrite nth_error_upd_neq in G by auto. right; split; [congruence|auto]. }
      assert (LH : loc w (RH h) = Some p) by auto.
      split.
      + intros r1 r2 q L1 L2 E1 E2. apply L in E1, E2.
        assert (W : forall r, live (h :: D) r -> live D r) by (intros [hh|]; cbn; auto; tauto).
        assert (X : forall r, live (h :: D) r -> loc w r = Some p -> False).
        { intros r Lr Er. assert (C : r = RH h) by (apply (R_sep _ _ _ R _ _ p); cbn; auto).
          subst r. cbn in Lr. tauto. }
        destruct E1 as [[-> ->]|[D1 E1]], E2 as [[-> E2]|[D2 E2]]; auto.
        * exfalso; apply (X r2); auto.
        * subst q. exfalso; apply (X r1); auto.
        * apply (R_sep _ _ _ R r1 r2 q); auto.
      + intros r q G. cbn. apply L in G as [[-> ->]|[_ G]]; [apply (R_bnd _ _ _ R _ _ LH)|apply (R_bnd _ _ _ R _ _ G)].
      + exact (R_len _ _ _ R).
      + intros h' q N' E'. cbn [heap hands objs varrs vobjs] in *. apply (R_arr _ _ _ R); auto. intros I; apply N'; cbn; auto.
      + cbn [heap objs vobjs]. rewrite (R_obj _ _ _ R), map_upd. reflexivity.
    - (* Filter *)
      assert (N : ~ In h D) by (apply U; cbn; auto).
      rewrite (vobj_of D w v) by auto.
      destruct (nth_error (objs w) k) as [o|] eqn:Eo; cbn [option_map]; [|auto].
      destruct (nth_error (hands w) h) as [px|] eqn:E.
      2:{ rewrite (arg_none D w v h) by auto. auto. }
      rewrite (R_arr _ _ _ R h px) by auto.
      rewrite h_filter_spec by (apply (rel_apart D w v k o h); auto).
      destruct (v_filter_same (val (heap w) o) (els (get (heap w) px))) as [l Hl].
      destruct (v_filter _ _) as [o' r]. cbn [fst snd] in *. subst o'. cbn [v_with_s vs els].
      pose proof (rel_put D w v k o l R Eo) as P.
      destruct r as [y|e]; cbn [fst snd].
      + split; [reflexivity|]. apply (rel_alloc _ _ _ y) in P. exact P.
      + split; [reflexivity|]. exact P.
    - (* Reset *)
      rewrite (vobj_of D w v) by auto.
      destruct (nth_error (objs w) k) as [o|] eqn:Eo; cbn [option_map]; [|auto].
      destruct (rel_apart0 D w v k o R Eo) as (L & Na & Nb).
      rewrite h_reset_spec by auto.
      destruct (v_reset_same (val (heap w) o) x) as [l Hl].
      destruct (v_reset _ _) as [o' r]. cbn [fst snd] in *. subst o'. cbn [v_with_s vs els].
      pose proof (rel_put D w v k o l R Eo) as P.
      destruct r as [y|e]; cbn [fst snd]; (split; [reflexivity|exact P]).
  Qed.

  Lemma exec_rel p : forall D w v, Rel D w v -> tidy D p -> snd (exec w p) = snd (vexec v p).
  Proof.
    induction p as [|c p IH]; intros D w v R T; [reflexivity|]. destruct T as (F & U & T).
    destruct (step_rel D w v c R F U) as [E R']. cbn [exec vexec].
    destruct (step w c) as [w1 y1], (vstep v c) as [v1 y2]. cbn [fst snd] in *.
    specialize (IH _ _ _ R' T). destruct (exec w1 p), (vexec v1 p). cbn [snd] in *. congruence.
  Qed.

  Lemma rel_empty : Rel [] (mkWorld [] [] []) (mkVW [] []).
  Proof.
    split; cbn; auto; intros.
    - destruct r1 as [n|n fl]; cbn in *; rewrite nth_error_nil in H1; discriminate.
    - destruct r as [n|n fl]; cbn in *; rewrite nth_error_nil in H; discriminate.
    - rewrite nth_error_nil in H0; discriminate.
  Qed.
End P.
