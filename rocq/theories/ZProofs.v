(** Lemmas about ZTransform. *)
From Coq Require Import List Arith ZArith Bool Reals Lra Lia Permutation.
From Coquelicot Require Import Complex.
From Verif Require Import Base BaseLemmas Instances FirModel PolyC ZModel.
Import ListNotations.
Set Asymmetric Patterns.
Open Scope R_scope.
Open Scope C_scope.

(** ** Specification vocabulary *)
(** A polynomial given highest power first, at s. *)
Fixpoint horner (l : list R) (acc s : C) : C :=
  match l with [] => acc | c :: r => horner r (acc * s + RtoC c) s end.
Definition pv (l : list R) (s : C) : C := horner l 0 s.

(** ps lists the roots of l with multiplicity (the contract of a root finder). *)
Definition factors (l : list R) (ps : list C) : Prop :=
  S (length ps) = length l /\
  forall s, pv l s = RtoC (hd 0%R l) * fold_right (fun p acc => (s - p) * acc) 1 ps.

(** Sum of coefficients and the two polynomials of a filter in w = 1/z. *)
Definition tot (l : list R) : R := fold_right Rplus 0%R l.
Definition den (a : list R) (w : C) : C := 1 - pe (map RtoC a) w.
Definition num (b : list R) (w : C) : C := pe (map RtoC b) w.

(** The coefficients the routine really works on. *)
Definition normed (u : list R) (d : R) : list R := map (fun x => (x / d)%R) (strip0 u).

(** ** Generic facts *)
Lemma tot_rsuml l : rsuml l = tot l.
Proof.
  unfold rsuml, tot. enough (H : forall acc, fold_left Rplus l acc = (acc + fold_right Rplus 0%R l)%R) by (rewrite H; ring).
  induction l as [|x l IH]; intros acc; cbn [fold_left fold_right]; [ring|]. rewrite IH. ring.
Qed.
Lemma pe_one_tot l : pe (map RtoC l) 1 = RtoC (tot l).
Proof.
  unfold tot. induction l as [|x l IH]; cbn [map pe fold_right]; [reflexivity|]. rewrite IH, RtoC_plus. ring.
Qed.
Lemma tot_scale k l : tot (map (fun x => (x * k)%R) l) = (tot l * k)%R.
Proof. unfold tot. induction l as [|x l IH]; cbn [map fold_right]; [ring|]. rewrite IH. ring. Qed.
Lemma pe_RtoC_scale k l w : pe (map RtoC (map (fun x => (x * k)%R) l)) w = RtoC k * pe (map RtoC l) w.
Proof. induction l as [|x l IH]; cbn [map pe]; [ring|]. rewrite IH, RtoC_mult. ring. Qed.
Lemma fst_sum c : fst (csum c) = tot (map fst c).
Proof. unfold csum, tot. induction c as [|a c IH]; cbn [fold_right map]; [reflexivity|]. rewrite <- IH. reflexivity. Qed.

Lemma isz_iff x : isz x = true <-> x = 0%R.
Proof. unfold isz. apply Reqb_iff. Qed.
Lemma strip0_hd l : l <> [] -> forallb isz l = false -> strip0 l <> [] /\ hd 0%R (strip0 l) <> 0%R.
Proof.
  intros _. induction l as [|x l IH]; cbn [forallb strip0]; [discriminate|]. destruct (isz x) eqn:E; cbn [andb].
  - apply IH.
  - intros _. split; [discriminate|]. cbn [hd]. intros C. apply isz_iff in C. congruence.
Qed.
Lemma strip0_last l : forallb isz l = false -> last (strip0 l) 0%R = last l 0%R.
Proof.
  induction l as [|x l IH]; cbn [forallb strip0]; [discriminate|]. destruct (isz x) eqn:E; cbn [andb]; [|reflexivity].
  intros H. rewrite IH by exact H. destruct l; [discriminate|reflexivity].
Qed.
Lemma pv_strip l s : pv (strip0 l) s = pv l s.
Proof.
  unfold pv. induction l as [|x l IH]; [reflexivity|]. cbn [strip0]. destruct (isz x) eqn:E; [|reflexivity].
  rewrite IH. cbn [horner]. apply isz_iff in E. subst x. f_equal. ring.
Qed.
Lemma horner_div l d acc s : d <> 0%R -> horner (map (fun x => (x / d)%R) l) (acc / RtoC d) s = horner l acc s / RtoC d.
Proof.
  intros Hd. assert (Hc : RtoC d <> 0) by (intros Q; apply RtoC_inj in Q; auto).
  revert acc. induction l as [|x l IH]; intros acc; cbn [map horner]; [reflexivity|]. rewrite <- IH. f_equal.
  unfold Rdiv. rewrite RtoC_mult, RtoC_inv by exact Hd. field. exact Hc.
Qed.
Lemma pv_normed u d s : d <> 0%R -> pv (normed u d) s = pv u s / RtoC d.
Proof.
  intros Hd. assert (Hc : RtoC d <> 0) by (intros Q; apply RtoC_inj in Q; auto).
  rewrite <- (pv_strip u s). unfold normed, pv. rewrite <- horner_div by exact Hd. f_equal. field. exact Hc.
Qed.
Lemma horner_zero l acc s : s = 0 -> l <> [] -> horner l acc s = RtoC (last l 0%R).
Proof.
  intros ->. revert acc. induction l as [|x l IH]; intros acc H; [congruence|]. cbn [horner]. destruct l as [|y l].
  - cbn. rewrite Cmult_0_r, Cplus_0_l. reflexivity.
  - rewrite IH by discriminate. reflexivity.
Qed.

Lemma fold_cprod f (ps : list C) : fold_right (fun p acc => f p * acc) 1 ps = cprod (map f ps).
Proof. unfold cprod. induction ps as [|p ps IH]; cbn [fold_right map]; [reflexivity|]. rewrite IH. reflexivity. Qed.

Lemma Cmult_inj_l (k x y : C) : k <> 0 -> k * x = k * y -> x = y.
Proof. intros Hk E. transitivity (/ k * (k * x)); [field; exact Hk|]. rewrite E. field. exact Hk. Qed.

(** ** Conjugate-closed root lists *)
Definition conj_closed (l : list C) : Prop := Permutation (map Cconj l) l.
Lemma horner_conj l acc r : Cconj (horner l acc (RtoC r)) = horner l (Cconj acc) (RtoC r).
Proof.
  revert acc. induction l as [|x l IH]; intros acc; cbn [horner]; [reflexivity|]. rewrite IH. f_equal.
  rewrite Cconj_add, Cconj_mul, !Cconj_R. reflexivity.
Qed.
Lemma factors_conj l ps : hd 0%R l <> 0%R -> factors l ps -> conj_closed ps.
Proof.
  intros Hh [_ H]. apply same_factors; [apply map_length|]. intros r.
  assert (Hc : RtoC (hd 0%R l) <> 0) by (intros Q; apply RtoC_inj in Q; auto).
  pose proof (H (RtoC r)) as E. assert (E2 := f_equal Cconj E). unfold pv in E2. rewrite horner_conj, Cconj_R in E2.
  fold (pv l (RtoC r)) in E2. rewrite E, Cconj_mul, Cconj_R in E2. rewrite !fold_cprod in E2. rewrite cprod_conj in E2.
  rewrite !map_map in *.
  assert (X : cprod (map (fun p => RtoC r - p) ps) = cprod (map (fun x => Cconj (RtoC r - x)) ps)).
  { apply (Cmult_inj_l (RtoC (hd 0%R l)) _ _ Hc). exact E2. }
  rewrite X. f_equal. apply map_ext. intros p. rewrite Cconj_sub, Cconj_R. reflexivity.
Qed.
Lemma conj_closed_map f ps : (forall p, f (Cconj p) = Cconj (f p)) -> conj_closed ps -> conj_closed (map f ps).
Proof.
  intros Hf H. unfold conj_closed in *. rewrite map_map. erewrite map_ext by (intros p; symmetry; apply Hf).
  rewrite <- (map_map Cconj f). apply Permutation_map. exact H.
Qed.
Lemma conj_closed_app l l' : conj_closed l -> conj_closed l' -> conj_closed (l ++ l').
Proof. intros H H'. unfold conj_closed. rewrite map_app. apply Permutation_app; assumption. Qed.
Lemma conj_closed_zeros n : conj_closed (repeat (RtoC 0) n).
Proof.
  unfold conj_closed. induction n as [|n IH]; cbn [repeat map]; [constructor|]. rewrite (Cconj_R 0). constructor. exact IH.
Qed.
Lemma cpoly_real ms : conj_closed ms -> map RtoC (map fst (cpoly ms)) = cpoly ms.
Proof.
  intros H. rewrite map_map. apply real_coeffs. intros r. rewrite !pe_cpoly, cprod_conj, map_map.
  rewrite (map_ext _ (fun z => 1 - Cconj z * RtoC r)) by (intros z; rewrite Cconj_sub, Cconj_mul, !Cconj_R; reflexivity).
  rewrite <- (map_map Cconj (fun z => 1 - z * RtoC r)). apply cprod_perm, Permutation_map, H.
Qed.

Lemma bil_conj t p : bil t (Cconj p) = Cconj (bil t p).
Proof.
  unfold bil. assert (D : forall z, Cconj (/ z) = / Cconj z).
  { intros [x y]. unfold Cinv, Cconj. cbn. replace (x * (x * 1) + - y * (- y * 1))%R with (x * (x * 1) + y * (y * 1))%R by ring. f_equal. unfold Rdiv. ring. }
  unfold Cdiv. rewrite !Cconj_mul, !D, Cconj_add, Cconj_sub, !Cconj_mul, !D, !Cconj_R. reflexivity.
Qed.
Lemma cis_neg t : cis (- t) = Cconj (cis t).
Proof. unfold cis, Cconj. cbn. rewrite cos_neg, sin_neg. reflexivity. Qed.
Lemma imp_conj t p : imp t (Cconj p) = Cconj (imp t p).
Proof.
  unfold imp. assert (E : Cconj p / RtoC t = Cconj (p / RtoC t)).
  { destruct p as [x y]. unfold Cdiv, Cinv, Cmult, Cconj, RtoC. cbn. f_equal; unfold Rdiv; ring. }
  rewrite E. unfold cexp. generalize (p / RtoC t). intros z. rewrite Cconj_mul, Cconj_R, <- cis_neg. reflexivity.
Qed.

(** ** Normalisation *)
Lemma normal_den (A B : list R) (A' : list R) w : A = 1%R :: A' ->
  den (fst (z_normal (A, B))) w = pe (map RtoC A) w.
Proof.
  intros ->. cbn [z_normal fst tl map]. unfold den. cbn [map pe].
  assert (E : pe (map RtoC (map (fun x => (x / - (1))%R) A')) w = - pe (map RtoC A') w).
  { induction A' as [|x A' IH]; cbn [map pe]; [ring|]. rewrite IH. replace (x / - (1))%R with (- x)%R by field. rewrite RtoC_opp. ring. }
  rewrite E. ring.
Qed.
Lemma den_one a : den a 1 = RtoC (1 - tot a).
Proof. unfold den. rewrite pe_one_tot, RtoC_minus. reflexivity. Qed.

Lemma z_normal_sum A B b : snd (z_normal (A, B)) = Some b ->
  tot B <> 0%R /\ tot b = (1 - tot (fst (z_normal (A, B))))%R /\
  exists k : R, b = map (fun x => (x * k)%R) B /\ k = ((1 - tot (fst (z_normal (A, B)))) / tot B)%R.
Proof.
  cbn [z_normal]. cbn [snd fst]. rewrite tot_rsuml. destruct (isz (tot B)) eqn:E; [discriminate|]. intros Q. injection Q as <-.
  assert (N : tot B <> 0%R) by (intros C; apply isz_iff in C; congruence).
  split; [exact N|]. rewrite tot_rsuml. split; [rewrite tot_scale; field; exact N|]. eexists. split; reflexivity.
Qed.
Lemma z_normal_none A B : snd (z_normal (A, B)) = None <-> tot B = 0%R.
Proof.
  cbn [z_normal snd]. rewrite tot_rsuml. destruct (isz (tot B)) eqn:E.
  - apply isz_iff in E. tauto.
  - split; [discriminate|]. intros C. apply isz_iff in C. congruence.
Qed.
Lemma cpoly_cons zs : exists r, cpoly zs = RtoC 1 :: r.
Proof.
  pose proof (cpoly_length zs) as L. pose proof (cpoly_hd zs) as H. destruct (cpoly zs) as [|x r]; [discriminate|].
  cbn [hd] in H. subst x. exists r. reflexivity.
Qed.

(** ** The impulse-invariant polynomials *)
Section Imp.
  Variables (t : R) (r p : list C).
  Hypothesis Hl : length r = length p.
  Let es : list C := map (imp t) p.
  Let e (i : nat) : C := nth i es 0.
  Lemma imp_a : fold_left (fun a ii => convC a [RtoC 1; Copp (imp t (nth ii p (RtoC 0)))]) (seq 0 (length r)) [RtoC 1] = cpoly es.
  Proof.
    unfold cpoly, es. rewrite Hl. generalize [RtoC 1]. clear. intros a0.
    enough (H : forall p0 k a, (forall i, i < length p0 -> nth (k + i) p (RtoC 0) = nth i p0 (RtoC 0))%nat ->
      fold_left (fun a ii => convC a [RtoC 1; Copp (imp t (nth ii p (RtoC 0)))]) (seq k (length p0)) a
      = fold_left (fun a z => convC a [RtoC 1; - z]) (map (imp t) p0) a) by (apply H; intros; reflexivity).
    induction p0 as [|x p0 IH]; intros k a H; [reflexivity|]. cbn [length seq fold_left map].
    pose proof (H 0%nat ltac:(cbn; lia)) as H0. rewrite Nat.add_0_r in H0. cbn [nth] in H0. rewrite H0. apply IH.
    intros i Hi. replace (S k + i)%nat with (k + S i)%nat by lia. rewrite H by (cbn; lia). reflexivity.
  Qed.
  Lemma e_imp i : (i < length p)%nat -> e i = imp t (nth i p (RtoC 0)).
  Proof. intros H. unfold e, es. rewrite nth_map_lt with (d := RtoC 0) by exact H. reflexivity. Qed.

  (** The product over the other factors. *)
  Definition skip (ii : nat) : list C := map e (filter (fun j => negb (Nat.eqb j ii)) (seq 0 (length p))).
  Lemma others_poly ii : others t (length r) p ii = cpoly (skip ii).
  Proof.
    unfold others, cpoly, skip. rewrite Hl. generalize [RtoC 1].
    enough (H : forall l a, (forall j, In j l -> (j < length p)%nat) ->
      fold_left (fun q jj => if Nat.eqb jj ii then q else convC q [RtoC 1; Copp (imp t (nth jj p (RtoC 0)))]) l a
      = fold_left (fun a z => convC a [RtoC 1; - z]) (map e (filter (fun j => negb (Nat.eqb j ii)) l)) a).
    { intros a. apply H. intros j Hj. apply in_seq in Hj. lia. }
    induction l as [|j l IH]; intros a H; [reflexivity|]. cbn [fold_left filter]. destruct (Nat.eqb j ii); cbn [negb map fold_left].
    - apply IH. intros; apply H; right; assumption.
    - rewrite e_imp by (apply H; left; reflexivity). apply IH. intros; apply H; right; assumption.
  Qed.
  Lemma skip_length ii : (ii < length p)%nat -> length (skip ii) = (length p - 1)%nat.
  Proof.
    intros H. unfold skip. rewrite map_length.
    enough (G : forall n k, length (filter (fun j => negb (Nat.eqb j ii)) (seq k n)) = (n - (if (k <=? ii) && (ii <? k + n) then 1 else 0))%nat).
    { rewrite G. cbn [Nat.leb andb]. destruct (Nat.ltb_spec ii (0 + length p)); cbn; lia. }
    induction n as [|n IH]; intros k; [cbn; lia|]. cbn [seq filter]. destruct (Nat.eqb_spec k ii) as [->|N]; cbn [negb length].
    - rewrite IH. destruct (Nat.leb_spec (S ii) ii), (Nat.leb_spec ii ii), (Nat.ltb_spec ii (ii + S n)); cbn [andb]; lia.
    - rewrite IH. destruct (Nat.leb_spec (S k) ii), (Nat.leb_spec k ii), (Nat.ltb_spec ii (S k + n)), (Nat.ltb_spec ii (k + S n)); cbn [andb]; lia.
  Qed.
  Lemma prod_skip (f : C -> C) ii : (ii < length p)%nat -> f (e ii) * cprod (map f (skip ii)) = cprod (map f es).
  Proof.
    intros H. unfold skip. rewrite map_map.
    assert (E : es = map e (seq 0 (length p))).
    { apply nth_ext with (d := RtoC 0) (d' := RtoC 0); [unfold es; rewrite !map_length, seq_length; reflexivity|].
      intros n Hn. unfold es in Hn. rewrite map_length in Hn. rewrite nth_map_lt with (d := 0%nat) by (rewrite seq_length; exact Hn).
      rewrite seq_nth by exact Hn. reflexivity. }
    rewrite E, map_map.
    enough (G : forall n k, (k <= ii < k + n)%nat -> f (e ii) * cprod (map (fun x => f (e x)) (filter (fun j => negb (Nat.eqb j ii)) (seq k n))) = cprod (map (fun x => f (e x)) (seq k n)) ).
    { apply G. lia. }
    assert (Z : forall n k, (ii < k)%nat -> filter (fun j => negb (Nat.eqb j ii)) (seq k n) = seq k n).
    { induction n as [|n IH]; intros k Hk; [reflexivity|]. cbn [seq filter]. destruct (Nat.eqb_spec k ii); [lia|]. cbn [negb]. f_equal. apply IH. lia. }
    induction n as [|n IH]; intros k Hk; [lia|]. cbn [seq filter]. destruct (Nat.eqb_spec k ii) as [->|N]; cbn [negb].
    - rewrite Z by lia. reflexivity.
    - cbn [map cprod fold_right]. fold (cprod (map (fun x => f (e x)) (seq (S k) n))).
      fold (cprod (map (fun x => f (e x)) (filter (fun j => negb (Nat.eqb j ii)) (seq (S k) n)))). rewrite <- (IH (S k)) by lia. ring.
  Qed.

  (** b before padding. *)
  Lemma imp_b : (0 < length r)%nat -> exists b, 
    fold_left (fun b ii => b_add b (map (Cmult (nth ii r (RtoC 0))) (others t (length r) p ii))) (seq 0 (length r)) None = Some b /\
    length b = length r /\
    forall w, pe b w = csum (map (fun i => nth i r 0 * cprod (map (fun z => 1 - z * w) (skip i))) (seq 0 (length r))).
  Proof.
    intros Hr.
    assert (L : forall i, (i < length r)%nat -> length (map (Cmult (nth i r (RtoC 0))) (others t (length r) p i)) = length r).
    { intros i Hi. rewrite map_length, others_poly, cpoly_length, skip_length; lia. }
    assert (P2 : forall x y w, length x = length y -> pe (map2 Cplus x y) w = pe x w + pe y w).
    { induction x as [|a x IH]; intros [|b y] w Hxy; try discriminate; cbn [map2 pe]; [ring|]. rewrite IH by (injection Hxy; auto). ring. }
    enough (G : forall n k b0, (k + n <= length r)%nat -> length b0 = length r ->
      exists b, fold_left (fun b ii => b_add b (map (Cmult (nth ii r (RtoC 0))) (others t (length r) p ii))) (seq k n) (Some b0) = Some b /\
      length b = length r /\
      forall w, pe b w = pe b0 w + csum (map (fun i => nth i r 0 * cprod (map (fun z => 1 - z * w) (skip i))) (seq k n))).
    { pose proof (others_poly 0) as OP. destruct (length r) as [|m] eqn:Em; [lia|]. cbn [seq fold_left b_add].
      set (x0 := map (Cmult (nth 0 r (RtoC 0))) (others t (S m) p 0)).
      assert (E0 : map (Cplus (RtoC 0)) x0 = x0). { rewrite <- (map_id x0) at 2. apply map_ext. intros z. ring. }
      rewrite E0. destruct (G m 1%nat x0) as (b & H1 & H2 & H3); [lia|unfold x0; apply L; lia|].
      exists b. split; [exact H1|]. split; [exact H2|]. intros w. rewrite H3. cbn [map csum fold_right].
      f_equal. unfold x0. rewrite OP, pe_scale, pe_cpoly. reflexivity. }
    induction n as [|n IH]; intros k b0 Hk Hb.
    - exists b0. cbn. split; [reflexivity|]. split; [exact Hb|]. intros w. ring.
    - cbn [seq fold_left b_add]. destruct (IH (S k) (map2 Cplus b0 (map (Cmult (nth k r (RtoC 0))) (others t (length r) p k)))) as (b & H1 & H2 & H3).
      + lia.
      + rewrite length_map2. rewrite L by lia. lia.
      + exists b. split; [exact H1|]. split; [exact H2|]. intros w. rewrite H3, P2 by (rewrite L by lia; exact Hb).
        rewrite others_poly, pe_scale, pe_cpoly. cbn [map csum fold_right].
        fold (csum (map (fun i => nth i r 0 * cprod (map (fun z => 1 - z * w) (skip i))) (seq (S k) n))). ring.
  Qed.
  (** Partial fractions. *)
  Lemma imp_fraction w : (0 < length r)%nat -> (forall z, In z es -> 1 - z * w <> 0) ->
    csum (map (fun i => nth i r 0 * cprod (map (fun z => 1 - z * w) (skip i))) (seq 0 (length r)))
    = cprod (map (fun z => 1 - z * w) es) * csum (map (fun rp => fst rp / (1 - imp t (snd rp) * w)) (combine r p)).
  Proof.
    intros Hr Hz.
    assert (E : map (fun rp => fst rp / (1 - imp t (snd rp) * w)) (combine r p) = map (fun i => nth i r 0 / (1 - e i * w)) (seq 0 (length r))).
    { apply nth_ext with (d := 0) (d' := 0); [rewrite !map_length, combine_length, seq_length; lia|].
      intros n Hn. rewrite map_length, combine_length in Hn.
      rewrite nth_map_lt with (d := (RtoC 0, RtoC 0)) by (rewrite combine_length; lia).
      rewrite nth_map_lt with (d := 0%nat) by (rewrite seq_length; lia). rewrite seq_nth by lia.
      rewrite combine_nth by exact Hl. cbn [fst snd]. rewrite e_imp by lia. reflexivity. }
    rewrite E. assert (S : forall k l, k * csum l = csum (map (Cmult k) l)).
    { intros k l. unfold csum. induction l as [|x l IH]; cbn [map fold_right]; [ring|]. rewrite <- IH. ring. }
    rewrite S, map_map. f_equal. apply map_ext_in. intros i Hi. apply in_seq in Hi.
    rewrite <- (prod_skip (fun z => 1 - z * w) i) by lia. field. apply Hz. unfold e. apply nth_In. unfold es. rewrite map_length. lia.
  Qed.
End Imp.
