(** Properties C18, C110 and C111: IirFilter design by constraints, stability of
    every designed filter, and what the bilinear option of ZTransform realises. *)
From Coq Require Import String List Arith ZArith Bool Reals Lra Lia Permutation.
From Coquelicot Require Import Complex.
From Verif Require Import Base BaseLemmas PyString Instances FirModel FirSpec FirDesignProofs PolyC ZModel ZProofs ZProps IirDesignProofs.
Import ListNotations.
Set Asymmetric Patterns.
Open Scope R_scope.
Open Scope C_scope.

(** ** Specification *)
Definition iir_invalid (style : string) (frequency : R) (order count : Z) : Prop :=
  (~ exists t, In t ["bessel"; "butterworth"; "chebyshev"]%string /\ py_lower style = t) \/
  (frequency <= 0)%R \/ (1 <= frequency)%R \/ (order <= 0)%Z \/ (count <= 0)%Z.

(** What the root finder and the residue routine are asked during a design, and
    the contract: they return the roots of the prototype. *)
Definition unit_last (l : list R) : list R := map (fun x => (x / last l 0)%R) l.
Definition proto_poles (roots : list R -> list C) (residue : list R -> list R -> list C * list C) (style : string) (order : nat) : list C :=
  let u := mkZ true DFloat (unit_last (prototype style order)) in
  s_poles roots residue (negb (String.eqb style "Bessel")) u (mkZ false DFloat [1%R]).
Definition poles_found roots residue (style : string) (order : nat) : Prop :=
  let u := mkZ true DFloat (unit_last (prototype style order)) in
  is_roots (prototype style order) (proto_poles roots residue style order) /\
  (style = "Bessel"%string -> length (fst (residue (asked_v u (mkZ false DFloat [1%R])) (asked_u u))) = length (proto_poles roots residue style order)).

(** ** One candidate *)
Lemma last_map (f : R -> R) l : l <> [] -> last (map f l) 0%R = f (last l 0%R).
Proof.
  induction l as [|x l IH]; [congruence|]. intros _. destruct l as [|y l]; [reflexivity|].
  change (last (f x :: map f (y :: l)) 0%R = f (last (y :: l) 0%R)). cbn [map]. cbn [map] in IH. rewrite <- IH by discriminate. reflexivity.
Qed.
Lemma In_last (l : list R) : l <> [] -> In (last l 0%R) l.
Proof.
  induction l as [|x l IH]; [congruence|]. intros _. destruct l as [|y l]; [left; reflexivity|]. right. apply IH. discriminate.
Qed.
Lemma pv_unit_last l s : last l 0%R <> 0%R -> pv (unit_last l) s = pv l s / RtoC (last l 0%R).
Proof.
  intros H. unfold unit_last, pv. rewrite <- (horner_div l (last l 0%R) 0 s H). f_equal. unfold Cdiv. ring.
Qed.
Lemma unit_last_ok style order : (0 < order)%nat ->
  zempty (mkZ true DFloat (unit_last (prototype style order))) = false.
Proof.
  intros Ho. pose proof (prototype_length style order Ho) as L. pose proof (prototype_last style order Ho) as N.
  unfold zempty. cbn [zels]. unfold unit_last. rewrite map_length, L. cbn [Nat.eqb orb].
  destruct (forallb isz _) eqn:E; [|reflexivity]. exfalso. rewrite forallb_forall in E.
  set (l := prototype style order) in *. assert (Hne : l <> []) by (intros C; rewrite C in L; discriminate).
  specialize (E (last (map (fun x => (x / last l 0)%R) l) 0%R)).
  assert (I : In (last (map (fun x => (x / last l 0)%R) l) 0%R) (map (fun x => (x / last l 0)%R) l)).
  { apply In_last. intros C. apply map_eq_nil in C. auto. }
  apply E in I. apply isz_iff in I. rewrite last_map in I by exact Hne. unfold Rdiv in I. rewrite Rinv_r in I by exact N. lra.
Qed.

Definition scaled_binomials (n : nat) (g : R) (b : list R) : Prop :=
  length b = S n /\ forall k, nth k b 0%R = (g * INR (binom n k))%R.

Lemma eval_binomials roots residue style f order u v : iir_evaluate roots residue style f order = Ok (u, v) ->
  (exists u', u = 0%R :: u') /\ scaled_binomials order ((1 - tot u) / 2 ^ order) v.
Proof.
  unfold iir_evaluate. destruct (z_transform _ _ _ _ _ _) as [[u0 v0] r] eqn:E. destruct r as [[a ob]|]; cbn [rmap fst]; [|discriminate].
  intros H. injection H as <- <-. split; [exact (proj1 (C64_z_unit_dc _ _ _ _ _ _ _ _ _ _ E))|].
  fold (ones_poly order). rewrite !tot_rsuml, tot_ones_poly. split; [rewrite map_length, length_ones_poly; reflexivity|].
  intros k. rewrite (nth_map_scale (fun x => (x * ((1 - tot a) / 2 ^ order))%R)) by ring. rewrite nth_ones_poly. ring.
Qed.

Theorem C18_iir_candidate roots residue style order f : (0 < order)%nat -> (0 < f)%R -> poles_found roots residue style order ->
  let poles := proto_poles roots residue style order in
  exists u v, iir_evaluate roots residue style f order = Ok (u, v) /\
    (forall w, den u w = fold_right (fun p acc => (1 - z_of (negb (String.eqb style "Bessel")) f p * w) * acc) 1 poles) /\
    length poles = order /\ (forall p, In p poles -> (fst p < 0)%R) /\
    scaled_binomials order ((1 - tot u) / 2 ^ order) v.
Proof.
  intros Ho Hf [Hp Hl] poles. set (uz := mkZ true DFloat (unit_last (prototype style order))) in *.
  set (vz := mkZ false DFloat [1%R]) in *. set (bl := negb (String.eqb style "Bessel")).
  pose proof (prototype_last style order Ho) as N. pose proof (prototype_hurwitz style order Ho) as Hz.
  pose proof (prototype_length style order Ho) as L.
  assert (Ru : is_roots (zels uz) poles).
  { destruct Hp as (k & Hk & Hp). exists (k / last (prototype style order) 0)%R. split.
    - unfold Rdiv. intros Q. apply Rmult_integral in Q. destruct Q as [Q|Q]; [exact (Hk Q)|]. apply Rinv_neq_0_compat in N. auto.
    - intros s. unfold uz. cbn [zels]. rewrite pv_unit_last by exact N. rewrite Hp. unfold Rdiv. rewrite RtoC_mult, RtoC_inv by exact N. unfold Cdiv. fold poles. ring. }
  assert (Hn : bl = true -> pv (zels uz) (bil_pole f) <> 0).
  { intros _ Q. unfold uz in Q. cbn [zels] in Q. rewrite pv_unit_last in Q by exact N.
    assert (Q2 : pv (prototype style order) (bil_pole f) = 0).
    { transitivity (pv (prototype style order) (bil_pole f) / RtoC (last (prototype style order) 0%R) * RtoC (last (prototype style order) 0%R)).
      - field. intros C. apply RtoC_inj in C. auto.
      - rewrite Q. ring. }
    apply Hz in Q2. unfold bil_pole in Q2. cbn [fst RtoC] in Q2. pose proof PI_RGT_0.
    assert (0 < 2 / (PI * f))%R by (apply Rdiv_lt_0_compat; nra). lra. }
  assert (Lp : length poles = order).
  { (* degree comparison: leading coefficients *)
    destruct Hp as (k & Hk & Hp). fold poles in Hp.
    assert (E2 : forall s, pvC (map RtoC (prototype style order)) s = pvC (map (Cmult (RtoC k)) (cpoly poles)) s).
    { intros s. rewrite <- pv_pvC, Hp, pvC_scale, pvC_cpoly, fold_cprod. reflexivity. }
    assert (L1 : (S (length poles) <= S order)%nat).
    { pose proof (degree_le (map RtoC (prototype style order)) (map (Cmult (RtoC k)) (cpoly poles))) as D.
      rewrite !map_length, cpoly_length, L in D. apply D; [|exact E2]. destruct (cpoly_cons poles) as [r ->]. cbn [map hd].
      intros C. apply Hk. apply RtoC_inj. rewrite <- C. ring. }
    assert (L2 : (S order <= S (length poles))%nat); [|lia].
    pose proof (degree_le (map (Cmult (RtoC k)) (cpoly poles)) (map RtoC (prototype style order))) as D.
    rewrite !map_length, cpoly_length, L in D. apply D; [|intros s; symmetry; apply E2]. destruct (prototype style order) as [|x l] eqn:Ep; [discriminate|]. pose proof (prototype_monic style order) as M. rewrite Ep in M. cbn in M |- *. subst x. intros C. apply RtoC_inj in C. lra. }
  assert (Neg : forall p, In p poles -> (fst p < 0)%R).
  { intros p Hin. apply Hz. apply (is_roots_In _ _ p Hp). exact Hin. }
  destruct (C68_z_accepts roots residue uz vz f bl) as (u' & v' & a & ob & E).
  { intros [Q|[Q|Q]].
    - pose proof (unit_last_ok style order Ho) as Z. fold uz in Z. apply zempty_iff in Q. congruence.
    - apply zempty_iff in Q. unfold vz, zempty in Q. cbn in Q. destruct (isz 1) eqn:Z; [apply isz_iff in Z; lra|discriminate].
    - lra. }
  { reflexivity. }
  { reflexivity. }
  { assert (Pn : poles <> []) by (intros C; rewrite C in Lp; cbn in Lp; lia). unfold poles, proto_poles, s_poles in Pn. fold uz vz bl in Pn. destruct bl eqn:Eb; [exact Pn|].
    intros C. apply Pn. assert (Es : style = "Bessel"%string) by (apply String.eqb_eq; unfold bl in Eb; destruct (String.eqb style "Bessel"); [reflexivity|discriminate]).
    specialize (Hl Es). rewrite C in Hl. unfold proto_poles, s_poles in Hl. fold uz vz bl in Hl. rewrite Eb in Hl. destruct (snd (residue (asked_v uz vz) (asked_u uz))); [reflexivity|discriminate]. }
  unfold iir_evaluate. fold (unit_last (prototype style order)). fold uz vz bl. rewrite E. cbn [rmap fst].
  eexists. eexists. split; [reflexivity|]. split; [|split; [exact Lp|split; [exact Neg|]]].
  - apply (C66_z_poles _ _ _ _ _ _ _ _ _ _ E); [exact Ru|exact Hn|]. intros Hb. apply Hl. unfold bl in Hb. apply String.eqb_eq. destruct (String.eqb style "Bessel"); [reflexivity|discriminate].
  - assert (Ev : iir_evaluate roots residue style f order = Ok (a, map (fun x => (x * ((1 - rsuml a) / rsuml (ones_poly order)))%R) (ones_poly order))).
    { unfold iir_evaluate. fold (unit_last (prototype style order)). fold uz vz bl. rewrite E. reflexivity. }
    exact (proj2 (eval_binomials _ _ _ _ _ _ _ Ev)).
Qed.
Print Assumptions C18_iir_candidate.

(** ** Rejection *)
Lemma iir_style_iff style :
  mem_str (py_title style) iir_STYLE = true <->
  exists t, In t ["bessel"; "butterworth"; "chebyshev"]%string /\ py_lower style = t.
Proof.
  assert (T : forall t, In t iir_STYLE -> py_title t = t) by (cbn; intros t [<-|[<-|[<-|[]]]]; reflexivity).
  rewrite (mem_title_iff _ _ T). split.
  - intros (t & Hin & E). exists (py_lower style). split; [|reflexivity]. rewrite E.
    cbn in Hin. destruct Hin as [<-|[<-|[<-|[]]]]; cbn; tauto.
  - intros (t & Hin & E). cbn in Hin.
    destruct Hin as [<-|[<-|[<-|[]]]]; rewrite E;
      [exists "Bessel"%string|exists "Butterworth"%string|exists "Chebyshev"%string];
      (split; [cbn; tauto|reflexivity]).
Qed.

Theorem C18_iir_design_rejects roots residue eps style frequency order count complement gain :
  iir_invalid style frequency order count ->
  iir_design roots residue eps style frequency order count complement gain = Err ValueError.
Proof.
  intros H. unfold iir_design.
  destruct (mem_str (py_title style) iir_STYLE) eqn:Es; cbn [negb]; [|reflexivity].
  destruct H as [H|H]; [exfalso; apply H; apply iir_style_iff; exact Es|].
  destruct (Rleb frequency 0) eqn:E1; [reflexivity|].
  destruct (Rleb 1 frequency) eqn:E2; [reflexivity|]. cbn [orb].
  destruct (Z.leb_spec order 0) as [E3|E3]; [reflexivity|].
  destruct (Z.leb_spec count 0) as [E4|E4]; [reflexivity|].
  exfalso. destruct H as [H|[H|[H|H]]]; try lia.
  - apply Rleb_iff in H. congruence.
  - apply Rleb_iff in H. congruence.
Qed.
Print Assumptions C18_iir_design_rejects.

(** ** What a successful design returns *)
Lemma search_some {V} (cand : R -> option V) err eps tol rate fuel : (0 < eps)%R -> forall scale best v m,
  (0 < scale)%R -> @fir_search RO V cand err eps tol rate fuel scale best = Ok (Some (v, m)) ->
  best = Some (v, m) \/ exists s, (0 < s)%R /\ cand s = Some v.
Proof.
  intros He. induction fuel as [|fuel IH]; intros scale best v m Hs H; [cbn [fir_search] in H; injection H as ->; left; reflexivity|].
  cbn [fir_search] in H. destruct (cand scale) as [w|] eqn:Ec; [|discriminate].
  rewrite omax_RO in H. assert (Hn : (0 < Rmax (@add RO scale (@mul RO rate (err w))) eps)%R) by (eapply Rlt_le_trans; [exact He|apply Rmax_r]).
  destruct (match best with Some (_, error) => @oltb RO (@oabs RO (err w)) error | None => @oltinf RO (@oabs RO (err w)) end).
  - destruct (@oltb RO (@oabs RO (err w)) tol).
    + injection H as <- <-. right. exists scale. auto.
    + apply IH in H; [|exact Hn]. destruct H as [H|H]; [|right; exact H]. injection H as <- <-. right. exists scale. auto.
  - apply IH in H; [|exact Hn]. destruct H as [H|H]; [left; exact H|right; exact H].
Qed.

(** The list with every other sign flipped. *)
Lemma pe_alternate l w : pe (map RtoC (alternate l)) w = pe (map RtoC l) (- w).
Proof.
  assert (G : forall l k w, pe (map RtoC (map (fun p => (snd p * fst p)%R) (combine (map sgn (seq k (length l))) l))) w = RtoC (sgn k) * pe (map RtoC l) (- w)).
  { induction l0 as [|x l0 IH]; intros k w0; cbn [length seq map combine pe]; [ring|]. rewrite IH. cbn [fst snd]. unfold sgn. cbn [pow]. rewrite !RtoC_mult.
    replace (RtoC (-1)) with (- RtoC 1) by (rewrite <- RtoC_opp; reflexivity). ring. }
  assert (E : alternate l = map (fun p => (snd p * fst p)%R) (combine (map sgn (seq 0 (length l))) l)).
  { apply nth_ext with (d := 0%R) (d' := 0%R); [rewrite length_alternate, map_length, combine_length, map_length, seq_length; lia|].
    intros i Hi. rewrite length_alternate in Hi. rewrite nth_alternate.
    rewrite nth_map_lt with (d := (0%R, 0%R)) by (rewrite combine_length, map_length, seq_length; lia).
    rewrite combine_nth by (rewrite map_length, seq_length; reflexivity). cbn [fst snd].
    rewrite nth_map_lt with (d := 0%nat) by (rewrite seq_length; exact Hi). rewrite seq_nth by exact Hi. cbn [Nat.add]. ring. }
  rewrite E, G. unfold sgn. cbn [pow]. ring.
Qed.
Lemma den_alternate a w : den (alternate a) w = den a (- w).
Proof. unfold den. rewrite pe_alternate. reflexivity. Qed.
Lemma tot_alternate2 l : tot (alternate (alternate l)) = tot l.
Proof. apply RtoC_inj. rewrite <- !pe_one_tot, !pe_alternate. f_equal. ring. Qed.
Lemma den_neg_one a : den a (-(1)) = RtoC (1 - tot (alternate a)).
Proof. rewrite <- den_one, den_alternate. f_equal. Qed.

(** The last steps of the design. *)
Definition finish (complement : bool) (gain : R) (a b : list R) : res (list R * list R) :=
  let '(a, b) :=
    if complement
    then let a1 := alternate a in
         let b1 := alternate b in
         let d := (rsuml (alternate b1) / rsuml (alternate (1%R :: map Ropp (tl a1))))%R in
         (a1, map (fun c => (c / d)%R) b1)
    else (a, b) in
  Ok (a, map (fun c => (c * gain)%R) b).
Lemma finish_spec (complement : bool) gain u v : (exists u', u = 0%R :: u') ->
  exists a b, finish complement gain u v = Ok (a, b) /\
    a = (if complement then alternate u else u) /\ length b = length v /\
    forall k, nth k b 0%R = (if complement then gain * (sgn k * nth k v 0) / (tot v / (1 - tot u)) else gain * nth k v 0)%R.
Proof.
  intros [u' Hu]. unfold finish. destruct complement; eexists; eexists; (split; [reflexivity|]); (split; [reflexivity|]).
  - split; [rewrite !map_length, length_alternate; reflexivity|]. intros k.
    rewrite (nth_map_scale (fun c => (c * gain)%R)) by ring. rewrite (nth_map_scale (fun c => (c / _)%R)) by (unfold Rdiv; ring).
    rewrite nth_alternate. rewrite !tot_rsuml, tot_alternate2.
    assert (D : tot (alternate (1%R :: map Ropp (tl (alternate u)))) = (1 - tot u)%R).
    { apply RtoC_inj. rewrite <- pe_one_tot, pe_alternate, <- den_one.
      assert (A1 : alternate u = 0%R :: tl (alternate u)).
      { rewrite Hu. unfold alternate at 1 2. cbn [length seq combine map tl fst snd]. f_equal. unfold sgn. ring. }
      assert (Op : forall l w, pe (map RtoC (map Ropp l)) w = - pe (map RtoC l) w).
      { clear. induction l as [|x l IH]; intros w; cbn [map pe]; [ring|]. rewrite IH, RtoC_opp. ring. }
      cbn [map pe]. rewrite Op. unfold den.
      assert (P : pe (map RtoC u) 1 = - (1) * pe (map RtoC (tl (alternate u))) (- (1))).
      { transitivity (pe (map RtoC (alternate u)) (- (1))); [rewrite pe_alternate; f_equal; ring|]. rewrite A1 at 1. cbn [map pe]. ring. }
      rewrite P. ring. }
    rewrite D. unfold Rdiv. ring.
  - split; [rewrite map_length; reflexivity|]. intros k. rewrite (nth_map_scale (fun c => (c * gain)%R)) by ring. ring.
Qed.

(** The design, unfolded: the result is a candidate (u, v), as it is or rotated. *)
Lemma design_ok roots residue eps style frequency order count (complement : bool) gain a b : (0 < eps)%R ->
  iir_design roots residue eps style frequency order count complement gain = Ok (a, b) ->
  (0 < frequency < 1)%R /\ (0 < order)%Z /\ (0 < count)%Z /\ mem_str (py_title style) iir_STYLE = true /\
  exists s u v, (0 < s)%R /\
    iir_evaluate roots residue (py_title style) (s * if complement then 1 - frequency else frequency) (Z.to_nat order) = Ok (u, v) /\
    a = (if complement then alternate u else u) /\ length b = length v /\
    forall k, nth k b 0%R = (if complement then gain * (sgn k * nth k v 0) / (tot v / (1 - tot u)) else gain * nth k v 0)%R.
Proof.
  intros He H. unfold iir_design in H.
  destruct (mem_str (py_title style) iir_STYLE) eqn:Es; cbn [negb] in H; [|discriminate].
  destruct (Rleb frequency 0) eqn:E1; [discriminate|]. destruct (Rleb 1 frequency) eqn:E2; [discriminate|]. cbn [orb] in H.
  destruct (Z.leb_spec order 0) as [E3|E3]; [discriminate|]. destruct (Z.leb_spec count 0) as [E4|E4]; [discriminate|].
  assert (F1 : (0 < frequency)%R) by (apply Rnot_le_lt; intros C; apply Rleb_iff in C; congruence).
  assert (F2 : (frequency < 1)%R) by (apply Rnot_le_lt; intros C; apply Rleb_iff in C; congruence).
  split; [split; assumption|]. split; [exact E3|]. split; [exact E4|]. split; [reflexivity|].
  cbv zeta in H. destruct (fir_search _ _ _ _ _ _ _ _) as [[[[u v] m]|]|e] eqn:S; [|discriminate|discriminate].
  apply search_some in S; [|exact He|lra]. destruct S as [S|(s & Hs & Hc)]; [discriminate|].
  destruct (iir_evaluate _ _ _ _ _) as [uv|] eqn:Ev in Hc; [|discriminate]. injection Hc as ->.
  exists s, u, v. split; [exact Hs|]. split; [exact Ev|].
  destruct (finish_spec complement gain u v (proj1 (eval_binomials _ _ _ _ _ _ _ Ev))) as (a1 & b1 & E & F).
  change (finish complement gain u v = Ok (a, b)) in H. rewrite E in H. injection H as <- <-. exact F.
Qed.

Lemma binom_sum n w : pe (map RtoC (map (fun k => INR (binom n k)) (seq 0 (S n)))) w = cpow (1 + w) n.
Proof.
  assert (E : map (fun k => INR (binom n k)) (seq 0 (S n)) = ones_poly n).
  { apply nth_ext with (d := 0%R) (d' := 0%R); [rewrite map_length, seq_length, length_ones_poly; reflexivity|].
    intros i Hi. rewrite map_length, seq_length in Hi. rewrite nth_map_lt with (d := 0%nat) by (rewrite seq_length; exact Hi).
    rewrite seq_nth by exact Hi. rewrite nth_ones_poly. reflexivity. }
  rewrite E. unfold ones_poly. rewrite cpoly_real.
  2:{ unfold conj_closed. clear. induction n as [|n IH]; cbn [repeat map]; [constructor|]. rewrite <- RtoC_opp, Cconj_R. constructor. rewrite RtoC_opp. exact IH. }
  rewrite pe_cpoly. clear E. induction n as [|n IH]; cbn [repeat map cprod fold_right cpow]; [reflexivity|].
  fold (cprod (map (fun z => 1 - z * w) (repeat (- RtoC 1) n))). rewrite IH. ring.
Qed.
Lemma num_binomials n g b w : scaled_binomials n g b -> num b w = RtoC g * cpow (1 + w) n.
Proof.
  intros [L H]. assert (E : b = map (fun x => (x * g)%R) (map (fun k => INR (binom n k)) (seq 0 (S n)))).
  { apply nth_ext with (d := 0%R) (d' := 0%R); [rewrite !map_length, seq_length; exact L|]. intros i Hi. rewrite L in Hi. rewrite H.
    rewrite (nth_map_scale (fun x => (x * g)%R)) by ring. rewrite nth_map_lt with (d := 0%nat) by (rewrite seq_length; exact Hi). rewrite seq_nth by exact Hi. cbn [Nat.add]. ring. }
  rewrite E. unfold num. rewrite pe_RtoC_scale, binom_sum. reflexivity.
Qed.
Lemma cpow_2 n : cpow (1 + 1) n = RtoC (2 ^ n).
Proof. induction n as [|n IH]; cbn [cpow pow]; [reflexivity|]. rewrite IH, RtoC_mult. replace (RtoC 2) with (RtoC 1 + RtoC 1) by (rewrite <- RtoC_plus; f_equal; ring). reflexivity. Qed.

(** C18.  Whatever the root finder and the residue routine return: the gain at DC
    (w = 1; w = -1, Nyquist, with complement) is exactly [gain], and the numerator is
    a multiple of the binomial (1 + w)^order (of (1 - w)^order with complement). *)
Theorem C18_iir_design_gain roots residue eps style frequency order count (complement : bool) gain a b : (0 < eps)%R ->
  iir_design roots residue eps style frequency order count complement gain = Ok (a, b) ->
  let edge := if complement then - (1) else 1 in
  let n := Z.to_nat order in
  hd 1%R a = 0%R /\ length b = S n /\
  (den a edge <> 0 ->
    num b edge = RtoC gain * den a edge /\
    (forall k, RtoC (nth k b 0%R) = RtoC gain * den a edge / RtoC (2 ^ n) * cpow edge k * RtoC (INR (binom n k))) /\
    (forall w, num b w = RtoC gain * den a edge / RtoC (2 ^ n) * cpow (1 + edge * w) n)) /\
  (den a edge = 0 -> complement = false -> Forall (fun x => x = 0%R) b).
Proof.
  intros He H edge n. apply design_ok in H; [|exact He]. destruct H as (Hf & Ho & Hc & Hst & s & u & v & Hs & Ev & Ha & Lb & Hb).
  destruct (eval_binomials _ _ _ _ _ _ _ Ev) as [[u' Hu] Bv]. fold n in Ev, Bv.
  assert (De : den a edge = RtoC (1 - tot u)).
  { rewrite Ha. unfold edge. destruct complement; [rewrite den_alternate, <- den_one; f_equal; ring|apply den_one]. }
  assert (P2 : (0 < 2 ^ n)%R) by (apply pow_lt; lra).
  assert (Tv : tot v = (1 - tot u)%R).
  { apply RtoC_inj. rewrite <- pe_one_tot. change (num v 1 = RtoC (1 - tot u)). rewrite (num_binomials _ _ _ 1 Bv), cpow_2, <- RtoC_mult. f_equal. field. lra. }
  split; [rewrite Ha, Hu; destruct complement; [unfold alternate; cbn; ring|reflexivity]|].
  split; [rewrite Lb; apply Bv|]. split.
  - intros Nz. rewrite De in *. assert (N0 : (1 - tot u)%R <> 0%R) by (intros C; apply Nz; rewrite C; reflexivity).
    assert (Cs : forall k, RtoC (nth k b 0%R) = RtoC gain * RtoC (1 - tot u) / RtoC (2 ^ n) * cpow edge k * RtoC (INR (binom n k))).
    { assert (Ce : forall k, cpow edge k = RtoC (if complement then sgn k else 1)).
      { unfold edge. intros k. destruct complement; induction k as [|k IH]; cbn [cpow]; try reflexivity; rewrite IH.
        - unfold sgn. cbn [pow]. rewrite RtoC_mult. replace (RtoC (-1)) with (- RtoC 1) by (rewrite <- RtoC_opp; reflexivity). ring.
        - ring. }
      intros k. rewrite Ce. unfold Cdiv. rewrite <- RtoC_inv by lra. rewrite <- !RtoC_mult. f_equal. rewrite Hb, (proj2 Bv), Tv.
      destruct complement; field; lra. }
    assert (Nw : forall w, num b w = RtoC gain * RtoC (1 - tot u) / RtoC (2 ^ n) * cpow (1 + edge * w) n).
    { intros w. set (g := (gain * (1 - tot u) / 2 ^ n)%R).
      assert (G : RtoC gain * RtoC (1 - tot u) / RtoC (2 ^ n) = RtoC g) by (unfold g, Rdiv; rewrite !RtoC_mult, RtoC_inv by lra; reflexivity).
      rewrite G in *. rewrite <- (binom_sum n (edge * w)). unfold num.
      assert (Eb : map RtoC b = map (fun k => RtoC g * (cpow edge k * RtoC (INR (binom n k)))) (seq 0 (S n))).
      { apply nth_ext with (d := RtoC 0) (d' := RtoC 0); [rewrite !map_length, seq_length, Lb; apply Bv|]. intros i Hi. rewrite map_length, Lb, (proj1 Bv) in Hi.
        rewrite map_nth, Cs. rewrite nth_map_lt with (d := 0%nat) by (rewrite seq_length; exact Hi). rewrite seq_nth by exact Hi. cbn [Nat.add]. ring. }
      rewrite Eb. rewrite map_map. generalize (INR (binom n 0)). intros _.
      assert (Q : forall (h : nat -> C) l k0, l = seq k0 (length l) -> pe (map (fun k => RtoC g * (cpow edge k * h k)) l) w = RtoC g * cpow edge k0 * pe (map h l) (edge * w)).
      { intros h l. induction l as [|x l IH]; intros k0 El; cbn [map pe]; [ring|]. cbn [length seq] in El. injection El as -> El. rewrite (IH (S k0) El). cbn [cpow]. ring. }
      rewrite (Q (fun k => RtoC (INR (binom n k))) (seq 0 (S n)) 0%nat) by (rewrite seq_length; reflexivity). cbn [cpow]. ring. }
    split; [|split; assumption].
    rewrite Nw. replace (1 + edge * edge) with (1 + 1) by (unfold edge; destruct complement; ring). rewrite cpow_2. field. intros C. apply RtoC_inj in C. lra.
  - intros Nz ->. rewrite De in Nz. apply RtoC_inj in Nz. apply Forall_forall. intros x Hx. apply In_nth with (d := 0%R) in Hx. destruct Hx as (k & _ & <-).
    rewrite Hb, (proj2 Bv), Nz. unfold Rdiv. ring.
Qed.
Print Assumptions C18_iir_design_gain.

Lemma polyval_pv v x : polyval v x = pvC (map RtoC v) x.
Proof.
  unfold polyval. transitivity (horner v 0 x); [|rewrite horner_acc; ring]. generalize (RtoC 0). induction v as [|y v IH]; intros acc; cbn [fold_left horner]; [reflexivity|]. apply IH.
Qed.
Lemma Cmod_polyval v t : Cmod (polyval v (cis t)) = Cmod (pe (map RtoC v) (cis (- t))).
Proof.
  rewrite polyval_pv. generalize (map RtoC v). intros c.
  assert (U : cis t * cis (- t) = 1) by (rewrite <- cis_add; replace (t + - t)%R with 0%R by ring; apply cis_0).
  assert (E : cis t * pvC c (cis t) = cpow (cis t) (length c) * pe c (cis (- t))).
  { induction c as [|x c IH]; cbn [pvC pe length cpow]; [ring|].
    transitivity (x * (cis t * cpow (cis t) (length c)) + cis t * pvC c (cis t)); [ring|]. rewrite IH.
    transitivity (cis t * cpow (cis t) (length c) * x + cpow (cis t) (length c) * pe c (cis (- t)) * (cis t * cis (- t))); [rewrite U; ring|ring]. }
  apply (f_equal Cmod) in E. rewrite !Cmod_mult, Cmod_cis in E.
  assert (P : forall n, Cmod (cpow (cis t) n) = 1%R) by (induction n as [|n IH]; cbn [cpow]; [apply Cmod_1|rewrite Cmod_mult, Cmod_cis, IH; ring]).
  rewrite P in E. lra.
Qed.
Lemma Cmod_ratio a b c d : Cmod a = Cmod c -> Cmod b = Cmod d -> Cmod (a / b) = Cmod (c / d).
Proof.
  intros H1 H2. destruct (Ceq_dec b 0) as [->|Nb].
  - assert (d = 0) as -> by (apply Cmod_eq_0; rewrite <- H2; apply Cmod_0). unfold Cdiv. rewrite !Cmod_mult, H1. reflexivity.
  - assert (Nd : d <> 0) by (intros ->; apply Nb, Cmod_eq_0; rewrite H2; apply Cmod_0). rewrite !Cmod_div by assumption. rewrite H1, H2. reflexivity.
Qed.
Lemma polyval_ratio u v t : Cmod (polyval v (cis t) / polyval (1%R :: map Ropp u) (cis t)) = Cmod (num v (cis (- t)) / den (0%R :: u) (cis (- t))).
Proof.
  apply Cmod_ratio; rewrite Cmod_polyval; [reflexivity|]. f_equal. unfold den. cbn [map pe].
  assert (Op : forall l w, pe (map RtoC (map Ropp l)) w = - pe (map RtoC l) w).
  { clear. induction l as [|x l IH]; intros w; cbn [map pe]; [ring|]. rewrite IH, RtoC_opp. ring. }
  rewrite Op. ring.
Qed.
Lemma den_one_found roots residue style order f u v : (0 < order)%nat -> (0 < f)%R -> poles_found roots residue style order ->
  iir_evaluate roots residue style f order = Ok (u, v) -> (1 - tot u)%R <> 0%R /\ (forall z : C, z <> 0 -> den u (/ z) = 0 -> (Cmod z < 1)%R).
Proof.
  intros Ho Hf Hp Ev. destruct (C18_iir_candidate _ _ _ _ _ Ho Hf Hp) as (u1 & v1 & E & D & _ & Neg & _). rewrite Ev in E. injection E as <- <-.
  set (bl := negb (String.eqb style "Bessel")) in *.
  assert (Z1 : forall p, In p (proto_poles roots residue style order) -> (Cmod (z_of bl f p) < 1)%R).
  { intros p Hin. pose proof (Neg p Hin) as Np. apply z_of_stable; [exact Hf| |exact Np]. intros _ ->. unfold bil_pole in Np. cbn [fst RtoC] in Np.
    pose proof PI_RGT_0. assert (0 < 2 / (PI * f))%R by (apply Rdiv_lt_0_compat; nra). lra. }
  assert (Z2 : forall w, den u w = 0 -> exists p, In p (proto_poles roots residue style order) /\ z_of bl f p * w = 1).
  { intros w Q. rewrite D, fold_cprod in Q. apply cprod_zero in Q. destruct Q as (x & Hx & ->). apply in_map_iff in Hx. destruct Hx as (p & E & Hin).
    exists p. split; [exact Hin|]. transitivity (1 - (1 - z_of bl f p * w)); [ring|]. rewrite E. ring. }
  split.
  - intros Q. destruct (Z2 1) as (p & Hin & E); [rewrite den_one, Q; reflexivity|]. specialize (Z1 p Hin).
    rewrite Cmult_1_r in E. rewrite E, Cmod_1 in Z1. lra.
  - intros z Nz Q. destruct (Z2 _ Q) as (p & Hin & E). replace z with (z_of bl f p); [apply Z1, Hin|].
    transitivity (z_of bl f p * / z * z); [field; exact Nz|]. rewrite E. ring.
Qed.

(** C18.  With the contract of the root finder: the design never fails and is the
    first best candidate of the search. *)
Section Ext.
  Context {V : Type}.
  Variables (cand cand' : R -> option V) (err err' : V -> R) (eps tol rate : R).
  Hypothesis (He : (0 < eps)%R) (Hext : forall s, (0 < s)%R -> cand s = cand' s).
  Hypothesis (Herr : forall s v, (0 < s)%R -> cand s = Some v -> err v = err' v).
  Lemma search_ext fuel : forall scale best, (0 < scale)%R ->
    @fir_search RO V cand err eps tol rate fuel scale best = @fir_search RO V cand' err' eps tol rate fuel scale best.
  Proof.
    induction fuel as [|fuel IH]; intros scale best Hs; cbn [fir_search]; [reflexivity|].
    destruct (cand scale) as [v|] eqn:Ec; rewrite (Hext scale Hs) in Ec; rewrite Ec; [|reflexivity]. rewrite <- (Hext scale Hs) in Ec.
    rewrite (Herr scale v Hs Ec), omax_RO. rewrite !IH by (eapply Rlt_le_trans; [exact He|apply Rmax_r]). reflexivity.
  Qed.
  Lemma cand_err_ext s : (0 < s)%R -> cand_err cand err s = cand_err cand' err' s.
  Proof.
    intros Hs. unfold cand_err. destruct (cand s) as [v|] eqn:Ec; rewrite <- (Hext s Hs), Ec; [|reflexivity]. exact (Herr s v Hs Ec).
  Qed.
  Lemma scale_ext k : (0 < scale_at cand err eps rate k)%R /\ scale_at cand err eps rate k = scale_at cand' err' eps rate k.
  Proof.
    induction k as [|k [IH1 IH2]]; cbn [scale_at]; [split; [lra|reflexivity]|]. split; [eapply Rlt_le_trans; [exact He|apply Rmax_r]|].
    rewrite <- IH2, (cand_err_ext _ IH1). reflexivity.
  Qed.
  Lemma mag_ext k : mag_at cand err eps rate k = mag_at cand' err' eps rate k.
  Proof. unfold mag_at. destruct (scale_ext k) as [S1 S2]. rewrite <- S2, (cand_err_ext _ S1). reflexivity. Qed.
  Lemma best_ext limit n i v : best_of cand' err' eps rate limit tol n i v -> best_of cand err eps rate limit tol n i v.
  Proof.
    intros (H1 & H2 & H3 & H4 & H5 & H6). split; [exact H1|]. destruct (scale_ext i) as [S1 S2].
    split; [rewrite (Hext _ S1), S2; exact H2|].
    split; [intros j Hj; rewrite !mag_ext; apply H3, Hj|]. split; [intros j Hj; rewrite !mag_ext; apply H4, Hj|].
    split; [rewrite mag_ext; exact H5|]. intros j Hj. rewrite mag_ext. apply H6, Hj.
  Qed.
End Ext.

Theorem C18_iir_design_best roots residue eps style frequency order count (complement : bool) (gain : R) : (0 < eps)%R ->
  ~ iir_invalid style frequency order count ->
  poles_found roots residue (py_title style) (Z.to_nat order) ->
  let f := if complement then (1 - frequency)%R else frequency in
  let cand := fun scale => match iir_evaluate roots residue (py_title style) (scale * f) (Z.to_nat order) with Ok uv => Some uv | Err _ => None end in
  let err := fun uv : list R * list R => (/ sqrt 2 - Cmod (num (snd uv) (cis (- (PI * f))) / den (fst uv) (cis (- (PI * f))))%C ^ Z.to_nat count)%R in
  let rate := (if ((8 <? order) || ((6 <? order) && (1 <? count)))%Z%bool then 15 / 1000 else 30 / 1000)%R in
  exists u v n i a b,
    iir_design roots residue eps style frequency order count complement gain = Ok (a, b) /\
    best_of cand err eps rate 500 (10000 * eps) n i (u, v) /\
    (forall w, den a w = den u (if complement then - w else w)) /\
    (forall w, num b w = RtoC gain * num v (if complement then - w else w)).
Proof.
  intros He Hv Hp f cand err rate. unfold iir_design.
  destruct (mem_str (py_title style) iir_STYLE) eqn:Es; cbn [negb].
  2:{ exfalso. apply Hv. left. intros C. apply iir_style_iff in C. congruence. }
  destruct (Rleb frequency 0) eqn:E1; [exfalso; apply Hv; right; left; apply Rleb_iff; exact E1|].
  destruct (Rleb 1 frequency) eqn:E2; [exfalso; apply Hv; right; right; left; apply Rleb_iff; exact E2|].
  cbn [orb].
  destruct (Z.leb_spec order 0) as [E3|E3]; [exfalso; apply Hv; do 3 right; left; exact E3|].
  destruct (Z.leb_spec count 0) as [E4|E4]; [exfalso; apply Hv; do 4 right; exact E4|].
  cbv zeta. fold f.
  assert (F0 : (0 < f)%R).
  { assert (0 < frequency)%R by (apply Rnot_le_lt; intros C; apply Rleb_iff in C; congruence).
    assert (frequency < 1)%R by (apply Rnot_le_lt; intros C; apply Rleb_iff in C; congruence). unfold f. destruct complement; lra. }
  set (cand' := fun s => if Rltb 0 s then cand s else Some ([], [])).
  assert (Hc : forall s, cand' s <> None).
  { intros s. unfold cand'. destruct (Rltb 0 s) eqn:Q; [|discriminate]. apply Rltb_iff in Q. unfold cand.
    destruct (C18_iir_candidate roots residue (py_title style) (Z.to_nat order) (s * f)) as (u & v & -> & _); [lia|apply Rmult_lt_0_compat; assumption|exact Hp|discriminate]. }
  assert (Hx : forall s, (0 < s)%R -> cand s = cand' s) by (intros s Hs; unfold cand'; apply Rltb_iff in Hs; rewrite Hs; reflexivity).
  assert (Hr : forall s uv, (0 < s)%R -> cand s = Some uv -> err uv = iir_err f (Z.to_nat count) uv).
  { intros s [u v] _ Hs. unfold cand in Hs. destruct (iir_evaluate _ _ _ _ _) as [[u1 v1]|] eqn:Ev; [|discriminate].
    injection Hs as -> ->. apply eval_binomials in Ev. destruct Ev as [[u' ->] _].
    unfold err, iir_err. cbn [fst snd tl]. rewrite polyval_ratio. reflexivity. }
  destruct (search_correct cand' (iir_err f (Z.to_nat count)) eps (10000 * eps) (iir_rate order count) 500 0 None)
    as (uv & m & n & i & E & B).
  { exact Hc. }
  { split; [intros; lia|reflexivity]. }
  { lia. }
  change (scale_at cand' (iir_err f (Z.to_nat count)) eps (iir_rate order count) 0) with 1%R in E.
  rewrite <- (search_ext cand cand' (iir_err f (Z.to_nat count)) (iir_err f (Z.to_nat count))) in E by (auto; lra).
  rewrite Nat.add_0_r in B. apply (best_ext cand cand' err (iir_err f (Z.to_nat count))) in B; [|exact He|exact Hx|exact Hr].
  destruct uv as [u v]. change (fun scale : R => match iir_evaluate roots residue (py_title style) (scale * f) (Z.to_nat order) with Ok uv => Some uv | Err _ => None end) with cand.
  assert (Hrate : rate = iir_rate order count).
  { unfold rate, iir_rate. destruct (_ || _)%bool; field. }
  assert (Bi : exists s, (0 < s)%R /\ cand s = Some (u, v)).
  { exists (scale_at cand err eps (iir_rate order count) i). split; [|apply B]. apply (scale_ext cand cand' err (iir_err f (Z.to_nat count)) eps (iir_rate order count) He Hx Hr). }
  match type of E with ?lhs = _ =>
    match goal with |- context [@fir_search ?o ?V ?a ?b ?c ?d ?e ?n ?s ?m] =>
      change (@fir_search o V a b c d e n s m) with lhs end end.
  rewrite E. destruct Bi as (s & Hs & Hcs). unfold cand in Hcs.
  destruct (iir_evaluate _ _ _ _ _) as [[u1 v1]|] eqn:Ev in Hcs; [|discriminate]. injection Hcs as -> ->.
  destruct (eval_binomials _ _ _ _ _ _ _ Ev) as [Hu Bv].
  assert (Hon : (0 < Z.to_nat order)%nat) by lia.
  destruct (den_one_found _ _ _ _ _ _ _ Hon (Rmult_lt_0_compat _ _ Hs F0) Hp Ev) as [N1 _].
  destruct (finish_spec complement gain u v Hu) as (a & b & Ef & Ha & Lb & Hb).
  exists u, v, n, i, a, b. split; [exact Ef|]. split; [rewrite Hrate; exact B|]. split.
  - intros w. rewrite Ha. destruct complement; [apply den_alternate|reflexivity].
  - intros w. unfold num. assert (Tv : tot v = (1 - tot u)%R).
    { apply RtoC_inj. rewrite <- pe_one_tot. change (num v 1 = RtoC (1 - tot u)). rewrite (num_binomials _ _ _ 1 Bv), cpow_2, <- RtoC_mult. f_equal. field. apply pow_nonzero. lra. }
    assert (Eb : b = map (fun x => (x * gain)%R) (if complement then alternate v else v)).
    { apply nth_ext with (d := 0%R) (d' := 0%R); [rewrite Lb, map_length; destruct complement; rewrite ?length_alternate; reflexivity|].
      intros k _. rewrite Hb, (nth_map_scale (fun x => (x * gain)%R)) by ring. destruct complement; [|ring]. rewrite nth_alternate, Tv. field. exact N1. }
    rewrite Eb, pe_RtoC_scale. destruct complement; [rewrite pe_alternate|]; reflexivity.
Qed.
Print Assumptions C18_iir_design_best.

(** C110.  Every filter designed by constraints is stable: each root of its
    denominator lies strictly inside the unit circle. *)
Theorem C110_iir_design_stable roots residue eps style frequency order count (complement : bool) gain a b : (0 < eps)%R ->
  iir_design roots residue eps style frequency order count complement gain = Ok (a, b) ->
  poles_found roots residue (py_title style) (Z.to_nat order) ->
  (forall z : C, z <> 0 -> den a (/ z) = 0 -> (Cmod z < 1)%R) /\
  den a (if complement then - (1) else 1) <> 0.
Proof.
  intros He H Hp. apply design_ok in H; [|exact He]. destruct H as (Hf & Ho & Hc & Hst & s & u & v & Hs & Ev & Ha & Lb & Hb).
  assert (F0 : (0 < s * if complement then 1 - frequency else frequency)%R) by (apply Rmult_lt_0_compat; [exact Hs|destruct complement; lra]).
  assert (Hon : (0 < Z.to_nat order)%nat) by lia.
  destruct (den_one_found _ _ _ _ _ _ _ Hon F0 Hp Ev) as [N1 N2]. rewrite Ha. split.
  - intros z Nz Q. destruct complement; [|apply N2; assumption]. rewrite den_alternate in Q. rewrite <- Cmod_opp.
    assert (Nz' : - z <> 0) by (intros C; apply Nz; transitivity (- - z); [ring|rewrite C; ring]).
    apply N2; [exact Nz'|]. assert (Ei : / - z = - / z); [|rewrite Ei; exact Q].
    apply (Cmult_inj_l (- z)); [exact Nz'|]. transitivity (RtoC 1); [apply Cinv_r, Nz'|]. transitivity (z * / z); [symmetry; apply Cinv_r, Nz|ring].
  - destruct complement; [rewrite den_alternate; replace (- - (1)) with (RtoC 1) by ring|]; rewrite den_one; intros C; apply RtoC_inj in C; auto.
Qed.
Print Assumptions C110_iir_design_stable.

(** The contract is satisfiable: for every order the Butterworth roots are at unit
    distance, at the usual angles, and the Chebyshev roots are explicit. *)
Definition butter_pair (n i : nat) : list C :=
  [cis ((2 * INR i + INR n - 1) / (2 * INR n) * PI); cis (- ((2 * INR i + INR n - 1) / (2 * INR n) * PI))].
Definition butter_poles (n : nat) : list C :=
  flat_map (butter_pair n) (seq 1 (n / 2))
  ++ (if Nat.odd n then [- RtoC 1] else []).
Lemma butter_is_roots n : is_roots (butterworth n) (butter_poles n).
Proof.
  exists 1%R. split; [lra|]. intros s. rewrite (fold_cprod (fun p => s - p)). unfold butter_poles. rewrite map_app, cprod_app. unfold butterworth.
  set (B := fold_left _ _ _).
  assert (HB : pv B s = cprod (map (fun p => s - p) (flat_map (butter_pair n) (seq 1 (n / 2))))).
  { unfold B. enough (G : forall l a, a <> [] -> pv (fold_left (fun a ii => convR a (butter_factor n ii)) l a) s =
      pv a s * cprod (map (fun p => s - p) (flat_map (butter_pair n) l))).
    { rewrite G by discriminate. unfold pv at 1. cbn [horner]. ring. }
    induction l as [|i l IH]; intros a Ha; cbn [fold_left flat_map map cprod fold_right]; [ring|].
    rewrite IH by (apply conv_ne; [exact Ha|discriminate]). rewrite pv_convR by (exact Ha || discriminate).
    match goal with |- _ * ?X = _ => set (T := X) end. set (th := ((2 * INR i + INR n - 1) / (2 * INR n) * PI)%R).
    match goal with |- _ = pv a s * ?X => change X with ((s - cis th) * ((s - cis (- th)) * T)) end.
    assert (F : pv (butter_factor n i) s = (s - cis th) * (s - cis (- th))).
    { unfold butter_factor, pv. cbn [horner]. fold th.
      assert (U : cis th * cis (- th) = 1) by (rewrite <- cis_add; replace (th + - th)%R with 0%R by ring; apply cis_0).
      assert (S2 : RtoC (-2 * cos th) = - (cis th + cis (- th))) by (unfold cis, RtoC, Cplus, Copp; cbn [fst snd]; rewrite cos_neg, sin_neg; f_equal; ring).
      rewrite S2. transitivity (s * s - (cis th + cis (- th)) * s + cis th * cis (- th)); [rewrite U; ring|ring]. }
    rewrite F. ring. }
  destruct (Nat.odd n).
  - rewrite pv_convR; [|apply butter_ne; discriminate|discriminate]. rewrite HB. match goal with |- ?X * _ = _ => generalize X end. intros X. unfold pv. cbn [horner map cprod fold_right]. ring.
  - rewrite HB. match goal with |- ?X = _ => generalize X end. intros X. cbn [map cprod fold_right]. ring.
Qed.
Lemma cheby_is_roots n : is_roots (chebyshev n) (map (cheby_pole n) (seq 0 n)).
Proof. exists 1%R. split; [lra|]. intros s. rewrite (fold_cprod (fun p => s - p)), pv_chebyshev. ring. Qed.

Example C18_C110_example :
  (forall residue n, poles_found (fun _ => butter_poles n) residue "Butterworth" n) /\
  (forall residue n, poles_found (fun _ => map (cheby_pole n) (seq 0 n)) residue "Chebyshev" n) /\
  poles_found (fun _ => []) (fun _ _ => ([RtoC 1; RtoC 2], [((-3 / 2)%R, (sqrt 3 / 2)%R); ((-3 / 2)%R, (- (sqrt 3 / 2))%R)])) "Bessel" 2 /\
  py_title "bUtterWORTH" = "Butterworth"%string /\ ~ iir_invalid "bUtterWORTH" (1 / 10) 3 1.
Proof.
  split; [|split; [|split; [|split]]].
  - intros residue n. split; [exact (butter_is_roots n)|discriminate].
  - intros residue n. split; [exact (cheby_is_roots n)|discriminate].
  - split; [|reflexivity]. exists 1%R. split; [lra|]. intros [x y].
    assert (Q : (sqrt 3 * sqrt 3 = 3)%R) by (apply sqrt_sqrt; lra).
    cbn [proto_poles s_poles String.eqb Ascii.eqb Bool.eqb negb snd fold_right]. unfold pv, prototype, bessel. cbn.
    unfold Cplus, Cmult, Cminus, Copp, RtoC. cbn. f_equal; nra.
  - reflexivity.
  - intros [H|H].
    + apply H. exists "butterworth"%string. split; [cbn; tauto|reflexivity].
    + destruct H as [H|[H|[H|H]]]; try lia; lra.
Qed.

(** ** C111: what the bilinear option realises *)
(** With n poles and m zeros the response is that of the textbook bilinear
    transform s = (2 / (pi f)) (1 - w) / (1 + w), scaled to unit DC gain, divided by
    ((1 + w) / 2)^(n - m): the n - m zeros the textbook transform puts at z = -1
    are put at z = 0. *)
Lemma bil_factor f s w p : (0 < f)%R -> 2 - RtoC (PI * f) * p <> 0 -> RtoC (PI * f) * (s * (1 + w)) = (1 + 1) * (1 - w) ->
  1 - z_of true f p * w = (1 + w) * (RtoC (PI * f) / (2 - RtoC (PI * f) * p)) * (s - p).
Proof.
  intros Hf Hn Hs. cbn [z_of]. set (c := RtoC (PI * f)) in *.
  assert (T : RtoC 2 = RtoC 1 + RtoC 1) by (rewrite <- RtoC_plus; f_equal; ring). rewrite T in *.
  apply (Cmult_inj_l (1 + 1 - c * p)); [exact Hn|].
  transitivity ((1 + 1) * (1 - w) - c * p * (1 + w)); [field; exact Hn|]. rewrite <- Hs. field. exact Hn.
Qed.
Lemma bil_factors f s w ps : (0 < f)%R -> (forall p, In p ps -> p <> bil_pole f) -> RtoC (PI * f) * (s * (1 + w)) = (1 + 1) * (1 - w) ->
  cprod (map (fun p => 1 - z_of true f p * w) ps) =
  cpow (1 + w) (length ps) * cprod (map (fun p => RtoC (PI * f) / (2 - RtoC (PI * f) * p)) ps) * cprod (map (fun p => s - p) ps).
Proof.
  intros Hf Hn Hs. induction ps as [|p ps IH]; [cbn [map cprod fold_right length cpow]; ring|].
  assert (C : forall (g : C -> C) x l, cprod (map g (x :: l)) = g x * cprod (map g l)) by reflexivity. rewrite !C. cbn [length cpow].
  rewrite IH by (intros q Hq; apply Hn; right; exact Hq). rewrite (bil_factor f s w p Hf); [ring| |exact Hs].
  intros Q. apply (Hn p); [left; reflexivity|]. assert (Hp : (0 < PI * f)%R) by (apply Rmult_lt_0_compat; [apply PI_RGT_0|exact Hf]).
  unfold bil_pole. apply (Cmult_inj_l (RtoC (PI * f))); [intros Q2; apply RtoC_inj in Q2; lra|].
  rewrite <- RtoC_mult. replace (PI * f * (2 / (PI * f)))%R with 2%R by (field; split; [lra|pose proof PI_RGT_0; lra]).
  transitivity (2 - (2 - RtoC (PI * f) * p)); [ring|]. rewrite Q. ring.
Qed.

Theorem C111_z_bilinear_response roots residue u v f u' v' a b :
  z_transform roots residue u v f true = (u', v', Ok (a, Some b)) ->
  is_roots (zels u) (roots (asked_u u)) -> is_roots (zels v) (roots (asked_v u v)) ->
  pv (zels u) (bil_pole f) <> 0 -> pv (zels v) (bil_pole f) <> 0 ->
  let n := length (roots (asked_u u)) in let m := length (roots (asked_v u v)) in
  forall w : C, 1 + w <> 0 -> (m <= n)%nat ->
  let s := RtoC (2 / (PI * f)) * ((1 - w) / (1 + w)) in
  num b w * cpow ((1 + w) / (1 + 1)) (n - m) * (pv (zels u) s * pv (zels v) 0) =
  den a w * (pv (zels v) s * pv (zels u) 0).
Proof.
  intros H Hu Hv Np Nz n m w Hw Hmn s.
  pose proof (C66_z_poles roots residue u v f true _ _ _ _ H Hu (fun _ => Np) ltac:(discriminate)) as D.
  pose proof (C64_z_unit_dc roots residue u v f true _ _ _ _ H) as [_ Dc]. specialize (Dc b eq_refl).
  apply z_ok in H. destruct H as (Hf & _ & _ & A & B & H & E). apply bil_ok in H. destruct H as (_ & _ & EB).
  assert (Ez : snd (z_normal (A, B)) = Some b) by (rewrite E; reflexivity).
  assert (Eb : exists k, b = map (fun x => (x * k)%R) B).
  { unfold z_normal in Ez. cbn [snd] in Ez. destruct (isz (rsuml B)); [discriminate|]. injection Ez as <-. eexists. reflexivity. }
  destruct Eb as [k Eb]. set (ps := roots (asked_u u)) in *. set (zs := roots (asked_v u v)) in *.
  assert (Pp : forall p, In p ps -> p <> bil_pole f) by (intros p Hp Q; apply Np; apply (is_roots_In _ _ _ Hu); subst p; exact Hp).
  assert (Pz : forall p, In p zs -> p <> bil_pole f) by (intros p Hp Q; apply Nz; apply (is_roots_In _ _ _ Hv); subst p; exact Hp).
  assert (Nm : forall x, num b x = RtoC k * cprod (map (fun z => 1 - z_of true f z * x) zs)).
  { intros x. rewrite Eb. unfold num. rewrite pe_RtoC_scale, EB, cpoly_real.
    2:{ apply conj_closed_app; [|apply conj_closed_zeros]. apply conj_closed_map; [apply bil_conj|apply (is_roots_conj _ _ Hv)]. }
    rewrite pe_cpoly, map_app, cprod_app, map_map. rewrite (cprod_ones (map _ (repeat (RtoC 0) _))).
    2:{ rewrite Forall_forall. intros y Hy. apply in_map_iff in Hy. destruct Hy as (y' & <- & Hy). apply repeat_spec in Hy. subst y'. ring. }
    rewrite Cmult_1_r. f_equal. f_equal. apply map_ext_in. intros z Hz. rewrite z_of_eq; [reflexivity|exact Hf|]. intros _. apply Pz, Hz. }
  assert (Hpf : (0 < PI * f)%R) by (apply Rmult_lt_0_compat; [apply PI_RGT_0|exact Hf]).
  assert (Hs : RtoC (PI * f) * (s * (1 + w)) = (1 + 1) * (1 - w)).
  { unfold s. replace (2 / (PI * f))%R with (2 * / (PI * f))%R by reflexivity. rewrite (RtoC_mult 2), RtoC_inv by lra.
    assert (T : RtoC 2 = RtoC 1 + RtoC 1) by (rewrite <- RtoC_plus; f_equal; ring). rewrite T. assert (Nc : RtoC (PI * f) <> 0) by cnz. field. auto. }
  assert (H0 : RtoC (PI * f) * (0 * (1 + 1)) = (1 + 1) * (1 - 1)) by ring.
  pose proof (D w) as Dw. pose proof (D 1) as D1. rewrite (fold_cprod (fun p => 1 - z_of true f p * w)) in Dw. rewrite (fold_cprod (fun p => 1 - z_of true f p * 1)) in D1.
  change (s_poles roots residue true u v) with ps in Dw, D1.
  rewrite (bil_factors f s w ps Hf Pp Hs) in Dw. rewrite (bil_factors f 0 1 ps Hf Pp H0) in D1.
  pose proof (Nm w) as Nw. pose proof (Nm 1) as N1. rewrite (bil_factors f s w zs Hf Pz Hs) in Nw. rewrite (bil_factors f 0 1 zs Hf Pz H0) in N1.
  assert (U1 : num b 1 = den a 1) by (rewrite den_one; unfold num; rewrite pe_one_tot, Dc; reflexivity).
  destruct Hu as (ku & Ku & Hu). destruct Hv as (kv & Kv & Hv). rewrite !Hu, !Hv, !(fold_cprod (fun p => s - p)), !(fold_cprod (fun p => 0 - p)).
  fold n in Dw, D1. fold m in Nw, N1.
  set (Gp := cprod (map (fun p => RtoC (PI * f) / (2 - RtoC (PI * f) * p)) ps)) in *. set (Gz := cprod (map (fun p => RtoC (PI * f) / (2 - RtoC (PI * f) * p)) zs)) in *.
  set (Us := cprod (map (fun p => s - p) ps)) in *. set (Vs := cprod (map (fun p => s - p) zs)) in *.
  set (U0 := cprod (map (fun p => 0 - p) ps)) in *. set (V0 := cprod (map (fun p => 0 - p) zs)) in *.
  rewrite N1, D1 in U1. rewrite Nw, Dw.
  assert (Pq : forall x j, cpow (x / (1 + 1)) j * cpow (1 + 1) j = cpow x j).
  { intros x j. induction j as [|j IH]; cbn [cpow]; [ring|]. rewrite <- IH. field. intros C. apply (f_equal fst) in C. cbn in C. lra. }
  assert (X2 : forall j, cpow (1 + 1) j <> 0) by (intros j; rewrite cpow_2; intros C; apply RtoC_inj in C; pose proof (pow_lt 2 j); lra).
  apply (Cmult_inj_l (cpow (1 + 1) n)); [apply X2|].
  replace (cpow (1 + 1) n) with (cpow (1 + 1) m * cpow (1 + 1) (n - m)) at 1 by (rewrite <- cpow_add; f_equal; lia).
  transitivity (RtoC k * (cpow (1 + 1) m * Gz * V0) * (cpow ((1 + w) / (1 + 1)) (n - m) * cpow (1 + 1) (n - m)) * cpow (1 + w) m * RtoC ku * RtoC kv * Us * Vs); [ring|].
  rewrite U1, Pq. replace (cpow (1 + w) n) with (cpow (1 + w) (n - m) * cpow (1 + w) m) by (rewrite <- cpow_add; f_equal; lia). ring.
Qed.
Print Assumptions C111_z_bilinear_response.

(** So it is not the bilinear transform: 1 / (s + 1) at f = 1 / 2. *)
Theorem C111_z_bilinear_textbook_refuted : exists roots residue u v f u' v' a b (w : C),
  z_transform roots residue u v f true = (u', v', Ok (a, Some b)) /\
  is_roots (zels u) (roots (asked_u u)) /\ is_roots (zels v) (roots (asked_v u v)) /\ 1 + w <> 0 /\
  let s := RtoC (2 / (PI * f)) * ((1 - w) / (1 + w)) in
  num b w * (pv (zels u) s * pv (zels v) 0) <> den a w * (pv (zels v) s * pv (zels u) 0).
Proof.
  set (rt := fun l : list R => match l with [_; _] => [RtoC (-1)] | _ => [] end).
  set (u := mkZ true DFloat [1; 1]%R). set (v := mkZ true DFloat [1]%R).
  assert (I1 : isz 1 = false) by (destruct (isz 1) eqn:Z; [apply isz_iff in Z; lra|reflexivity]).
  assert (Au : rt (asked_u u) = [RtoC (-1)]) by (unfold asked_u, normed; cbn; rewrite I1; reflexivity).
  assert (Av : rt (asked_v u v) = []) by (unfold asked_v, normed; cbn; rewrite I1; reflexivity).
  assert (Ru : is_roots (zels u) (rt (asked_u u))).
  { rewrite Au. exists 1%R. split; [lra|]. intros s. unfold pv. cbn [zels u horner fold_right]. replace (RtoC (-1)) with (- RtoC 1) by (rewrite <- RtoC_opp; reflexivity). ring. }
  assert (Rv : is_roots (zels v) (rt (asked_v u v))).
  { rewrite Av. exists 1%R. split; [lra|]. intros s. unfold pv. cbn [zels v horner fold_right]. ring. }
  assert (Np : pv (zels u) (bil_pole (1 / 2)) <> 0).
  { unfold pv, bil_pole. cbn. intros Q. apply (f_equal fst) in Q. cbn in Q. pose proof PI_RGT_0. assert (0 < 2 / (PI * (1 / 2)))%R by (apply Rdiv_lt_0_compat; lra). lra. }
  assert (Nz : pv (zels v) (bil_pole (1 / 2)) <> 0).
  { unfold pv. cbn. intros Q. apply (f_equal fst) in Q. cbn in Q. lra. }
  destruct (C68_z_accepts rt (fun _ _ => ([], [])) u v (1 / 2) true) as (u' & v' & a & ob & E).
  { intros [Q|[Q|Q]]; [specialize (Q 1%R (or_introl eq_refl)); lra|specialize (Q 1%R (or_introl eq_refl)); lra|lra]. }
  { reflexivity. }
  { reflexivity. }
  { rewrite Au. discriminate. }
  destruct ob as [b|].
  2:{ exfalso. pose proof (proj1 (C64_z_bilinear_numerator _ _ _ _ _ _ _ _ _ E Rv Nz) eq_refl) as Q. cbn in Q. lra. }
  exists rt, (fun _ _ => ([], [])), u, v, (1 / 2)%R, u', v', a, b, 0.
  split; [exact E|]. split; [exact Ru|]. split; [exact Rv|]. split; [intros Q; apply (f_equal fst) in Q; cbn in Q; lra|].
  intros s Q. assert (N10 : 1 + 0 <> 0) by (intros Q1; apply (f_equal fst) in Q1; cbn in Q1; lra).
  pose proof (C111_z_bilinear_response _ _ _ _ _ _ _ _ _ E Ru Rv Np Nz 0 N10) as W. cbv zeta in W. rewrite Au, Av in W. specialize (W (Nat.le_0_l 1)).
  fold s in W. rewrite <- Q in W. cbn [length Nat.sub cpow] in W.
  assert (Y : den a 0 * (pv (zels v) s * pv (zels u) 0) = 1).
  { unfold den. destruct (proj1 (C64_z_unit_dc _ _ _ _ _ _ _ _ _ _ E)) as [a' ->]. unfold pv. cbn [zels u v map pe horner]. ring. }
  rewrite Y in Q. apply (f_equal fst) in W.
  replace (num b 0 * ((1 + 0) / (1 + 1) * 1) * (pv (zels u) s * pv (zels v) 0)) with ((num b 0 * (pv (zels u) s * pv (zels v) 0)) * / (1 + 1)) in W.
  - rewrite Q in W. cbn in W. lra.
  - field. intros Q1; apply (f_equal fst) in Q1; cbn in Q1; lra.
Qed.
Print Assumptions C111_z_bilinear_textbook_refuted.
