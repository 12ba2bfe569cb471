(** Properties C64-C68: ZTransform. *)
From Coq Require Import List Arith ZArith Bool Reals Lra Lia Permutation.
From Coquelicot Require Import Complex.
From Verif Require Import Base BaseLemmas Instances FirModel PolyC ZModel ZProofs.
Import ListNotations.
Set Asymmetric Patterns.
Open Scope R_scope.
Open Scope C_scope.

(** ** Specification *)
(** ps lists the roots of the polynomial l (highest power first) with multiplicity. *)
Definition is_roots (l : list R) (ps : list C) : Prop :=
  exists k : R, k <> 0%R /\ forall s, pv l s = RtoC k * fold_right (fun p acc => (s - p) * acc) 1 ps.
(** Where a point s of the s-plane goes. *)
Definition z_of (bilinear : bool) (f : R) (s : C) : C :=
  if bilinear then (2 + RtoC (PI * f) * s) / (2 - RtoC (PI * f) * s)
  else ((exp (PI * f * fst s) * cos (PI * f * snd s))%R, (exp (PI * f * fst s) * sin (PI * f * snd s))%R).
(** The pole of the bilinear map. *)
Definition bil_pole (f : R) : C := RtoC (2 / (PI * f)).
(** (c * h)(n) = sum of c_i h(n - i) over i <= n. *)
Fixpoint star (c : list C) (h : nat -> C) (n : nat) : C :=
  match c with
  | [] => 0
  | x :: r => x * h n + match n with O => 0 | S m => star r h m end
  end.

(** What the two external routines are asked. *)
Definition asked_u (u : zarg) : list R := normed (zels u) (last (zels u) 0%R).
Definition asked_v (u v : zarg) : list R := normed (zels v) (last (zels u) 0%R).

Ltac cnz := let Q := fresh in intros Q; apply RtoC_inj in Q; lra.

(** ** Unfolding *)
Lemma z_of_eq bilinear f s : (0 < f)%R -> (bilinear = true -> s <> bil_pole f) ->
  z_of bilinear f s = (if bilinear then bil (1 / (PI * f)) else imp (1 / (PI * f))) s.
Proof.
  intros Hf Hs. assert (Hp : (0 < PI * f)%R) by (apply Rmult_lt_0_compat; [apply PI_RGT_0|exact Hf]).
  destruct bilinear; cbn [z_of].
  - unfold bil. assert (Hn : 2 - RtoC (PI * f) * s <> 0).
    { intros E. apply Hs; [reflexivity|]. unfold bil_pole. apply (Cmult_inj_l (RtoC (PI * f))); [intros Q; apply RtoC_inj in Q; lra|].
      rewrite <- RtoC_mult. replace (PI * f * (2 / (PI * f)))%R with 2%R by (field; split; [lra|pose proof PI_RGT_0; lra]).
      transitivity (2 - (2 - RtoC (PI * f) * s)); [ring|]. rewrite E. ring. }
    assert (E : s / RtoC (2 * (1 / (PI * f))) = RtoC (PI * f) * s / 2).
    { replace (2 * (1 / (PI * f)))%R with (2 * / (PI * f))%R by (unfold Rdiv; ring). rewrite RtoC_mult, RtoC_inv by lra.
      field; repeat split; cnz. }
    rewrite E. assert (N2 : RtoC 2 <> 0) by cnz.
    assert (Hm : 1 - RtoC (PI * f) * s / 2 <> 0).
    { intros Q. apply Hn. transitivity (2 * (1 - RtoC (PI * f) * s / 2)); [field; exact N2|]. rewrite Q. ring. }
    apply (Cmult_inj_l ((2 - RtoC (PI * f) * s) * (1 - RtoC (PI * f) * s / 2))).
    { intros Q. apply Cmult_zero in Q. tauto. }
    transitivity ((2 + RtoC (PI * f) * s) * (1 - RtoC (PI * f) * s / 2)); [field; auto|].
    transitivity ((2 - RtoC (PI * f) * s) * (1 + RtoC (PI * f) * s / 2)); [field; auto|]. field; auto.
  - unfold imp, cexp. assert (E : s / RtoC (1 / (PI * f)) = RtoC (PI * f) * s).
    { unfold Rdiv. rewrite Rmult_1_l, RtoC_inv by lra. field; repeat split; cnz. }
    rewrite E. destruct s as [x y]. unfold cis, Cmult, RtoC. cbn [fst snd].
    replace (PI * f * x - 0 * y)%R with (PI * f * x)%R by ring. replace (PI * f * y + 0 * x)%R with (PI * f * y)%R by ring. f_equal; ring.
Qed.

Lemma last_normed u : last (strip0 (zels u)) 0%R = last (zels u) 0%R \/ zempty u = true.
Proof.
  destruct (zempty u) eqn:E; [right; reflexivity|left]. unfold zempty in E. apply orb_false_iff in E. apply strip0_last, E.
Qed.

(** The successful executions. *)
Lemma z_ok roots residue u v f (bilinear : bool) u' v' a ob :
  z_transform roots residue u v f bilinear = (u', v', Ok (a, ob)) ->
  (0 < f)%R /\ zempty u = false /\ zempty v = false /\
  exists A B, (if bilinear then z_bilinear roots (1 / (PI * f)) (asked_u u) (asked_v u v)
               else z_impulse residue (1 / (PI * f)) (asked_u u) (asked_v u v)) = Ok (A, B) /\
    z_normal (A, B) = (a, ob).
Proof.
  unfold z_transform. destruct (zempty u) eqn:E1; [discriminate|]. destruct (zempty v) eqn:E2; [discriminate|].
  destruct (Rleb f 0) eqn:E3; [discriminate|]. destruct (is_int v); [discriminate|]. destruct (is_int u); [discriminate|].
  intros H. injection H as _ _ H.
  assert (Hf : (0 < f)%R) by (apply Rnot_le_lt; intros C; apply Rleb_iff in C; congruence).
  repeat (split; [assumption || reflexivity|]).
  destruct (last_normed u) as [L|L]; [|congruence]. unfold asked_u, asked_v, normed. rewrite <- L.
  destruct (if bilinear then _ else _) as [[A B]|]; cbn [rmap] in H; [|discriminate]. exists A, B. split; [reflexivity|]. congruence.
Qed.

Lemma bil_ok roots t u v A B : z_bilinear roots t u v = Ok (A, B) ->
  let p := map (bil t) (roots u) in let z := map (bil t) (roots v) in
  roots u <> [] /\ A = map fst (cpoly p) /\ B = map fst (cpoly (z ++ repeat (RtoC 0) (length p - length z))).
Proof.
  intros H p z. unfold z_bilinear in H. fold p z in H. destruct (Nat.eqb_spec (length p) 0) as [E|E]; [discriminate|].
  injection H as <- <-. split; [|split; reflexivity]. intros C. apply E. unfold p. rewrite C. reflexivity.
Qed.

Lemma imp_ok residue t u v A B r p : residue v u = (r, p) -> length r = length p -> z_impulse residue t u v = Ok (A, B) ->
  r <> [] /\ A = map fst (cpoly (map (imp t) p)) /\
  exists b, length b = length r /\ B = map fst (b ++ [RtoC 0]) /\
    forall w, pe b w = csum (map (fun i => nth i r 0 * cprod (map (fun z => 1 - z * w) (skip t p i))) (seq 0 (length r))).
Proof.
  intros Hr Hl H. unfold z_impulse in H. rewrite Hr in H.
  assert (N : r <> []). { intros ->. discriminate. }
  assert (Hpos : (0 < length r)%nat) by (destruct r; [congruence|cbn; lia]).
  destruct (imp_b t r p Hl Hpos) as (b & E & Lb & Hb). rewrite E in H. rewrite (imp_a t r p Hl) in H.
  injection H as <- <-. split; [exact N|]. split; [reflexivity|]. exists b. split; [exact Lb|]. split; [|exact Hb].
  rewrite cpoly_length, map_length, Lb, Hl. replace (S (length p) - length p)%nat with 1%nat by lia. reflexivity.
Qed.

(** The leading denominator coefficient is one, whatever the routines return. *)
Lemma z_lead roots residue t (bilinear : bool) u v A B :
  (if bilinear then z_bilinear roots t u v else z_impulse residue t u v) = Ok (A, B) -> exists A', A = 1%R :: A'.
Proof.
  destruct bilinear.
  - intros H. apply bil_ok in H. destruct H as (_ & -> & _). destruct (cpoly_cons (map (bil t) (roots u))) as [r ->]. eexists. reflexivity.
  - unfold z_impulse. destruct (residue v u) as [r p].
    assert (G : forall l a, (exists a' : list C, a = RtoC 1 :: a') -> exists a' : list C, fold_left (fun a ii => convC a [RtoC 1; Copp (imp t (nth ii p (RtoC 0)))]) l a = RtoC 1 :: a').
    { induction l as [|i l IH]; intros a [a' ->]; [eexists; reflexivity|]. cbn [fold_left]. apply IH. unfold convC. cbn [conv map].
      destruct a' as [|c a']; [eexists; apply f_equal2; [ring|reflexivity]|]. cbn [padd]. eexists. apply f_equal2; [ring|reflexivity]. }
    destruct (G (seq 0 (length r)) [RtoC 1]) as [a' ->]; [eexists; reflexivity|].
    destruct (fold_left _ (seq 0 (length r)) None); [|discriminate]. intros H. injection H as <- <-. eexists. reflexivity.
Qed.

Lemma is_roots_conj l ps : is_roots l ps -> conj_closed ps.
Proof.
  intros (k & Hk & Hz). assert (Hc : RtoC k <> 0) by (intros Q; apply RtoC_inj in Q; auto).
  apply same_factors; [apply map_length|]. intros r. apply (Cmult_inj_l (RtoC k) _ _ Hc).
  pose proof (Hz (RtoC r)) as Z. pose proof (f_equal Cconj Z) as Z2. unfold pv in Z2. rewrite horner_conj, Cconj_R in Z2.
  fold (pv l (RtoC r)) in Z2. rewrite Z, Cconj_mul, Cconj_R, !fold_cprod, cprod_conj in Z2. rewrite !map_map in Z2. rewrite map_map.
  symmetry. etransitivity; [exact Z2|]. f_equal. f_equal. apply map_ext. intros q. rewrite Cconj_sub, Cconj_R. reflexivity.
Qed.

(** ** C64 *)
(** Whatever the two routines return: a[0] = 0 and the DC gain is one ... *)
Theorem C64_z_unit_dc roots residue u v f (bilinear : bool) u' v' a ob :
  z_transform roots residue u v f bilinear = (u', v', Ok (a, ob)) ->
  (exists a', a = 0%R :: a') /\ forall b, ob = Some b -> tot b = (1 - tot a)%R.
Proof.
  intros H. apply z_ok in H. destruct H as (_ & _ & _ & A & B & H & E).
  apply z_lead in H. destruct H as [A' ->]. split.
  - cbn [z_normal] in E. injection E as <- _. eexists. reflexivity.
  - intros b ->. assert (E2 : snd (z_normal (1%R :: A', B)) = Some b) by (rewrite E; reflexivity).
    apply z_normal_sum in E2. rewrite E in E2. cbn [fst] in E2. apply E2.
Qed.
Print Assumptions C64_z_unit_dc.

Lemma tot_app_zeros (B : list R) n : tot (B ++ repeat 0%R n) = tot B.
Proof.
  unfold tot. rewrite fold_right_app. f_equal. induction n as [|n IH]; cbn [repeat fold_right]; [reflexivity|]. rewrite IH. ring.
Qed.

(** ... unless the numerator vanishes at DC.  Bilinear method: exactly when v has
    a zero at s = 0, as every high-pass or band-pass prototype has. *)
Theorem C64_z_bilinear_numerator roots residue u v f u' v' a ob :
  z_transform roots residue u v f true = (u', v', Ok (a, ob)) ->
  is_roots (zels v) (roots (asked_v u v)) -> pv (zels v) (bil_pole f) <> 0 ->
  (ob = None <-> last (zels v) 0%R = 0%R).
Proof.
  intros H (k & Hk & Hz) Hnp. apply z_ok in H. destruct H as (Hf & _ & Ev & A & B & H & E).
  assert (E2 : snd (z_normal (A, B)) = ob) by (rewrite E; reflexivity). rewrite <- E2, z_normal_none.
  apply bil_ok in H. destruct H as (_ & _ & ->). set (n := (_ - _)%nat). set (zs := roots (asked_v u v)) in *.
  assert (Hc : RtoC k <> 0) by (intros Q; apply RtoC_inj in Q; auto).
  assert (Hcl : conj_closed zs).
  { apply (is_roots_conj (zels v)). exists k. auto. }
  assert (Hcl2 : conj_closed (map (bil (1 / (PI * f))) zs ++ repeat (RtoC 0) n)).
  { apply conj_closed_app; [|apply conj_closed_zeros]. apply conj_closed_map; [apply bil_conj|exact Hcl]. }
  assert (S1 : RtoC (tot (map fst (cpoly (map (bil (1 / (PI * f))) zs ++ repeat (RtoC 0) n))))
     = cprod (map (fun z => 1 - z_of true f z) zs)).
  { rewrite <- pe_one_tot, cpoly_real by exact Hcl2. rewrite pe_cpoly, map_app, cprod_app.
    rewrite (cprod_ones (map _ (repeat (RtoC 0) n))).
    2:{ rewrite Forall_forall. intros x Hx. apply in_map_iff in Hx. destruct Hx as (y & <- & Hy). apply repeat_spec in Hy. subst y. ring. }
    rewrite Cmult_1_r, map_map. f_equal. apply map_ext_in. intros z Hin. rewrite z_of_eq; [ring|exact Hf|].
    intros _ Q. apply Hnp. rewrite Hz, fold_cprod. rewrite cprod_has_zero; [ring|]. apply in_map_iff. exists z. split; [|exact Hin]. subst z. ring. }
  assert (L0 : RtoC (last (zels v) 0%R) = RtoC k * cprod (map (fun p => 0 - p) zs)).
  { rewrite <- (fold_cprod (fun p => 0 - p)), <- Hz. unfold pv. rewrite horner_zero; [reflexivity|reflexivity|]. intros C.
    unfold zempty in Ev. rewrite C in Ev. discriminate. }
  assert (Q0 : forall z, In z zs -> (1 - z_of true f z = 0 <-> 0 - z = 0)).
  { intros z Hin. assert (Hp : (0 < PI * f)%R) by (apply Rmult_lt_0_compat; [apply PI_RGT_0|exact Hf]).
    assert (Hn : 2 - RtoC (PI * f) * z <> 0).
    { intros Q. apply Hnp. rewrite Hz, fold_cprod, cprod_has_zero; [ring|]. apply in_map_iff. exists z. split; [|exact Hin].
      unfold bil_pole. apply (Cmult_inj_l (RtoC (PI * f))); [intros Q2; apply RtoC_inj in Q2; lra|].
      transitivity (RtoC (PI * f) * RtoC (2 / (PI * f)) - RtoC (PI * f) * z); [ring|]. rewrite <- RtoC_mult.
      replace (PI * f * (2 / (PI * f)))%R with 2%R by (field; split; [lra|pose proof PI_RGT_0; lra]). rewrite Q. ring. }
    assert (Z1 : 1 - z_of true f z = RtoC (-2) * (RtoC (PI * f) * z) / (2 - RtoC (PI * f) * z)).
    { cbn [z_of]. replace (RtoC (-2)) with (- (RtoC 1 + RtoC 1)) by (rewrite <- RtoC_plus, <- RtoC_opp; f_equal; ring).
      assert (T : RtoC 2 = RtoC 1 + RtoC 1) by (rewrite <- RtoC_plus; f_equal; ring). rewrite T in *. field. exact Hn. }
    rewrite Z1. split; intros Q.
    - replace (0 - z) with (- z) by ring. assert (X : RtoC (-2) * (RtoC (PI * f) * z) = 0).
      { transitivity (RtoC (-2) * (RtoC (PI * f) * z) / (2 - RtoC (PI * f) * z) * (2 - RtoC (PI * f) * z)); [field; exact Hn|]. rewrite Q. ring. }
      apply Cmult_zero in X. destruct X as [X|X]; [apply RtoC_inj in X; lra|]. apply Cmult_zero in X. destruct X as [X|X]; [apply RtoC_inj in X; lra|]. rewrite X. ring.
    - assert (z = 0) as -> by (transitivity (- (0 - z)); [ring|rewrite Q; ring]). unfold Cdiv. ring. }
  split; intros Q.
  - apply RtoC_inj. rewrite L0. assert (Z : cprod (map (fun z => 1 - z_of true f z) zs) = 0) by (rewrite <- S1; exact (f_equal RtoC Q)).
    apply cprod_zero in Z. destruct Z as (x & Hx & ->). apply in_map_iff in Hx. destruct Hx as (z & Z1 & Z2).
    rewrite cprod_has_zero; [ring|]. apply in_map_iff. exists z. split; [apply Q0; assumption|exact Z2].
  - apply RtoC_inj. change (RtoC (tot (map fst (cpoly (map (bil (1 / (PI * f))) zs ++ repeat (RtoC 0) n)))) = RtoC 0). rewrite S1.
    assert (Z : cprod (map (fun p => 0 - p) zs) = 0) by (apply (Cmult_inj_l (RtoC k) _ _ Hc); rewrite <- L0, Q; ring).
    apply cprod_zero in Z. destruct Z as (x & Hx & ->). apply in_map_iff in Hx. destruct Hx as (z & Z1 & Z2).
    apply cprod_has_zero. apply in_map_iff. exists z. split; [apply Q0; assumption|exact Z2].
Qed.
Print Assumptions C64_z_bilinear_numerator.

(** ** C66 *)
(** The poles in question. *)
Definition s_poles (roots : list R -> list C) (residue : list R -> list R -> list C * list C) (bilinear : bool) (u v : zarg) : list C :=
  if bilinear then roots (asked_u u) else snd (residue (asked_v u v) (asked_u u)).

Lemma is_roots_In l ps s : is_roots l ps -> (pv l s = 0 <-> In s ps).
Proof.
  intros (k & Hk & Hz). assert (Hc : RtoC k <> 0) by (intros Q; apply RtoC_inj in Q; auto). rewrite Hz, fold_cprod. split.
  - intros Q. apply Cmult_zero in Q. destruct Q as [Q|Q]; [tauto|]. apply cprod_zero in Q. destruct Q as (x & Hx & ->).
    apply in_map_iff in Hx. destruct Hx as (p & E & Hp). replace s with p; [exact Hp|]. transitivity (s - (s - p)); [ring|rewrite E; ring].
  - intros Hin. rewrite cprod_has_zero; [ring|]. apply in_map_iff. exists s. split; [ring|exact Hin].
Qed.

Theorem C66_z_poles roots residue u v f (bilinear : bool) u' v' a ob :
  z_transform roots residue u v f bilinear = (u', v', Ok (a, ob)) ->
  let ps := s_poles roots residue bilinear u v in
  is_roots (zels u) ps ->
  (bilinear = true -> pv (zels u) (bil_pole f) <> 0) ->
  (bilinear = false -> length (fst (residue (asked_v u v) (asked_u u))) = length ps) ->
  forall w, den a w = fold_right (fun p acc => (1 - z_of bilinear f p * w) * acc) 1 ps.
Proof.
  intros H ps Hps Hnp Hlen w. apply z_ok in H. destruct H as (Hf & _ & Ev & A & B & H & E).
  destruct (z_lead _ _ _ _ _ _ _ _ H) as [A' HA].
  assert (Ea : a = fst (z_normal (A, B))) by (rewrite E; reflexivity). rewrite Ea, (normal_den A B A' w HA).
  assert (HA2 : A = map fst (cpoly (map (if bilinear then bil (1 / (PI * f)) else imp (1 / (PI * f))) ps))).
  { destruct bilinear.
    - apply bil_ok in H. apply H.
    - unfold ps, s_poles in *. destruct (residue (asked_v u v) (asked_u u)) as [r p] eqn:Er. cbn [fst snd] in *.
      apply (imp_ok _ _ _ _ _ _ _ _ Er) in H; [|apply Hlen; reflexivity]. apply H. }
  rewrite HA2, cpoly_real.
  2:{ apply conj_closed_map; [|apply is_roots_conj in Hps; exact Hps]. destruct bilinear; [apply bil_conj|apply imp_conj]. }
  rewrite pe_cpoly, (fold_cprod (fun p => 1 - z_of bilinear f p * w)), map_map. f_equal. apply map_ext_in. intros p Hp.
  rewrite z_of_eq; [reflexivity|exact Hf|]. intros Hb Q. apply (Hnp Hb). apply (is_roots_In _ _ _ Hps). subst p. exact Hp.
Qed.
Print Assumptions C66_z_poles.

(** ** C65 *)
Lemma Cmod_lt_sq a b : (Cmod a < Cmod b <-> fst a * fst a + snd a * snd a < fst b * fst b + snd b * snd b)%R.
Proof.
  unfold Cmod. cbn [pow]. rewrite !Rmult_1_r. split; intros H.
  - apply sqrt_lt_0_alt in H. exact H.
  - apply sqrt_lt_1_alt. split; [|exact H]. pose proof (Rle_0_sqr (fst a)). pose proof (Rle_0_sqr (snd a)). unfold Rsqr in *. lra.
Qed.
Lemma z_of_stable bilinear f s : (0 < f)%R -> (bilinear = true -> s <> bil_pole f) -> ((fst s < 0)%R <-> (Cmod (z_of bilinear f s) < 1)%R).
Proof.
  intros Hf Hs. assert (Hp : (0 < PI * f)%R) by (apply Rmult_lt_0_compat; [apply PI_RGT_0|exact Hf]).
  destruct bilinear; cbn [z_of].
  - set (c := (PI * f)%R) in *. assert (Hn : 2 - RtoC c * s <> 0).
    { intros E. apply Hs; [reflexivity|]. unfold bil_pole. apply (Cmult_inj_l (RtoC c)); [intros Q; apply RtoC_inj in Q; lra|].
      fold c. rewrite <- RtoC_mult. replace (c * (2 / c))%R with 2%R by (field; lra).
      transitivity (2 - (2 - RtoC c * s)); [ring|]. rewrite E. ring. }
    rewrite Cmod_div by exact Hn. pose proof (proj1 (Cmod_gt_0 _) Hn) as G.
    assert (X : (Cmod (2 + RtoC c * s)%C / Cmod (2 - RtoC c * s)%C < 1)%R <-> (Cmod (2 + RtoC c * s)%C < Cmod (2 - RtoC c * s)%C)%R).
    { split; intros Q.
      - apply (Rmult_lt_reg_r (/ Cmod (2 - RtoC c * s))); [apply Rinv_0_lt_compat, G|]. rewrite Rinv_r by lra. exact Q.
      - apply (Rmult_lt_reg_r (Cmod (2 - RtoC c * s))); [exact G|]. unfold Rdiv. rewrite Rmult_assoc, Rinv_l by lra. lra. }
    rewrite X, Cmod_lt_sq. destruct s as [x y]. cbn. split; intros Q; nra.
  - set (c := (PI * f)%R) in *. set (x := fst s). set (y := snd s).
    assert (M : Cmod ((exp (c * x) * cos (c * y))%R, (exp (c * x) * sin (c * y))%R) = exp (c * x)).
    { unfold Cmod. cbn [fst snd]. replace ((exp (c * x) * cos (c * y)) ^ 2 + (exp (c * x) * sin (c * y)) ^ 2)%R with (exp (c * x) * exp (c * x) * (Rsqr (sin (c * y)) + Rsqr (cos (c * y))))%R by (unfold Rsqr; ring).
      rewrite sin2_cos2, Rmult_1_r. apply sqrt_square. left. apply exp_pos. }
    rewrite M. change (fst s) with x. rewrite <- exp_0. split; intros Q.
    + apply exp_increasing. nra.
    + apply exp_lt_inv in Q. nra.
Qed.

Theorem C65_z_stable roots residue u v f (bilinear : bool) u' v' a ob :
  z_transform roots residue u v f bilinear = (u', v', Ok (a, ob)) ->
  is_roots (zels u) (s_poles roots residue bilinear u v) ->
  (bilinear = true -> pv (zels u) (bil_pole f) <> 0) ->
  (bilinear = false -> length (fst (residue (asked_v u v) (asked_u u))) = length (s_poles roots residue bilinear u v)) ->
  ((forall s, pv (zels u) s = 0 -> (fst s < 0)%R) <->
   (forall z : C, z <> 0 -> den a (/ z) = 0 -> (Cmod z < 1)%R)).
Proof.
  intros H Hps Hnp Hlen. pose proof (C66_z_poles _ _ _ _ _ _ _ _ _ _ H Hps Hnp Hlen) as D. set (ps := s_poles roots residue bilinear u v) in *.
  apply z_ok in H. destruct H as (Hf & _).
  assert (Hnb : forall p, In p ps -> bilinear = true -> p <> bil_pole f).
  { intros p Hp Hb Q. apply (Hnp Hb). apply (is_roots_In _ _ _ Hps). subst p. exact Hp. }
  split.
  - intros St z Hz Hd. rewrite D, fold_cprod in Hd. apply cprod_zero in Hd. destruct Hd as (x & Hx & ->).
    apply in_map_iff in Hx. destruct Hx as (p & E & Hp).
    assert (z = z_of bilinear f p) as ->.
    { transitivity (z * (1 - z_of bilinear f p * / z) + z_of bilinear f p); [field; exact Hz|]. rewrite E. ring. }
    apply z_of_stable; [exact Hf|apply Hnb, Hp|]. apply St. apply (is_roots_In _ _ _ Hps). exact Hp.
  - intros St s Hs. apply (is_roots_In _ _ _ Hps) in Hs. apply (z_of_stable bilinear f s Hf (Hnb s Hs)).
    destruct (Ceq_dec (z_of bilinear f s) 0) as [Z|Z]; [rewrite Z, Cmod_0; lra|]. apply St; [exact Z|].
    rewrite D, fold_cprod. apply cprod_has_zero. apply in_map_iff. exists s. split; [|exact Hs]. field. exact Z.
Qed.
Print Assumptions C65_z_stable.

(** ** C67 *)
Lemma nat_above x : exists K, (x < INR K)%R.
Proof.
  destruct (archimed x) as [A _]. exists (Z.to_nat (Z.max 0 (up x))). rewrite INR_IZR_INZ, Z2Nat.id by lia.
  eapply Rlt_le_trans; [exact A|]. apply IZR_le. lia.
Qed.
Definition conj2 (rp : C * C) : C * C := (Cconj (fst rp), Cconj (snd rp)).

Lemma imp_real t r p b : length r = length p -> r <> [] ->
  Permutation (map conj2 (combine r p)) (combine r p) ->
  (forall w, pe b w = csum (map (fun i => nth i r 0 * cprod (map (fun z => 1 - z * w) (skip t p i))) (seq 0 (length r)))) ->
  length b = length r ->
  map RtoC (map fst (b ++ [RtoC 0])) = b ++ [RtoC 0].
Proof.
  intros Hl Hr Hp Hb Lb. rewrite map_map. apply real_coeffs. intros x.
  assert (Hpos : (0 < length r)%nat) by (destruct r; [congruence|cbn; lia]).
  assert (E : forall w, pe (b ++ [RtoC 0]) w = pe b w) by (intros w; apply (pe_app_zeros b 1 w)). rewrite E.
  (* Both polynomials agree wherever no factor vanishes: enough points. *)
  set (d := map Cconj b).
  assert (Hd : d = b).
  { assert (G : forall (l : list C) (N : nat), exists M, forall m, (M <= m)%nat -> forall z, In z l -> 1 - z * RtoC (INR m) <> 0).
    { intros l _. induction l as [|z l [M IH]]; [exists 0%nat; intros m _ z []|].
      destruct (Ceq_dec z 0) as [->|Nz].
      - exists M. intros m Hm y [<-|Hy]; [|apply IH; assumption]. intros Q. apply (f_equal fst) in Q. cbn in Q. lra.
      - assert (U : exists K, forall m, (K <= m)%nat -> 1 - z * RtoC (INR m) <> 0).
        { destruct (nat_above (/ Cmod z)) as [K HK]. exists K. intros m Hm Q.
          assert (Q2 : z * RtoC (INR m) = 1) by (transitivity (1 - (1 - z * RtoC (INR m))); [ring|rewrite Q; ring]).
          apply (f_equal Cmod) in Q2. rewrite Cmod_mult, Cmod_1, Cmod_R, Rabs_pos_eq in Q2 by apply pos_INR.
          pose proof (proj1 (Cmod_gt_0 z) Nz) as Gz. apply le_INR in Hm.
          assert (/ Cmod z * Cmod z = 1)%R by (apply Rinv_l; lra). nra. }
        destruct U as [K U]. exists (Nat.max M K). intros m Hm y [<-|Hy]; [apply U; lia|apply IH; [lia|exact Hy]]. }
    destruct (G (map (imp t) p) 0%nat) as [M HM].
    assert (A : forall m, (M <= m)%nat -> pe d (RtoC (INR m)) = pe b (RtoC (INR m))).
    { intros m Hm. unfold d. rewrite pe_conj, Hb. rewrite (imp_fraction t r p Hl) by (try exact Hpos; apply HM; exact Hm).
      rewrite Cconj_mul, cprod_conj, csum_conj, !map_map. f_equal.
      - rewrite (map_ext _ (fun q => 1 - imp t (Cconj q) * RtoC (INR m))) by (intros q; rewrite imp_conj, Cconj_sub, Cconj_mul, !Cconj_R; reflexivity).
        rewrite <- (map_map Cconj (fun q => 1 - imp t q * RtoC (INR m))). apply cprod_perm, Permutation_map.
        apply (Permutation_map snd) in Hp. rewrite map_map in Hp. cbn [conj2 snd] in Hp.
        rewrite <- (map_map snd Cconj) in Hp. assert (Sn : map snd (combine r p) = p).
        { clear - Hl. revert p Hl. induction r as [|x r IH]; intros [|y p] Hl; try discriminate; [reflexivity|]. cbn [combine map snd]. f_equal. apply IH. injection Hl; auto. }
        rewrite Sn in Hp. exact Hp.
      - assert (Dv : forall y z, Cconj (y / z) = Cconj y / Cconj z).
        { intros y [z1 z2]. unfold Cdiv. rewrite Cconj_mul. f_equal. unfold Cinv, Cconj. cbn.
          replace (z1 * (z1 * 1) + - z2 * (- z2 * 1))%R with (z1 * (z1 * 1) + z2 * (z2 * 1))%R by ring. f_equal. unfold Rdiv. ring. }
        rewrite (map_ext _ (fun rp => (fun q => fst q / (1 - imp t (snd q) * RtoC (INR m))) (conj2 rp)))
          by (intros rp; unfold conj2; cbn [fst snd]; rewrite Dv, imp_conj, Cconj_sub, Cconj_mul, !Cconj_R; reflexivity).
        rewrite <- (map_map conj2 (fun q => fst q / (1 - imp t (snd q) * RtoC (INR m)))). apply csum_perm, Permutation_map. exact Hp. }
    set (c := padd Cplus d (map (Cmult (-(1))) b)).
    assert (Z : Forall (fun y : C => y = 0) c).
    { apply (pe_roots_zero (map (fun n => RtoC (INR (M + n))) (seq 0 (length c)))).
      - apply FinFun.Injective_map_NoDup; [|apply seq_NoDup]. intros x1 x2 Q. apply RtoC_inj, INR_eq in Q. lia.
      - rewrite map_length, seq_length. reflexivity.
      - intros y Hy. apply in_map_iff in Hy. destruct Hy as (n & <- & _). unfold c. rewrite pe_padd, pe_scale, A by lia. ring. }
    assert (Ld : length d = length b) by (unfold d; apply map_length). unfold c in Z. clearbody d. clear - Z Ld.
    revert d Ld Z. induction b as [|y b IH]; intros [|x d] L Z; try discriminate; [reflexivity|].
    cbn [map padd] in Z. apply Forall_cons_iff in Z. destruct Z as [H1 H2]. f_equal; [|apply IH; [injection L; auto|exact H2]].
    transitivity (x + - (1) * y + y); [ring|]. rewrite H1. ring. }
  rewrite <- pe_conj. fold d. rewrite Hd. reflexivity.
Qed.

(** The shape of an impulse-invariant result. *)
Lemma imp_result roots residue u v f u' v' a b r p :
  z_transform roots residue u v f false = (u', v', Ok (a, Some b)) ->
  residue (asked_v u v) (asked_u u) = (r, p) -> length r = length p ->
  Permutation (map conj2 (combine r p)) (combine r p) ->
  (0 < f)%R /\ r <> [] /\ exists (k : R) (b0 : list C), length b0 = length r /\
    map RtoC b = map (Cmult (RtoC k)) (b0 ++ [RtoC 0]) /\
    (forall w, pe b0 w = csum (map (fun i => nth i r 0 * cprod (map (fun z => 1 - z * w) (skip (1 / (PI * f)) p i))) (seq 0 (length r)))).
Proof.
  intros H Hr Hl Hp. apply z_ok in H. destruct H as (Hf & _ & Ev & A & B & H & E). split; [exact Hf|].
  apply (imp_ok _ _ _ _ _ _ _ _ Hr Hl) in H. destruct H as (Nr & HA & b0 & Lb & HB & Hb). split; [exact Nr|].
  assert (E2 : snd (z_normal (A, B)) = Some b) by (rewrite E; reflexivity). apply z_normal_sum in E2.
  destruct E2 as (Hnz & _ & k & Eb & Ek). exists k, b0. split; [exact Lb|]. split; [|exact Hb].
  rewrite Eb, map_map. rewrite <- (imp_real _ r p b0 Hl Nr Hp Hb Lb). rewrite HB, !map_map. apply map_ext. intros x. rewrite RtoC_mult. ring.
Qed.

(** Up to the DC normalisation k the transfer function is the sum of the
    one-pole responses. *)
Theorem C67_z_partial_fractions roots residue u v f u' v' a b r p :
  z_transform roots residue u v f false = (u', v', Ok (a, Some b)) ->
  residue (asked_v u v) (asked_u u) = (r, p) -> length r = length p ->
  is_roots (zels u) p ->
  Permutation (map conj2 (combine r p)) (combine r p) ->
  exists k : R, forall w,
    (forall s, In s p -> 1 - z_of false f s * w <> 0) ->
    den a w <> 0 /\
    num b w / den a w
    = RtoC k * fold_right (fun rp acc => fst rp / (1 - z_of false f (snd rp) * w) + acc) 0 (combine r p).
Proof.
  intros H Hr Hl Hroots Hp.
  assert (D : forall w, den a w = fold_right (fun p acc => (1 - z_of false f p * w) * acc) 1 p).
  { pose proof (C66_z_poles _ _ _ _ _ _ _ _ _ _ H) as D. unfold s_poles in D. rewrite Hr in D. cbn [snd fst] in D.
    apply D; [exact Hroots|discriminate|intros _; exact Hl]. }
  destruct (imp_result _ _ _ _ _ _ _ _ _ _ _ H Hr Hl Hp) as (Hf & Nr & k & b0 & Lb & Eb & Hb).
  assert (Hpos : (0 < length r)%nat) by (destruct r; [congruence|cbn; lia]).
  exists k. intros w Hw.
  assert (Dn : den a w <> 0).
  { rewrite D, fold_cprod. intros Q. apply cprod_zero in Q. destruct Q as (x & Hx & ->). apply in_map_iff in Hx. destruct Hx as (s & E & Hs). apply (Hw s Hs E). }
  split; [exact Dn|].
  assert (Z : forall s, z_of false f s = imp (1 / (PI * f)) s) by (intros s; apply z_of_eq; [exact Hf|discriminate]).
  assert (N : num b w = RtoC k * (den a w * csum (map (fun rp => fst rp / (1 - z_of false f (snd rp) * w)) (combine r p)))).
  { unfold num. rewrite Eb, pe_scale, (pe_app_zeros b0 1), Hb, (imp_fraction _ r p Hl w Hpos).
    - rewrite D, fold_cprod, map_map. f_equal. f_equal; [f_equal; apply map_ext; intros s; rewrite Z; reflexivity|].
      f_equal. apply map_ext. intros q. rewrite Z. reflexivity.
    - intros z Hz. apply in_map_iff in Hz. destruct Hz as (s & <- & Hs). rewrite <- Z. apply Hw. exact Hs. }
  rewrite N. assert (F : fold_right (fun rp acc => fst rp / (1 - z_of false f (snd rp) * w) + acc) 0 (combine r p)
    = csum (map (fun rp => fst rp / (1 - z_of false f (snd rp) * w)) (combine r p))).
  { unfold csum. generalize (combine r p). induction l as [|q l IH]; cbn [fold_right map]; [reflexivity|]. rewrite IH. reflexivity. }
  rewrite F. field. exact Dn.
Qed.
Print Assumptions C67_z_partial_fractions.

(** ** The impulse response. *)
Lemma star_padd c d h n : star (padd Cplus c d) h n = star c h n + star d h n.
Proof.
  revert d n. induction c as [|x c IH]; intros [|y d] n; cbn [padd star]; try ring. destruct n as [|n]; [ring|]. rewrite IH. ring.
Qed.
Lemma star_scale k c h n : star (map (Cmult k) c) h n = k * star c h n.
Proof. revert n. induction c as [|x c IH]; intros n; cbn [map star]; [ring|]. destruct n as [|n]; [ring|]. rewrite IH. ring. Qed.
Lemma star_conv c d h n : star (convC c d) h n = star c (star d h) n.
Proof.
  unfold convC. revert n. induction c as [|x c IH]; intros n; [reflexivity|]. destruct c as [|y c].
  - cbn [conv]. rewrite star_scale. cbn [star]. destruct n; ring.
  - change (conv Cplus Cmult 0 (x :: y :: c) d) with (padd Cplus (map (Cmult x) d) (RtoC 0 :: conv Cplus Cmult 0 (y :: c) d)).
    rewrite star_padd, star_scale. change (star (x :: y :: c) (star d h) n) with (x * star d h n + match n with O => 0 | S m => star (y :: c) (star d h) m end).
    f_equal. destruct n as [|n]; [cbn [star]; ring|]. rewrite <- IH. cbn [star]. ring.
Qed.
Lemma nth_scale k l n : nth n (map (Cmult k) l) 0 = k * nth n l 0.
Proof. revert n. induction l as [|x l IH]; intros [|n]; cbn [map nth]; try ring. apply IH. Qed.
Definition delta (n : nat) : C := match n with O => 1 | S _ => 0 end.
Lemma star_delta c n : star c delta n = nth n c 0.
Proof.
  revert n. induction c as [|x c IH]; intros n; cbn [star]; [destruct n; reflexivity|]. destruct n as [|n]; cbn [delta nth]; [ring|]. rewrite IH. ring.
Qed.
Lemma star_ext c h h' n : (forall m, (m <= n)%nat -> h m = h' m) -> star c h n = star c h' n.
Proof.
  revert n. induction c as [|x c IH]; intros n H; cbn [star]; [reflexivity|]. rewrite H by lia. destruct n as [|n]; [reflexivity|].
  rewrite (IH n); [reflexivity|]. intros m Hm. apply H. lia.
Qed.
Lemma star_geo e n : star [RtoC 1; - e] (cpow e) n = delta n.
Proof. destruct n as [|[|n]]; cbn [star cpow delta]; ring. Qed.
Lemma star_sum c (l : list nat) (h : nat -> nat -> C) n : star c (fun m => csum (map (fun i => h i m) l)) n = csum (map (fun i => star c (h i) n) l).
Proof.
  assert (G : forall x (f g : nat -> C), x * csum (map f l) + csum (map g l) = csum (map (fun i => x * f i + g i) l)).
  { intros x f g. unfold csum. induction l as [|i l IHl]; cbn [map fold_right]; [ring|]. rewrite <- IHl. ring. }
  assert (Z0 : csum (map (fun _ : nat => RtoC 0) l) = 0).
  { unfold csum. clear. induction l as [|i l IHl]; cbn [map fold_right]; [reflexivity|]. rewrite IHl. ring. }
  revert n. induction c as [|x c IH]; intros n; cbn [star]; [symmetry; exact Z0|].
  destruct n as [|n]; [rewrite <- Z0 at 1|rewrite IH]; apply G.
Qed.
Lemma star_scal_h c k h n : star c (fun m => k * h m) n = k * star c h n.
Proof. revert n. induction c as [|x c IH]; intros n; cbn [star]; [ring|]. destruct n as [|n]; [ring|]. rewrite IH. ring. Qed.

Lemma nth_csum_poly (l : list nat) (F : nat -> list C) (b0 : list C) n :
  (forall i, In i l -> length (F i) = length b0) ->
  (forall w, pe b0 w = csum (map (fun i => pe (F i) w) l)) ->
  nth n b0 0 = csum (map (fun i => nth n (F i) 0) l).
Proof.
  intros L H.
  assert (E : exists q, length q = length b0 /\ (forall w, pe q w = csum (map (fun i => pe (F i) w) l)) /\ forall m, nth m q 0 = csum (map (fun i => nth m (F i) 0) l)).
  { clear H. revert L. generalize (length b0). intros len L. induction l as [|i l IH].
    - exists (repeat (RtoC 0) len). split; [apply repeat_length|]. split.
      + intros w. apply (pe_app_zeros [] len).
      + intros m. cbn. apply nth_repeat.
    - destruct IH as (q & Lq & Hq & Nq); [intros j Hj; apply L; right; exact Hj|].
      exists (padd Cplus (F i) q). rewrite padd_length, Lq, (L i) by (left; reflexivity). split; [lia|]. split.
      + intros w. rewrite pe_padd, Hq. reflexivity.
      + intros m. cbn [map csum fold_right]. fold (csum (map (fun i => nth m (F i) 0) l)). rewrite <- Nq.
        assert (Lf : length (F i) = length q) by (rewrite Lq; apply L; left; reflexivity). clear - Lf. revert q m Lf.
        induction (F i) as [|x f IH]; intros [|y q] m Lf; try discriminate; [destruct m; cbn; ring|]. destruct m as [|m]; cbn [padd nth]; [reflexivity|].
        apply IH. injection Lf; auto. }
  destruct E as (q & Lq & Hq & Nq). rewrite <- Nq. f_equal. apply pe_ext; [symmetry; exact Lq|]. intros x. rewrite H, Hq. reflexivity.
Qed.

(** The unit impulse response h of the filter (a, b), i.e. the solution of
    h(n) = b_n + sum_i a_i h(n-i), is the s-domain impulse response
    sum_i r_i e^(p_i T) sampled at T = n pi f, times the DC normalisation. *)
Theorem C67_z_impulse_samples roots residue u v f u' v' a b r p :
  z_transform roots residue u v f false = (u', v', Ok (a, Some b)) ->
  residue (asked_v u v) (asked_u u) = (r, p) -> length r = length p ->
  is_roots (zels u) p ->
  Permutation (map conj2 (combine r p)) (combine r p) ->
  exists k : R,
    let h := fun n => RtoC k * fold_right (fun rp acc =>
               fst rp * (exp (INR n * (PI * f) * fst (snd rp)) * cos (INR n * (PI * f) * snd (snd rp)),
                         exp (INR n * (PI * f) * fst (snd rp)) * sin (INR n * (PI * f) * snd (snd rp)))%R + acc) 0 (combine r p) in
    forall n, h n = RtoC (nth n b 0%R) + star (map RtoC a) h n.
Proof.
  intros H Hr Hl Hroots Hp.
  destruct (imp_result _ _ _ _ _ _ _ _ _ _ _ H Hr Hl Hp) as (Hf & Nr & k & b0 & Lb & Eb & Hb).
  assert (Hpos : (0 < length r)%nat) by (destruct r; [congruence|cbn; lia]).
  exists k. set (t := (1 / (PI * f))%R) in *.
  set (e := fun i => nth i (map (imp t) p) 0).
  assert (Z : forall s, z_of false f s = imp t s) by (intros s; apply z_of_eq; [exact Hf|discriminate]).
  assert (Hpow : forall s n, cpow (imp t s) n = (exp (INR n * (PI * f) * fst s) * cos (INR n * (PI * f) * snd s),
                         exp (INR n * (PI * f) * fst s) * sin (INR n * (PI * f) * snd s))%R).
  { intros s n. rewrite <- Z. cbn [z_of]. set (c := (PI * f)%R). induction n as [|n IH]; cbn [cpow].
    - cbn [INR]. rewrite !Rmult_0_l, exp_0, cos_0, sin_0. unfold RtoC. f_equal; ring.
    - rewrite IH, S_INR. replace ((INR n + 1) * c * fst s)%R with (INR n * c * fst s + c * fst s)%R by ring.
      replace ((INR n + 1) * c * snd s)%R with (INR n * c * snd s + c * snd s)%R by ring.
      rewrite exp_plus, cos_plus, sin_plus. unfold Cmult. cbn [fst snd]. f_equal; ring. }
  set (h := fun n => RtoC k * csum (map (fun i => nth i r 0 * cpow (e i) n) (seq 0 (length r)))).
  assert (Hh : forall n, RtoC k * fold_right (fun rp acc =>
               fst rp * (exp (INR n * (PI * f) * fst (snd rp)) * cos (INR n * (PI * f) * snd (snd rp)),
                         exp (INR n * (PI * f) * fst (snd rp)) * sin (INR n * (PI * f) * snd (snd rp)))%R + acc) 0 (combine r p) = h n).
  { intros n. unfold h. f_equal.
    transitivity (csum (map (fun rp => fst rp * cpow (imp t (snd rp)) n) (combine r p))).
    { unfold csum. generalize (combine r p). induction l as [|q l IH]; cbn [fold_right map]; [reflexivity|]. rewrite IH, Hpow. reflexivity. }
    f_equal. apply nth_ext with (d := 0) (d' := 0); [rewrite !map_length, combine_length, seq_length; lia|].
    intros i Hi. rewrite map_length, combine_length in Hi.
    rewrite nth_map_lt with (d := (RtoC 0, RtoC 0)) by (rewrite combine_length; lia).
    rewrite nth_map_lt with (d := 0%nat) by (rewrite seq_length; lia). rewrite seq_nth by lia.
    rewrite combine_nth by exact Hl. cbn [fst snd]. unfold e. rewrite nth_map_lt with (d := RtoC 0) by lia. reflexivity. }
  intros h' n. assert (Eh : forall m, h' m = h m) by (intros m; apply Hh). rewrite Eh, (star_ext _ h' h) by (intros; apply Eh). clear Eh Hh h'.
  (* The denominator polynomial. *)
  assert (Pa : cpoly (map (imp t) p) = RtoC 1 :: map (Cmult (-(1))) (tl (map RtoC a)) /\ exists a', a = 0%R :: a').
  { pose proof (C64_z_unit_dc _ _ _ _ _ _ _ _ _ _ H) as [[a' Ea] _]. split; [|exists a'; exact Ea].
    pose proof (C66_z_poles _ _ _ _ _ _ _ _ _ _ H) as D. unfold s_poles in D. rewrite Hr in D. cbn [snd fst] in D.
    specialize (D Hroots ltac:(discriminate) ltac:(intros _; exact Hl)).
    assert (La : length a = S (length p)).
    { apply z_ok in H. destruct H as (_ & _ & _ & A & B & H & E). apply (imp_ok _ _ _ _ _ _ _ _ Hr Hl) in H. destruct H as (_ & HA & _).
      assert (Ea2 : a = fst (z_normal (A, B))) by (rewrite E; reflexivity). rewrite Ea2. cbn [z_normal fst].
      destruct A as [|x A]; [symmetry in HA; apply map_eq_nil in HA; pose proof (cpoly_length (map (imp (1 / (PI * f))) p)) as L; rewrite HA in L; discriminate|].
      cbn [map tl length]. rewrite map_length. apply (f_equal (@length R)) in HA. rewrite map_length, cpoly_length, map_length in HA. cbn [length] in HA. exact HA. }
    apply pe_ext.
    - rewrite cpoly_length, map_length. cbn [length]. rewrite map_length. subst a. cbn [map tl]. rewrite map_length. cbn [length] in La. lia.
    - intros x. rewrite pe_cpoly, map_map. cbn [pe]. rewrite pe_scale. specialize (D (RtoC x)). unfold den in D.
      rewrite fold_cprod in D. rewrite (map_ext _ (fun q => 1 - z_of false f q * RtoC x)) by (intros q; rewrite Z; reflexivity).
      rewrite <- D. subst a. cbn [map pe tl]. ring. }
  destruct Pa as [Pa [a' Ea]].
  assert (K : star (cpoly (map (imp t) p)) h n = RtoC (nth n b 0%R)).
  { unfold h. rewrite (star_scal_h _ (RtoC k)), star_sum.
    assert (T : forall i, In i (seq 0 (length r)) -> star (cpoly (map (imp t) p)) (fun m => nth i r 0 * cpow (e i) m) n = nth n (map (Cmult (nth i r 0)) (cpoly (skip t p i))) 0).
    { intros i Hi. apply in_seq in Hi. rewrite star_scal_h.
      assert (Cp : cpoly (map (imp t) p) = convC (cpoly (skip t p i)) [RtoC 1; - e i]).
      { apply pe_ext.
        - unfold convC. rewrite conv_length; [|discriminate|intros Q; pose proof (cpoly_length (skip t p i)) as L; rewrite Q in L; discriminate].
          rewrite !cpoly_length, map_length, (skip_length t r p Hl) by lia. cbn [length]. lia.
        - intros x. rewrite pe_conv, !pe_cpoly. rewrite <- (prod_skip t r p Hl (fun z => 1 - z * RtoC x) i) by lia. cbn [pe]. fold (e i). ring. }
      rewrite Cp, star_conv, (star_ext _ _ delta) by (intros; apply star_geo). rewrite star_delta.
      rewrite nth_scale. reflexivity. }
    rewrite (map_ext_in _ _ _ T). rewrite <- nth_csum_poly with (b0 := b0) (F := fun i => map (Cmult (nth i r 0)) (cpoly (skip t p i))).
    - assert (Eb2 := f_equal (fun l : list C => nth n l (RtoC 0)) Eb). cbn beta in Eb2.
      rewrite nth_scale, (map_nth RtoC) in Eb2. rewrite Eb2. f_equal. destruct (Nat.lt_ge_cases n (length b0)).
      + rewrite app_nth1 by lia. reflexivity.
      + rewrite (nth_overflow b0) by lia. rewrite app_nth2 by lia. destruct (n - length b0)%nat as [|[|m]]; reflexivity.
    - intros i Hi. apply in_seq in Hi. rewrite map_length, cpoly_length, (skip_length t r p Hl), Lb; lia.
    - intros w. rewrite Hb. f_equal. apply map_ext. intros i. rewrite pe_scale, pe_cpoly. reflexivity. }
  rewrite <- K, Pa, Ea. cbn [map tl]. destruct n as [|n]; cbn [star]; [ring|]. rewrite star_scale. ring.
Qed.
Print Assumptions C67_z_impulse_samples.

(** ** C68 *)
(** Nothing but zeros. *)
Definition trivial (x : zarg) : Prop := forall c, In c (zels x) -> c = 0%R.
Definition rejected (u v : zarg) (f : R) : Prop := trivial u \/ trivial v \/ (f <= 0)%R.
(** An ndarray whose first element is not zero. *)
Definition exposed (x : zarg) : Prop := zarr x = true /\ hd 0%R (zels x) <> 0%R.
Definition divided (x : zarg) (d : R) : zarg := mkZ (zarr x) (zdt x) (map (fun c => (c / d)%R) (zels x)).

Lemma zempty_iff x : zempty x = true <-> trivial x.
Proof.
  unfold zempty, trivial. destruct (zels x) as [|y l]; [cbn; split; [intros _ c []|reflexivity]|].
  cbn [length Nat.eqb orb]. rewrite forallb_forall. split; intros H c Hc; [apply isz_iff, H, Hc|apply isz_iff, H, Hc].
Qed.
Lemma shared_iff x : zempty x = false -> (shared x = true <-> exposed x).
Proof.
  unfold shared, exposed, zempty. destruct (zels x) as [|y l]; [discriminate|]. intros _. cbn [hd]. rewrite andb_true_iff, negb_true_iff.
  split; intros [H1 H2]; (split; [exact H1|]).
  - intros C. apply isz_iff in C. congruence.
  - destruct (isz y) eqn:E; [apply isz_iff in E; tauto|reflexivity].
Qed.
Lemma strip0_exposed x : hd 0%R (zels x) <> 0%R -> strip0 (zels x) = zels x.
Proof.
  destruct (zels x) as [|y l]; [reflexivity|]. cbn [hd strip0]. intros H. destruct (isz y) eqn:E; [apply isz_iff in E; tauto|reflexivity].
Qed.

(** Invalid arguments raise a ValueError and nothing is modified. *)
Theorem C68_z_rejects roots residue u v f (bilinear : bool) :
  rejected u v f <-> z_transform roots residue u v f bilinear = (u, v, Err ValueError).
Proof.
  unfold z_transform. destruct (zempty u) eqn:E1; [split; [reflexivity|]; intros _; left; apply zempty_iff, E1|].
  destruct (zempty v) eqn:E2; [split; [reflexivity|]; intros _; right; left; apply zempty_iff, E2|].
  destruct (Rleb f 0) eqn:E3; [split; [reflexivity|]; intros _; right; right; apply Rleb_iff, E3|].
  split.
  - intros [H|[H|H]]; [apply zempty_iff in H|apply zempty_iff in H|apply Rleb_iff in H]; congruence.
  - destruct (is_int v); [discriminate|]. destruct (is_int u); [discriminate|]. intros H. exfalso.
    assert (H2 := f_equal snd H). cbn [snd] in H2. clear H.
    match type of H2 with rmap _ (if _ then z_bilinear _ ?t ?x ?y else _) = _ => revert H2; generalize t x y end.
    intros t x y H2. destruct bilinear.
    + unfold z_bilinear in H2. destruct (Nat.eqb _ _); discriminate.
    + unfold z_impulse in H2. destruct (residue y x) as [r p]. destruct (fold_left _ (seq 0 (length r)) None); discriminate.
Qed.
Print Assumptions C68_z_rejects.

(** Otherwise, for float data, exactly the exposed arguments are divided in place
    by the last element of u; a list or an array with a leading zero is left alone. *)
Theorem C68_z_in_place roots residue u v f (bilinear : bool) u' v' r :
  ~ rejected u v f -> zdt u = DFloat -> zdt v = DFloat ->
  z_transform roots residue u v f bilinear = (u', v', r) ->
  let d := last (zels u) 0%R in
  (exposed u -> u' = divided u d) /\ (~ exposed u -> u' = u) /\
  (exposed v -> v' = divided v d) /\ (~ exposed v -> v' = v).
Proof.
  intros Hr Hu Hv H d. unfold z_transform in H.
  destruct (zempty u) eqn:E1; [exfalso; apply Hr; left; apply zempty_iff, E1|].
  destruct (zempty v) eqn:E2; [exfalso; apply Hr; right; left; apply zempty_iff, E2|].
  destruct (Rleb f 0) eqn:E3; [exfalso; apply Hr; right; right; apply Rleb_iff, E3|].
  unfold is_int in H. rewrite Hu, Hv in H. injection H as <- <- _.
  destruct (last_normed u) as [L|L]; [|congruence]. rewrite L. fold d.
  assert (G : forall x, zempty x = false ->
    (exposed x -> (if shared x then with_els x (map (fun c => (c / d)%R) (strip0 (zels x))) else x) = divided x d) /\
    (~ exposed x -> (if shared x then with_els x (map (fun c => (c / d)%R) (strip0 (zels x))) else x) = x)).
  { intros x Ex. split; intros K.
    - rewrite (proj2 (shared_iff x Ex) K). unfold with_els, divided. rewrite strip0_exposed by apply K. reflexivity.
    - destruct (shared x) eqn:Es; [exfalso; apply K, (shared_iff x Ex), Es|reflexivity]. }
  destruct (G u E1) as [G1 G2], (G v E2) as [G3 G4]. auto.
Qed.
Print Assumptions C68_z_in_place.

(** Integer arrays: a TypeError; an integer u only raises after v was divided. *)
Theorem C68_z_integer roots residue u v f (bilinear : bool) u' v' r :
  ~ rejected u v f -> zdt u = DInt \/ zdt v = DInt ->
  z_transform roots residue u v f bilinear = (u', v', r) ->
  r = Err TypeError /\ u' = u /\
  (zdt v = DInt \/ ~ exposed v -> v' = v) /\
  (zdt v = DFloat /\ exposed v -> v' = divided v (last (zels u) 0%R)).
Proof.
  intros Hr Hi H. unfold z_transform in H.
  destruct (zempty u) eqn:E1; [exfalso; apply Hr; left; apply zempty_iff, E1|].
  destruct (zempty v) eqn:E2; [exfalso; apply Hr; right; left; apply zempty_iff, E2|].
  destruct (Rleb f 0) eqn:E3; [exfalso; apply Hr; right; right; apply Rleb_iff, E3|].
  destruct (last_normed u) as [L|L]; [|congruence]. rewrite L in H.
  unfold is_int in H. destruct (zdt v) eqn:Ev.
  - injection H as <- <- <-. repeat split; intros [Q _]; discriminate.
  - destruct Hi as [Hi|Hi]; [|discriminate]. rewrite Hi in H. injection H as <- <- <-. split; [reflexivity|]. split; [reflexivity|].
    destruct (shared v) eqn:Es.
    + apply (shared_iff v E2) in Es. split; [intros [Q|Q]; [discriminate|tauto]|]. intros _. unfold with_els, divided. rewrite strip0_exposed by apply Es. reflexivity.
    + split; [reflexivity|]. intros [_ K]. apply (shared_iff v E2) in K. congruence.
  - destruct Hi as [Hi|Hi]; [|discriminate]. rewrite Hi in H. injection H as <- <- <-. split; [reflexivity|]. split; [reflexivity|].
    split; [|intros [Q _]; discriminate]. intros [Q|Q]; [discriminate|]. destruct (shared v) eqn:Es; [apply (shared_iff v E2) in Es; tauto|reflexivity].
Qed.
Print Assumptions C68_z_integer.

(** Float data are accepted when there is a pole. *)
Theorem C68_z_accepts roots residue u v f (bilinear : bool) :
  ~ rejected u v f -> zdt u = DFloat -> zdt v = DFloat ->
  (if bilinear then roots (asked_u u) <> [] else fst (residue (asked_v u v) (asked_u u)) <> []) ->
  exists u' v' a ob, z_transform roots residue u v f bilinear = (u', v', Ok (a, ob)).
Proof.
  intros Hr Hu Hv Hp. unfold z_transform.
  destruct (zempty u) eqn:E1; [exfalso; apply Hr; left; apply zempty_iff, E1|].
  destruct (zempty v) eqn:E2; [exfalso; apply Hr; right; left; apply zempty_iff, E2|].
  destruct (Rleb f 0) eqn:E3; [exfalso; apply Hr; right; right; apply Rleb_iff, E3|].
  unfold is_int. rewrite Hu, Hv. destruct (last_normed u) as [L|L]; [|congruence]. rewrite L.
  change (map (fun x => (x / last (zels u) 0)%R) (strip0 (zels u))) with (asked_u u).
  change (map (fun x => (x / last (zels u) 0)%R) (strip0 (zels v))) with (asked_v u v).
  generalize (1 / (PI * f))%R. intros t. destruct bilinear.
  - unfold z_bilinear. rewrite map_length. destruct (roots (asked_u u)) as [|p ps]; [tauto|]. cbn [length Nat.eqb rmap].
    match goal with |- context [Ok (z_normal ?x)] => destruct (z_normal x) as [a ob] eqn:E end. eexists _, _, a, ob. reflexivity.
  - unfold z_impulse. destruct (residue (asked_v u v) (asked_u u)) as [r p]. cbn [fst] in Hp. destruct r as [|r0 r]; [tauto|].
    cbn [length seq fold_left b_add].
    assert (G : forall l b, exists b', fold_left (fun b ii => b_add b (map (Cmult (nth ii (r0 :: r) (RtoC 0))) (others t (S (length r)) p ii))) l (Some b) = Some b').
    { induction l as [|i l IH]; intros b; [eexists; reflexivity|]. cbn [fold_left b_add]. apply IH. }
    match goal with |- context [fold_left (fun b ii => b_add b _) (seq 1 (length r)) (Some ?bb)] => destruct (G (seq 1 (length r)) bb) as [b' ->] end.
    cbn [rmap]. match goal with |- context [Ok (z_normal ?x)] => destruct (z_normal x) as [a ob] eqn:E end. eexists _, _, a, ob. reflexivity.
Qed.
Print Assumptions C68_z_accepts.

(** ** C64, continued: impulse-invariant numerator and scaling. *)
Theorem C64_z_impulse_numerator roots residue u v f u' v' a ob r p :
  z_transform roots residue u v f false = (u', v', Ok (a, ob)) ->
  residue (asked_v u v) (asked_u u) = (r, p) -> length r = length p ->
  Permutation (map conj2 (combine r p)) (combine r p) ->
  (forall s, In s p -> z_of false f s <> 1) ->
  (ob = None <-> fold_right (fun rp acc => fst rp / (1 - z_of false f (snd rp)) + acc) 0 (combine r p) = 0).
Proof.
  intros H Hr Hl Hp H1. apply z_ok in H. destruct H as (Hf & _ & Ev & A & B & H & E).
  assert (E2 : snd (z_normal (A, B)) = ob) by (rewrite E; reflexivity). rewrite <- E2, z_normal_none.
  apply (imp_ok _ _ _ _ _ _ _ _ Hr Hl) in H. destruct H as (Nr & _ & b0 & Lb & HB & Hb).
  assert (Hpos : (0 < length r)%nat) by (destruct r; [congruence|cbn; lia]).
  assert (Z : forall s, z_of false f s = imp (1 / (PI * f)) s) by (intros s; apply z_of_eq; [exact Hf|discriminate]).
  assert (Hne : forall z, In z (map (imp (1 / (PI * f))) p) -> 1 - z * 1 <> 0).
  { intros z Hz Q. apply in_map_iff in Hz. destruct Hz as (s & <- & Hs). apply (H1 s Hs). rewrite Z.
    transitivity (1 - (1 - imp (1 / (PI * f)) s * 1)); [ring|]. rewrite Q. ring. }
  assert (T : RtoC (tot B) = cprod (map (fun z => 1 - z * 1) (map (imp (1 / (PI * f))) p))
      * fold_right (fun rp acc => fst rp / (1 - z_of false f (snd rp)) + acc) 0 (combine r p)).
  { rewrite <- pe_one_tot, HB, (imp_real _ r p b0 Hl Nr Hp Hb Lb), (pe_app_zeros b0 1), Hb, (imp_fraction _ r p Hl 1 Hpos Hne). f_equal.
    unfold csum. generalize (combine r p). induction l as [|q l IH]; cbn [fold_right map]; [reflexivity|]. rewrite IH, Z.
    replace (imp (1 / (PI * f)) (snd q) * 1) with (imp (1 / (PI * f)) (snd q)) by ring. reflexivity. }
  split; intros Q.
  - rewrite Q in T. symmetry in T. apply Cmult_zero in T. destruct T as [T|T]; [|exact T]. exfalso.
    apply cprod_zero in T. destruct T as (x & Hx & ->). apply in_map_iff in Hx. destruct Hx as (z & Ez & Hz). exact (Hne z Hz Ez).
  - apply RtoC_inj. rewrite T, Q. ring.
Qed.
Print Assumptions C64_z_impulse_numerator.

(** Scaling v does not change the result, for routines that respect scaling. *)
Definition scaled (k : R) (v : zarg) : zarg := mkZ (zarr v) (zdt v) (map (Rmult k) (zels v)).

Lemma isz_scale k x : k <> 0%R -> isz (k * x)%R = isz x.
Proof.
  intros Hk. destruct (isz x) eqn:E.
  - apply isz_iff in E. apply isz_iff. subst x. ring.
  - destruct (isz (k * x)%R) eqn:E2; [|reflexivity]. apply isz_iff in E2. assert (x = 0%R) as X by nra. apply isz_iff in X. congruence.
Qed.
Lemma zempty_scaled k v : k <> 0%R -> zempty (scaled k v) = zempty v.
Proof.
  intros Hk. unfold zempty, scaled. cbn [zels]. rewrite map_length. f_equal. induction (zels v) as [|x l IH]; [reflexivity|].
  cbn [map forallb]. rewrite isz_scale by exact Hk. rewrite IH. reflexivity.
Qed.
Lemma strip0_scaled k l : k <> 0%R -> strip0 (map (Rmult k) l) = map (Rmult k) (strip0 l).
Proof.
  intros Hk. induction l as [|x l IH]; [reflexivity|]. cbn [map strip0]. rewrite isz_scale by exact Hk. destruct (isz x); [exact IH|reflexivity].
Qed.
Lemma z_normal_scale k A B : k <> 0%R -> z_normal (A, map (Rmult k) B) = z_normal (A, B).
Proof.
  intros Hk. cbn [z_normal]. f_equal. rewrite !tot_rsuml.
  assert (T : tot (map (Rmult k) B) = (k * tot B)%R) by (unfold tot; induction B as [|x B IH]; cbn [map fold_right]; [ring|rewrite IH; ring]).
  rewrite T, isz_scale by exact Hk. destruct (isz (tot B)) eqn:E; [reflexivity|]. f_equal. rewrite map_map. apply map_ext. intros x. field.
  split; [intros C; apply isz_iff in C; congruence|exact Hk].
Qed.

Theorem C64_z_scale roots residue u v f (bilinear : bool) k :
  k <> 0%R ->
  (forall l, roots (map (Rmult k) l) = roots l) ->
  (forall n d, residue (map (Rmult k) n) d = (map (Cmult (RtoC k)) (fst (residue n d)), snd (residue n d))) ->
  snd (z_transform roots residue u (scaled k v) f bilinear) = snd (z_transform roots residue u v f bilinear).
Proof.
  intros Hk Hroots Hres. unfold z_transform. rewrite zempty_scaled by exact Hk.
  destruct (zempty u); [reflexivity|]. destruct (zempty v); [reflexivity|]. destruct (Rleb f 0); [reflexivity|].
  change (is_int (scaled k v)) with (is_int v). destruct (is_int v); [reflexivity|]. destruct (is_int u); [reflexivity|].
  cbn [snd]. set (d := last (strip0 (zels u)) 0%R). set (us := map (fun x => (x / d)%R) (strip0 (zels u))).
  assert (Ev : map (fun x => (x / d)%R) (strip0 (zels (scaled k v))) = map (Rmult k) (map (fun x => (x / d)%R) (strip0 (zels v)))).
  { unfold scaled. cbn [zels]. rewrite strip0_scaled, !map_map by exact Hk. apply map_ext. intros x. unfold Rdiv. ring. }
  rewrite Ev. set (vs := map (fun x => (x / d)%R) (strip0 (zels v))). generalize (1 / (PI * f))%R. intros t. destruct bilinear.
  - unfold z_bilinear. rewrite Hroots. reflexivity.
  - unfold z_impulse. rewrite Hres. destruct (residue vs us) as [r p]. cbn [fst snd]. rewrite map_length.
    set (F := fun b ii => b_add b (map (Cmult (nth ii r (RtoC 0))) (others t (length r) p ii))).
    assert (G : forall l b, fold_left (fun b ii => b_add b (map (Cmult (nth ii (map (Cmult (RtoC k)) r) (RtoC 0))) (others t (length r) p ii))) l (option_map (map (Cmult (RtoC k))) b)
      = option_map (map (Cmult (RtoC k))) (fold_left F l b)).
    { induction l as [|i l IH]; intros b; [reflexivity|]. cbn [fold_left]. rewrite <- IH. f_equal. unfold F. rewrite nth_scale.
      destruct b as [b|]; cbn [option_map b_add]; f_equal.
      - generalize (others t (length r) p i). clear. revert b. induction b as [|x b IH]; intros [|y q]; cbn [map map2]; [reflexivity..|].
        rewrite IH. f_equal. ring.
      - rewrite !map_map. apply map_ext. intros q. ring. }
    specialize (G (seq 0 (length r)) None). cbn [option_map] in G. rewrite G.
    destruct (fold_left F (seq 0 (length r)) None) as [b|]; cbn [option_map]; [|reflexivity]. cbn [rmap]. f_equal.
    rewrite map_length. set (n := (_ - _)%nat).
    assert (E : map fst (map (Cmult (RtoC k)) b ++ repeat (RtoC 0) n) = map (Rmult k) (map fst (b ++ repeat (RtoC 0) n))).
    { rewrite !map_app, !map_map. f_equal; [apply map_ext; intros [x y]; cbn; ring|]. clear. induction n as [|n IH]; cbn [repeat map]; [reflexivity|].
      rewrite <- IH. cbn. f_equal. ring. }
    rewrite E. apply z_normal_scale. exact Hk.
Qed.
Print Assumptions C64_z_scale.

(** ** Examples: 1 / (s^2 + 2 s + 2), poles -1 + j and -1 - j, at f = 1/2. *)
Definition ex_u : zarg := mkZ true DFloat [1; 2; 2]%R.
Definition ex_v : zarg := mkZ false DFloat [1]%R.
Definition ex_hp : zarg := mkZ true DFloat [1; 0]%R.
Definition ex_poles : list C := [(-1, 1)%R; (-1, -1)%R].
Definition ex_roots (l : list R) : list C :=
  match length l with 3%nat => ex_poles | 2%nat => [RtoC 0] | _ => [] end.
Definition ex_residue (_ _ : list R) : list C * list C := ([(0, -1 / 2)%R; (0, 1 / 2)%R], ex_poles).

Lemma ex_not_rejected v : zels v = [1]%R \/ zels v = [1; 0]%R -> ~ rejected ex_u v (1 / 2).
Proof.
  intros Hv [H|[H|H]]; [| |lra].
  - specialize (H 1%R). cbn in H. assert (1 = 0)%R by tauto. lra.
  - specialize (H 1%R). assert (1 = 0)%R; [apply H; destruct Hv as [-> | ->]; cbn; tauto|lra].
Qed.
Lemma ex_is_roots : is_roots (zels ex_u) ex_poles.
Proof.
  exists 1%R. split; [lra|]. intros [x y]. cbn. unfold pv, horner, Cplus, Cmult, Cminus, Copp, RtoC. cbn. f_equal; ring.
Qed.
Lemma ex_no_pole : pv (zels ex_u) (bil_pole (1 / 2)) <> 0.
Proof.
  pose proof PI_RGT_0 as P. assert (0 < 2 / (PI * (1 / 2)))%R by (apply Rdiv_lt_0_compat; lra). unfold bil_pole. set (x := (2 / (PI * (1 / 2)))%R) in *.
  intros E. apply (f_equal fst) in E. cbn in E. nra.
Qed.
Lemma ex_stable s : pv (zels ex_u) s = 0 -> (fst s < 0)%R.
Proof. intros H. apply (is_roots_In _ _ _ ex_is_roots) in H. cbn in H. destruct H as [<-|[<-|[]]]; cbn; lra. Qed.
Lemma ex_conj : Permutation (map conj2 (combine (fst (ex_residue [] [])) ex_poles)) (combine (fst (ex_residue [] [])) ex_poles).
Proof.
  set (x1 := ((0, -1 / 2)%R, (-1, 1)%R) : C * C). set (x2 := ((0, 1 / 2)%R, (-1, -1)%R) : C * C).
  change (Permutation [conj2 x1; conj2 x2] [x1; x2]).
  replace (conj2 x1) with x2 by (unfold conj2, Cconj, x1, x2; cbn; repeat f_equal; lra).
  replace (conj2 x2) with x1 by (unfold conj2, Cconj, x1, x2; cbn; repeat f_equal; lra). apply perm_swap.
Qed.

Example C64_example : exists u' v' a b,
  z_transform ex_roots ex_residue ex_u ex_v (1 / 2) true = (u', v', Ok (a, Some b)) /\
  is_roots (zels ex_v) (ex_roots (asked_v ex_u ex_v)) /\ pv (zels ex_v) (bil_pole (1 / 2)) <> 0.
Proof.
  assert (N1 : isz 1 = false) by (destruct (isz 1) eqn:E; [apply isz_iff in E; lra|reflexivity]).
  assert (A : asked_v ex_u ex_v = [1 / 2]%R) by (unfold asked_v, normed; cbn; rewrite N1; reflexivity).
  assert (A2 : asked_u ex_u = [1 / 2; 2 / 2; 2 / 2]%R) by (unfold asked_u, normed; cbn; rewrite N1; reflexivity).
  assert (R1 : is_roots (zels ex_v) (ex_roots (asked_v ex_u ex_v))).
  { rewrite A. cbn. exists 1%R. split; [lra|]. intros s. unfold pv, horner. cbn. ring. }
  assert (R2 : pv (zels ex_v) (bil_pole (1 / 2)) <> 0).
  { cbn. unfold pv, horner. intros E. apply (f_equal fst) in E. cbn in E. lra. }
  destruct (C68_z_accepts ex_roots ex_residue ex_u ex_v (1 / 2) true) as (u' & v' & a & ob & E).
  { apply ex_not_rejected. left. reflexivity. }
  { reflexivity. }
  { reflexivity. }
  { rewrite A2. discriminate. }
  destruct ob as [b|]; [exists u', v', a, b; auto|]. exfalso.
  pose proof (proj1 (C64_z_bilinear_numerator _ _ _ _ _ _ _ _ _ E R1 R2) eq_refl) as Q. cbn in Q. lra.
Qed.
(** A high-pass numerator s: the result is not defined. *)
Theorem C64_z_highpass_refuted : exists u' v' a,
  z_transform ex_roots ex_residue ex_u ex_hp (1 / 2) true = (u', v', Ok (a, None)).
Proof.
  assert (N1 : isz 1 = false) by (destruct (isz 1) eqn:E; [apply isz_iff in E; lra|reflexivity]).
  assert (A : asked_v ex_u ex_hp = [1 / 2; 0 / 2]%R) by (unfold asked_v, normed; cbn; rewrite N1; reflexivity).
  assert (A2 : asked_u ex_u = [1 / 2; 2 / 2; 2 / 2]%R) by (unfold asked_u, normed; cbn; rewrite N1; reflexivity).
  assert (R1 : is_roots (zels ex_hp) (ex_roots (asked_v ex_u ex_hp))).
  { rewrite A. cbn. exists 1%R. split; [lra|]. intros s. unfold pv, horner. cbn. ring. }
  assert (R2 : pv (zels ex_hp) (bil_pole (1 / 2)) <> 0).
  { cbn. unfold pv, horner, bil_pole. intros E. apply (f_equal fst) in E. cbn in E. pose proof PI_RGT_0.
    assert (0 < 2 / (PI * (1 / 2)))%R by (apply Rdiv_lt_0_compat; lra). nra. }
  destruct (C68_z_accepts ex_roots ex_residue ex_u ex_hp (1 / 2) true) as (u' & v' & a & ob & E).
  { apply ex_not_rejected. right. reflexivity. }
  { reflexivity. }
  { reflexivity. }
  { rewrite A2. discriminate. }
  exists u', v', a. rewrite E. rewrite (proj2 (C64_z_bilinear_numerator _ _ _ _ _ _ _ _ _ E R1 R2) eq_refl). reflexivity.
Qed.
Print Assumptions C64_z_highpass_refuted.
Example C64_scale_example : (forall l, ex_roots (map (Rmult 3) l) = ex_roots l) /\
  (forall n d, (fun (n d : list R) => (map RtoC n, map RtoC d)) (map (Rmult 3) n) d
     = (map (Cmult (RtoC 3)) (map RtoC n), map RtoC d)).
Proof.
  split; intros; unfold ex_roots; rewrite ?map_length; [reflexivity|]. rewrite !map_map. f_equal. apply map_ext. intros x. apply RtoC_mult.
Qed.

Example C65_C66_example :
  (exists u' v' a ob, z_transform ex_roots ex_residue ex_u ex_v (1 / 2) true = (u', v', Ok (a, ob))) /\
  is_roots (zels ex_u) (s_poles ex_roots ex_residue true ex_u ex_v) /\
  pv (zels ex_u) (bil_pole (1 / 2)) <> 0 /\ (forall s, pv (zels ex_u) s = 0 -> (fst s < 0)%R).
Proof.
  assert (N1 : isz 1 = false) by (destruct (isz 1) eqn:E; [apply isz_iff in E; lra|reflexivity]).
  assert (A2 : asked_u ex_u = [1 / 2; 2 / 2; 2 / 2]%R) by (unfold asked_u, normed; cbn; rewrite N1; reflexivity).
  split; [|split; [|split; [exact ex_no_pole|exact ex_stable]]].
  - apply C68_z_accepts; [apply ex_not_rejected; left; reflexivity|reflexivity|reflexivity|rewrite A2; discriminate].
  - unfold s_poles. rewrite A2. exact ex_is_roots.
Qed.

Example C67_example : exists u' v' a b,
  z_transform ex_roots ex_residue ex_u ex_v (1 / 2) false = (u', v', Ok (a, Some b)) /\
  is_roots (zels ex_u) ex_poles /\
  Permutation (map conj2 (combine (fst (ex_residue [] [])) ex_poles)) (combine (fst (ex_residue [] [])) ex_poles).
Proof.
  destruct (C68_z_accepts ex_roots ex_residue ex_u ex_v (1 / 2) false) as (u' & v' & a & ob & E);
    [apply ex_not_rejected; left; reflexivity|reflexivity|reflexivity|discriminate|].
  destruct ob as [b|]; [exists u', v', a, b; split; [exact E|split; [exact ex_is_roots|exact ex_conj]]|]. exfalso.
  set (q := exp (PI * (1 / 2) * -1)). assert (Q : (0 < q)%R) by apply exp_pos.
  assert (Z1 : z_of false (1 / 2) (-1, 1)%R = (0, q)%R).
  { cbn [z_of fst snd]. fold q. replace (PI * (1 / 2) * 1)%R with (PI / 2)%R by field. rewrite cos_PI2, sin_PI2. f_equal; ring. }
  assert (Z2 : z_of false (1 / 2) (-1, -1)%R = (0, - q)%R).
  { cbn [z_of fst snd]. fold q. replace (PI * (1 / 2) * -1)%R with (- (PI / 2))%R by field. rewrite cos_neg, sin_neg, cos_PI2, sin_PI2. f_equal; ring. }
  pose proof (C64_z_impulse_numerator _ _ _ _ _ _ _ _ _ (fst (ex_residue [] [])) ex_poles E eq_refl eq_refl ex_conj) as K.
  assert (H1 : forall s, In s ex_poles -> z_of false (1 / 2) s <> 1).
  { intros s [<-|[<-|[]]]; rewrite ?Z1, ?Z2; intros C; apply (f_equal fst) in C; cbn in C; lra. }
  pose proof (proj1 (K H1) eq_refl) as W.
  cbn [ex_residue ex_poles fst snd combine fold_right] in W. rewrite Z1, Z2 in W. apply (f_equal fst) in W.
  unfold Cdiv, Cinv, Cmult, Cplus, Cminus, Copp, RtoC in W. cbn in W.
  assert (D : (0 < 1 + q * q)%R) by nra.
  revert W. match goal with |- (?l = 0)%R -> False => replace l with (q / (1 + q * q))%R by (field; repeat split; nra) end.
  intros W. assert (0 < q / (1 + q * q))%R by (apply Rdiv_lt_0_compat; assumption). lra.
Qed.

Example C68_example : exposed ex_u /\ ~ exposed ex_v /\ ~ rejected ex_u ex_v (1 / 2) /\
  divided ex_u (last (zels ex_u) 0%R) <> ex_u.
Proof.
  split; [split; [reflexivity|cbn; lra]|]. split; [intros [H _]; discriminate|]. split; [apply ex_not_rejected; left; reflexivity|].
  intros H. unfold divided, ex_u in H. cbn in H. injection H as H _. lra.
Qed.
