(** C178: PidFilter on complex signals. *)
From Coq Require Import List Arith ZArith Lia Bool Reals Lra.
From Coquelicot Require Import Complex.
From Verif Require Import Base BaseLemmas Instances FirModel FirSpec FirProofs PidModel PidProps PidComplexModel.
Import ListNotations.
Set Asymmetric Patterns.
Open Scope C_scope.

(** The magnitude test of line 85. *)
Definition within (l : option R) (z : C) : bool := match l with None => true | Some L => Rltb (Cmod z) L end.
Definition limit_of (l : option R) : option C := option_map RtoC l.

(** One sample: gains, limit, registers (sample, integral, difference). *)
Definition cstep (b0 b1 b2 : C) (l : option R) (s : C * C * C) (x : C) : (C * C * C) * C :=
  let '(p, i, _) := s in
  let i' := if within l (i + x) then i + x else i in
  ((x, i', x - p), b0 * x + b1 * i' + b2 * (x - p)).

Definition triple (s : C * C * C) : list C := let '(u, v, w) := s in [u; v; w].

Lemma pid_cstep b0 b1 b2 l s x :
  @pid_step CO DComplex [b0; b1; b2] (limit_of l) (triple s) x =
  (triple (fst (cstep b0 b1 b2 l s x)), Ok (snd (cstep b0 b1 b2 l s x))).
Proof.
  destruct s as [[u v] w].
  assert (E : @below CO (limit_of l) (v + x) = within l (v + x)) by (destruct l; reflexivity).
  cbn [triple]. unfold pid_step. change (@add CO v x) with (v + x). change (@cast CO DComplex) with (fun z : C => z). cbv beta.
  refine (eq_trans (f_equal (fun c : bool => let s' := [x; (if c then v + x else v); x - u] in
     (s', rmap (fun z : C => z) (@np_dot CO [b0; b1; b2] s'))) E) _).
  cbn [cstep fst snd triple]. destruct (within l (v + x)); cbv zeta; f_equal; unfold np_dot; cbn [length Nat.eqb rmap]; f_equal; cbn; ring.
Qed.

(** A run as a fold. *)
Fixpoint crun (b0 b1 b2 : C) (l : option R) (s : C * C * C) (x : list C) : (C * C * C) * list C :=
  match x with
  | [] => (s, [])
  | v :: x' => let '(s1, y) := cstep b0 b1 b2 l s v in
               let '(s2, ys) := crun b0 b1 b2 l s1 x' in (s2, y :: ys)
  end.
Lemma pid_crun b0 b1 b2 l : forall x s,
  run (@pid_step CO DComplex [b0; b1; b2] (limit_of l)) (triple s) x =
  (triple (fst (crun b0 b1 b2 l s x)), Ok (snd (crun b0 b1 b2 l s x))).
Proof.
  induction x as [|v x IH]; intros s; [reflexivity|]. cbn [run crun]. rewrite pid_cstep.
  destruct (cstep b0 b1 b2 l s v) as [s1 y]. cbn [fst snd]. 
  refine (eq_trans (f_equal (fun r : list C * res (list C) => let '(s', r0) := r in
     match r0 with Ok ys => (s', Ok (y :: ys)) | Err e => (s', Err e) end) (IH s1)) _).
  destruct (crun b0 b1 b2 l s1 x) as [s2 ys]. reflexivity.
Qed.

(** A complex PidFilter with the given gains, limit and registers. *)
Definition cpid (b0 b1 b2 : C) (l : option R) (s : C * C * C) : pid CO :=
  @mkPid CO (@mkFir CO DComplex [b0; b1; b2] (triple s)) (limit_of l).
Lemma cpid_filter b0 b1 b2 l s x : x <> [] ->
  @pid_filter CO (cpid b0 b1 b2 l s) x =
  (cpid b0 b1 b2 l (fst (crun b0 b1 b2 l s x)), Ok (snd (crun b0 b1 b2 l s x))).
Proof.
  intros Hx. unfold pid_filter. destruct x as [|v x]; [congruence|]. cbn [length Nat.eqb cpid pfir fb fdt plimit fs].
  rewrite pid_crun. reflexivity.
Qed.

(** Every constructed filter used with real limits is such a filter. *)
Lemma used_cpid b0 b1 b2 ops (p : pid CO) :
  @pid_used CO (mkArr DComplex [b0; b1; b2]) ops p ->
  (plimit p = None \/ exists L, plimit p = Some (RtoC L)) ->
  exists l s, p = cpid b0 b1 b2 l s.
Proof.
  intros Hu Hl. destruct (@pid_used_inv CO _ _ _ Hu) as ([Hb Hs] & Hd & Hbb). cbn [adt els] in *.
  destruct p as [[dt b s] l]. cbn [pfir fdt fb fs plimit] in *.
  destruct s as [|u [|v [|w [|]]]]; try discriminate Hs.
  assert (E : exists l0, l = limit_of l0).
  { destruct Hl as [->|[L ->]]; [exists None|exists (Some L)]; reflexivity. }
  destruct E as [l0 ->]. exists l0, (u, v, w). rewrite Hd, Hbb. reflexivity.
Qed.

(** Proportional, integral and derivative terms; the integral takes a sample exactly when the
    magnitude of the sum stays below the limit. *)
Theorem C178_terms (b0 b1 b2 : C) ops (p : pid CO) (x : list C) (l : option R) :
  @pid_used CO (mkArr DComplex [b0; b1; b2]) ops p -> plimit p = option_map RtoC l -> x <> [] ->
  exists p' (y i : list C), @pid_filter CO p x = (p', Ok y) /\ length y = length x /\ length i = length x /\
    @pid_integral CO p' = last i (RtoC 0) /\
    forall n, (n < length x)%nat ->
      let xp : C := match n with O => @nth C 0 (fs (pfir p)) (RtoC 0) | S k => nth k x (RtoC 0) end in
      let ip : C := match n with O => @pid_integral CO p | S k => nth k i (RtoC 0) end in
      nth n y (RtoC 0) = b0 * nth n x (RtoC 0) + b1 * nth n i (RtoC 0) + b2 * (nth n x (RtoC 0) - xp) /\
      (l = None -> nth n i (RtoC 0) = ip + nth n x (RtoC 0)) /\
      (forall L, l = Some L ->
        ((Cmod (ip + nth n x (RtoC 0))%C < L)%R -> nth n i (RtoC 0) = ip + nth n x (RtoC 0)) /\
        ((L <= Cmod (ip + nth n x (RtoC 0))%C)%R -> nth n i (RtoC 0) = ip)).
Proof.
  intros Hu Hl Hx.
  destruct (used_cpid b0 b1 b2 ops p Hu) as (l0 & s & ->).
  { rewrite Hl. destruct l as [L|]; [right; exists L; reflexivity|left; reflexivity]. }
  assert (El : limit_of l0 = limit_of l) by exact Hl. 
  assert (El' : l0 = l). { destruct l0, l; try discriminate El; [injection El as E; congruence|reflexivity]. }
  subst l0. clear El Hl Hu. rewrite cpid_filter by exact Hx.
  set (is := (fix go (i : C) (x : list C) : list C := match x with [] => [] | v :: x' =>
    let i' := if within l (i + v) then i + v else i in i' :: go i' x' end)).
  destruct s as [[u v] w].
  exists (cpid b0 b1 b2 l (fst (crun b0 b1 b2 l (u, v, w) x))), (snd (crun b0 b1 b2 l (u, v, w) x)), (is v x).
  split; [reflexivity|].
  assert (Ln : forall (x : list C) u v w, length (snd (crun b0 b1 b2 l (u, v, w) x)) = length x /\ length (is v x) = length x).
  { clear. induction x as [|a x IH]; intros u v w; [split; reflexivity|]. cbn [crun cstep].
    specialize (IH a (if within l (v + a) then v + a else v) (a - u)).
    destruct (crun _ _ _ _ _ x) as [s2 ys]. cbn [snd length is] in *. destruct IH as [-> ->]. split; reflexivity. }
  destruct (Ln x u v w) as [L1 L2]. split; [exact L1|]. split; [exact L2|]. split.
  - assert (G : forall (x : list C) u v w, nth 1 (triple (fst (crun b0 b1 b2 l (u, v, w) x))) (RtoC 0) = last (is v x) v).
    { clear. induction x as [|a x IH]; intros u v w; [reflexivity|]. cbn [crun cstep].
      specialize (IH a (if within l (v + a) then v + a else v) (a - u)).
      destruct (crun _ _ _ _ _ x) as [s2 ys]. cbn [fst is] in *. rewrite IH. symmetry. apply last_cons2. }
    transitivity (last (is v x) v); [exact (G x u v w)|]. destruct x as [|a x]; [congruence|].
    cbn [is]. fold is. rewrite !last_cons2. reflexivity.
  - cbn [cpid pfir fs triple]. change (@pid_integral CO (cpid b0 b1 b2 l (u, v, w))) with v.
    change (nth 0 [u; v; w] (RtoC 0)) with u.
    clear L1 L2 Ln Hx. revert u v w. induction x as [|a x IH]; intros u v w n Hn; [cbn in Hn; lia|].
    cbn [crun cstep is]. fold is. set (v' := if within l (v + a) then v + a else v).
    specialize (IH a v' (a - u)). 
    destruct (crun b0 b1 b2 l (a, v', a - u) x) as [s2 ys] eqn:Er. cbn [snd] in *.
    destruct n as [|n].
    + cbn [nth]. split; [reflexivity|]. unfold v', within. split.
      * intros ->. reflexivity.
      * intros L ->. split; intros H.
        -- apply Rltb_iff in H. rewrite H. reflexivity.
        -- destruct (Rltb (Cmod (v + a)) L) eqn:E; [|reflexivity]. apply Rltb_iff in E. lra.
    + cbn [length] in Hn. specialize (IH n ltac:(lia)). cbn [nth]. destruct n; exact IH.
Qed.
Print Assumptions C178_terms.

Example C178_terms_example : exists p : pid CO,
  @pid_used CO (mkArr DComplex [RtoC 1; Ci; RtoC 2]) [@PFilter CO [RtoC 1; Ci]; @PLimit CO (Some (RtoC 5))] p /\
  plimit p = option_map RtoC (Some 5%R).
Proof.
  eexists. split; [eexists; split; reflexivity|]. cbn [fold_left pid_exec].
  unfold pid_set_limit. change (@oltb CO (RtoC 5) zero) with (Rltb 5 0).
  destruct (Rltb 5 0) eqn:E; [apply Rltb_iff in E; lra|reflexivity].
Qed.

(** The integral of a new filter with limit L lies within the disc of radius L (or is 0), over any
    calls. *)
Theorem C178_disc (b0 b1 b2 : C) (p0 p1 : pid CO) (L : R) (xs : list (list C)) :
  @pid_make CO (mkArr DComplex [b0; b1; b2]) = Ok p0 -> pid_set_limit p0 (Some (RtoC L)) = (p1, Ok tt) ->
  let i : C := @pid_integral CO (fold_left (fun p x => fst (@pid_filter CO p x)) xs p1) in
  i = RtoC 0 \/ (Cmod i < L)%R.
Proof.
  intros E EL i. destruct (C29_pid_integral_below_limit CO (mkArr DComplex [b0; b1; b2]) p0 p1 (RtoC L) xs) as [H|H].
  - intros v H. exact H.
  - reflexivity.
  - exact E.
  - exact EL.
  - left. exact H.
  - right. apply Rltb_iff. exact H.
Qed.
Print Assumptions C178_disc.
Example C178_disc_example : exists p0 p1 : pid CO,
  @pid_make CO (mkArr DComplex [RtoC 1; Ci; RtoC 0]) = Ok p0 /\ pid_set_limit p0 (Some (RtoC 5)) = (p1, Ok tt).
Proof.
  eexists _, _. split; [reflexivity|]. unfold pid_set_limit. change (@oltb CO (RtoC 5) zero) with (Rltb 5 0).
  destruct (Rltb 5 0) eqn:E; [apply Rltb_iff in E; lra|reflexivity].
Qed.

(** Rotation: turning the registers and the signal by one angle turns the outputs and the
    registers by that angle, with any limit. *)
Definition turn (w : C) (s : C * C * C) : C * C * C := let '(a, b, c) := s in (w * a, w * b, w * c).
Lemma crun_turn b0 b1 b2 l w : Cmod w = 1%R -> forall x s,
  crun b0 b1 b2 l (turn w s) (map (Cmult w) x) =
  (turn w (fst (crun b0 b1 b2 l s x)), map (Cmult w) (snd (crun b0 b1 b2 l s x))).
Proof.
  intros Hw. induction x as [|v x IH]; intros [[a b] c]; [reflexivity|].
  cbn [map crun turn cstep].
  assert (E : within l (w * b + w * v) = within l (b + v)).
  { destruct l as [L|]; [|reflexivity]. cbn [within]. replace (w * b + w * v) with (w * (b + v)) by ring.
    rewrite Cmod_mult, Hw, Rmult_1_l. reflexivity. }
  rewrite E. set (b' := if within l (b + v) then b + v else b).
  replace (if within l (b + v) then w * b + w * v else w * b) with (w * b')
    by (unfold b'; destruct (within l (b + v)); ring).
  specialize (IH (v, b', v - a)). cbn [turn] in IH. replace (w * v - w * a) with (w * (v - a)) by ring. rewrite IH.
  destruct (crun b0 b1 b2 l (v, b', v - a) x) as [s2 ys]. cbn [fst snd map]. f_equal. f_equal. ring.
Qed.

Theorem C178_rotation (b : arr CO) ops (p q : pid CO) (t : R) (x : list C) :
  adt b = DComplex -> pid_used b ops p -> (plimit p = None \/ exists L, plimit p = Some (RtoC L)) ->
  plimit q = plimit p -> pfir q = with_s (pfir p) (map (Cmult (cis t)) (fs (pfir p))) -> x <> [] ->
  exists p' q' (y : list C), @pid_filter CO p x = (p', Ok y) /\
    @pid_filter CO q (map (Cmult (cis t)) x) = (q', Ok (map (Cmult (cis t)) y)) /\
    fs (pfir q') = map (Cmult (cis t)) (fs (pfir p')).
Proof.
  intros Hd Hu Hl Eq Ef Hx. destruct b as [d b]. cbn [adt] in Hd. subst d.
  assert (Hb : length b = 3%nat) by (destruct (@pid_used_inv CO _ _ _ Hu) as ([H _] & _ & H2); cbn [els] in H2; rewrite H2 in H; exact H).
  destruct b as [|b0 [|b1 [|b2 [|]]]]; try discriminate Hb.
  destruct (used_cpid b0 b1 b2 ops p Hu Hl) as (l & s & ->).
  assert (E : q = cpid b0 b1 b2 l (turn (cis t) s)).
  { destruct q as [fq lq]. cbn [plimit pfir] in *. subst fq lq. destruct s as [[u v] w]. reflexivity. }
  subst q. rewrite !cpid_filter by (first [exact Hx | destruct x; [congruence|discriminate]]).
  rewrite crun_turn by apply Cmod_cis. eexists _, _, _. split; [reflexivity|]. split; [reflexivity|].
  cbn [fst cpid pfir fs]. destruct (crun b0 b1 b2 l s x) as [[[u v] w] ys]. reflexivity.
Qed.
Print Assumptions C178_rotation.
Example C178_rotation_example : let p := cpid (RtoC 1) Ci (RtoC 2) None (RtoC 0, RtoC 0, RtoC 0) in
  pid_used (mkArr DComplex [RtoC 1; Ci; RtoC 2] : arr CO) [] p /\
  @pid_filter CO p [RtoC 1; Ci] = (cpid (RtoC 1) Ci (RtoC 2) None (Ci, RtoC 1 + Ci, Ci - RtoC 1), Ok [(3, 1)%R; (-3, 4)%R]).
Proof.
  intros p. split; [eexists; split; reflexivity|]. unfold p. rewrite cpid_filter by discriminate. cbn [crun cstep within fst snd].
  f_equal; [f_equal; f_equal; f_equal; ring|]. f_equal.
  apply f_equal2; [|apply f_equal2; [|reflexivity]]; apply injective_projections; cbn; ring.
Qed.

(** ** Real and imaginary parts *)
Definition part (f : C -> R) (p : pid CO) : pid RO :=
  @mkPid RO (@mkFir RO DFloat (map Re (fb (pfir p))) (map f (fs (pfir p)))) (option_map Re (plimit p)).

Lemma rpid_step (b0 b1 b2 : R) (l : option R) (u v w x : R) :
  @pid_step RO DFloat [b0; b1; b2] l [u; v; w] x =
  (let i := if match l with None => true | Some L => Rltb (Rabs (v + x)) L end then (v + x)%R else v in
   ([x; i; (x - u)%R], Ok (b0 * x + b1 * i + b2 * (x - u))%R)).
Proof.
  unfold pid_step. cbv zeta. f_equal. unfold np_dot. cbn [length Nat.eqb rmap]. f_equal.
  destruct l as [L|]; cbn; ring.
Qed.

(** Real gains and no limit: real and imaginary parts are filtered independently. *)
Theorem C178_parts (b0 b1 b2 : R) ops (p : pid CO) (x : list C) :
  @pid_used CO (mkArr DComplex [RtoC b0; RtoC b1; RtoC b2]) ops p -> plimit p = None -> x <> [] ->
  exists p' (y : list C), @pid_filter CO p x = (p', Ok y) /\
    @pid_filter RO (part Re p) (map Re x) = (part Re p', Ok (map Re y)) /\
    @pid_filter RO (part Im p) (map Im x) = (part Im p', Ok (map Im y)).
Proof.
  intros Hu Hl Hx. destruct (used_cpid _ _ _ ops p Hu (or_introl Hl)) as (l & s & ->).
  assert (l = None) as -> by (destruct l; [discriminate Hl|reflexivity]).
  rewrite cpid_filter by exact Hx. eexists _, _. split; [reflexivity|].
  assert (G : forall f, f = Re \/ f = Im -> forall x s,
    run (@pid_step RO DFloat [b0; b1; b2] None) (map f (triple s)) (map f x) =
    (map f (triple (fst (crun (RtoC b0) (RtoC b1) (RtoC b2) None s x))), Ok (map f (snd (crun (RtoC b0) (RtoC b1) (RtoC b2) None s x))))).
  { intros f Hf. induction x0 as [|v x0 IH]; intros [[u i] w]; [reflexivity|].
    cbn [map run triple]. rewrite rpid_step. cbv zeta. cbn [crun cstep within].
    specialize (IH (v, i + v, v - u)). cbn [triple map] in IH.
    assert (E1 : f (i + v) = (f i + f v)%R) by (destruct Hf as [-> | ->]; reflexivity).
    assert (E2 : f (v - u) = (f v - f u)%R) by (destruct Hf as [-> | ->]; reflexivity).
    rewrite E1, E2 in IH.
    destruct (crun (RtoC b0) (RtoC b1) (RtoC b2) None (v, i + v, v - u) x0) as [s2 ys]. cbn [fst snd map] in *.
    refine (eq_trans (f_equal (fun r : list R * res (list R) => let '(s', r0) := r in
     match r0 with Ok ys => (s', Ok (_ :: ys)) | Err e => (s', Err e) end) IH) _).
    f_equal. f_equal. f_equal.
    destruct Hf as [-> | ->]; unfold Re, Im; cbn; ring. }
  assert (K : forall f, f = Re \/ f = Im ->
    @pid_filter RO (part f (cpid (RtoC b0) (RtoC b1) (RtoC b2) None s)) (map f x) =
    (part f (cpid (RtoC b0) (RtoC b1) (RtoC b2) None (fst (crun (RtoC b0) (RtoC b1) (RtoC b2) None s x))),
     Ok (map f (snd (crun (RtoC b0) (RtoC b1) (RtoC b2) None s x))))).
  { intros f Hf. unfold pid_filter. destruct x as [|v x]; [congruence|].
    cbn [part cpid pfir fb fdt plimit fs limit_of option_map map length Nat.eqb].
    specialize (G f Hf (v :: x) s). cbn [map] in G.
    refine (eq_trans (f_equal (fun r : list R * res (list R) => let '(s', y) := r in
      (@mkPid RO (@with_s RO (@mkFir RO DFloat [b0; b1; b2] (map f (triple s))) s') None, y)) G) _). reflexivity. }
  split; apply K; auto.
Qed.
Print Assumptions C178_parts.

Example C178_parts_example : exists p : pid CO,
  @pid_used CO (mkArr DComplex [RtoC 1; RtoC 2; RtoC 3]) [@PFilter CO [Ci; RtoC 2]; @PReset CO (Some Ci)] p /\ plimit p = None.
Proof. eexists. split; [eexists; split; reflexivity|reflexivity]. Qed.

(** With a limit they are not: 3 and 4 are each below 5, but 3 + 4i is not. *)
Theorem C178_parts_limited_refuted :
  ~ (forall (b0 b1 b2 : R) ops (p : pid CO) (x : list C) L p' (y : list C),
      @pid_used CO (mkArr DComplex [RtoC b0; RtoC b1; RtoC b2]) ops p -> plimit p = Some (RtoC L) ->
      @pid_filter CO p x = (p', Ok y) -> snd (@pid_filter RO (part Re p) (map Re x)) = Ok (map Re y)).
Proof.
  intros H.
  set (p := cpid (RtoC 0) (RtoC 1) (RtoC 0) (Some 5%R) (RtoC 0, RtoC 0, RtoC 0)).
  assert (M : Cmod (RtoC 0 + (3, 4)%R) = 5%R).
  { replace (RtoC 0 + (3, 4)%R) with ((3, 4)%R : C) by (unfold RtoC, Cplus; cbn [fst snd]; f_equal; ring).
    unfold Cmod. cbn [fst snd]. replace (3 ^ 2 + 4 ^ 2)%R with (5 * 5)%R by ring. apply sqrt_square. lra. }
  assert (S5 : within (Some 5%R) (RtoC 0 + (3, 4)%R) = false).
  { cbn [within]. rewrite M. destruct (Rltb 5 5) eqn:E; [apply Rltb_iff in E; lra|reflexivity]. }
  specialize (H 0%R 1%R 0%R [@PLimit CO (Some (RtoC 5))] p [(3, 4)%R] 5%R
    (fst (@pid_filter CO p [(3, 4)%R])) (snd (crun (RtoC 0) (RtoC 1) (RtoC 0) (Some 5%R) (RtoC 0, RtoC 0, RtoC 0) [(3, 4)%R]))).
  assert (U : @pid_used CO (mkArr DComplex [RtoC 0; RtoC 1; RtoC 0]) [@PLimit CO (Some (RtoC 5))] p).
  { eexists. split; [reflexivity|]. cbn [fold_left pid_exec]. unfold pid_set_limit.
    change (@oltb CO (RtoC 5) zero) with (Rltb 5 0).
    destruct (Rltb 5 0) eqn:E; [apply Rltb_iff in E; lra|reflexivity]. }
  specialize (H U eq_refl).
  assert (E : @pid_filter CO p [(3, 4)%R] = (fst (@pid_filter CO p [(3, 4)%R]),
     Ok (snd (crun (RtoC 0) (RtoC 1) (RtoC 0) (Some 5%R) (RtoC 0, RtoC 0, RtoC 0) [(3, 4)%R])))).
  { unfold p. rewrite cpid_filter by discriminate. reflexivity. }
  specialize (H E). cbn [crun cstep] in H. rewrite S5 in H. cbn [snd map] in H.
  unfold pid_filter in H. cbn [part p cpid pfir fb fdt plimit fs limit_of option_map map length Nat.eqb triple run] in H.
  rewrite rpid_step in H. cbv zeta in H. unfold Re, RtoC in H. cbn [fst snd] in H.
  replace (0 + 3)%R with 3%R in H by ring.
  rewrite (Rabs_right 3) in H by lra.
  destruct (Rltb 3 5) eqn:E35; [|assert (3 < 5)%R as C by lra; apply Rltb_iff in C; congruence].
  cbn [snd] in H. injection H as H. cbn in H. lra.
Qed.
Print Assumptions C178_parts_limited_refuted.

(** On real signals, with real gains, registers and limit, the complex filter is the real one. *)
Theorem C178_real (b0 b1 b2 : R) (l : option R) (u v w : R) (x : list R) : x <> [] ->
  let pr := @mkPid RO (@mkFir RO DFloat [b0; b1; b2] [u; v; w]) l in
  let pc := @mkPid CO (@mkFir CO DComplex (map RtoC [b0; b1; b2]) (map RtoC [u; v; w])) (option_map RtoC l) in
  exists pr' pc' y, @pid_filter RO pr x = (pr', Ok y) /\ @pid_filter CO pc (map RtoC x) = (pc', Ok (map RtoC y)) /\
    fs (pfir pc') = map RtoC (fs (pfir pr')).
Proof.
  intros Hx pr pc.
  assert (G : forall x u v w, exists u' v' w' y,
     run (@pid_step RO DFloat [b0; b1; b2] l) [u; v; w] x = ([u'; v'; w'], Ok y) /\
     crun (RtoC b0) (RtoC b1) (RtoC b2) l (RtoC u, RtoC v, RtoC w) (map RtoC x) = ((RtoC u', RtoC v', RtoC w'), map RtoC y)).
  { clear. induction x as [|a x IH]; intros u v w.
    - exists u, v, w, []. split; reflexivity.
    - cbn [run map crun cstep]. rewrite rpid_step. cbv zeta.
      assert (E : within l (RtoC v + RtoC a) = match l with None => true | Some L => Rltb (Rabs (v + a)) L end).
      { destruct l as [L|]; [|reflexivity]. cbn [within]. rewrite <- RtoC_plus, Cmod_R. reflexivity. }
      rewrite E. set (c := match l with None => true | Some L => Rltb (Rabs (v + a)) L end).
      set (i := if c then (v + a)%R else v).
      replace (if c then RtoC v + RtoC a else RtoC v) with (RtoC i) by (unfold i; destruct c; [apply RtoC_plus|reflexivity]).
      destruct (IH a i (a - u)%R) as (u' & v' & w' & y & E1 & E2).
      rewrite RtoC_minus in E2. rewrite E2.
      exists u', v', w'. eexists. split.
      + refine (f_equal (fun r : list R * res (list R) => let '(s', r0) := r in
          match r0 with Ok ys => (s', Ok (_ :: ys)) | Err e => (s', Err e) end) E1).
      + cbn [map]. f_equal. f_equal. rewrite !RtoC_plus, !RtoC_mult, RtoC_minus. reflexivity. }
  destruct (G x u v w) as (u' & v' & w' & y & E1 & E2).
  exists (@mkPid RO (@mkFir RO DFloat [b0; b1; b2] [u'; v'; w']) l),
         (cpid (RtoC b0) (RtoC b1) (RtoC b2) l (RtoC u', RtoC v', RtoC w')), y.
  split; [|split; [|reflexivity]].
  - unfold pid_filter. destruct x as [|a x]; [congruence|]. cbn [length Nat.eqb pr pfir fb fdt plimit fs].
    exact (f_equal (fun r : list R * res (list R) => let '(s', z) := r in
      (@mkPid RO (@with_s RO (@mkFir RO DFloat [b0; b1; b2] [u; v; w]) s') l, z)) E1).
  - change pc with (cpid (RtoC b0) (RtoC b1) (RtoC b2) l (RtoC u, RtoC v, RtoC w)).
    rewrite cpid_filter by (destruct x; [congruence|discriminate]). rewrite E2. reflexivity.
Qed.
Print Assumptions C178_real.
Example C178_real_example :
  let pr := @mkPid RO (@mkFir RO DFloat [1; 2; 3]%R [0; 0; 0]%R) (Some 5%R) in
  @pid_make RO (mkArr DFloat [1; 2; 3]%R) = Ok (@mkPid RO (pfir pr) None) /\
  fst (@pid_set_limit RO (@mkPid RO (pfir pr) None) (Some 5%R)) = pr.
Proof.
  intros pr. split; [reflexivity|]. unfold pid_set_limit. change (@oltb RO 5%R zero) with (Rltb 5 0).
  destruct (Rltb 5 0) eqn:E; [apply Rltb_iff in E; lra|reflexivity].
Qed.
