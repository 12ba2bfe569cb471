(** Properties C34-C36: GoertzelFilter. *)
From Coq Require Import List Arith ZArith Lia Bool Reals Lra QArith Qcanon.
From Coquelicot Require Import Complex.
From Verif Require Import Base BaseLemmas Instances FirModel FirSpec FirProofs IirModel IirSpec IirProofs CalculusModel GoertzelModel.
Import ListNotations.
Set Asymmetric Patterns.
Close Scope Q_scope. Close Scope R_scope. Open Scope nat_scope.

Section Gen.
  Context {A : Arith}.
  Variables (cos2 exn_ : R -> A) (isclose0 : A -> bool) (cdiv : nat -> nat -> nat).

  Definition g_inv (g : goertzel A) : Prop := iir_inv (giir g) /\ gidx g < length (gw g).

  (** The loop without the output array. *)
  Definition g_next (u : A) (g : goertzel A) (v : A) : goertzel A * option A :=
    let '(i, r) := iir_filter (giir g) [mul (mul u (nth (gidx g) (gw g) zero)) v] in
    let y := match r with Ok (y :: _) => y | _ => zero end in
    if Nat.leb (length (gw g)) (S (gidx g))
    then (mkGoertzel (iir_with_s i (map (fun _ => zero) (is_ i))) 0 (gw g) (gfreq g), Some y)
    else (mkGoertzel i (S (gidx g)) (gw g) (gfreq g), None).
  Fixpoint g_pure (u : A) (g : goertzel A) (x : list A) : goertzel A * list A :=
    match x with
    | [] => (g, [])
    | v :: x' => let '(g1, o) := g_next u g v in
                 let '(g2, ys) := g_pure u g1 x' in
                 (g2, match o with Some y => y :: ys | None => ys end)
    end.

  Lemma g_pure_app u x1 : forall g x2,
    g_pure u g (x1 ++ x2) =
    let '(g1, y1) := g_pure u g x1 in let '(g2, y2) := g_pure u g1 x2 in (g2, y1 ++ y2).
  Proof.
    induction x1 as [|v x1 IH]; intros g x2; cbn [app g_pure].
    - destruct (g_pure u g x2); reflexivity.
    - destruct (g_next u g v) as [g1 o]. rewrite IH. destruct (g_pure u g1 x1) as [g2 y1].
      destruct (g_pure u g2 x2) as [g3 y2]. destruct o; reflexivity.
  Qed.

  Lemma g_next_inv u g v : g_inv g ->
    g_inv (fst (g_next u g v)) /\ gw (fst (g_next u g v)) = gw g /\ gfreq (fst (g_next u g v)) = gfreq g /\
    (S (gidx g) = length (gw g) /\ gidx (fst (g_next u g v)) = 0 /\ (exists y, snd (g_next u g v) = Some y) \/
     S (gidx g) < length (gw g) /\ gidx (fst (g_next u g v)) = S (gidx g) /\ snd (g_next u g v) = None).
  Proof.
    intros [Hi Hx]. unfold g_next.
    destruct (iir_filter_ok (giir g) [mul (mul u (nth (gidx g) (gw g) zero)) v] Hi) as (s' & y & _ & E & Hl & Hy); [discriminate|].
    rewrite E. destruct Hi as (Hb & Ha & Hs).
    destruct (Nat.leb_spec (length (gw g)) (S (gidx g))); unfold g_inv, iir_inv;
      cbn [fst snd giir gidx gw gfreq iir_with_s ia ib is_].
    - rewrite map_length. repeat split; auto; try lia. left. repeat split; try lia. eexists; reflexivity.
    - repeat split; auto; try lia.
  Qed.

  Lemma g_pure_account u x : forall g, g_inv g ->
    g_inv (fst (g_pure u g x)) /\ gw (fst (g_pure u g x)) = gw g /\
    length (snd (g_pure u g x)) = (gidx g + length x) / length (gw g) /\
    gidx (fst (g_pure u g x)) = (gidx g + length x) mod length (gw g).
  Proof.
    induction x as [|v x IH]; intros g Hg.
    - pose proof Hg as [_ Hx]. cbn [g_pure fst snd length]. rewrite Nat.add_0_r, Nat.div_small, Nat.mod_small by exact Hx. auto.
    - cbn [g_pure]. destruct (g_next_inv u g v Hg) as (H1 & H2 & _ & H3).
      destruct (g_next u g v) as [g1 o]. cbn [fst snd] in *. destruct (IH g1 H1) as (I1 & I2 & I3 & I4).
      destruct (g_pure u g1 x) as [g2 ys]. cbn [fst snd] in *. rewrite H2 in *. split; [exact I1|]. split; [exact I2|].
      destruct Hg as [_ Hg]. destruct H3 as [(Ha & Hb & (y & ->))|(Ha & Hb & ->)].
      + cbn [length]. rewrite I3, I4, Hb.
        replace (gidx g + S (length x)) with (length x + 1 * length (gw g)) by lia.
        rewrite Nat.div_add, Nat.mod_add by lia. cbn [Nat.add]. split; [lia|reflexivity].
      + rewrite I3, I4, Hb. cbn [length]. replace (S (gidx g) + length x) with (gidx g + S (length x)) by lia. auto.
  Qed.

  Lemma goertzel_loop_pure u size x : forall jj g, g_inv g ->
    jj + (gidx g + length x) / length (gw g) <= size ->
    goertzel_loop u size jj g x = (fst (g_pure u g x), Ok (snd (g_pure u g x))).
  Proof.
    induction x as [|v x IH]; intros jj g Hg Hs; [reflexivity|].
    cbn [goertzel_loop g_pure]. pose proof Hg as [Hi Hx].
    rewrite (nth_error_nth' (gw g) zero Hx).
    destruct (g_next_inv u g v Hg) as (H1 & H2 & _ & H3). unfold g_next in *.
    destruct (iir_filter_ok (giir g) [mul (mul u (nth (gidx g) (gw g) zero)) v] Hi) as (s' & y & _ & E & Hl & Hy); [discriminate|].
    rewrite E in *. destruct y as [|y0 [|]]; cbn [length] in Hy; try lia.
    destruct (Nat.leb_spec (length (gw g)) (S (gidx g))) as [Hc|Hc]; cbn [fst snd] in *.
    - assert (Hd : (gidx g + length (v :: x)) / length (gw g) = S (length x / length (gw g))).
      { cbn [length]. replace (gidx g + S (length x)) with (length x + 1 * length (gw g)) by lia.
        rewrite Nat.div_add by lia. lia. }
      rewrite Hd in Hs.
      destruct (Nat.leb_spec size jj); [lia|]. cbn [nth].
      rewrite IH; [|exact H1|cbn [gidx gw]; change (0 + length x) with (length x); lia].
      destruct (g_pure u _ x) as [g2 ys]. reflexivity.
    - rewrite IH; [|exact H1|].
      + destruct (g_pure u _ x) as [g2 ys]. reflexivity.
      + cbn [gidx gw length] in *. replace (S (gidx g) + length x) with (gidx g + S (length x)) by lia. exact Hs.
  Qed.

  (** Smallest integer not below L/W; the float computation of line 114 may be one short. *)
  Definition ceil_div (l w : nat) : nat := (l + w - 1) / w.
  Hypothesis Hcdiv : forall l w, 0 < w -> ceil_div l w <= S (cdiv l w).

  Lemma goertzel_filter_pure g cplx x : g_inv g -> x <> [] ->
    goertzel_filter cdiv g cplx x =
    let u := div (of_Z (if cplx then 1 else 2)) (of_Z (Z.of_nat (length (gw g)))) in
    (fst (g_pure u g x), Ok (snd (g_pure u g x))).
  Proof.
    intros Hg Hx. unfold goertzel_filter. destruct (Nat.eqb_spec (length x) 0) as [C|_]; [destruct x; cbn in *; congruence|].
    cbv zeta. apply goertzel_loop_pure; [exact Hg|]. destruct Hg as [_ Hg].
    etransitivity; [|apply Hcdiv; lia]. cbn [Nat.add]. unfold ceil_div. apply Nat.div_le_mono; lia.
  Qed.

  Inductive g_op : Type := GFilter (cplx : bool) (x : list A) | GReset (x : option A) | GFreq (f : R).
  Definition g_exec (g : goertzel A) (o : g_op) : goertzel A * res (list A) :=
    match o with
    | GFilter c x => goertzel_filter cdiv g c x
    | GReset x => let '(g', r) := goertzel_reset g x in (g', rmap (fun _ => []) r)
    | GFreq f => let '(g', r) := goertzel_set_frequency g f in (g', rmap (fun _ => []) r)
    end.

  Lemma goertzel_make_inv b f g : goertzel_make cos2 exn_ isclose0 b f = Ok g ->
    g_inv g /\ gw g = b /\ gidx g = 0 /\ gfreq g = f.
  Proof.
    unfold goertzel_make. destruct (Nat.eqb_spec (length b) 0) as [|Hb]; [discriminate|].
    destruct (forallb _ _); [discriminate|]. destruct (freq_bad f); [discriminate|]. cbn [orb].
    destruct (iir_make _ _ _) as [i|e] eqn:E; [|discriminate]. intros H. injection H as <-.
    cbn [giir gidx gw gfreq]. apply iir_make_inv in E; [|cbn; lia]. split; [split; [exact E|cbn [gidx gw]; lia]|]. auto.
  Qed.

  Lemma g_exec_inv g o : g_inv g -> g_inv (fst (g_exec g o)) /\ gw (fst (g_exec g o)) = gw g.
  Proof.
    intros Hg. destruct o as [c x|x|f]; cbn [g_exec].
    - destruct x as [|v x]; [auto|]. rewrite goertzel_filter_pure by (auto; discriminate). cbv zeta. cbn [fst].
      destruct (g_pure_account (div (of_Z (if c then 1 else 2)) (of_Z (Z.of_nat (length (gw g))))) (v :: x) g Hg) as (H1 & H2 & _). auto.
    - unfold goertzel_reset. destruct Hg as [Hi Hx]. pose proof (iir_exec_inv (giir g) (IReset x) Hi) as H.
      cbn [iir_exec] in H. destruct (iir_reset (giir g) x) as [i r]. cbn [fst] in *. split; [split; assumption|reflexivity].
    - unfold goertzel_set_frequency. destruct (freq_bad f); auto.
  Qed.

  (** A filter built by the constructor and then used in any way. *)
  Definition g_used (b : list A) (f : R) (ops : list g_op) (g : goertzel A) : Prop :=
    exists g0, goertzel_make cos2 exn_ isclose0 b f = Ok g0 /\ g = fold_left (fun g o => fst (g_exec g o)) ops g0.

  Lemma g_used_inv b f ops g : g_used b f ops g -> g_inv g /\ gw g = b.
  Proof.
    intros (g0 & E & ->). apply goertzel_make_inv in E. destruct E as (H1 & H2 & _). revert g0 H1 H2.
    induction ops as [|o ops IH]; intros g0 H1 H2; [auto|]. cbn [fold_left].
    destruct (g_exec_inv g0 o H1) as [H3 H4]. apply IH; congruence.
  Qed.
End Gen.
Arguments g_op A : clear implicits.

(** C35.  Block accounting, any arithmetic; line 114 may be computed one short. *)
Theorem C35_goertzel_accounting (A : Arith) (cos2 exn_ : R -> A) isclose0 cdiv b f ops (g : goertzel A) cplx x :
  (forall l w, 0 < w -> (l + w - 1) / w <= S (cdiv l w)) ->
  g_used cos2 exn_ isclose0 cdiv b f ops g -> x <> [] ->
  exists g' y, goertzel_filter cdiv g cplx x = (g', Ok y) /\
    length y = (gidx g + length x) / length b /\ gidx g' = (gidx g + length x) mod length b /\
    gidx g < length b.
Proof.
  intros Hc Hu Hx. destruct (g_used_inv _ _ _ _ Hc _ _ _ _ Hu) as [Hg Hw].
  rewrite (goertzel_filter_pure cdiv Hc) by assumption. cbv zeta. eexists _, _. split; [reflexivity|].
  destruct (g_pure_account (div (of_Z (if cplx then 1 else 2)) (of_Z (Z.of_nat (length (gw g))))) x g Hg) as (_ & _ & H3 & H4).
  rewrite Hw in *. destruct Hg as [_ Hg]. rewrite Hw in Hg. auto.
Qed.
Print Assumptions C35_goertzel_accounting.

Theorem C35_goertzel_chunks (A : Arith) (cos2 exn_ : R -> A) isclose0 cdiv b f ops (g : goertzel A) cplx chunks :
  (forall l w, 0 < w -> (l + w - 1) / w <= S (cdiv l w)) ->
  g_used cos2 exn_ isclose0 cdiv b f ops g -> chunks <> [] -> Forall (fun c => c <> []) chunks ->
  call_chunks (fun g => goertzel_filter cdiv g cplx) g chunks = goertzel_filter cdiv g cplx (concat chunks).
Proof.
  intros Hc Hu Hne HF. destruct (g_used_inv _ _ _ _ Hc _ _ _ _ Hu) as [Hg _]. clear Hu.
  revert g Hg. induction chunks as [|c cs IH]; [congruence|]. intros g Hg. inversion HF; subst.
  cbn [call_chunks concat]. rewrite (goertzel_filter_pure cdiv Hc g cplx c) by assumption. cbv zeta.
  rewrite (goertzel_filter_pure cdiv Hc g cplx (c ++ concat cs)) by
    first [assumption | (destruct c; [congruence|discriminate])].
  cbv zeta. set (u := div (of_Z (if cplx then 1 else 2)) (of_Z (Z.of_nat (length (gw g))))).
  destruct (g_pure_account u c g Hg) as (H3 & H4 & _). rewrite g_pure_app.
  destruct (g_pure u g c) as [g1 y1]. cbn [fst snd] in *. destruct cs as [|c' cs].
  - cbn [call_chunks concat g_pure fst snd]. reflexivity.
  - rewrite IH by (auto; discriminate). rewrite (goertzel_filter_pure cdiv Hc g1) by
      first [assumption | (inversion H2; subst; destruct c'; [congruence|discriminate])].
    cbv zeta. rewrite H4. fold u. destruct (g_pure u g1 (concat (c' :: cs))) as [g2 y2]. reflexivity.
Qed.
Print Assumptions C35_goertzel_chunks.

(** C36.  The frequency setter. *)
Theorem C36_frequency_setter_no_retune (A : Arith) (cdiv : nat -> nat -> nat) (g : goertzel A) f (ops : list (g_op A)) :
  let outputs := fix outputs (g : goertzel A) ops :=
     match ops with [] => [] | o :: ops' => let '(g', r) := g_exec cdiv g o in r :: outputs g' ops' end in
  outputs (fst (goertzel_set_frequency g f)) ops = outputs g ops.
Proof.
  intros outputs.
  set (sim := fun g h : goertzel A => giir g = giir h /\ gidx g = gidx h /\ gw g = gw h).
  assert (Hloop : forall x u size jj (g h : goertzel A), sim g h ->
     sim (fst (goertzel_loop u size jj g x)) (fst (goertzel_loop u size jj h x)) /\
     snd (goertzel_loop u size jj g x) = snd (goertzel_loop u size jj h x)).
  { induction x as [|v x IH]; intros u size jj g0 h (E1 & E2 & E3); cbn [goertzel_loop].
    - split; [repeat split; assumption|reflexivity].
    - rewrite E1, E2, E3. destruct (nth_error (gw h) (gidx h)) as [w|]; [|split; [repeat split; assumption|reflexivity]].
      destruct (iir_filter (giir h) _) as [i [y|e]].
      + destruct (Nat.leb _ (S (gidx h))).
        * destruct (Nat.leb size jj); [split; [repeat split|reflexivity]|].
          set (g1 := mkGoertzel _ _ _ _). set (h1 := mkGoertzel _ _ _ (gfreq h)).
          specialize (IH u size (S jj) g1 h1 ltac:(repeat split)).
          destruct (goertzel_loop u size (S jj) g1 x) as [g2 r2], (goertzel_loop u size (S jj) h1 x) as [h2 q2].
          cbn [fst snd] in *. destruct IH as [I1 I2]. split; [exact I1|]. rewrite I2. reflexivity.
        * apply IH. repeat split.
      + split; [repeat split|reflexivity]. }
  assert (Hop : forall (g h : goertzel A) o, sim g h -> sim (fst (g_exec cdiv g o)) (fst (g_exec cdiv h o)) /\
     snd (g_exec cdiv g o) = snd (g_exec cdiv h o)).
  { intros g0 h o Hs. pose proof Hs as (E1 & E2 & E3). destruct o as [c x|x|f']; cbn [g_exec].
    - unfold goertzel_filter. rewrite E3. destruct (Nat.eqb _ _); [split; auto|]. apply Hloop, Hs.
    - unfold goertzel_reset. rewrite E1. destruct (iir_reset _ _) as [i r]. cbn [fst snd].
      split; [repeat split; assumption|reflexivity].
    - unfold goertzel_set_frequency. destruct (freq_bad f'); cbn [fst snd]; split; auto; repeat split; assumption. }
  assert (H : forall ops (g h : goertzel A), sim g h -> outputs g ops = outputs h ops).
  { induction ops0 as [|o ops0 IH]; intros g0 h Hs; [reflexivity|]. cbn [outputs].
    destruct (Hop g0 h o Hs) as [H1 H2]. destruct (g_exec cdiv g0 o) as [g1 r], (g_exec cdiv h o) as [h1 r'].
    cbn [fst snd] in *. rewrite H2. f_equal. apply IH, H1. }
  apply H. unfold goertzel_set_frequency. destruct (freq_bad f); repeat split.
Qed.
Print Assumptions C36_frequency_setter_no_retune.

Theorem C36_frequency_checks (A : Arith) (cos2 exn_ : R -> A) isclose0 (g : goertzel A) (b : list A) (f : R) :
  ((-1 <= f <= 1)%R -> exists g', goertzel_set_frequency g f = (g', Ok tt) /\ gfreq g' = f) /\
  (~ (-1 <= f <= 1)%R -> goertzel_set_frequency g f = (g, Err ValueError) /\
     goertzel_make cos2 exn_ isclose0 b f = Err ValueError).
Proof.
  unfold goertzel_set_frequency, goertzel_make, freq_bad. split; intros H.
  - destruct (Rltb f (-1)) eqn:E1; [apply Rltb_iff in E1; lra|].
    destruct (Rltb 1 f) eqn:E2; [apply Rltb_iff in E2; lra|]. eexists. split; reflexivity.
  - assert (E : (Rltb f (-1) || Rltb 1 f = true)%bool).
    { apply orb_true_iff. destruct (Rlt_le_dec f (-1)) as [C|C]; [left; apply Rltb_iff, C|].
      right. apply Rltb_iff. lra. }
    rewrite E. split; [reflexivity|]. destruct (Nat.eqb _ _), (forallb _ _); reflexivity.
Qed.
Print Assumptions C36_frequency_checks.

(** C34.  Exact complex arithmetic. *)
Open Scope R_scope. Open Scope C_scope.
Ltac cc := match goal with |- @eq _ ?a ?b => change (@eq C a b) end; cbn [carrier add sub mul div zero one opp CA].
Definition cos2C (f : R) : C := RtoC (2 * cos (PI * f)).
Definition exnC (f : R) : C := cis (- (PI * f)).
(** numpy.isclose(z, 0.0): |z| <= 1e-8. *)
Definition isclose0C (z : C) : bool := Rleb (Cmod z) (1 / 100000000).

(** Specification: the DFT at normalised frequency [f] of the [k]-th block of the windowed
    signal. *)
Definition block_dft (w x : list C) (f : R) (k : nat) : C :=
  @bigsum CA (length w) (fun n =>
    (nth n w 0 * nth (k * length w + n) x 0 * cis (- (PI * f * INR n)))%C).

Definition horner (e : C) (vs : list C) (z : C) : C := fold_left (fun z v => v + e * z) vs z.

Lemma horner_dft t vs : horner (cis t) vs 0 =
  cis (t * (INR (length vs) - 1)) * @bigsum CA (length vs) (fun n => nth n vs 0 * cis (- (t * INR n))).
Proof.
  induction vs as [|v vs IH] using rev_ind.
  - cbn. ring.
  - unfold horner in *. rewrite fold_left_app. cbn [fold_left]. rewrite IH, app_length. cbn [length].
    rewrite Nat.add_1_r. cbn [bigsum]. rewrite S_INR.
    rewrite (bigsum_ext (length vs) (fun n => (nth n (vs ++ [v]) 0 * cis (- (t * INR n)))%C : CA)
              (fun n => (nth n vs 0 * cis (- (t * INR n)))%C : CA))
      by (intros i Hi; f_equal; apply app_nth1; exact Hi).
    rewrite app_nth2, Nat.sub_diag by lia. cbn [nth].
    set (B := @bigsum CA _ _).
    change (v + cis t * (cis (t * (INR (length vs) - 1)) * B) =
            cis (t * (INR (length vs) + 1 - 1)) * (B + v * cis (- (t * INR (length vs))))).
    replace (t * (INR (length vs) + 1 - 1))%R with (t + t * (INR (length vs) - 1))%R by ring.
    rewrite cis_add. set (c := cis t).
    assert (E : c * cis (t * (INR (length vs) - 1)) * cis (- (t * INR (length vs))) = 1).
    { unfold c. rewrite <- !cis_add. rewrite <- cis_0. f_equal. ring. }
    rewrite Cmult_plus_distr_l.
    replace (c * cis (t * (INR (length vs) - 1)) * (v * cis (- (t * INR (length vs)))))
      with (v * (c * cis (t * (INR (length vs) - 1)) * cis (- (t * INR (length vs))))) by ring.
    rewrite E. ring.
Qed.

(** The state holds the Horner sum [z] of the samples of the current block. *)
Definition g_holds (f : R) (g : goertzel CA) (z : C) : Prop :=
  idt (giir g) = DComplex /\ ia (giir g) = [RtoC 0; cos2C f; - RtoC 1] /\ ib (giir g) = [RtoC 1; - exnC f; RtoC 0] /\
  exists s0 s1 s2, is_ (giir g) = [s0; s1; s2] /\ z = s0 + cis (PI * f) * s1 - s2.

Lemma of_pos_C p : @of_pos CA p = RtoC (IZR (Zpos p)).
Proof.
  induction p as [p IH|p IH|]; cbn [of_pos].
  - rewrite IH. rewrite Pos2Z.inj_xI, plus_IZR, mult_IZR. cbn [add one CA]. rewrite <- !RtoC_plus. f_equal. ring.
  - rewrite IH. rewrite Pos2Z.inj_xO, mult_IZR. cbn [add CA]. rewrite <- !RtoC_plus. f_equal. ring.
  - reflexivity.
Qed.
Lemma of_Z_C z : @of_Z CA z = RtoC (IZR z).
Proof.
  destruct z as [|p|p]; cbn [of_Z]; [reflexivity|apply of_pos_C|].
  rewrite of_pos_C. change (Zneg p) with (Z.opp (Zpos p)). rewrite opp_IZR, RtoC_opp. reflexivity.
Qed.

Lemma cis_sum t : RtoC (2 * cos t) = cis t + cis (- t).
Proof. unfold cis, RtoC, Cplus. cbn. rewrite cos_neg, sin_neg. f_equal; ring. Qed.

Lemma g_step_holds f (g : goertzel CA) z v : g_holds f g z ->
  exists i, @iir_filter CA (giir g) [v] = (i, Ok [v + cis (PI * f) * z]) /\
    forall k w q, g_holds f (mkGoertzel i k w q) (v + cis (PI * f) * z).
Proof.
  intros (Hd & Ha & Hb & s0 & s1 & s2 & Hs & Hz).
  assert (Hi : iir_inv (giir g)) by (unfold iir_inv; rewrite Ha, Hb, Hs; repeat split; discriminate).
  set (h := [s0 + (cos2C f * s1 - s2); s1]).
  assert (E : @iir_step CA (idt (giir g)) (ia (giir g)) (ib (giir g)) (is_ (giir g)) v =
     (v :: h, Ok (v + cis (PI * f) * z))).
  { rewrite Hd, Ha, Hb, Hs. rewrite iir_step_eq by (try discriminate; reflexivity).
    unfold h, cos2C, exnC. rewrite cis_sum. subst z. set (c := cis (PI * f)). set (c' := cis (- (PI * f))).
    assert (Hcc : c * c' = 1) by (unfold c, c'; rewrite <- cis_add, <- cis_0; f_equal; ring).
    cbn [hist firstn length]. rewrite !(law_cast_complex CA_laws).
    assert (Eh : @add CA s0 (@dot CA [RtoC 0; c + c'; - RtoC 1] [s0; s1; s2]) = s0 + ((c + c') * s1 - s2)).
    { change (@dot CA) with (dot_from Cplus Cmult 0). cbn [dot_from add CA]. cbn. ring. }
    rewrite Eh. f_equal. f_equal. unfold cvec. cbn [combine map fst snd nth].
    rewrite (law_dot CA_laws) by reflexivity. cbn [length bigsum nth].
    cc.
    transitivity (v + c * (s0 + ((c + c') * s1 - s2)) - s1); [ring|].
    transitivity (v + c * (s0 + c * s1 - s2) + (c * c') * s1 - s1); [ring|]. rewrite Hcc. ring. }
  exists (iir_with_s (giir g) (v :: h)). split.
  - rewrite iir_filter_run by (try discriminate; rewrite Hb; discriminate).
    cbn [run]. rewrite E. reflexivity.
  - intros k w q. unfold g_holds. cbn [giir iir_with_s idt ia ib is_]. repeat split; auto.
    eexists _, _, _. split; [reflexivity|]. subst z. unfold cos2C. rewrite cis_sum.
    set (c := cis (PI * f)). set (c' := cis (- (PI * f))).
    assert (Hcc : c * c' = 1) by (unfold c, c'; rewrite <- cis_add, <- cis_0; f_equal; ring).
    transitivity (v + c * (s0 + c * s1 - s2) + (c * c' - 1) * s1); [rewrite Hcc; ring|ring].
Qed.

Lemma g_block f (u : C) : forall (x : list C) (g : goertzel CA) z, g_holds f g z -> x <> [] ->
  (gidx g + length x = length (gw g))%nat ->
  exists g', g_pure u g x =
    (g', [horner (cis (PI * f)) (map2 (fun w v => u * w * v) (skipn (gidx g) (gw g)) x) z]) /\
    gw g' = gw g /\ gidx g' = 0%nat /\ g_holds f g' 0.
Proof.
  induction x as [|v x IH]; intros g z Hg Hx Hl; [congruence|].
  cbn [length] in Hl. cbn [g_pure]. unfold g_next.
  destruct (g_step_holds f g z (u * nth (gidx g) (gw g) (RtoC 0) * v) Hg) as (i & E & Hi).
  change (@mul CA) with Cmult. change (@zero CA) with (RtoC 0). rewrite E.
  assert (Hsk : skipn (gidx g) (gw g) = nth (gidx g) (gw g) (RtoC 0) :: skipn (S (gidx g)) (gw g)).
  { assert (Hlt : (gidx g < length (gw g))%nat) by lia. revert Hlt. generalize (gw g). generalize (gidx g). clear.
    induction n as [|n IH]; intros [|a l] H; cbn in *; try lia; [reflexivity|]. apply IH. lia. }
  rewrite Hsk. cbn [map2]. destruct x as [|v' x].
  - destruct (Nat.leb_spec (length (gw g)) (S (gidx g))); [|cbn [length] in Hl; lia].
    cbn [g_pure].
    assert (Hm : forall l, map2 (fun w v : C => u * w * v) l [] = []) by (destruct l; reflexivity).
    rewrite Hm. eexists. split; [reflexivity|]. split; [reflexivity|]. split; [reflexivity|].
    specialize (Hi 0%nat (gw g) (gfreq g)). destruct Hi as (H1 & H2 & H3 & t0 & t1 & t2 & H4 & _).
    unfold g_holds. cbn [giir iir_with_s idt ia ib is_] in *. repeat split; auto.
    rewrite H4. eexists _, _, _. split; [reflexivity|]. change (@zero CA) with (RtoC 0). ring.
  - destruct (Nat.leb_spec (length (gw g)) (S (gidx g))); [cbn [length] in Hl; lia|].
    destruct (IH (mkGoertzel i (S (gidx g)) (gw g) (gfreq g)) _ (Hi _ _ _)) as (g' & E' & H1 & H2 & H3);
      [discriminate|cbn [gidx gw length] in *; lia|].
    rewrite E'. exists g'. split; [reflexivity|]. auto.
Qed.

Lemma g_rest (u : C) : forall (x : list C) (g : goertzel CA), g_inv g -> (gidx g + length x < length (gw g))%nat -> snd (g_pure u g x) = [].
Proof.
  intros x g Hg Hl. destruct (g_pure_account u x g Hg) as (_ & _ & H & _).
  rewrite Nat.div_small in H by exact Hl. destruct (snd (g_pure u g x)); [reflexivity|discriminate].
Qed.

Lemma g_holds_inv f g z : g_holds f g z -> (gidx g < length (gw g))%nat -> g_inv g.
Proof.
  intros (Hd & Ha & Hb & s0 & s1 & s2 & Hs & Hz) Hl. split; [|exact Hl].
  unfold iir_inv. rewrite Ha, Hb, Hs. repeat split; discriminate.
Qed.

Lemma g_blocks f (u : C) (w : list C) : w <> [] -> forall n (x : list C) (g : goertzel CA),
  (length x <= n)%nat -> g_holds f g 0 -> gidx g = 0%nat -> gw g = w ->
  forall k, (k < length x / length w)%nat ->
  nth k (snd (g_pure u g x)) (RtoC 0) = u * cis (PI * f * (INR (length w) - 1)) * block_dft w x f k.
Proof.
  intros Hw. assert (HW : (0 < length w)%nat) by (destruct w; [congruence|cbn; lia]).
  induction n as [|n IH]; intros x g Hn Hg Hidx Hgw k Hk.
  - destruct x; [|cbn in Hn; lia]. rewrite Nat.div_0_l in Hk; lia.
  - assert (Hx : (length w <= length x)%nat).
    { destruct (Nat.lt_ge_cases (length x) (length w)) as [C|C]; [|exact C].
      rewrite Nat.div_small in Hk; lia. }
    rewrite <- (firstn_skipn (length w) x) at 1.
    rewrite g_pure_app.
    assert (Hlf : length (firstn (length w) x) = length w) by (rewrite firstn_length; lia).
    destruct (g_block f u (firstn (length w) x) g 0 Hg) as (g' & E & H1 & H2 & H3).
    { intros C. rewrite C in Hlf. cbn in Hlf. lia. } { rewrite Hidx, Hgw, Hlf. reflexivity. }
    rewrite E. destruct (g_pure u g' (skipn (length w) x)) as [g2 ys] eqn:E2. cbn [snd app].
    destruct k as [|k].
    + cbn [nth]. rewrite Hidx, Hgw. cbn [skipn]. rewrite horner_dft.
      assert (Hl2 : length (map2 (fun w v => u * w * v) w (firstn (length w) x)) = length w)
        by (rewrite length_map2; lia).
      change (list (carrier CA)) with (list C) in *. rewrite Hl2. unfold block_dft.
      transitivity (cis (PI * f * (INR (length w) - 1)) * (u * @bigsum CA (length w) (fun n =>
         nth n w 0 * nth (0 * length w + n) x 0 * cis (- (PI * f * INR n)))%C)); [|match goal with |- @eq _ ?a ?b => change (@eq C a b) end; ring].
      f_equal. change Cmult with (@mul CA) at 1. rewrite <- (bigsum_scal CA CA_laws).
      apply bigsum_ext. intros i Hi.
      rewrite (nth_map2 _ _ _ _ (RtoC 0) (RtoC 0)) by lia. rewrite nth_firstn by exact Hi.
      cbn [Nat.mul Nat.add]. cc. ring.
    + cbn [nth]. change ys with (snd (g2, ys)). rewrite <- E2.
      rewrite (IH (skipn (length w) x) g'); try assumption; try congruence.
      * f_equal. unfold block_dft. apply bigsum_ext. intros i Hi. f_equal. f_equal.
        rewrite nth_skipn_add. f_equal. lia.
      * rewrite skipn_length. lia.
      * rewrite skipn_length. replace (length x) with ((length x - length w) + 1 * length w)%nat in Hk by lia.
        rewrite Nat.div_add in Hk by lia. lia.
Qed.

Theorem C34_goertzel_block_dft (w x : list C) (f : R) (g : goertzel CA) cplx :
  @goertzel_make CA cos2C exnC isclose0C w f = Ok g -> x <> [] ->
  exists g' y, @goertzel_filter CA ceil_div g cplx x = (g', Ok y) /\
    length y = (length x / length w)%nat /\
    forall k, (k < length x / length w)%nat ->
      nth k y (RtoC 0) = RtoC ((if cplx then 1 else 2) / INR (length w)) *
                  cis (PI * f * (INR (length w) - 1)) * block_dft w x f k.
Proof.
  intros E Hx. destruct (goertzel_make_inv cos2C exnC isclose0C w f g E) as (Hg & Hw & Hidx & Hf).
  rewrite (goertzel_filter_pure ceil_div (fun l v _ => le_S _ _ (le_n _)) g cplx x Hg Hx). cbv zeta.
  eexists _, _. split; [reflexivity|].
  set (u := div _ _). destruct (g_pure_account u x g Hg) as (_ & _ & Hl & _).
  rewrite Hidx, Hw in Hl. split; [exact Hl|]. intros k Hk.
  assert (Hne : w <> []) by (destruct Hg as [_ Hg]; rewrite Hw in Hg; destruct w; [cbn in Hg; lia|discriminate]).
  assert (Hu : u = RtoC ((if cplx then 1 else 2) / INR (length w))).
  { unfold u. rewrite Hw. rewrite !of_Z_C. cbn [div CA].
    replace (IZR (if cplx then 1%Z else 2%Z)) with (if cplx then 1 else 2)%R by (destruct cplx; reflexivity).
    rewrite <- INR_IZR_INZ. rewrite RtoC_div; [reflexivity|]. apply not_0_INR. destruct w; [congruence|discriminate]. }
  rewrite <- Hu. apply (g_blocks f u w Hne (length x) x g); auto.
  clear - E. unfold goertzel_make in E. destruct (_ || _)%bool; [discriminate|].
  destruct (freq_bad f); [discriminate|].
  unfold iir_make in E. cbn [els adt length] in E.
  assert (E0 : eqb (RtoC 0 : CA) (RtoC 0) = true) by (apply (law_eqb CA_laws); reflexivity).
  change (@zero CA) with (RtoC 0) in E. cbn [pad app length Nat.max Nat.sub zeros repeat els adt Nat.ltb Nat.leb] in E.
  rewrite E0 in E. cbn [negb els adt orb dtype_eqb fir_make length Nat.ltb Nat.leb Nat.eqb zeros repeat app Nat.sub map fdt fb fs] in E.
  injection E as E. subst g. unfold g_holds. cbn [giir idt ia ib is_].
  split; [reflexivity|]. split; [reflexivity|]. split; [reflexivity|].
  eexists _, _, _. split; [reflexivity|]. rewrite ?(law_cast_complex CA_laws). cc. ring.
Qed.
Print Assumptions C34_goertzel_block_dft.
Example C34_example : exists g, @goertzel_make CA cos2C exnC isclose0C [RtoC 1; RtoC 2; RtoC 1] (1 / 3) = Ok g.
Proof.
  unfold goertzel_make. cbn [length Nat.eqb forallb orb].
  assert (E : isclose0C 1 = false).
  { unfold isclose0C. destruct (Rleb _ _) eqn:E; [|reflexivity]. apply Rleb_iff in E.
    rewrite Cmod_1 in E. lra. }
  rewrite E. cbn [andb]. unfold freq_bad.
  destruct (Rltb (1 / 3) (-1)) eqn:E1; [apply Rltb_iff in E1; lra|].
  destruct (Rltb 1 (1 / 3)) eqn:E2; [apply Rltb_iff in E2; lra|]. cbn [orb].
  unfold iir_make. cbn [els adt length]. change (@zero CA) with (RtoC 0).
  assert (E0 : eqb (RtoC 0 : CA) (RtoC 0) = true) by (apply (law_eqb CA_laws); reflexivity).
  cbn [pad app length Nat.max Nat.sub zeros repeat els adt Nat.ltb Nat.leb]. rewrite E0. eexists. reflexivity.
Qed.

(** A stream: any chunks on a fresh filter. *)
Theorem C34_goertzel_stream (w : list C) (f : R) (g : goertzel CA) cplx (chunks : list (list C)) :
  @goertzel_make CA cos2C exnC isclose0C w f = Ok g -> chunks <> [] -> Forall (fun c => c <> []) chunks ->
  exists g' y, call_chunks (fun g => @goertzel_filter CA ceil_div g cplx) g chunks = (g', Ok y) /\
    length y = (length (concat chunks) / length w)%nat /\
    forall k, (k < length (concat chunks) / length w)%nat ->
      nth k y (RtoC 0) = RtoC ((if cplx then 1 else 2) / INR (length w)) *
                  cis (PI * f * (INR (length w) - 1)) * block_dft w (concat chunks) f k.
Proof.
  intros E Hne HF.
  rewrite (C35_goertzel_chunks CA cos2C exnC isclose0C ceil_div w f [] g cplx chunks (fun l v _ => le_S _ _ (le_n _))
    (ex_intro _ g (conj E eq_refl)) Hne HF).
  apply C34_goertzel_block_dft; [exact E|]. destruct chunks as [|c cs]; [congruence|]. inversion HF; subst.
  destruct c; [congruence|discriminate].
Qed.
Print Assumptions C34_goertzel_stream.

Definition qg : res (goertzel QA) :=
  @goertzel_make QA (fun _ => q 0 1) (fun _ => q 1 1) (fun v => Qc_eq_bool v (q 0 1)) [q 1 1; q 2 1; q 1 1] (1 / 2).
Example C35_example : exists g, qg = Ok g /\ gidx g = 0%nat /\
  rqs (snd (call_chunks (fun g => @goertzel_filter QA ceil_div g true) g
        [[q 3 1]; [q 1 1; q 1 1; q 5 1]; [q 6 1; q 3 1; q 9 1]])) =
  rqs (snd (@goertzel_filter QA ceil_div g true [q 3 1; q 1 1; q 1 1; q 5 1; q 6 1; q 3 1; q 9 1])) /\
  rqs (snd (@goertzel_filter QA ceil_div g true [q 3 1; q 1 1; q 1 1; q 5 1; q 6 1; q 3 1; q 9 1])) = Ok [-4 # 3; -14 # 3]%Q.
Proof.
  assert (Hf : freq_bad (1 / 2) = false).
  { unfold freq_bad. destruct (Rltb (1 / 2) (-1)) eqn:E1; [apply Rltb_iff in E1; lra|].
    destruct (Rltb 1 (1 / 2)) eqn:E2; [apply Rltb_iff in E2; lra|]. reflexivity. }
  unfold qg, goertzel_make. rewrite Hf. eexists. split; [reflexivity|]. split; [reflexivity|].
  split; vm_compute; reflexivity.
Qed.
Example C36_example : (-1 <= 1 / 4 <= 1)%R /\ ~ (-1 <= 3 / 2 <= 1)%R.
Proof. split; lra. Qed.
