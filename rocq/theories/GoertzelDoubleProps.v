(** GoertzelFilter block by block, in any arithmetic; and what a NaN or infinite sample does
    in complex doubles. *)
From Flocq Require Import Core BinarySingleNaN PrimFloat.
From Coq Require Import List Arith ZArith Lia Bool Reals Lra Floats Permutation QArith Qcanon.
From Verif Require Import Base BaseLemmas Instances FirModel FirSpec FirProofs IirModel IirSpec IirProofs CalculusModel GoertzelModel GoertzelProps
  DoubleSpec DoubleProofs AdaptDoubleModel AdaptDoubleProps.
Import ListNotations.
Set Asymmetric Patterns.
Close Scope Q_scope. Close Scope R_scope. Open Scope nat_scope.

(** ** Blocks, any arithmetic *)
Lemma skipn_more (X : Type) a : forall b (l : list X), skipn a (skipn b l) = skipn (b + a) l.
Proof. induction b as [|b IH]; intros [|v l]; cbn [skipn Nat.add]; try reflexivity; [apply skipn_nil|apply IH]. Qed.
Section Blocks.
  Context {A : Arith}.
  Variable u : A.

  Definition clean (g : goertzel A) : goertzel A :=
    mkGoertzel (iir_with_s (giir g) (map (fun _ => zero) (is_ (giir g)))) 0 (gw g) (gfreq g).
  Lemma zeros_like (X Y : Type) (z : Y) (l m : list X) : length l = length m -> map (fun _ => z) l = map (fun _ => z) m.
  Proof. revert m. induction l as [|a l IH]; intros [|b m] H; try discriminate; [reflexivity|]. cbn. f_equal. apply IH. cbn in H. lia. Qed.
  Lemma block_step g v : g_inv g ->
    exists g1 y, g_next u g v = (if length (gw g) <=? S (gidx g) then (clean g, Some y) else (g1, None)) /\
      g_inv g1 /\ clean g1 = clean g /\ gw g1 = gw g /\ (S (gidx g) < length (gw g) -> gidx g1 = S (gidx g)).
  Proof.
    intros Hg. pose proof Hg as [Hi Hx]. unfold g_next.
    destruct (iir_filter_ok (giir g) [mul (mul u (nth (gidx g) (gw g) zero)) v] Hi) as (s' & y & _ & E & Hl & Hy); [discriminate|].
    rewrite E. destruct Hi as (Hb & Ha & Hs).
    exists (mkGoertzel (iir_with_s (giir g) s') (if length (gw g) <=? S (gidx g) then gidx g else S (gidx g)) (gw g) (gfreq g)).
    exists (match y with y0 :: _ => y0 | [] => zero end).
    assert (Z : map (fun _ => @zero A) s' = map (fun _ => zero) (is_ (giir g))) by (apply zeros_like; congruence).
    destruct (Nat.leb_spec (length (gw g)) (S (gidx g))) as [L|L]; (split; [|split; [|split; [|split]]]);
      unfold clean, g_inv, iir_inv; cbn [giir gidx gw gfreq iir_with_s is_ ia ib idt]; unfold iir_with_s; cbn [is_ ia ib idt]; rewrite ?Z;
      try reflexivity; try (repeat split; auto; lia); intros; lia.
  Qed.
  Lemma clean_inv g : g_inv g -> g_inv (clean g).
  Proof.
    intros [(Hb & Ha & Hs) Hx]. unfold g_inv, iir_inv, clean. cbn [giir gidx gw iir_with_s ia ib is_]. rewrite map_length. repeat split; auto. lia.
  Qed.
  Lemma clean_clean g : clean (clean g) = clean g.
  Proof. unfold clean, iir_with_s. cbn [giir gidx gw gfreq is_ ia ib idt]. rewrite map_map. reflexivity. Qed.

  (** The rest of the current block: one output, and the filter is as after any block. *)
  Lemma one_block x : forall g, g_inv g -> gidx g + length x = length (gw g) ->
    exists y, g_pure u g x = (clean g, [y]).
  Proof.
    induction x as [|v x IH]; intros g Hg Hn; [destruct Hg as [_ Hx]; cbn in Hn; lia|].
    cbn [g_pure]. destruct (block_step g v Hg) as (g1 & y & E & H1 & H2 & H3 & H4). rewrite E.
    cbn [length] in Hn. destruct (Nat.leb_spec (length (gw g)) (S (gidx g))) as [L|L].
    - destruct x; [|cbn in Hn; lia]. exists y. reflexivity.
    - specialize (H4 L). destruct (IH g1 H1) as [y' E']; [rewrite H3; lia|]. rewrite E', H2. exists y'. reflexivity.
  Qed.
  Lemma short_block x : forall g, g_inv g -> gidx g + length x < length (gw g) -> snd (g_pure u g x) = [].
  Proof.
    intros g Hg Hn. destruct (g_pure_account u x g Hg) as (_ & _ & L & _).
    rewrite Nat.div_small in L by exact Hn. destruct (snd (g_pure u g x)); [reflexivity|discriminate].
  Qed.

  (** Where block k of the signal starts and how long it is, for a filter at index i. *)
  Definition block (n i k : nat) (x : list A) : list A :=
    match k with 0 => firstn (n - i) x | S j => firstn n (skipn (n - i + j * n) x) end.
  Lemma nth_block k : forall g x, g_inv g -> k < (gidx g + length x) / length (gw g) ->
    g_pure u (match k with 0 => g | S _ => clean g end) (block (length (gw g)) (gidx g) k x) = (clean g, [nth k (snd (g_pure u g x)) zero]).
  Proof.
    induction k as [|k IH]; intros g x Hg Hk.
    - pose proof Hg as [_ Hx]. assert (Hl : length (gw g) <= gidx g + length x).
      { destruct (le_lt_dec (length (gw g)) (gidx g + length x)); [assumption|]. rewrite Nat.div_small in Hk by assumption. lia. }
      cbn [block]. rewrite <- (firstn_skipn (length (gw g) - gidx g) x) at 2. rewrite g_pure_app.
      destruct (one_block (firstn (length (gw g) - gidx g) x) g Hg) as [y E]; [rewrite firstn_length; lia|]. rewrite E.
      destruct (g_pure u (clean g) _). reflexivity.
    - pose proof Hg as [_ Hx]. set (n := length (gw g)) in *. assert (Hl : n <= gidx g + length x).
      { destruct (le_lt_dec n (gidx g + length x)); [assumption|]. rewrite Nat.div_small in Hk by assumption. lia. }
      rewrite <- (firstn_skipn (n - gidx g) x) at 2. rewrite g_pure_app.
      destruct (one_block (firstn (n - gidx g) x) g Hg) as [y E]; [rewrite firstn_length; unfold n in *; lia|]. rewrite E.
      set (r := skipn (n - gidx g) x). pose proof (clean_inv g Hg) as Hc.
      assert (Lr : length r = gidx g + length x - n) by (unfold r; rewrite skipn_length; lia).
      assert (Hk' : k < (gidx (clean g) + length r) / length (gw (clean g))).
      { cbn [clean gidx gw]. fold n. rewrite Lr. cbn [Nat.add]. replace (gidx g + length x) with (gidx g + length x - n + 1 * n) in Hk by lia.
        rewrite Nat.div_add in Hk by lia. lia. }
      specialize (IH (clean g) r Hc Hk'). rewrite clean_clean in IH. change (gw (clean g)) with (gw g) in IH. change (gidx (clean g)) with 0 in IH. fold n in IH.
      destruct (g_pure u (clean g) r) as [g2 ys] eqn:Ep. cbn [app snd nth] in *.
      assert (B : block n 0 k r = block n (gidx g) (S k) x).
      { unfold block. destruct k as [|k].
        - rewrite Nat.sub_0_r. unfold r. rewrite Nat.mul_0_l, Nat.add_0_r. reflexivity.
        - rewrite Nat.sub_0_r. unfold r. rewrite skipn_more. reflexivity. }
      rewrite <- B. destruct k; exact IH.
  Qed.
End Blocks.

(** What the operations leave alone. *)
Lemma exec_settings (A : Arith) cdiv (g : goertzel A) o :
  ia (giir (fst (g_exec cdiv g o))) = ia (giir g) /\ ib (giir (fst (g_exec cdiv g o))) = ib (giir g) /\
  idt (giir (fst (g_exec cdiv g o))) = idt (giir g) /\ gw (fst (g_exec cdiv g o)) = gw g.
Proof.
  assert (F : forall f x, ia (fst (@iir_filter A f x)) = ia f /\ ib (fst (@iir_filter A f x)) = ib f /\ idt (fst (@iir_filter A f x)) = idt f).
  { intros f x. unfold iir_filter. destruct (_ =? _); [auto|]. destruct (ib f) eqn:E; [auto|]. destruct (run _ _ _). cbn. auto. }
  assert (L : forall u size x jj (g : goertzel A), ia (giir (fst (goertzel_loop u size jj g x))) = ia (giir g) /\
    ib (giir (fst (goertzel_loop u size jj g x))) = ib (giir g) /\ idt (giir (fst (goertzel_loop u size jj g x))) = idt (giir g) /\
    gw (fst (goertzel_loop u size jj g x)) = gw g).
  { intros u size. induction x as [|v x IH]; intros jj h; [cbn; auto|]. cbn [goertzel_loop]. destruct (nth_error _ _) as [w|]; [|cbn; auto].
    pose proof (F (giir h) [mul (mul u w) v]) as F1. destruct (iir_filter (giir h) _) as [i [y|e]]; cbn [fst] in F1; [|cbn; intuition congruence].
    destruct (_ <=? S (gidx h)).
    - destruct (size <=? jj); [cbn; intuition congruence|]. specialize (IH (S jj) (mkGoertzel (iir_with_s i (map (fun _ => zero) (is_ i))) 0 (gw h) (gfreq h))).
      revert IH. destruct (goertzel_loop _ _ _ _ x). cbn [fst giir gw iir_with_s ia ib idt]. intuition congruence.
    - specialize (IH jj (mkGoertzel i (S (gidx h)) (gw h) (gfreq h))). cbn [fst giir gw] in *. intuition congruence. }
  destruct o as [c x|x|f]; cbn [g_exec].
  - unfold goertzel_filter. destruct (_ =? _); [cbn; auto|]. apply L.
  - unfold goertzel_reset, iir_reset. destruct x as [v|]; [|cbn; auto].
    destruct (is_ (giir g)) as [|s0 [|s1 t]], (ib (giir g)) as [|b0 b'] eqn:Eb; cbn; rewrite ?Eb; auto.
    destruct (bcast _ _ _); cbn; rewrite ?Eb; auto.
  - unfold goertzel_set_frequency. destruct (freq_bad f); cbn; auto.
Qed.
Lemma used_settings (A : Arith) cos2 exn_ isclose0 cdiv b f ops (g : goertzel A) : g_used cos2 exn_ isclose0 cdiv b f ops g ->
  exists g0, goertzel_make cos2 exn_ isclose0 b f = Ok g0 /\ ia (giir g) = ia (giir g0) /\ ib (giir g) = ib (giir g0) /\
    idt (giir g) = idt (giir g0) /\ gw g = b.
Proof.
  intros (g0 & E & Hu). exists g0. split; [exact E|]. apply goertzel_make_inv in E. destruct E as (_ & Eb & _). rewrite <- Eb. clear Eb b. revert g Hu. 
  revert g0. induction ops as [|o ops IH]; intros g0 g ->; [cbn; auto|]. cbn [fold_left].
  specialize (IH (fst (g_exec cdiv g0 o)) _ eq_refl). destruct (exec_settings A cdiv g0 o) as (E1 & E2 & E3 & E4). rewrite E1, E2, E3, E4 in IH. exact IH.
Qed.

(** Block k of the signal, for a filter that has taken i samples of the current block. *)
Definition in_block (n i k p : nat) : Prop := k * n <= i + p < S k * n.

Lemma nth_firstn_skipn (X : Type) (d : X) a c (l : list X) q : q < a -> nth q (firstn a (skipn c l)) d = nth (c + q) l d.
Proof.
  intros H. revert l. induction c as [|c IH]; intros l.
  - cbn [skipn Nat.add]. revert q H l. induction a as [|a IH]; intros q H l; [lia|]. destruct l as [|v l]; [destruct q; reflexivity|]. destruct q as [|q]; [reflexivity|]. cbn. apply IH. lia.
  - destruct l as [|v l]; cbn [skipn]; [rewrite firstn_nil; destruct q as [|q']; reflexivity|]. rewrite IH. reflexivity.
Qed.
Lemma block_agree (A : Arith) n i k (x1 x2 : list A) : i < n -> length x1 = length x2 ->
  (forall p, in_block n i k p -> nth p x1 zero = nth p x2 zero) -> block n i k x1 = block n i k x2.
Proof.
  intros Hi L H. apply (nth_ext _ _ zero zero).
  - destruct k; cbn [block]; rewrite ?firstn_length, ?skipn_length, L; reflexivity.
  - intros q Hq. destruct k as [|k]; cbn [block] in *; rewrite firstn_length in Hq.
    + rewrite <- (skipn_O x1), <- (skipn_O x2). rewrite !nth_firstn_skipn by lia. apply H. unfold in_block. lia.
    + rewrite !nth_firstn_skipn by lia. apply H. unfold in_block. nia.
Qed.

(** Filters with the same settings and registers give the same outputs. *)
Lemma same_out (A : Arith) (u : A) x : forall g h : goertzel A, giir g = giir h -> gidx g = gidx h -> gw g = gw h ->
  snd (g_pure u g x) = snd (g_pure u h x).
Proof.
  induction x as [|v x IH]; intros g h E1 E2 E3; [reflexivity|]. cbn [g_pure]. unfold g_next. rewrite E1, E2, E3.
  destruct (iir_filter (giir h) _) as [i r]. destruct (_ <=? _).
  - specialize (IH (mkGoertzel (iir_with_s i (map (fun _ => zero) (is_ i))) 0 (gw h) (gfreq g)) (mkGoertzel (iir_with_s i (map (fun _ => zero) (is_ i))) 0 (gw h) (gfreq h)) eq_refl eq_refl eq_refl).
    revert IH. destruct (g_pure u _ x), (g_pure u _ x). cbn. congruence.
  - specialize (IH (mkGoertzel i (S (gidx h)) (gw h) (gfreq g)) (mkGoertzel i (S (gidx h)) (gw h) (gfreq h)) eq_refl eq_refl eq_refl).
    revert IH. destruct (g_pure u _ x), (g_pure u _ x). cbn. congruence.
Qed.
Lemma iir_eq (A : Arith) (f g : iir A) : ia f = ia g -> ib f = ib g -> idt f = idt g -> is_ f = is_ g -> f = g.
Proof. destruct f, g. cbn. congruence. Qed.

(** Output k depends on the samples of block k alone: not on the other blocks, nor, from
    the second output on, on anything done with the filter before.  Any arithmetic. *)
Theorem C187_local (A : Arith) (cos2 exn_ : R -> A) isclose0 cdiv b f ops1 ops2 (g h : goertzel A) cplx x1 x2 g' h' y1 y2 k :
  (forall l w, 0 < w -> (l + w - 1) / w <= S (cdiv l w)) ->
  g_used cos2 exn_ isclose0 cdiv b f ops1 g -> g_used cos2 exn_ isclose0 cdiv b f ops2 h -> gidx g = gidx h ->
  goertzel_filter cdiv g cplx x1 = (g', Ok y1) -> goertzel_filter cdiv h cplx x2 = (h', Ok y2) -> length x1 = length x2 ->
  (forall p, in_block (length b) (gidx g) k p -> nth p x1 zero = nth p x2 zero) ->
  0 < k \/ is_ (giir g) = is_ (giir h) ->
  length y1 = length y2 /\ nth k y1 zero = nth k y2 zero.
Proof.
  intros Hc Ug Uh Hi E1 E2 Lx Hx Hk.
  assert (N1 : x1 <> []) by (intros ->; discriminate). assert (N2 : x2 <> []) by (intros ->; discriminate).
  destruct (g_used_inv _ _ _ _ Hc _ _ _ _ Ug) as [Ig Wg]. destruct (g_used_inv _ _ _ _ Hc _ _ _ _ Uh) as [Ih Wh].
  rewrite (goertzel_filter_pure cdiv Hc) in E1 by assumption. rewrite (goertzel_filter_pure cdiv Hc) in E2 by assumption.
  cbv zeta in E1, E2. rewrite Wg in E1. rewrite Wh in E2. set (u := div _ _) in *. injection E1 as _ E1. injection E2 as _ E2.
  destruct (g_pure_account u x1 g Ig) as (_ & _ & L1 & _). destruct (g_pure_account u x2 h Ih) as (_ & _ & L2 & _).
  rewrite Wg in L1. rewrite Wh in L2. subst y1 y2. split; [rewrite L1, L2, Hi, Lx; reflexivity|].
  destruct (le_lt_dec ((gidx g + length x1) / length b) k) as [Hb|Hb].
  { rewrite !nth_overflow; [reflexivity|rewrite L2, <- Hi, <- Lx; exact Hb|rewrite L1; exact Hb]. }
  pose proof (nth_block u k g x1 Ig) as B1. pose proof (nth_block u k h x2 Ih) as B2. rewrite Wg in B1. rewrite Wh in B2.
  specialize (B1 Hb). rewrite <- Hi, <- Lx in B2. specialize (B2 Hb).
  destruct Ig as [Ii Ix]. rewrite Wg in Ix. rewrite (block_agree A (length b) (gidx g) k x1 x2 Ix Lx Hx) in B1.
  destruct (used_settings A _ _ _ _ _ _ _ _ Ug) as (g0 & M1 & A1 & A2 & A3 & _). destruct (used_settings A _ _ _ _ _ _ _ _ Uh) as (h0 & M2 & A4 & A5 & A6 & _).
  assert (h0 = g0) by congruence. subst h0.
  pose proof (g_used_inv _ _ _ _ Hc _ _ _ _ Uh) as [[(_ & _ & Ls2) _] _]. destruct Ii as (_ & _ & Ls1).
  set (g1 := match k with 0 => g | S _ => clean g end) in B1. set (h1 := match k with 0 => h | S _ => clean h end) in B2.
  assert (S1 : snd (g_pure u g1 (block (length b) (gidx g) k x2)) = snd (g_pure u h1 (block (length b) (gidx g) k x2))).
  { apply same_out; subst g1 h1; destruct k as [|k]; cbn [clean giir gidx gw]; try congruence.
    - destruct Hk as [Hk|Hk]; [lia|]. apply iir_eq; congruence.
    - apply iir_eq; cbn [iir_with_s ia ib idt is_]; try congruence. apply zeros_like. congruence. }
  rewrite B1, B2 in S1. cbn [snd] in S1. congruence.
Qed.
Print Assumptions C187_local.

Lemma made (A : Arith) (cos2 exn_ : R -> A) isclose0 b f (g : goertzel A) : goertzel_make cos2 exn_ isclose0 b f = Ok g ->
  giir g = mkIir DComplex [zero; cos2 f; opp one] [one; opp (exn_ f); zero] (repeat (cast DComplex zero) 3).
Proof.
  unfold goertzel_make. destruct (_ || _)%bool; [discriminate|]. destruct (freq_bad f); [discriminate|].
  destruct (iir_make _ _ _) as [i|w] eqn:Ei; [|discriminate]. intros Q. injection Q as <-. revert Ei.
  unfold iir_make. cbn. destruct (negb _); [discriminate|]. cbn. intros Q. injection Q as <-. reflexivity.
Qed.

(** A new filter gives, for each block, what it gives for that block alone. *)
Theorem C187_blocks (A : Arith) (cos2 exn_ : R -> A) isclose0 cdiv b f (g : goertzel A) cplx x g' y k :
  (forall l w, 0 < w -> (l + w - 1) / w <= S (cdiv l w)) -> cast DComplex zero = @zero A ->
  goertzel_make cos2 exn_ isclose0 b f = Ok g -> goertzel_filter cdiv g cplx x = (g', Ok y) ->
  length y = length x / length b /\
  (k < length y -> exists g2, goertzel_filter cdiv g cplx (firstn (length b) (skipn (k * length b) x)) = (g2, Ok [nth k y zero])).
Proof.
  intros Hc Hz Em E. assert (N : x <> []) by (intros ->; discriminate).
  destruct (goertzel_make_inv _ _ _ _ _ _ Em) as (Hg & Hw & Hi & _).
  rewrite (goertzel_filter_pure cdiv Hc) in E by assumption. cbv zeta in E. injection E as _ E.
  set (u := div _ _) in E. destruct (g_pure_account u x g Hg) as (_ & _ & L & _). rewrite E, Hw, Hi in L. split; [exact L|]. intros Hk. rewrite L in Hk.
  pose proof (nth_block u k g x Hg) as B. rewrite Hw, Hi in B. specialize (B Hk). rewrite E in B.
  assert (Hb : 0 < length b) by (destruct Hg as [_ Q]; rewrite Hw in Q; lia).
  assert (EB : block (length b) 0 k x = firstn (length b) (skipn (k * length b) x)).
  { destruct k as [|k]; cbn [block]; rewrite Nat.sub_0_r; [reflexivity|]. f_equal. }
  rewrite EB in B. set (xb := firstn (length b) (skipn (k * length b) x)) in *.
  assert (Ng : giir (clean g) = giir g).
  { unfold clean. cbn [giir]. rewrite (made _ _ _ _ _ _ _ Em). unfold iir_with_s. cbn. rewrite Hz. reflexivity. }
  assert (G : snd (g_pure u g xb) = [nth k y zero]).
  { destruct k as [|k]; [rewrite B; reflexivity|]. rewrite <- (same_out A u xb (clean g) g); [rewrite B; reflexivity|exact Ng|cbn; congruence|reflexivity]. }
  rewrite (goertzel_filter_pure cdiv Hc); [|exact Hg|intros Q; rewrite Q in G; discriminate].
  cbv zeta. fold u. rewrite G. eexists. reflexivity.
Qed.
Print Assumptions C187_blocks.

Lemma half_good : freq_bad (1 / 2) = false.
Proof.
  unfold freq_bad. destruct (Rltb (1 / 2) (-1)) eqn:E1; [apply Rltb_iff in E1; lra|].
  destruct (Rltb 1 (1 / 2)) eqn:E2; [apply Rltb_iff in E2; lra|]. reflexivity.
Qed.
(** Two filters with different pasts, the same place in the block and inputs that agree in
    the second block only: the first outputs differ, the second are equal. *)
Example C187_local_example : exists g h : goertzel QA,
  let used o g := @g_used QA (fun _ => q 0 1) (fun _ => q 1 1) (fun v => Qc_eq_bool v (q 0 1)) ceil_div [q 1 1; q 2 1; q 1 1] (1 / 2) o g in
  used [GFilter true [q 3 1]] g /\ used [GFilter true [q 4 1]] h /\ gidx g = 1 /\ gidx h = 1 /\
  rqs (snd (goertzel_filter ceil_div g true [q 1 1; q 1 1; q 5 1; q 6 1; q 3 1])) = Ok [-4 # 3; -14 # 3]%Q /\
  rqs (snd (goertzel_filter ceil_div h true [q 2 1; q 1 1; q 5 1; q 6 1; q 3 1])) = Ok [-7 # 3; -14 # 3]%Q.
Proof.
  cbv zeta. unfold g_used, goertzel_make. rewrite half_good. eexists _, _.
  split; [eexists; split; reflexivity|]. split; [eexists; split; reflexivity|]. split; [reflexivity|]. split; [reflexivity|].
  split; vm_compute; reflexivity.
Qed.
Example C187_blocks_example : exists g, qg = Ok g /\ @cast QA DComplex zero = zero /\
  rqs (snd (goertzel_filter ceil_div g true [q 3 1; q 1 1; q 1 1; q 5 1; q 6 1; q 3 1; q 9 1])) = Ok [-4 # 3; -14 # 3]%Q /\
  rqs (snd (goertzel_filter ceil_div g true [q 3 1; q 1 1; q 1 1])) = Ok [-4 # 3]%Q /\
  rqs (snd (goertzel_filter ceil_div g true [q 5 1; q 6 1; q 3 1])) = Ok [-14 # 3]%Q.
Proof.
  unfold qg, goertzel_make. rewrite half_good. eexists. split; [reflexivity|]. split; [reflexivity|].
  repeat split; vm_compute; reflexivity.
Qed.

(** ** Complex doubles *)
(** The pairs whose products make up the real and the imaginary part of a dot product. *)
Definition re_pairs (l m : list cf) : list (float * float) :=
  flat_map (fun p => [(fst (fst p), fst (snd p)); ((- snd (fst p))%float, snd (snd p))]) (combine l m).
Definition im_pairs (l m : list cf) : list (float * float) :=
  flat_map (fun p => [(fst (fst p), snd (snd p)); (snd (fst p), fst (snd p))]) (combine l m).
(** numpy.dot of complex arrays: both parts are sums of products in some order. *)
Definition any_orderC (d : list cf -> list cf -> cf) : Prop :=
  forall l m, length l = length m -> dots (re_pairs l m) (fst (d l m)) /\ dots (im_pairs l m) (snd (d l m)).
(** Complex doubles.  Simplified: a real operand is a complex number with imaginary part 0,
    so a product of two infinite reals has a NaN imaginary part already before it enters
    the complex registers. *)
Definition CFA (d : list cf -> list cf -> cf) : Arith :=
  {| carrier := cf; zero := (0, 0)%float; one := (1, 0)%float;
     add := caddF; sub := csubF; mul := cmulF; div := cdivF; opp := fun v => (- fst v, - snd v)%float;
     eqb := fun x y => (PrimFloat.eqb (fst x) (fst y) && PrimFloat.eqb (snd x) (snd y))%bool;
     dot := d; sum := sum_from caddF (0, 0)%float;
     cast := fun dt v => match dt with DComplex => v | DFloat => creal (fst v) | DInt => creal (ftrunc (fst v)) end |}.

Lemma exists_flat (X Y : Type) (P : Y -> Prop) (F : X -> list Y) l x : In x l -> Exists P (F x) -> Exists P (flat_map F l).
Proof. intros Hi H. apply Exists_exists in H. destruct H as (y & Hy & Py). apply Exists_exists. exists y. split; [|exact Py]. apply in_flat_map. eauto. Qed.
Lemma poison_zero_l v : ~ finite v -> poison (0%float, v).
Proof. intros H. right. right. right. cbn [fst snd]. split; [exact H|]. split; [exact val_zero|reflexivity]. Qed.
Lemma poison_mzero_l v : ~ finite v -> poison ((- 0)%float, v).
Proof.
  intros H. right. right. right. cbn [fst snd]. split; [exact H|]. split; [|reflexivity]. unfold val. vm_compute Prim2B. reflexivity.
Qed.
(** A bad operand beside a real coefficient. *)
Lemma dot_real d l m r v : any_orderC d -> length l = length m -> In ((r, 0)%float, v) (combine l m) -> badc v -> part_nan (d l m).
Proof.
  intros Hd L Hi [H|H]; destruct (Hd l m L) as [Dr Di].
  - right. apply (dots_nan _ _ Di). refine (exists_flat _ _ _ _ _ _ Hi _). cbn [fst snd]. right. left. apply poison_zero_l, H.
  - left. apply (dots_nan _ _ Dr). refine (exists_flat _ _ _ _ _ _ Hi _). cbn [fst snd]. right. left. apply poison_mzero_l, H.
Qed.
(** A bad operand beside a zero coefficient, or a NaN operand beside any. *)
Lemma dot_zero d l m v : any_orderC d -> length l = length m -> In ((0, 0)%float, v) (combine l m) -> badc v -> nanc (d l m).
Proof.
  intros Hd L Hi Hv. destruct (Hd l m L) as [Dr Di]. split.
  - apply (dots_nan _ _ Dr). refine (exists_flat _ _ _ _ _ _ Hi _). cbn [fst snd]. destruct Hv as [H|H]; [left; apply poison_zero_l, H|right; left; apply poison_mzero_l, H].
  - apply (dots_nan _ _ Di). refine (exists_flat _ _ _ _ _ _ Hi _). cbn [fst snd]. destruct Hv as [H|H]; [right; left; apply poison_zero_l, H|left; apply poison_zero_l, H].
Qed.
Lemma dot_nanc d l m c v : any_orderC d -> length l = length m -> In (c, v) (combine l m) -> nanc v -> nanc (d l m).
Proof.
  intros Hd L Hi [H1 H2]. destruct (Hd l m L) as [Dr Di].
  assert (P : forall w x, nonnumber x -> poison (w, x)) by (intros w x H; unfold poison; cbn [fst snd]; tauto).
  split; [apply (dots_nan _ _ Dr)|apply (dots_nan _ _ Di)]; refine (exists_flat _ _ _ _ _ _ Hi _); cbn [fst snd]; left; apply P; assumption.
Qed.
Lemma mul_bad x y : ~ finite y -> ~ finite (x * y)%float.
Proof.
  unfold finite. rewrite !is_finite_equiv, mul_equiv. destruct (Prim2B y) as [s|s| |s m e p]; cbn [is_finite]; intros H; try (exfalso; apply H; reflexivity);
    destruct (Prim2B x); cbn; discriminate.
Qed.
Lemma cmul_bad p v : badc v -> badc (cmulF p v).
Proof. intros [H|H]; unfold badc, cmulF; cbn [fst snd]; [left; apply sub_bad|right; apply add_bad]; apply mul_bad, H. Qed.

Section Bad.
  Variable d : list cf -> list cf -> cf.
  Hypothesis Hd : any_orderC d.
  Variables (c e : cf).
  Let a : list cf := [(0, 0)%float; c; @opp (CFA d) (@one (CFA d))].
  Let b : list cf := [(1, 0)%float; @opp (CFA d) e; (0, 0)%float].
  (** The registers after a bad sample. *)
  Definition spoilt (s : list cf) : Prop := exists s0 s1 s2, s = [s0; s1; s2] /\ (badc s0 \/ nanc s1).
  Lemma bad_step s v : length s = 3 -> badc v \/ spoilt s ->
    exists s' y, @iir_step (CFA d) DComplex a b s v = (s', Ok y) /\ spoilt s' /\ part_nan y.
  Proof.
    intros Ls H. destruct s as [|s0 [|s1 [|s2 [|]]]]; try discriminate Ls.
    set (w := d a [s0; s1; s2]). set (n0 := caddF s0 w).
    set (cc := [caddF (cmulF (0, 0)%float (1, 0)%float) (1, 0)%float; caddF (cmulF c (1, 0)%float) (@opp (CFA d) e); caddF (cmulF (@opp (CFA d) (@one (CFA d))) (1, 0)%float) (0, 0)%float]).
    exists [v; n0; s1], (d cc [v; n0; s1]). split; [reflexivity|].
    assert (C0 : nth 0 cc (0, 0)%float = (1, 0)%float) by (vm_compute; reflexivity).
    assert (N0 : spoilt [s0; s1; s2] -> nanc n0).
    { intros (t0 & t1 & t2 & Q & P). injection Q as <- <- <-. apply cadd_nan. right. unfold w. destruct P as [P|P].
      - apply (dot_zero d a [s0; s1; s2] s0 Hd eq_refl); [left; reflexivity|exact P].
      - apply (dot_nanc d a [s0; s1; s2] c s1 Hd eq_refl); [right; left; reflexivity|exact P]. }
    destruct H as [H|H].
    - split; [exists v, n0, s1; auto|]. apply (dot_real d cc [v; n0; s1] 1%float v Hd eq_refl); [|exact H]. left. f_equal.
    - specialize (N0 H). split; [exists v, n0, s1; auto|]. apply nanc_part. apply (dot_nanc d cc [v; n0; s1] (nth 1 cc (0, 0)%float) n0 Hd eq_refl); [|exact N0]. right. left. reflexivity.
  Qed.

  Definition tuned (g : goertzel (CFA d)) : Prop := idt (giir g) = DComplex /\ ia (giir g) = a /\ ib (giir g) = b.
  Ltac cl := change (@length (carrier (CFA d))) with (@length cf) in *.
  Lemma bad_block u x : forall g : goertzel (CFA d), g_inv g -> tuned g -> gidx g + length x = length (gw g) ->
    Exists badc x \/ (spoilt (is_ (giir g))) -> exists y, snd (g_pure u g x) = [y] /\ part_nan y.
  Proof.
    induction x as [|v x IH]; intros g Hg Ht Hn HE; [destruct Hg as [_ Hx]; cl; cbn [length] in Hn; lia|].
    pose proof Hg as [(Ib & Ia & Is) Hx]. pose proof Ht as (T1 & T2 & T3).
    assert (L3 : length (is_ (giir g)) = 3) by (rewrite Is, T3; reflexivity).
    cbn [g_pure]. unfold g_next. set (z := mul (mul u (nth (gidx g) (gw g) zero)) v).
    assert (Ez : badc v -> badc z) by (intros Hv; apply cmul_bad, Hv).
    assert (F : exists s' y, iir_filter (giir g) [z] = (iir_with_s (giir g) s', Ok [y]) /\ length s' = 3 /\ (badc v \/ spoilt (is_ (giir g)) -> spoilt s' /\ part_nan y)).
    { destruct (iir_filter_ok (giir g) [z] (conj Ib (conj Ia Is))) as (s' & y & Er & E & Hl & Hy); [discriminate|].
      destruct y as [|y0 [|]]; cbn [length] in Hy; try lia. exists s', y0. split; [exact E|]. split; [rewrite Hl, T3; reflexivity|].
      intros Q. rewrite T1, T2, T3 in Er. destruct (bad_step (is_ (giir g)) z L3) as (s2 & y2 & E2 & P1 & P2); [destruct Q; auto|].
      cbn [run] in Er. rewrite E2 in Er. injection Er as <- <-. auto. }
    destruct F as (s' & y & E & L' & P). rewrite E. cbn [length] in Hn. destruct (Nat.leb_spec (length (gw g)) (S (gidx g))) as [L|L].
    - destruct x; [|cl; cbn [length] in Hn; lia]. cbn [g_pure snd]. exists y. split; [reflexivity|]. apply P. destruct HE as [HE|HE]; [|auto]. inversion HE as [? ? Q|? ? Q]; subst; [auto|inversion Q].
    - destruct (IH (mkGoertzel (iir_with_s (giir g) s') (S (gidx g)) (gw g) (gfreq g))) as (y' & E' & P').
      + split; [|exact L]. unfold iir_inv. cbn [giir iir_with_s ia ib is_]. rewrite L'. rewrite T3. split; [discriminate|]. split; [rewrite T2; reflexivity|reflexivity].
      + unfold tuned. cbn [giir iir_with_s ia ib idt]. auto.
      + cbn [gidx gw]. cl. lia.
      + cbn [giir iir_with_s is_]. destruct HE as [HE|HE]; [|right; apply P; auto]. inversion HE as [? ? Q|? ? Q]; subst; [right; apply P; auto|left; exact Q].
      + revert E'. destruct (g_pure u _ x) as [g2 ys]. cbn [snd]. intros ->. exists y'. auto.
  Qed.
End Bad.

(** A NaN or infinite sample makes the output of its own block NaN in at least one part,
    whatever the weights; by C187_local no other output notices it. *)
Theorem C187_bad_sample d cos2 exn_ isclose0 cdiv b f ops (g : goertzel (CFA d)) cplx x g' y k p :
  any_orderC d -> (forall l w, 0 < w -> (l + w - 1) / w <= S (cdiv l w)) ->
  @g_used (CFA d) cos2 exn_ isclose0 cdiv b f ops g -> goertzel_filter cdiv g cplx x = (g', Ok y) ->
  p < length x -> badc (nth p x (0, 0)%float) -> in_block (length b) (gidx g) k p -> k < length y ->
  part_nan (nth k y (0, 0)%float).
Proof.
  intros Hd Hc Ug E Hp Hbad Hin Hk. assert (N : x <> []) by (intros ->; discriminate).
  destruct (g_used_inv _ _ _ _ Hc _ _ _ _ Ug) as [Hg Hw]. destruct (used_settings (CFA d) _ _ _ _ _ _ _ _ Ug) as (g0 & Em & A1 & A2 & A3 & _).
  rewrite (goertzel_filter_pure cdiv Hc) in E by assumption. cbv zeta in E. injection E as _ E. set (u := cdivF _ _) in E.
  change (@eq (list (CFA d)) (@snd (goertzel (CFA d)) (list (CFA d)) (@g_pure (CFA d) u g x)) y) in E.
  destruct (g_pure_account (A := CFA d) u x g Hg) as (_ & _ & L & _). rewrite E, Hw in L. rewrite L in Hk.
  pose proof (nth_block (A := CFA d) u k g x Hg) as B. rewrite Hw in B. specialize (B Hk). rewrite E in B. pose proof Hg as [_ Hx]. rewrite Hw in Hx.
  assert (T : tuned d (cos2 f) (exn_ f) g).
  { pose proof (made (CFA d) _ _ _ _ _ _ Em) as M. rewrite M in A1, A2, A3. split; [exact A3|]. split; [exact A1|exact A2]. }
  set (g1 := match k with 0 => g | S _ => clean g end) in B.
  assert (Hk2 : S k * length b <= gidx g + length x).
  { pose proof (Nat.div_mod (gidx g + length x) (length b) ltac:(lia)) as D. nia. }
  destruct (bad_block d Hd (cos2 f) (exn_ f) u (block (length b) (gidx g) k x) g1) as (z & Z1 & Z2).
  - unfold g1. destruct k; [exact Hg|apply clean_inv, Hg].
  - unfold g1. destruct k; [exact T|exact T].
  - unfold g1, block. destruct k as [|k]; cbn [clean gidx gw]; rewrite Hw, firstn_length, ?skipn_length; nia.
  - left. unfold in_block in Hin. apply Exists_exists. exists (nth p x (0, 0)%float). split; [|exact Hbad].
    unfold block. destruct k as [|k].
    + rewrite <- (nth_firstn_skipn _ _ (length b - gidx g) 0 x p) by lia. apply nth_In. rewrite firstn_length. cbn [skipn]. lia.
    + replace p with (length b - gidx g + k * length b + (p - (length b - gidx g + k * length b))) by nia.
      rewrite <- (nth_firstn_skipn _ _ (length b)) by nia. apply nth_In. rewrite firstn_length, skipn_length. nia.
  - rewrite B in Z1. cbn [snd] in Z1. injection Z1 as Z1. rewrite <- Z1 in Z2. exact Z2.
Qed.
Print Assumptions C187_bad_sample.

(** A dot product meeting the contract, and a stream of three blocks with an infinity in the
    second: only the second output is spoilt. *)
Definition dot187 (l m : list cf) : cf :=
  let f p := dot_from PrimFloat.add PrimFloat.mul 0%float (map fst p) (map snd p) in (f (re_pairs l m), f (im_pairs l m)).
Lemma combine_split_map (X Y : Type) (p : list (X * Y)) : combine (map fst p) (map snd p) = p.
Proof. induction p as [|[x y] p IH]; cbn; [reflexivity|rewrite IH; reflexivity]. Qed.
Lemma dot187_ok : any_orderC dot187.
Proof.
  intros l m _. unfold dot187. cbn [fst snd]. split; rewrite <- (combine_split_map _ _ (_ l m)) at 1; apply left_any_order; rewrite !map_length; reflexivity.
Qed.
Definition g187 : res (goertzel (CFA dot187)) :=
  @goertzel_make (CFA dot187) (fun _ => (0, 0)%float) (fun _ => (0, 1)%float) (fun v => PrimFloat.eqb (fst v) 0) [(1, 0); (2, 0)]%float (1 / 2).
Definition x187 : list cf := [(3, 0); (1, 0); (5, 0); (infinity, 0); (6, 0); (2, 0)]%float.
Definition flag (v : cf) : bool := (PrimFloat.is_nan (fst v) || PrimFloat.is_nan (snd v))%bool.
Example C187_bad_example : exists g, g187 = Ok g /\ gidx g = 0 /\ badc (nth 3 x187 (0, 0)%float) /\ in_block 2 0 1 3 /\
  match snd (goertzel_filter ceil_div g true x187) with Ok y => map flag y | Err _ => [] end = [false; true; false].
Proof.
  unfold g187, goertzel_make. rewrite half_good. eexists. split; [reflexivity|]. split; [reflexivity|].
  split; [left; cbn; unfold finite; rewrite is_finite_equiv; vm_compute; discriminate|]. split; [unfold in_block; lia|]. vm_compute. reflexivity.
Qed.
