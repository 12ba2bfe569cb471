(** Properties C145-C147: FirFilter and IirFilter in IEEE doubles. *)
From Flocq Require Import Core BinarySingleNaN PrimFloat.
From Coq Require Import List Arith ZArith Reals Lra Lia Floats Permutation.
From Verif Require Import Base BaseLemmas Instances FirModel FirSpec FirProofs FirProps IirModel IirSpec IirProofs IirProps DoubleSpec DoubleProofs.
Import ListNotations.
Open Scope nat_scope.

Lemma firstn_In {X} (l : list X) n z : In z (firstn n l) -> In z l.
Proof. intros H. rewrite <- (firstn_skipn n l). apply in_or_app. left. exact H. Qed.
Lemma sig_val (g : float -> R) (s x : list float) k : g 0%float = 0%R ->
  g (@sig FA s x k) = @sig RA (map g s) (map g x) k.
Proof.
  intros G. unfold sig. destruct (k <? 0)%Z; change (@zero RA) with 0%R; rewrite <- G, map_nth; reflexivity.
Qed.
Lemma window_conv (g : float -> R) (b s x : list float) n : g 0%float = 0%R ->
  fold_right (fun p r => (g (fst p) * g (snd p) + r)%R) 0%R
    (combine b (map (fun i => @sig FA s x (Z.of_nat n - Z.of_nat i)) (seq 0 (length b)))) =
  @convolution RA (map g b) (map g s) (map g x) n.
Proof.
  intros G. rewrite weighted_bigsum by (rewrite map_length, seq_length; reflexivity). unfold convolution. rewrite map_length.
  apply bigsum_ext. intros i Hi. change (@mul RA) with Rmult. f_equal.
  - change (@zero RA) with 0%R. rewrite <- G, map_nth. reflexivity.
  - rewrite (nth_map_lt _ _ i 0) by (rewrite seq_length; exact Hi). rewrite seq_nth by exact Hi. apply sig_val, G.
Qed.

(** C145.  Where the coefficients and the last samples are finite and not so large that
    the sum could overflow, the output is a finite double within the usual error of
    the exact convolution, in whatever order the dot product is evaluated; a NaN in
    the window gives NaN. *)
Theorem C145_fir_doubles d (b s : arr (FAd d)) ops (f : fir (FAd d)) (x : list float) :
  any_order d -> fir_used b s ops f -> fdt f <> DInt -> x <> [] ->
  let N := length (fb f) in
  let size n := @convolution RA (map aval (fb f)) (map aval (fs f)) (map aval x) n in
  exists f' y, fir_filter f x = (f', Ok y) /\ length y = length x /\
    forall n, n < length x ->
      (Forall finite (fb f) -> (forall i, i < N -> finite (@sig (FAd d) (fs f) x (Z.of_nat n - Z.of_nat i))) ->
       ((1 + uro) ^ N * (size n + 2 * INR N * eta0) < huge)%R ->
       finite (nth n y 0%float) /\
       (Rabs (val (nth n y 0%float) - @convolution RA (map val (fb f)) (map val (fs f)) (map val x) n)
        <= ((1 + uro) ^ N - 1) * size n + 2 * INR N * (1 + uro) ^ N * eta0)%R) /\
      ((exists i, i < N /\ nonnumber (@sig (FAd d) (fs f) x (Z.of_nat n - Z.of_nat i))) -> nonnumber (nth n y 0%float)).
Proof.
  intros Hd Hu Ht Hx N size.
  destruct (C01_fir_window_any_arithmetic (FAd d) b s ops f x Hu Hx) as (f' & y & E & Hl & H).
  exists f', y. split; [exact E|]. split; [exact Hl|]. intros n Hn.
  assert (C : forall v : float, @cast (FAd d) (fdt f) v = v) by (intros v; destruct (fdt f); [congruence|reflexivity|reflexivity]).
  assert (Cm : forall l : list float, map (@cast (FAd d) (fdt f)) l = l) by (intros l; rewrite <- (map_id l) at 2; apply map_ext, C).
  set (w := map (fun i => @sig FA (fs f) x (Z.of_nat n - Z.of_nat i)) (seq 0 N)).
  assert (Lw : length w = N) by (unfold w; rewrite map_length, seq_length; reflexivity).
  assert (Ev : nth n y 0%float = d (fb f) w) by (specialize (H n Hn); rewrite C, Cm in H; exact H).
  assert (Dw : dots (combine (fb f) w) (d (fb f) w)) by (apply Hd; symmetry; exact Lw).
  assert (Lc : length (combine (fb f) w) = N) by (rewrite combine_length, Lw; apply Nat.min_id).
  rewrite Ev. split.
  - intros Fb Fw Hb.
    assert (Em : mags (combine (fb f) w) = size n) by (apply (window_conv aval); exact aval_zero).
    assert (Ee : exact (combine (fb f) w) = @convolution RA (map val (fb f)) (map val (fs f)) (map val x) n) by (apply (window_conv val); exact val_zero).
    assert (Hund : (und N <= 2 * INR N * (1 + uro) ^ N * eta0)%R).
    { unfold und. assert (INR (2 * N - 1) <= 2 * INR N)%R.
      { replace 2%R with (INR 2) by reflexivity. rewrite <- mult_INR. apply le_INR. lia. }
      assert (0 <= (1 + uro) ^ N * eta0)%R by (apply Rmult_le_pos; [pose proof (pow_ge N); lra|pose proof eta0_pos; lra]).
      assert (INR (2 * N - 1) * ((1 + uro) ^ N * eta0) <= 2 * INR N * ((1 + uro) ^ N * eta0))%R by (apply Rmult_le_compat_r; assumption). lra. }
    destruct (dots_good _ _ Dw) as [G1 G2].
    + apply Forall_forall. intros [p q] Hin. split; cbn [fst snd].
      * apply in_combine_l in Hin. rewrite Forall_forall in Fb. apply Fb, Hin.
      * apply in_combine_r in Hin. unfold w in Hin. apply in_map_iff in Hin. destruct Hin as (i & <- & Hi). apply in_seq in Hi. apply Fw. lia.
    + set (L := length _). assert (L = N) as -> by exact Lc. rewrite Em. eapply Rle_lt_trans; [|exact Hb]. unfold gam. lra.
    + split; [exact G1|]. rewrite Em, Ee in G2. set (L := length _) in G2. assert (EL : L = N) by exact Lc. rewrite EL in G2. unfold gam in G2. lra.
  - intros (i & Hi & Ni). apply (dots_nan _ _ Dw). apply Exists_exists.
    exists (nth i (fb f) 0%float, @sig FA (fs f) x (Z.of_nat n - Z.of_nat i)). split; [|right; left; exact Ni].
    assert (Ec : nth i (combine (fb f) w) (0, 0)%float = (nth i (fb f) 0%float, @sig FA (fs f) x (Z.of_nat n - Z.of_nat i))).
    { rewrite combine_nth by (symmetry; exact Lw). f_equal. unfold w. rewrite (nth_map_lt _ _ i 0) by (rewrite seq_length; exact Hi).
      rewrite seq_nth by exact Hi. reflexivity. }
    rewrite <- Ec. apply nth_In. rewrite Lc. exact Hi.
Qed.
Print Assumptions C145_fir_doubles.

(** Adding up from left to right, as FA does, is one of the orders. *)
Theorem C145_left_to_right : any_order (@dot FA).
Proof. exact left_any_order. Qed.
Print Assumptions C145_left_to_right.

(** Without a bound on the size finite samples do overflow. *)
Theorem C145_finite_output_refuted : exists f : fir FA,
  fir_used (mkArr DFloat [1; 1]%float) (mkArr DFloat []) [] f /\
  Forall finite [0x1.fffffffffffffp+1023; 0x1.fffffffffffffp+1023; 1; 2]%float /\
  fls (snd (fir_filter f [0x1.fffffffffffffp+1023; 0x1.fffffffffffffp+1023; 1; 2]%float)) =
    Ok [0x1.fffffffffffffp+1023; infinity; 0x1.fffffffffffffp+1023; 3]%float.
Proof.
  eexists. split; [eexists; split; reflexivity|]. split; [repeat constructor|]. vm_compute. reflexivity.
Qed.
Print Assumptions C145_finite_output_refuted.

(** A NaN leaves the window after N samples. *)
Example C145_example : exists f : fir FA,
  fir_used (mkArr DFloat [0.5; 0.25]%float) (mkArr DFloat []) [] f /\ Forall finite (fb f) /\
  match snd (fir_filter f [1; nan; 2; 4]%float) with
  | Ok [y0; y1; y2; y3] => y0 = 0.5%float /\ PrimFloat.is_nan y1 = true /\ PrimFloat.is_nan y2 = true /\ y3 = 2.5%float
  | _ => False
  end.
Proof.
  eexists. split; [eexists; split; reflexivity|]. split; [repeat constructor|]. vm_compute. repeat split.
Qed.

(** ** C146 *)
(** The state makes the next output, and everything after it, NaN. *)
Definition spoilt (s : list float) : Prop :=
  match s with s0 :: s1 :: _ => ~ finite s0 \/ nonnumber s1 | _ => False end.

Lemma iir_used_a0_double d a b s ops (f : iir (FAd d)) : iir_used a b s ops f ->
  finite (nth 0 (ia f) 0%float) /\ val (nth 0 (ia f) 0%float) = 0%R.
Proof.
  intros (Hl & f0 & H & ->). destruct (iir_fold_ab ops f0) as (Ea & _). rewrite Ea. clear Ea.
  assert (K : PrimFloat.eqb (nth 0 (ia f0) 0%float) 0%float = true).
  { revert H. unfold iir_make.
    destruct (match els a with [] => false | a0 :: _ => negb (eqb a0 zero) end); [discriminate|].
    cbv zeta. cbn [els adt]. set (n := max _ _) in *.
    destruct (pad (els a) n) as [|a0 a'] eqn:Ea; [discriminate|].
    destruct (eqb a0 zero) eqn:E0; [|discriminate]. cbn [negb].
    match goal with |- context [fir_make ?b1 ?s1] => destruct (fir_make b1 s1) as [g|e] eqn:E end; [|discriminate].
    intros H. injection H as <-. cbn [ia nth]. exact E0. }
  revert K. set (a0 := nth 0 (ia f0) 0%float). unfold finite, val. rewrite is_finite_equiv, eqb_equiv.
  change (Prim2B 0%float) with (@B754_zero 53 1024 false).
  destruct (Prim2B a0) as [[|]|[|]| |[|] m e Hm]; cbn; intros K; try discriminate; auto.
Qed.

Lemma spoilt_step d dt (a b s : list float) (v : float) : any_order d -> dt <> DInt -> 2 <= length b -> length a = length b -> length s = length b ->
  finite (nth 0 a 0%float) -> val (nth 0 a 0%float) = 0%R -> spoilt s ->
  exists s' y, @iir_step (FAd d) dt a b s v = (s', Ok y) /\ length s' = length b /\ spoilt s' /\ nonnumber y.
Proof.
  intros Hd Ht Lb La Ls F0 V0 Hs.
  assert (C : forall v : float, @cast (FAd d) dt v = v) by (intros u; destruct dt; [congruence|reflexivity|reflexivity]).
  assert (Nb : b <> []) by (intros ->; cbn in Lb; lia).
  rewrite (iir_step_eq (A := FAd d)) by assumption. rewrite !C.
  destruct s as [|s0 [|s1 t]]; [cbn in Ls; lia|cbn in Ls; lia|]. cbn [hist length]. rewrite C. cbn [firstn].
  set (g := @add (FAd d) s0 (@dot (FAd d) a (s0 :: s1 :: t))).
  assert (Ng : nonnumber g).
  { apply add_nan. right. apply (dots_nan (combine a (s0 :: s1 :: t))); [apply Hd; congruence|].
    destruct a as [|a0 [|a1 a]]; [cbn in La; lia|cbn in La; lia|]. cbn [combine nth] in *.
    destruct Hs as [Hs|Hs].
    - left. right. right. right. auto.
    - right. left. right. left. exact Hs. }
  assert (Lg : forall h : float, @length float (v :: h :: firstn (@length float t) (s1 :: t)) = length b).
  { intros h. cbn [length]. rewrite firstn_length. cbn [length] in *. lia. }
  eexists _, _. split; [reflexivity|]. split; [apply Lg|]. split; [right; exact Ng|].
  assert (Lc : @length float (@cvec (FAd d) a b) = length b) by (unfold cvec; rewrite map_length, combine_length; exact (eq_trans (f_equal (fun m => Nat.min m (length b)) La) (Nat.min_id _))).
  apply (dots_nan (combine (@cvec (FAd d) a b) (v :: g :: firstn (length t) (s1 :: t)))).
  - apply Hd. exact (eq_trans Lc (eq_sym (Lg g))).
  - destruct (@cvec (FAd d) a b) as [|c0 [|c1 c]]; [cbn in Lc; lia|cbn in Lc; lia|]. cbn [combine]. right. left. right. left. exact Ng.
Qed.

Lemma spoilt_run d dt (a b : list float) : any_order d -> dt <> DInt -> 2 <= length b -> length a = length b ->
  finite (nth 0 a 0%float) -> val (nth 0 a 0%float) = 0%R -> forall (x s : list float), length s = length b -> spoilt s ->
  exists s' y, run (@iir_step (FAd d) dt a b) s x = (s', Ok y) /\ length s' = length b /\ spoilt s' /\ Forall nonnumber y.
Proof.
  intros Hd Ht Lb La F0 V0. induction x as [|v x IH]; intros s Ls Hs; [exists s, []; auto|].
  destruct (spoilt_step d dt a b s v Hd Ht Lb La Ls F0 V0 Hs) as (s1 & y & E & L1 & H1 & N1).
  destruct (IH s1 L1 H1) as (s2 & ys & E2 & L2 & H2 & N2).
  exists s2, (y :: ys). cbn [run]. rewrite E, E2. auto.
Qed.
Lemma fst_push {S Y} (p : S * res (list Y)) (y : Y) :
  fst (let (s2, r) := p in match r with Ok ys => (s2, Ok (y :: ys)) | Err e => (s2, Err e) end) = fst p.
Proof. destruct p as [s2 [ys|e]]; reflexivity. Qed.
Lemma spoils_run d dt (a b : list float) : any_order d -> dt <> DInt -> 2 <= length b -> length a = length b ->
  finite (nth 0 a 0%float) -> val (nth 0 a 0%float) = 0%R -> forall (x s : list float), length s = length b -> Exists (fun v => ~ finite v) x ->
  spoilt (fst (run (@iir_step (FAd d) dt a b) s x)).
Proof.
  intros Hd Ht Lb La F0 V0. induction x as [|v x IH]; intros s Ls Hx; [inversion Hx|].
  assert (C : forall v : float, @cast (FAd d) dt v = v) by (intros u; destruct dt; [congruence|reflexivity|reflexivity]).
  assert (Nb : b <> []) by (intros ->; cbn in Lb; lia).
  cbn [run]. rewrite (iir_step_eq (A := FAd d)) by assumption. rewrite !C.
  assert (L1 : length (v :: @hist (FAd d) dt a s) = length b) by (cbn [length]; rewrite (length_hist (A := FAd d)); change (S (@length float s - 1) = length b); lia).
  set (s1 := v :: @hist (FAd d) dt a s) in *.
  assert (G : spoilt (fst (run (@iir_step (FAd d) dt a b) s1 x))).
  { inversion Hx as [u l Hv E1|u l Hv E1]; [|exact (IH s1 L1 Hv)].
    assert (S1 : spoilt s1).
    { unfold s1 in *. destruct (@hist (FAd d) dt a s) as [|g t]; [cbn in L1; lia|]. left. exact Hv. }
    destruct (spoilt_run d dt a b Hd Ht Lb La F0 V0 x s1 L1 S1) as (s2 & y & E & _ & H2 & _). rewrite E. exact H2. }
  rewrite <- (fst_push (run (@iir_step (FAd d) dt a b) s1 x) (@dot (FAd d) (@cvec (FAd d) a b) s1)) in G. exact G.
Qed.

(** C146.  One NaN or infinite sample makes every later output of an IirFilter of order
    1 or more NaN, in this and every later call, even if it has no feedback
    (a = 0), whatever is filtered meanwhile; only reset (or assigning s) ends it. *)
Theorem C146_iir_poisoned d (a b s : arr (FAd d)) ops x xs (f g : iir (FAd d)) (z : list float) :
  any_order d -> iir_used a b s ops f -> idt f <> DInt -> 2 <= length (ib f) ->
  Exists (fun v => ~ finite v) x -> g = fold_left iir_exec (map (@IFilter (FAd d)) (x :: xs)) f -> z <> [] ->
  exists g' y, iir_filter g z = (g', Ok y) /\ length y = length z /\ Forall nonnumber y.
Proof.
  intros Hd Hu Ht Lb Hx -> Hz. destruct (iir_used_a0_double d _ _ _ _ _ Hu) as [F0 V0].
  destruct (iir_used_inv _ _ _ _ _ Hu) as (Nb & La & Ls).
  assert (K : forall l (h : iir (FAd d)), ia h = ia f -> ib h = ib f -> idt h = idt f -> length (is_ h) = length (ib f) -> spoilt (is_ h) ->
    let g := fold_left iir_exec (map (@IFilter (FAd d)) l) h in ia g = ia f /\ ib g = ib f /\ idt g = idt f /\ length (is_ g) = length (ib f) /\ spoilt (is_ g)).
  { induction l as [|y l IH]; intros h E1 E2 E3 E4 E5; [cbn; auto|]. cbn [map fold_left]. apply IH;
      try (destruct (iir_exec_ab h (@IFilter (FAd d) y)) as (K1 & K2 & K3); congruence).
    - unfold iir_exec. destruct y as [|v y]; [exact E4|]. rewrite (@iir_filter_run (FAd d)) by congruence.
      rewrite E1, E2, E3. destruct (spoilt_run d (idt f) (ia f) (ib f) Hd Ht Lb La F0 V0 (v :: y) (is_ h) E4 E5) as (s' & ys & E & L & _). rewrite E. exact L.
    - unfold iir_exec. destruct y as [|v y]; [exact E5|]. rewrite (@iir_filter_run (FAd d)) by congruence.
      rewrite E1, E2, E3. destruct (spoilt_run d (idt f) (ia f) (ib f) Hd Ht Lb La F0 V0 (v :: y) (is_ h) E4 E5) as (s' & ys & E & _ & L & _). rewrite E. exact L. }
  cbn [map fold_left]. destruct (K xs (iir_exec f (@IFilter (FAd d) x))) as (E1 & E2 & E3 & E4 & E5).
  - apply (iir_exec_ab f (@IFilter (FAd d) x)).
  - apply (iir_exec_ab f (@IFilter (FAd d) x)).
  - apply (iir_exec_ab f (@IFilter (FAd d) x)).
  - pose proof (iir_exec_inv f (@IFilter (FAd d) x) (conj Nb (conj La Ls))) as (_ & _ & Q). rewrite Q. destruct (iir_exec_ab f (@IFilter (FAd d) x)) as (_ & -> & _). reflexivity.
  - unfold iir_exec. assert (Nx : x <> []) by (intros ->; inversion Hx). rewrite (@iir_filter_run (FAd d)) by assumption.
    pose proof (spoils_run d (idt f) (ia f) (ib f) Hd Ht Lb La F0 V0 x (is_ f) Ls Hx) as Q. destruct (run (@iir_step (FAd d) (idt f) (ia f) (ib f)) (is_ f) x) as [s' r]. exact Q.
  - set (g := fold_left _ _ _) in *. rewrite (@iir_filter_run (FAd d)); [|rewrite E2; exact Nb|exact Hz]. rewrite E1, E2, E3.
    destruct (spoilt_run d (idt f) (ia f) (ib f) Hd Ht Lb La F0 V0 z (is_ g) E4 E5) as (s' & y & E & _ & _ & Ny). rewrite E.
    exists (iir_with_s g s'), y. split; [reflexivity|]. split; [|exact Ny].
    destruct (iir_run_ok (idt f) (ia f) (ib f) Nb La z (is_ g) E4) as (s2 & y2 & E' & _ & L2). rewrite E in E'. injection E' as _ ->. exact L2.
Qed.
Print Assumptions C146_iir_poisoned.

(** An IirFilter without feedback and the FirFilter with the same b (equal in exact
    arithmetic, C17): one infinite sample ends the former and not the latter. *)
Example C146_example : exists (f : iir FA) (g : fir FA),
  iir_used (mkArr DFloat [0; 0]%float) (mkArr DFloat [0.5; 0.25]%float) (mkArr DFloat []) [] f /\ 2 <= length (ib f) /\
  fir_used (mkArr DFloat [0.5; 0.25]%float) (mkArr DFloat []) [] g /\
  match snd (iir_filter f [1; infinity; 2; 4]%float) with
  | Ok [y0; y1; y2; y3] => y0 = 0.5%float /\ y1 = infinity /\ PrimFloat.is_nan y2 = true /\ PrimFloat.is_nan y3 = true
  | _ => False
  end /\
  match snd (fir_filter g [1; infinity; 2; 4]%float) with
  | Ok [y0; y1; y2; y3] => y0 = 0.5%float /\ y1 = infinity /\ y2 = infinity /\ y3 = 2.5%float
  | _ => False
  end.
Proof.
  eexists. eexists. split; [split; [cbn; lia|eexists; split; reflexivity]|]. split; [cbn; lia|]. split; [eexists; split; reflexivity|].
  split; vm_compute; repeat split.
Qed.
