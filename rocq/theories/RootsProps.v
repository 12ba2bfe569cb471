(** Property C128: FirFilter.roots and IirFilter.roots. *)
From Coq Require Import String List Arith ZArith Bool Reals Lra Lia Permutation.
From Coquelicot Require Import Complex.
From Verif Require Import Base BaseLemmas PyString Instances FirModel FirSpec FirDesignProofs IirModel PolyC ZModel ZProofs ZProps IirDesignProofs IirDesignProps RankModel RankProps AnalysisModel AnalysisProofs AnalysisProps.
Import ListNotations.
Set Asymmetric Patterns.
Open Scope R_scope.
Open Scope C_scope.

(** ** Specification *)
(** Contract of numpy.roots on c (highest power first): the returned values are the roots
    of the polynomial with their multiplicities. *)
Definition factored (c zs : list C) : Prop :=
  exists k : C, k <> RtoC 0 /\ forall s, pvC c s = k * cprod (map (fun r => s - r) zs).
(** Ascending magnitudes. *)
Definition ascending (z : list C) : Prop :=
  forall i j, (i < j < length z)%nat -> (Cmod (nth i z (RtoC 0)) <= Cmod (nth j z (RtoC 0)))%R.
(** zs are the roots of s^(n d) * (sum_i c[i] s^-i)^n, d the degree. *)
Definition roots_of_power (c : list C) (n : nat) (zs : list C) : Prop :=
  exists k : C, k <> RtoC 0 /\ forall s : C, s <> 0 ->
    cpow s (n * (length c - 1)) * cpow (pe c (/ s)) n = cpow k n * cprod (map (fun r => s - r) zs).

(** ** Lemmas *)
Lemma pvC_pe (c : list C) (s : C) : s <> 0 -> pvC c s = cpow s (length c - 1) * pe c (/ s).
Proof.
  intros Hs. induction c as [|x c IH]; cbn [pvC pe length]; [ring|]. rewrite IH. destruct c as [|y c]; [cbn [length cpow Nat.sub pe]; ring|].
  replace (S (length (y :: c)) - 1)%nat with (S (length (y :: c) - 1)) by (cbn [length]; lia).
  replace (cpow s (length (y :: c))) with (s * cpow s (length (y :: c) - 1)) by (cbn [length Nat.sub cpow]; rewrite Nat.sub_0_r; reflexivity).
  cbn [cpow]. field. exact Hs.
Qed.
Lemma cprod_concat (f : C -> C) l n : cprod (map f (concat (repeat l n))) = cpow (cprod (map f l)) n.
Proof. induction n as [|n IH]; cbn [repeat concat map cpow]; [reflexivity|]. rewrite map_app, cprod_app, IH. reflexivity. Qed.
Lemma length_concat_repeat {X} (l : list X) n : length (concat (repeat l n)) = (n * length l)%nat.
Proof. induction n as [|n IH]; cbn [repeat concat Nat.mul]; [reflexivity|]. rewrite app_length, IH. reflexivity. Qed.
Lemma tile_ok l (c : Z) : (0 <= c)%Z -> tile l c = Ok (concat (repeat l (Z.to_nat c))).
Proof.
  intros Hc. destruct l as [|x l]; cbn [tile].
  - f_equal. induction (Z.to_nat c) as [|n IH]; [reflexivity|exact IH].
  - destruct (Z.ltb_spec c 0); [lia|reflexivity].
Qed.
Lemma cpow_mul_exp (s : C) n m : cpow s (n * m) = cpow (cpow s m) n.
Proof. induction n as [|n IH]; cbn [Nat.mul cpow]; [reflexivity|]. rewrite cpow_add, IH. reflexivity. Qed.
Lemma cpow_prod (a b : C) n : cpow (a * b) n = cpow a n * cpow b n.
Proof. induction n as [|n IH]; cbn [cpow]; [ring|]. rewrite IH. ring. Qed.
Lemma power_roots c zs n : factored c zs -> roots_of_power c n (concat (repeat zs n)).
Proof.
  intros (k & Hk & H). exists k. split; [exact Hk|]. intros s Hs. rewrite cprod_concat, cpow_mul_exp, <- !cpow_prod. f_equal.
  rewrite <- H. symmetry. apply pvC_pe. exact Hs.
Qed.
Lemma map_nth_self {X} (l : list X) d : map (fun i => nth i l d) (seq 0 (length l)) = l.
Proof.
  apply nth_ext with (d := d) (d' := d); [rewrite map_length, seq_length; reflexivity|]. intros i Hi. rewrite map_length, seq_length in Hi.
  rewrite (nth_indep _ d ((fun i => nth i l d) 0%nat)) by (rewrite map_length, seq_length; exact Hi).
  rewrite (map_nth (fun i => nth i l d)), seq_nth by exact Hi. reflexivity.
Qed.
Lemma by_magnitude_spec argsort z : @is_argsort RO argsort -> Permutation (by_magnitude argsort z) z /\ ascending (by_magnitude argsort z).
Proof.
  intros Ha0.
  assert (Ha : forall l : list R, Permutation (argsort l) (seq 0 (length l)) /\
    forall i j, (i < j < length l)%nat -> Rltb (nth (nth j (argsort l) 0%nat) l 0%R) (nth (nth i (argsort l) 0%nat) l 0%R) = false) by exact Ha0.
  destruct (Ha (map Cmod z)) as [P S]. rewrite map_length in P. unfold by_magnitude.
  assert (Lp : length (argsort (map Cmod z)) = length z) by (rewrite (Permutation_length P), seq_length; reflexivity).
  split.
  - apply (Permutation_trans (Permutation_map (fun i => nth i z (RtoC 0)) P)). rewrite map_nth_self. apply Permutation_refl.
  - intros i j Hij. rewrite map_length, Lp in Hij. specialize (S i j). rewrite map_length in S. specialize (S Hij).
    assert (G : forall i, (i < length z)%nat -> Cmod (nth i (map (fun i => nth i z (RtoC 0)) (argsort (map Cmod z))) (RtoC 0)) = nth (nth i (argsort (map Cmod z)) 0%nat) (map Cmod z) 0%R).
    { intros m Hm. rewrite (nth_indep _ (RtoC 0) ((fun i => nth i z (RtoC 0)) 0%nat)) by (rewrite map_length, Lp; exact Hm).
      rewrite (map_nth (fun i => nth i z (RtoC 0))).
      assert (In (nth m (argsort (map Cmod z)) 0%nat) (seq 0 (length z))) by (apply (Permutation_in _ P), nth_In; rewrite Lp; exact Hm).
      apply in_seq in H. rewrite (nth_indep (map Cmod z) 0%R (Cmod (RtoC 0))) by (rewrite map_length; lia). rewrite (map_nth Cmod). reflexivity. }
    rewrite !G by lia.
    match goal with |- (?x <= ?y)%R => destruct (Rle_lt_dec x y) as [Q|Q]; [exact Q|exfalso] end.
    apply Rltb_iff in Q. congruence.
Qed.
Lemma roots_of_power_perm c n z z' : Permutation z z' -> roots_of_power c n z' -> roots_of_power c n z.
Proof. intros P (k & Hk & H). exists k. split; [exact Hk|]. intros s Hs. rewrite (H s Hs). f_equal. apply cprod_perm, Permutation_map, Permutation_sym, P. Qed.

(** Degrees. *)
Lemma factored_length_le c zs : factored c zs -> (length zs <= length c - 1)%nat /\ c <> [].
Proof.
  intros (k & Hk & H).
  assert (L : (length (map (Cmult k) (cpoly zs)) <= length c)%nat).
  { apply degree_le.
    - destruct (cpoly_cons zs) as [r ->]. cbn [map hd]. rewrite Cmult_1_r. exact Hk.
    - intros s. rewrite pvC_scale, pvC_cpoly. apply H. }
  rewrite map_length, cpoly_length in L. split; [lia|]. intros ->. cbn [length] in L. lia.
Qed.
Lemma factored_length c zs : factored c zs -> hd (RtoC 0) c <> RtoC 0 -> S (length zs) = length c.
Proof.
  intros F Hc. destruct (factored_length_le c zs F) as [L N]. destruct F as (k & Hk & H).
  assert (L2 : (length c <= length (map (Cmult k) (cpoly zs)))%nat).
  { apply degree_le; [exact Hc|]. intros s. rewrite pvC_scale, pvC_cpoly. symmetry. apply H. }
  rewrite map_length, cpoly_length in L2. destruct c; [congruence|]. cbn [length] in *. lia.
Qed.
Lemma power_roots_In c n zs (s : C) : roots_of_power c n zs -> (0 < n)%nat -> s <> 0 -> (In s zs <-> pe c (/ s) = 0).
Proof.
  intros (k & Hk & H) Hn Hs. specialize (H s Hs).
  assert (Np : forall (x : C) m, x <> 0 -> cpow x m <> 0).
  { intros x m Hx. induction m as [|m IH]; cbn [cpow]; [intros Q; apply RtoC_inj in Q; lra|]. intros Q. apply Cmult_zero in Q. tauto. }
  split.
  - intros Hi. assert (Z : cprod (map (fun r => s - r) zs) = 0) by (apply cprod_has_zero, in_map_iff; exists s; split; [ring|exact Hi]).
    rewrite Z, Cmult_0_r in H. apply Cmult_zero in H. destruct H as [H|H]; [exfalso; apply (Np _ _ Hs H)|].
    destruct (Ceq_dec (pe c (/ s)) 0) as [Q|Q]; [exact Q|exfalso; apply (Np _ _ Q H)].
  - intros Z. rewrite Z in H. destruct n as [|n]; [lia|]. cbn [cpow] in H.
    assert (Q : cpow k (S n) * cprod (map (fun r => s - r) zs) = 0) by (cbn [cpow]; rewrite <- H; ring).
    apply Cmult_zero in Q. destruct Q as [Q|Q]; [exfalso; apply (Np _ _ Hk Q)|]. apply cprod_zero in Q. destruct Q as (x & Hx & Q).
    apply in_map_iff in Hx. destruct Hx as (r & <- & Hr). replace s with r; [exact Hr|]. transitivity (s - (s - r)); [ring|rewrite Q; ring].
Qed.

(** C128.  FirFilter.roots: count (len b - 1) poles at the origin, and the zeros of the
    count-fold cascade with their multiplicities, in order of magnitude. *)
Theorem C128_fir_roots roots argsort (f : fir CA) (count : Z) : @is_argsort RO argsort -> factored (fb f) (roots (fb f)) -> (0 <= count)%Z ->
  exists p z, fir_roots roots argsort f count = Ok (p, z) /\
    p = repeat (RtoC 0) (Z.to_nat count * (@length C (fb f) - 1)) /\
    ascending z /\ roots_of_power (fb f) (Z.to_nat count) z /\
    (length z <= length p)%nat /\ (hd (RtoC 0) (fb f) <> RtoC 0 -> length z = length p) /\
    ((0 < count)%Z -> forall s : C, s <> 0 -> (In s z <-> pe (fb f) (/ s) = 0)).
Proof.
  intros Ha F Hc. unfold fir_roots. change (@length (carrier CA) (fb f)) with (@length C (fb f)). rewrite tile_ok by exact Hc. set (zz := concat _).
  destruct (by_magnitude_spec argsort zz Ha) as [P A]. destruct (factored_length_le _ _ F) as [Ll Nb].
  assert (Lb : (1 <= @length C (fb f))%nat) by (revert Nb; destruct (fb f); [intros Q; exfalso; apply Q; reflexivity|cbn [length]; lia]).
  destruct (Z.ltb_spec (count * (Z.of_nat (@length C (fb f)) - 1)) 0); [nia|].
  do 2 eexists. split; [reflexivity|]. split; [f_equal; nia|]. split; [exact A|].
  assert (R : roots_of_power (fb f) (Z.to_nat count) (by_magnitude argsort zz)) by (apply (roots_of_power_perm _ _ _ _ P), power_roots, F).
  split; [exact R|]. rewrite (Permutation_length P), repeat_length. unfold zz. rewrite length_concat_repeat.
  split; [|split].
  - replace (Z.to_nat (count * (Z.of_nat (@length C (fb f)) - 1))) with (Z.to_nat count * (@length C (fb f) - 1))%nat by nia. apply Nat.mul_le_mono_l. exact Ll.
  - intros Hh. rewrite <- (factored_length _ _ F Hh). nia.
  - intros H0 s Hs. apply (power_roots_In _ (Z.to_nat count)); [exact R|lia|exact Hs].
Qed.
Print Assumptions C128_fir_roots.

Theorem C128_fir_roots_negative roots argsort (f : fir CA) (count : Z) : factored (fb f) (roots (fb f)) -> (count < 0)%Z ->
  ((2 <= @length C (fb f))%nat -> fir_roots roots argsort f count = Err ValueError) /\
  ((@length C (fb f) < 2)%nat -> exists z, fir_roots roots argsort f count = Ok ([], z)).
Proof.
  intros F Hc. destruct (factored_length_le _ _ F) as [Ll Nb]. unfold fir_roots. change (@length (carrier CA) (fb f)) with (@length C (fb f)). split; intros Hl.
  - destruct (roots (fb f)) as [|x l]; cbn [tile].
    + destruct (Z.ltb_spec (count * (Z.of_nat (@length C (fb f)) - 1)) 0); [reflexivity|nia].
    + destruct (Z.ltb_spec count 0); [reflexivity|lia].
  - destruct (fb f) as [|b0 [|b1 b]] eqn:Eb; cbn [length] in *; [exfalso; apply Nb; reflexivity| |lia].
    destruct (roots [b0]) as [|x l]; [|cbn [length] in Ll; lia]. cbn [tile].
    replace (count * (Z.of_nat 1 - 1))%Z with 0%Z by lia. eexists. reflexivity.
Qed.
Print Assumptions C128_fir_roots_negative.

(** IirFilter.roots: poles and zeros of the count-fold cascade. *)
Theorem C128_iir_roots roots argsort (f : iir CA) (count : Z) : @is_argsort RO argsort ->
  factored (denominator (ia f)) (roots (denominator (ia f))) -> factored (ib f) (roots (ib f)) -> (0 <= count)%Z ->
  exists p z, iir_roots roots argsort f count = Ok (p, z) /\
    ascending p /\ ascending z /\
    roots_of_power (denominator (ia f)) (Z.to_nat count) p /\ roots_of_power (ib f) (Z.to_nat count) z /\
    length p = (Z.to_nat count * (@length C (ia f) - 1))%nat /\ (length z <= Z.to_nat count * (@length C (ib f) - 1))%nat /\
    ((0 < count)%Z -> forall s : C, s <> 0 -> (In s p <-> 1 - / s * pe (tl (ia f)) (/ s) = 0) /\ (In s z <-> pe (ib f) (/ s) = 0)).
Proof.
  intros Ha Fa Fb Hc. unfold iir_roots. rewrite !tile_ok by exact Hc. set (pp := concat (repeat (roots (denominator _)) _)). set (zz := concat (repeat (roots (ib f)) _)).
  destruct (by_magnitude_spec argsort pp Ha) as [Pp Ap]. destruct (by_magnitude_spec argsort zz Ha) as [Pz Az].
  do 2 eexists. split; [reflexivity|]. split; [exact Ap|]. split; [exact Az|].
  assert (Rp : roots_of_power (denominator (ia f)) (Z.to_nat count) (by_magnitude argsort pp)) by (apply (roots_of_power_perm _ _ _ _ Pp), power_roots, Fa).
  assert (Rz : roots_of_power (ib f) (Z.to_nat count) (by_magnitude argsort zz)) by (apply (roots_of_power_perm _ _ _ _ Pz), power_roots, Fb).
  split; [exact Rp|]. split; [exact Rz|]. rewrite (Permutation_length Pp), (Permutation_length Pz). unfold pp, zz. rewrite !length_concat_repeat.
  split; [|split].
  - f_equal. assert (L : S (length (roots (denominator (ia f)))) = length (denominator (ia f))).
    { apply (factored_length _ _ Fa). cbn [denominator hd]. intros Q. apply RtoC_inj in Q. lra. }
    unfold denominator in L at 2. cbn [length] in L. rewrite map_length in L. destruct (ia f); cbn [tl length] in *; lia.
  - apply Nat.mul_le_mono_l. apply (factored_length_le _ _ Fb).
  - intros H0 s Hs. split.
    + eapply iff_trans; [apply (power_roots_In _ (Z.to_nat count) _ s Rp); [lia|exact Hs]|]. unfold denominator. cbn [pe]. rewrite pe_opp.
      change (@tl (carrier CA) (ia f)) with (@tl C (ia f)). split; intros Q; rewrite <- Q; ring.
    + apply (power_roots_In _ (Z.to_nat count)); [exact Rz|lia|exact Hs].
Qed.
Print Assumptions C128_iir_roots.

Lemma binom_diag n : binom n n = 1%nat.
Proof.
  assert (G : forall n k, (n < k)%nat -> binom n k = 0%nat).
  { induction n0 as [|m IH]; intros k Hk; destruct k as [|k]; try lia; cbn [binom]; [reflexivity|]. rewrite !IH by lia. reflexivity. }
  induction n as [|n IH]; [reflexivity|]. cbn [binom]. rewrite IH, G by lia. reflexivity.
Qed.
Lemma nth_last_len (l : list C) : last l (RtoC 0) = nth (length l - 1) l (RtoC 0).
Proof. induction l as [|x [|y l] IH]; [reflexivity|reflexivity|]. cbn [last length] in *. rewrite IH. cbn [Nat.sub nth]. destruct l; reflexivity. Qed.
Lemma pvC_at_0 (c : list C) : c <> [] -> pvC c (RtoC 0) = last c (RtoC 0).
Proof.
  induction c as [|x [|y c] IH]; intros N; [congruence|cbn [pvC length cpow last]; ring|].
  change (pvC (x :: y :: c) (RtoC 0)) with (x * (RtoC 0 * cpow (RtoC 0) (length c)) + pvC (y :: c) (RtoC 0)).
  rewrite IH by discriminate. cbn [last]. ring.
Qed.

(** For filters designed by constraints: every pole strictly inside the unit circle, and
    exactly count * order zeros, all at -1 (at 1 with complement). *)
Theorem C128_iir_roots_designed sroots residue eps style frequency order dcount (complement : bool) gain a b
  roots argsort (f : iir CA) (count : Z) p z : (0 < eps)%R -> @is_argsort RO argsort ->
  iir_design sroots residue eps style frequency order dcount complement gain = Ok (a, b) ->
  poles_found sroots residue (py_title style) (Z.to_nat order) -> gain <> 0%R ->
  ia f = map RtoC a -> ib f = map RtoC b ->
  factored (denominator (ia f)) (roots (denominator (ia f))) -> factored (ib f) (roots (ib f)) -> (0 < count)%Z ->
  iir_roots roots argsort f count = Ok (p, z) ->
  Forall (fun s => (Cmod s < 1)%R) p /\
  z = repeat (if complement then RtoC 1 else - RtoC 1) (Z.to_nat count * Z.to_nat order).
Proof.
  intros He Ha Hd Hp Hg Ea Eb Fa Fb Hc H.
  destruct (C128_iir_roots roots argsort f count Ha Fa Fb ltac:(lia)) as (p' & z' & H' & _ & Az & _ & Rz & Lp & Lz & I).
  rewrite H in H'. injection H' as <- <-. specialize (I Hc).
  destruct (C110_iir_design_stable _ _ _ _ _ _ _ _ _ _ _ He Hd Hp) as [St De].
  destruct (C18_iir_design_gain _ _ _ _ _ _ _ _ _ _ _ He Hd) as (H0 & Lb & G & _). specialize (G De). destruct G as (_ & Gk & Gw).
  set (edge := if complement then - (1) else RtoC 1) in *. set (n := Z.to_nat order) in *.
  set (g := RtoC gain * den a edge / RtoC (2 ^ n)) in *.
  assert (P2 : RtoC (2 ^ n) <> 0) by (intros Q; apply RtoC_inj in Q; assert (0 < 2 ^ n)%R by (apply pow_lt; lra); lra).
  assert (Ng : g <> 0).
  { intros Q. assert (Q2 : RtoC gain * den a edge = 0) by (transitivity (g * RtoC (2 ^ n)); [unfold g; field; exact P2|rewrite Q; ring]).
    apply Cmult_zero in Q2. destruct Q2 as [Q2|Q2]; [apply RtoC_inj in Q2; auto|apply De, Q2]. }
  assert (Ee : edge * edge = 1) by (unfold edge; destruct complement; ring).
  split.
  - apply Forall_forall. intros s Hs. destruct (Ceq_dec s 0) as [->|Ns]; [rewrite Cmod_0; lra|].
    apply St; [exact Ns|]. apply (proj1 (I s Ns)) in Hs. rewrite <- Hs. unfold den. rewrite Ea.
    destruct a as [|a0 a]; cbn [map tl pe hd] in *; [lra|]. rewrite H0. ring.
  - assert (Hh : hd (RtoC 0) (ib f) <> RtoC 0).
    { rewrite Eb. specialize (Gk 0%nat). destruct b as [|b0 b]; cbn [length] in Lb; [lia|]. cbn [nth map hd] in *. rewrite Gk.
      assert (B0 : binom n 0 = 1%nat) by (destruct n; reflexivity). rewrite B0. cbn [cpow INR]. intros Q. apply Ng. rewrite <- Q. ring. }
    assert (Lz' : length z = (Z.to_nat count * n)%nat).
    { pose proof (factored_length _ _ Fb Hh) as L. rewrite Eb, map_length, Lb in L.
      unfold iir_roots in H. rewrite !tile_ok in H by lia. injection H as _ <-. rewrite (Permutation_length (proj1 (by_magnitude_spec argsort _ Ha))), length_concat_repeat. f_equal. rewrite Eb in *. lia. }
    assert (Nl : @last C (ib f) (RtoC 0) <> RtoC 0).
    { rewrite Eb. change (@last C (map RtoC b) (RtoC 0) <> RtoC 0). rewrite (nth_last_len (map RtoC b)), map_length, Lb. replace (S n - 1)%nat with n by lia.
      rewrite (map_nth RtoC), Gk.
      assert (Bn : binom n n = 1%nat) by apply binom_diag. rewrite Bn. cbn [INR]. intros Q.
      assert (Q2 : g * cpow edge n = 0) by (rewrite <- Q; ring). apply Cmult_zero in Q2. destruct Q2 as [Q2|Q2]; [apply Ng, Q2|].
      assert (Q3 : cpow (edge * edge) n = 0) by (rewrite cpow_prod, Q2; ring). rewrite Ee in Q3.
      assert (O : forall m, cpow (RtoC 1) m = RtoC 1) by (induction m as [|m IH]; cbn [cpow]; [reflexivity|rewrite IH; ring]). rewrite O in Q3. apply RtoC_inj in Q3. lra. }
    assert (V : forall s, In s z -> s = - edge).
    { intros s Hs. destruct (Ceq_dec s 0) as [->|Ns].
      - exfalso. apply Nl. unfold iir_roots in H. rewrite !tile_ok in H by lia. injection H as _ <-.
        apply (Permutation_in _ (proj1 (by_magnitude_spec argsort _ Ha))) in Hs. apply in_concat in Hs. destruct Hs as (l & Hl & Hs). apply repeat_spec in Hl. subst l.
        destruct Fb as (k & Hk & F). specialize (F (RtoC 0)). rewrite (cprod_has_zero (map _ _)) in F by (apply in_map_iff; exists (RtoC 0); split; [ring|exact Hs]).
        rewrite Cmult_0_r in F. transitivity (pvC (ib f) (RtoC 0)); [|exact F]. symmetry. apply pvC_at_0. rewrite Eb. destruct b; [discriminate Lb|discriminate].
      - apply (proj2 (I s Ns)) in Hs. change (pe (ib f) (/ s)) with (pe (ib f) (/ s)) in Hs. rewrite Eb in Hs. change (num b (/ s) = 0) in Hs. rewrite Gw in Hs.
        apply Cmult_zero in Hs. destruct Hs as [Hs|Hs]; [exfalso; apply Ng, Hs|].
        assert (Q : 1 + edge * / s = 0).
        { destruct (Ceq_dec (1 + edge * / s) 0) as [Q|Q]; [exact Q|exfalso]. revert Hs. clear - Q. induction n as [|m IH]; cbn [cpow]; [intros X; apply RtoC_inj in X; lra|].
          intros X. apply Cmult_zero in X. tauto. }
        transitivity (s * (1 + edge * / s) - edge); [field; exact Ns|rewrite Q; ring]. }
    rewrite <- Lz'. replace (if complement then RtoC 1 else - RtoC 1) with (- edge) by (unfold edge; destruct complement; ring).
    clear - V. induction z as [|x z IH]; [reflexivity|]. cbn [length repeat]. f_equal; [apply V; left; reflexivity|apply IH; intros s Hs; apply V; right; exact Hs].
Qed.
Print Assumptions C128_iir_roots_designed.

(** ** Witnesses *)
Definition fir_demo : fir CA := mkFir DComplex [RtoC 1; RtoC (-3); RtoC 2] [RtoC 0; RtoC 0; RtoC 0].
Example C128_fir_example : @is_argsort RO (@isort RO) /\ factored (fb fir_demo) [RtoC 2; RtoC 1] /\
  (forall argsort, fir_roots (fun _ => [RtoC 2; RtoC 1]) argsort fir_demo (-2) = Err ValueError).
Proof.
  split; [exact isort_RO|]. split; [|reflexivity]. exists (RtoC 1). split; [intros Q; apply RtoC_inj in Q; lra|]. intros s.
  unfold fir_demo. cbn [fb pvC length cpow map cprod fold_right]. destruct s as [x y]. apply injective_projections; cbn [fst snd Cplus Cmult Cminus Copp RtoC]; ring.
Qed.
(** Roots of polynomials of degree one. *)
Definition line_root (c : list C) : list C := match c with [x; y] => [- y / x] | _ => [] end.
Lemma line_factored x y : x <> RtoC 0 -> factored [x; y] (line_root [x; y]).
Proof. intros Hx. exists x. split; [exact Hx|]. intros s. cbn [pvC line_root length cpow map cprod fold_right]. field. exact Hx. Qed.
Example C128_designed_example : exists a b (f : iir CA) p z,
  iir_design (fun _ => butter_poles 1) (fun _ _ => ([], [])) 1 "butterworth" (1 / 4) 1 1 true 2 = Ok (a, b) /\
  poles_found (fun _ => butter_poles 1) (fun _ _ => ([], [])) (py_title "butterworth") (Z.to_nat 1) /\
  ia f = map RtoC a /\ ib f = map RtoC b /\
  factored (denominator (ia f)) (line_root (denominator (ia f))) /\ factored (ib f) (line_root (ib f)) /\
  iir_roots line_root (@isort RO) f 3 = Ok (p, z).
Proof.
  assert (Hp : poles_found (fun _ => butter_poles 1) (fun _ _ => ([], [])) (py_title "butterworth") (Z.to_nat 1)) by (split; [exact (butter_is_roots 1)|discriminate]).
  destruct (C18_iir_design_best (fun _ => butter_poles 1) (fun _ _ => ([], [])) 1 "butterworth" (1 / 4) 1 1 true 2) as (_ & _ & _ & _ & a & b & E & _); [lra| |exact Hp|].
  { intros [H|H]; [apply H; exists "butterworth"%string; split; [cbn; tauto|reflexivity]|]. destruct H as [H|[H|[H|H]]]; try lia; lra. }
  assert (He : (0 < 1)%R) by lra.
  pose proof (C18_iir_design_gain _ _ _ _ _ _ _ _ _ _ _ He E) as (H0 & Lb & G & _). change (Z.to_nat 1) with 1%nat in *.
  destruct (C110_iir_design_stable _ _ _ _ _ _ _ _ _ _ _ He E Hp) as [_ De]. specialize (G De). destruct G as (_ & Gk & _).
  assert (La : length a = 2%nat).
  { destruct (design_ok _ _ _ _ _ _ _ _ _ _ _ He E) as (_ & _ & _ & _ & s & u & v & _ & Ev & -> & _).
    rewrite length_alternate. unfold iir_evaluate in Ev. destruct (z_transform _ _ _ _ _ _) as [[u' v'] r] eqn:Ez. destruct r as [[aa ob]|e]; [|discriminate Ev]. cbn [rmap fst] in Ev.
    injection Ev as <- _. apply z_ok in Ez. destruct Ez as (_ & _ & _ & A & B & Hz & En). apply bil_ok in Hz. destruct Hz as (_ & HA & _).
    apply (f_equal (@length R)) in HA. rewrite map_length, cpoly_length, map_length in HA. cbn [butter_poles] in HA.
    assert (Ea2 : aa = fst (z_normal (A, B))) by (rewrite En; reflexivity). rewrite Ea2. cbn [z_normal fst]. destruct A as [|x A]; [discriminate HA|].
    cbn [map tl length]. rewrite map_length. exact HA. }
  destruct a as [|a0 [|a1 [|a2 a]]]; try discriminate La. destruct b as [|b0 [|b1 [|b2 b]]]; try discriminate Lb.
  exists [a0; a1], [b0; b1], (mkIir DComplex (map RtoC [a0; a1]) (map RtoC [b0; b1]) [RtoC 0; RtoC 0]). do 2 eexists.
  split; [exact E|]. split; [exact Hp|]. split; [reflexivity|]. split; [reflexivity|]. cbn [ia ib map denominator tl].
  split; [apply line_factored; intros Q; apply RtoC_inj in Q; lra|]. split.
  - apply line_factored. specialize (Gk 0%nat). cbn [nth cpow binom INR] in Gk. rewrite Gk. intros Q.
    assert (Q2 : RtoC 2 * den [a0; a1] (- (1)) = 0).
    { transitivity (RtoC 2 * (RtoC 2 * den [a0; a1] (- (1)) / RtoC (2 ^ 1) * 1 * RtoC 1)); [|rewrite Q; ring]. replace (2 ^ 1)%R with 2%R by ring. field. intros X; apply RtoC_inj in X; lra. }
    apply Cmult_zero in Q2. destruct Q2 as [Q2|Q2]; [apply RtoC_inj in Q2; lra|apply De, Q2].
  - unfold iir_roots. cbn [tile ia ib line_root denominator map tl Z.ltb Z.compare]. reflexivity.
Qed.
