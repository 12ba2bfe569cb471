(** Properties C58-C63: WaveletTransform. *)
From Coq Require Import List Arith ZArith Lia Bool String Reals Lra.
From Verif Require Import Base BaseLemmas PyString Instances CalculusModel CalculusProps FirModel FirSpec FirProofs Sums WaveletModel WaveletProofs.
Import ListNotations.
Set Asymmetric Patterns.
Close Scope string_scope. Open Scope nat_scope.

(** ** The constructor *)
Lemma assoc_Z_In {X} o (l : list (Z * X)) v : assoc_Z o l = Some v -> In (o, v) l.
Proof.
  induction l as [|[k w] l IH]; cbn [assoc_Z]; [discriminate|]. destruct (Z.eqb_spec o k) as [->|C]; intros E.
  - injection E as ->. left. reflexivity.
  - right. apply IH, E.
Qed.
Lemma assoc_str_In {X} o (l : list (string * X)) v : assoc_str o l = Some v -> In (o, v) l.
Proof.
  induction l as [|[k w] l IH]; cbn [assoc_str]; [discriminate|]. destruct (String.eqb_spec o k) as [->|C]; intros E.
  - injection E as ->. left. reflexivity.
  - right. apply IH, E.
Qed.

(** Every check over the finite table lifts to all constructor arguments. *)
Definition table_all (P : Z -> list Z -> bool) : bool :=
  forallb (fun sr => forallb (fun orow => P (fst orow) (snd orow)) (snd sr)) wt_table.
Definition table_row (style : string) (order : Z) (r : list Z) : Prop :=
  exists rows, assoc_str (py_title style) wt_table = Some rows /\ assoc_Z order rows = Some r.
Lemma table_all_spec P style order r : table_all P = true -> table_row style order r -> P order r = true.
Proof.
  intros H (rows & H1 & H2). apply assoc_str_In in H1. apply assoc_Z_In in H2. unfold table_all in H. rewrite forallb_forall in H.
  specialize (H _ H1). cbn [snd] in H. rewrite forallb_forall in H. apply (H _ H2).
Qed.
Lemma wt_make_row {A : Arith} style order (bk : wbank A) : wt_make style order = Ok bk ->
  exists r, table_row style order r /\ wt_bank (wt_row r) = Ok bk.
Proof.
  unfold wt_make. destruct (assoc_str (py_title style) wt_table) as [rows|] eqn:E1; [|discriminate].
  destruct (assoc_Z order rows) as [r|] eqn:E2; [|discriminate]. intros E. exists r. split; [exists rows; auto|exact E].
Qed.
(** Each row has order+1 coefficients and the orders are odd. *)
Lemma table_shape style order r : table_row style order r ->
  (0 < order)%Z /\ Z.odd order = true /\ length r = S (Z.to_nat order).
Proof.
  intros H. pose proof (table_all_spec (fun o r => (0 <? o)%Z && Z.odd o && (length r =? S (Z.to_nat o))) style order r) as K.
  assert (E : table_all (fun o r => (0 <? o)%Z && Z.odd o && (length r =? S (Z.to_nat o))) = true) by (vm_compute; reflexivity).
  specialize (K E H). apply andb_true_iff in K. destruct K as [K K3]. apply andb_true_iff in K. destruct K as [K1 K2].
  apply Z.ltb_lt in K1. apply Nat.eqb_eq in K3. auto.
Qed.

Lemma neg_from_length {A : Arith} i (l : list A) : length (neg_from i l) = length l.
Proof. unfold neg_from. rewrite map_length, combine_length, seq_length. lia. Qed.
Lemma wt_bank_ok {A : Arith} (row : list A) bk : row <> [] -> wt_bank row = Ok bk -> bank_ok bk.
Proof.
  intros Hr. unfold wt_bank. destruct (_ || _); [|discriminate]. intros E. injection E as <-. unfold bank_ok. cbn [ba0 ba1 bs0 bs1].
  assert (Hl : length row <> 0) by (destruct row; cbn; congruence).
  assert (K : forall l : list A, length l = length row -> l <> []) by (intros l Hl' ->; cbn in Hl'; lia).
  repeat split; apply K; try destruct (Nat.eqb _ 1); rewrite ?rev_length, ?neg_from_length, ?rev_length, ?map_length; reflexivity.
Qed.
Lemma wt_make_ok {A : Arith} style order (bk : wbank A) : wt_make style order = Ok bk -> bank_ok bk.
Proof.
  intros H. destruct (wt_make_row _ _ _ H) as (r & H1 & H2). apply (wt_bank_ok (wt_row r)); [|exact H2].
  destruct (table_shape _ _ _ H1) as (_ & _ & H3). intros C. apply (f_equal (@length A)) in C. unfold wt_row in C. rewrite map_length in C. cbn in C. lia.
Qed.

(** ** C59 *)
(** A dimension is admissible: one or a multiple of 2^count. *)
Definition good_dim (count : Z) (n : nat) : Prop := n = 1 \/ (n mod 2 ^ Z.to_nat count = 0).

Lemma wt_mat_bad {A : Arith} bk dt inverse count c (M : list (list A)) :
  dim_bad (S count) (length M) || dim_bad (S count) c = true -> wt_mat bk dt inverse (S count) c M = Err ValueError.
Proof. intros H. cbn [wt_mat]. unfold dim_bad in H. rewrite H. reflexivity. Qed.

Lemma dim_bad_zero count : dim_bad count 0 = false.
Proof. unfold dim_bad. rewrite Nat.mod_0_l by (apply Nat.pow_nonzero; lia). reflexivity. Qed.

Lemma wt_mat_nocols {A : Arith} (bk : wbank A) dt inverse : bank_ok bk -> forall count r M, adm (S count) r -> wf r 0 M ->
  wt_mat bk dt inverse (S count) 0 M = if r =? 1 then Ok M else Err IndexError.
Proof.
  intros (K0 & K1 & K2 & K3). induction count as [|k IH]; intros r M Hr HM.
  all: pose proof (proj1 HM) as HL; assert (Hr0 : r <> 0) by (destruct Hr as [Hr|[Hr _]]; lia); destruct (adm_half _ _ Hr) as [Hr1 Hr2].
  - cbn [wt_mat]. rewrite HL. change (negb (r =? 1) && negb (r mod 2 ^ 1 =? 0)) with (dim_bad 1 r).
    change (negb (0 =? 1) && negb (0 mod 2 ^ 1 =? 0)) with (dim_bad 1 0). rewrite dim_bad_zero, (proj2 (dim_bad_iff 1 r Hr0) Hr). cbn [orb].
    rewrite (adm_round 1 r Hr). change (Nat.max (0 / 2 ^ 1 * 2 ^ 1) 1) with 1. change (1 <? 1) with false. change (0 <? 0) with false. change (0 =? 0) with true.
    destruct (fir_make_float _ K0) as (f0 & E0 & _). destruct (fir_make_float _ K1) as (f1 & E1 & _).
    destruct (fir_make_float _ K2) as (f2 & E2 & _). destruct (fir_make_float _ K3) as (f3 & E3 & _).
    destruct inverse; rewrite ?E0, ?E1, ?E2, ?E3; cbn [bind negb];
      destruct (Nat.eqb_spec r 1); destruct (Nat.ltb_spec 1 r); try lia; reflexivity.
  - remember (S k) as k1 eqn:Ek1 in *. cbn [wt_mat]. rewrite HL. change (negb (r =? 1) && negb (r mod 2 ^ S k1 =? 0)) with (dim_bad (S k1) r).
    change (negb (0 =? 1) && negb (0 mod 2 ^ S k1 =? 0)) with (dim_bad (S k1) 0). rewrite dim_bad_zero, (proj2 (dim_bad_iff (S k1) r Hr0) Hr). cbn [orb].
    rewrite (adm_round (S k1) r Hr). replace (Nat.max (0 / 2 ^ S k1 * 2 ^ S k1) 1) with 1 by (rewrite Nat.div_0_l by (apply Nat.pow_nonzero; lia); reflexivity).
    change (1 <? 1) with false. change (0 =? 0) with true. assert (Hk : (0 <? k1) = true) by (apply Nat.ltb_lt; lia). rewrite Hk.
    fold (half r). change (Nat.max (1 / 2) 1) with 1. change (Nat.min 1 0) with 0.
    destruct (fir_make_float _ K0) as (f0 & E0 & _). destruct (fir_make_float _ K1) as (f1 & E1 & _).
    destruct (fir_make_float _ K2) as (f2 & E2 & _). destruct (fir_make_float _ K3) as (f3 & E3 & _).
    assert (HB : wf (half r) 0 (block (half r) 1 M)).
    { destruct HM as [_ HM]. split; [unfold block; rewrite map_length, firstn_length; lia|]. unfold block. rewrite Forall_forall in *. intros l Hl.
      apply in_map_iff in Hl. destruct Hl as (l0 & <- & Hl0). rewrite firstn_length, HM; [reflexivity|]. rewrite <- (firstn_skipn (half r) M). apply in_or_app. auto. }
    pose proof (IH (half r) _ Hr1 HB) as EI.
    destruct inverse; rewrite ?E0, ?E1, ?E2, ?E3; cbn [bind negb].
    + rewrite EI. destruct (Nat.eqb_spec r 1) as [C|C].
      * subst r. rewrite C in *. change (half 1) with 1 in *. cbn [Nat.eqb Nat.ltb Nat.leb bind].
        destruct M as [|m [|]]; try discriminate C. destruct HM as [_ HM]. inversion HM; subst. destruct m; [reflexivity|discriminate].
      * destruct (Nat.ltb_spec 1 r); [|lia]. destruct (half r =? 1); reflexivity.
    + destruct (Nat.eqb_spec r 1) as [C|C].
      * destruct (Nat.ltb_spec 1 r); [lia|]. cbn [bind]. rewrite EI. subst r. rewrite C in *. change (half 1) with 1 in *. cbn [Nat.eqb bind].
        destruct M as [|m [|]]; try discriminate C. destruct HM as [_ HM]. inversion HM; subst. destruct m; [reflexivity|discriminate].
      * destruct (Nat.ltb_spec 1 r); [|lia]. reflexivity.
Qed.

Lemma good_dim_adm count n : (0 < count)%Z -> n <> 0 -> good_dim count n <-> adm (Z.to_nat count) n.
Proof. intros Hc Hn. unfold good_dim, adm. intuition lia. Qed.
Lemma to_nat_pos count : (0 < count)%Z -> exists k, Z.to_nat count = S k.
Proof. intros H. exists (Z.to_nat count - 1). lia. Qed.

Theorem C59_wavelet_shape (A : Arith) style order (bk : wbank A) dt count inverse :
  wt_make style order = Ok bk ->
  (forall x : list A,
     (x <> [] -> (0 < count)%Z -> good_dim count (length x) ->
      exists y, wt_transform bk dt (ND1 x) count inverse = Ok (ND1 y) /\ length y = length x) /\
     (~ (x <> [] /\ (0 < count)%Z /\ good_dim count (length x)) -> wt_transform bk dt (ND1 x) count inverse = Err ValueError)) /\
  (forall (c : nat) (M : list (list A)), Forall (fun row => length row = c) M ->
     (M <> [] -> (0 < count)%Z -> good_dim count (length M) -> good_dim count c ->
      (c <> 0 \/ length M = 1) ->
      exists N, wt_transform bk dt (ND2 c M) count inverse = Ok (ND2 c N) /\ length N = length M /\ Forall (fun row => length row = c) N) /\
     (~ (M <> [] /\ (0 < count)%Z /\ good_dim count (length M) /\ good_dim count c) ->
      wt_transform bk dt (ND2 c M) count inverse = Err ValueError) /\
     (M <> [] -> (0 < count)%Z -> good_dim count (length M) -> c = 0 -> length M <> 1 ->
      wt_transform bk dt (ND2 c M) count inverse = Err IndexError)) /\
  wt_transform bk dt NDn count inverse = Err ValueError /\
  wt_transform bk dt ND0 count inverse = Err TypeError.
Proof.
  intros Hbk. apply wt_make_ok in Hbk.
  assert (HP : forall k r c M, adm (S k) r -> adm (S k) c -> wf r c M -> wf r c (pure_wt bk dt inverse (S k) r c M)).
  { intros k r c M Hr Hc HM. unfold pure_wt. destruct inverse; [apply pureS_wf|apply pureA_wf]; auto; [apply keeps_synthesis|apply keeps_analysis]. }
  assert (Hbad : forall c M, (0 < count)%Z -> M <> [] -> (~ good_dim count (length M) \/ ~ good_dim count c) ->
     wt_mat bk dt inverse (Z.to_nat count) c M = Err ValueError).
  { intros c M Hc HM H. destruct (to_nat_pos _ Hc) as [k Hk]. rewrite Hk in *. apply wt_mat_bad. unfold good_dim in H. rewrite Hk in H. unfold dim_bad.
    destruct H as [H|H].
    - destruct (Nat.eqb_spec (length M) 1); [exfalso; apply H; auto|]. destruct (Nat.eqb_spec (length M mod 2 ^ S k) 0); [exfalso; apply H; auto|]. reflexivity.
    - destruct (Nat.eqb_spec c 1); [exfalso; apply H; auto|]. destruct (Nat.eqb_spec (c mod 2 ^ S k) 0); [exfalso; apply H; auto|]. apply orb_true_r. }
  split; [|split; [|split; reflexivity]].
  - intros x. split.
    + intros Hx Hc Hg. unfold wt_transform. assert (Hl : length x <> 0) by (destruct x; cbn; congruence).
      destruct (Nat.eqb_spec (length x) 0); [congruence|]. destruct (Z.leb_spec count 0); [lia|].
      apply good_dim_adm in Hg; [|assumption..]. destruct (to_nat_pos _ Hc) as [k Hk]. rewrite Hk in *.
      assert (Hw : wf 1 (length x) [x]) by (split; [reflexivity|repeat constructor]).
      rewrite (wt_mat_ok bk dt inverse Hbk k 1 (length x) [x] (or_introl eq_refl) Hg Hw). cbn [bind].
      destruct (HP k 1 (length x) [x] (or_introl eq_refl) Hg Hw) as [P1 P2]. destruct (pure_wt _ _ _ _ _ _ _) as [|y [|]]; try discriminate P1.
      exists y. inversion P2; subst. auto.
    + intros H. unfold wt_transform. destruct (Nat.eqb_spec (length x) 0); [reflexivity|]. destruct (Z.leb_spec count 0); [reflexivity|].
      rewrite Hbad; [reflexivity|exact H0|discriminate|]. right. intros C. apply H. split; [destruct x; cbn in *; congruence|auto].
  - intros c M HF. split; [|split].
    + intros HM Hc Hr Hg H1. unfold wt_transform. assert (Hl : length M <> 0) by (destruct M; cbn; congruence).
      destruct (Nat.eqb_spec (length M) 0); [congruence|]. destruct (Z.leb_spec count 0); [lia|].
      apply good_dim_adm in Hr; [|assumption..]. destruct (to_nat_pos _ Hc) as [k Hk]. rewrite Hk in *.
      assert (Hw : wf (length M) c M) by (split; [reflexivity|exact HF]).
      destruct (Nat.eq_dec c 0) as [C|C].
      * subst c. destruct H1 as [H1|H1]; [congruence|]. rewrite (wt_mat_nocols bk dt inverse Hbk k _ M Hr Hw). rewrite H1. cbn [Nat.eqb bind].
        exists M. auto.
      * apply good_dim_adm in Hg; [|assumption..]. rewrite Hk in Hg. rewrite (wt_mat_ok bk dt inverse Hbk k _ c M Hr Hg Hw). cbn [bind].
        destruct (HP k _ c M Hr Hg Hw) as [P1 P2]. eexists. split; [reflexivity|]. split; [exact P1|exact P2].
    + intros H. unfold wt_transform. destruct (Nat.eqb_spec (length M) 0); [reflexivity|]. destruct (Z.leb_spec count 0); [reflexivity|].
      assert (HM : M <> []) by (destruct M; cbn in *; congruence). rewrite Hbad; [reflexivity|exact H0|exact HM|].
      assert (K : ~ (good_dim count (length M) /\ good_dim count c)) by (intros [K1 K2]; apply H; auto).
      assert (Dec : good_dim count (length M) \/ ~ good_dim count (length M)).
      { unfold good_dim. destruct (Nat.eq_dec (length M) 1); [auto|]. destruct (Nat.eq_dec (length M mod 2 ^ Z.to_nat count) 0); [auto|]. right. intuition. }
      destruct Dec as [D|D]; [right; intros C; apply K; auto|left; exact D].
    + intros HM Hc Hr -> H1. unfold wt_transform. assert (Hl : length M <> 0) by (destruct M; cbn; congruence).
      destruct (Nat.eqb_spec (length M) 0); [congruence|]. destruct (Z.leb_spec count 0); [lia|].
      apply good_dim_adm in Hr; [|assumption..]. destruct (to_nat_pos _ Hc) as [k Hk]. rewrite Hk in *.
      rewrite (wt_mat_nocols bk dt inverse Hbk k _ M Hr (conj eq_refl HF)). destruct (Nat.eqb_spec (length M) 1); [congruence|]. reflexivity.
Qed.
Print Assumptions C59_wavelet_shape.
Example C59_example : good_dim 2 12 /\ good_dim 2 1 /\ ~ good_dim 2 6 /\ is_ok (@wt_make QA "daubechies" 3) = true.
Proof.
  unfold good_dim. split; [right; reflexivity|]. split; [left; reflexivity|].
  split; [intros [C|C]; vm_compute in C; discriminate|reflexivity].
Qed.

(** ** Exact arithmetic: the reals *)
Open Scope R_scope.

Lemma castf (x : R) : @cast RA DFloat x = x. Proof. reflexivity. Qed.
Lemma map_castf (x : list R) : map (@cast RA DFloat) x = x.
Proof. rewrite <- (map_id x) at 2. apply map_ext. intros v. reflexivity. Qed.

Definition zfR : list R -> list R -> list R := @zf RA.
Definition anR : list R -> list R -> list R -> list R := @pure_analysis RA DFloat.
Definition syR : list R -> list R -> list R -> list R := @pure_synthesis RA DFloat.
Definition upR : list R -> list R := @upsample RA.
Definition every2R : list R -> list R := @every2 RA.

Lemma zfR_length b x : length (zfR b x) = length x.
Proof. apply (@zf_length RA). Qed.
Lemma zfR_nth b x n : (n < length x)%nat ->
  nth n (zfR b x) 0 = rsum (length b) (fun k => nth k b 0 * ex x (Z.of_nat n - Z.of_nat k)).
Proof.
  intros Hn. unfold zfR, zf. etransitivity; [apply (@nth_fir_ys RA DFloat b (@zeros RA (length b)) x n Hn)|]. rewrite castf.
  rewrite (dot_conv RA RA_laws DFloat) by (exact Hn || apply repeat_length).
  unfold convolution. change (@map (carrier RA) (carrier RA)) with (@map R R). rewrite map_castf. rewrite bigsum_rsum. apply rsum_ext. intros k Hk.
  change (@mul RA) with Rmult. f_equal. unfold sig, ex. destruct (Z.ltb_spec (Z.of_nat n - Z.of_nat k) 0); [|reflexivity]. apply (nth_zeros RA).
Qed.
Lemma zfR_swap b x n : (n < length x)%nat ->
  nth n (zfR b x) 0 = rsum (length x) (fun i => ex b (Z.of_nat n - Z.of_nat i) * nth i x 0).
Proof. intros Hn. rewrite zfR_nth by exact Hn. apply conv_swap. Qed.

Lemma anR_eq b0 b1 x : anR b0 b1 x = every2R (tl (zfR b0 x)) ++ every2R (tl (zfR b1 x)).
Proof. unfold anR, pure_analysis. change (@map (carrier RA) (carrier RA)) with (@map R R). rewrite !map_castf. reflexivity. Qed.
Lemma every2R_nth l i : nth i (every2R l) 0 = nth (2 * i) l 0.
Proof. apply (@every2_nth RA). Qed.
Lemma tlR_nth (l : list R) i : nth i (tl l) 0 = nth (S i) l 0.
Proof. destruct l; [destruct i; reflexivity|reflexivity]. Qed.
Lemma oddsR_length u h : length u = (2 * h)%nat -> length (every2R (tl u)) = h.
Proof. apply (@odds_length RA). Qed.

Lemma anR_length b0 b1 x h : length x = (2 * h)%nat -> length (anR b0 b1 x) = (2 * h)%nat.
Proof. apply (@pure_analysis_length RA). Qed.
Lemma anR_low b0 b1 x h j : length x = (2 * h)%nat -> (j < h)%nat -> nth j (anR b0 b1 x) 0 = nth (2 * j + 1) (zfR b0 x) 0.
Proof.
  intros Hx Hj. rewrite anR_eq. rewrite app_nth1 by (rewrite (oddsR_length _ h); [exact Hj|rewrite zfR_length; exact Hx]).
  rewrite every2R_nth, tlR_nth. f_equal. lia.
Qed.
Lemma anR_high b0 b1 x h j : length x = (2 * h)%nat -> (j < h)%nat -> nth (h + j) (anR b0 b1 x) 0 = nth (2 * j + 1) (zfR b1 x) 0.
Proof.
  intros Hx Hj. assert (E : length (every2R (tl (zfR b0 x))) = h) by (apply oddsR_length; rewrite zfR_length; exact Hx).
  rewrite anR_eq. rewrite app_nth2 by lia. rewrite E. replace (h + j - h)%nat with j by lia.
  rewrite every2R_nth, tlR_nth. f_equal. lia.
Qed.

Lemma upR_length y : length (upR y) = (2 * length y)%nat.
Proof. apply (@upsample_length RA). Qed.
Lemma upR_even y j : nth (2 * j) (upR y) 0 = nth j y 0.
Proof.
  destruct (le_lt_dec (length y) j) as [C|C].
  - rewrite !nth_overflow; [reflexivity|lia|rewrite upR_length; lia].
  - etransitivity; [apply (@upsample_even RA y j C)|]. reflexivity.
Qed.
Lemma upR_odd y j : nth (2 * j + 1) (upR y) 0 = 0.
Proof. apply (@upsample_odd RA). Qed.

Lemma syR_length b0 b1 y h : length y = (2 * h)%nat -> length (syR b0 b1 y) = (2 * h)%nat.
Proof. apply (@pure_synthesis_length RA). Qed.
Lemma syR_raw b0 b1 y h m : length y = (2 * h)%nat -> (m < 2 * h)%nat ->
  nth m (syR b0 b1 y) 0 = 2 * nth m (zfR b0 (upR (firstn h y))) 0 + 2 * nth m (zfR b1 (upR (skipn h y))) 0.
Proof.
  intros Hy Hm. unfold syR, pure_synthesis. change (@length (carrier RA) y) with (length y). rewrite Hy.
  replace (2 * h / 2)%nat with h by (rewrite Nat.mul_comm, Nat.div_mul; lia).
  change (@map (carrier RA) (carrier RA)) with (@map R R). rewrite map_castf.
  change (@upsample RA) with upR. change (@zf RA) with zfR. change (@firstn (carrier RA)) with (@firstn R). change (@skipn (carrier RA)) with (@skipn R).
  rewrite (firstn_all2 (n := h) (skipn h y)) by (rewrite skipn_length; lia).
  assert (L0 : length (zfR b0 (upR (firstn h y))) = (2 * h)%nat) by (rewrite zfR_length, upR_length, firstn_length; lia).
  assert (L1 : length (zfR b1 (upR (skipn h y))) = (2 * h)%nat) by (rewrite zfR_length, upR_length, skipn_length; lia).
  change (@mul RA (@add RA one one)) with (Rmult 2).
  etransitivity; [apply (nth_map2 (@add RA) _ _ m 0 0 0)|].
  { rewrite length_map2, map_length, L0. unfold zeros. rewrite repeat_length. lia. }
  { rewrite map_length, L1. exact Hm. }
  rewrite (nth_map_lt (Rmult 2) _ m 0 0) by (rewrite L1; exact Hm).
  rewrite (nth_map2 (@add RA) _ _ m 0 0 0) by (rewrite ?map_length, ?L0; unfold zeros; rewrite ?repeat_length; lia).
  rewrite (nth_map_lt (Rmult 2) _ m 0 0) by (rewrite L0; exact Hm).
  unfold zeros. rewrite (nth_repeat_lt) by exact Hm. change (@add RA) with Rplus. change (@zero RA) with 0. ring.
Qed.
Lemma zf_up b y m : (m < 2 * length y)%nat ->
  nth m (zfR b (upR y)) 0 = rsum (length y) (fun j => ex b (Z.of_nat m - 2 * Z.of_nat j) * nth j y 0).
Proof.
  intros Hm. rewrite zfR_swap by (rewrite upR_length; exact Hm). rewrite upR_length, rsum_pair. apply rsum_ext. intros j Hj.
  rewrite upR_even, upR_odd. rewrite Rmult_0_r, Rplus_0_r. f_equal. f_equal. lia.
Qed.
Lemma syR_nth b0 b1 y h m : length y = (2 * h)%nat -> (m < 2 * h)%nat ->
  nth m (syR b0 b1 y) 0 = 2 * rsum h (fun j => ex b0 (Z.of_nat m - 2 * Z.of_nat j) * nth j y 0)
                        + 2 * rsum h (fun j => ex b1 (Z.of_nat m - 2 * Z.of_nat j) * nth (h + j) y 0).
Proof.
  intros Hy Hm. rewrite (syR_raw b0 b1 y h m Hy Hm). rewrite !zf_up by (rewrite ?firstn_length, ?skipn_length; lia).
  rewrite firstn_length, skipn_length, Hy. replace (Nat.min h (2 * h)) with h by lia. replace (2 * h - h)%nat with h by lia.
  f_equal; f_equal; apply rsum_ext; intros j Hj; f_equal; [apply nth_firstn; exact Hj|apply nth_skipn_add].
Qed.

(** Analysis then synthesis, as a kernel. *)
Lemma roundtrip b0 b1 c0 c1 x h m : length x = (2 * h)%nat -> (m < 2 * h)%nat ->
  nth m (syR c0 c1 (anR b0 b1 x)) 0 =
  rsum (2 * h) (fun i => nth i x 0 *
    (2 * rsum h (fun j => ex c0 (Z.of_nat m - 2 * Z.of_nat j) * ex b0 (2 * Z.of_nat j + 1 - Z.of_nat i) +
                          ex c1 (Z.of_nat m - 2 * Z.of_nat j) * ex b1 (2 * Z.of_nat j + 1 - Z.of_nat i)))).
Proof.
  intros Hx Hm. rewrite (syR_nth _ _ _ h m (anR_length _ _ _ _ Hx) Hm).
  assert (T : forall c b (g : nat -> R), (forall j, (j < h)%nat -> g j = nth (2 * j + 1) (zfR b x) 0) ->
    rsum h (fun j => ex c (Z.of_nat m - 2 * Z.of_nat j) * g j) =
    rsum (2 * h) (fun i => nth i x 0 * rsum h (fun j => ex c (Z.of_nat m - 2 * Z.of_nat j) * ex b (2 * Z.of_nat j + 1 - Z.of_nat i)))).
  { intros c b g Hg. rewrite (rsum_ext h _ (fun j => rsum (2 * h) (fun i => ex c (Z.of_nat m - 2 * Z.of_nat j) * (ex b (2 * Z.of_nat j + 1 - Z.of_nat i) * nth i x 0)))).
    - rewrite rsum_swap. apply rsum_ext. intros i Hi. rewrite <- rsum_scal. apply rsum_ext. intros j Hj. ring.
    - intros j Hj. rewrite rsum_scal. f_equal. rewrite Hg by exact Hj. rewrite zfR_swap by lia. rewrite Hx. apply rsum_ext. intros i Hi. f_equal. f_equal. lia. }
  rewrite (T c0 b0 (fun j => nth j (anR b0 b1 x) 0)) by (intros j Hj; apply (anR_low _ _ _ h); assumption).
  rewrite (T c1 b1 (fun j => nth (h + j) (anR b0 b1 x) 0)) by (intros j Hj; apply (anR_high _ _ _ h); assumption).
  rewrite <- !rsum_scal, <- rsum_add. apply rsum_ext. intros i Hi. rewrite rsum_add. ring.
Qed.
