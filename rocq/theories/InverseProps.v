(** C180: DerivativeFilter after IntegralFilter, and the reverse. *)
From Flocq Require Import Core BinarySingleNaN PrimFloat Relative Plus_error.
From Coq Require Import List Arith ZArith Lia Bool Reals Lra QArith Qcanon Floats.
From Verif Require Import Base BaseLemmas Instances CascadeSpec FirModel FirSpec FirProofs FirProps IirModel IirSpec IirProofs IirProps
  CascadeProofs CascadeProps CalculusModel CalculusSpec CalculusProps.
From Verif Require Import DoubleSpec DoubleProofs DoubleOps DoubleProps WaveletDoubleProofs FixedPointProps PidDoubleProps IntegralDoubleProofs IntegralDoubleProps.
Import ListNotations.
Set Asymmetric Patterns.
Local Open Scope R_scope.

(** An FirFilter and an IirFilter at rest can be exchanged. *)
Theorem C180_order (A : Arith) (L : Laws A) dt (f : iir A) (g : fir A) (x : list A) :
  iir_at_rest dt f -> fir_at_rest dt g -> x <> [] -> Forall (fits dt) x ->
  exists f' g' f'' g'' y w z,
    iir_filter f x = (f', Ok y) /\ fir_filter g y = (g', Ok z) /\
    fir_filter g x = (g'', Ok w) /\ iir_filter f w = (f'', Ok z).
Proof.
  intros Hf Hg Hx Tx.
  destruct (iir_rest_run L dt f x Hf Hx Tx) as (f' & y & Ef & Df & _ & Hy & Ty).
  destruct (fir_rest_run L dt g y Hg Hy Ty) as (g' & z & Eg & Dg & _ & _ & _).
  destruct (fir_rest_run L dt g x Hg Hx Tx) as (g'' & w & Eg2 & Dg2 & _ & Hw & Tw).
  destruct (iir_rest_run L dt f w Hf Hw Tw) as (f'' & v & Ef2 & Df2 & _ & _ & _).
  exists f', g', f'', g'', y, w, z. split; [exact Ef|]. split; [exact Eg|]. split; [exact Eg2|]. rewrite Ef2. f_equal. f_equal.
  pose proof Df as [Ly _]. pose proof Dg as [Lz _]. pose proof Dg2 as [Lw _]. pose proof Df2 as [Lv _].
  apply (nth_ext _ _ zero zero); [congruence|]. rewrite Lv, Lw.
  apply (difference_series A L) in Df; auto. apply (difference_series A L) in Dg; auto.
  apply (difference_series A L) in Dg2; auto. apply (difference_series A L) in Df2; auto.
  rewrite Lw in Df2. rewrite Ly in Dg.
  apply (cauchy_inj A L (length x) (den [])); [reflexivity|]. apply (cauchy_inj A L (length x) (den (ia f))); [reflexivity|].
  change (fun n => nth n v zero) with (coef v). change (fun n => nth n z zero) with (coef z).
  intros n Hn. rewrite (cauchy_swap A L).
  transitivity (cauchy (den []) (cauchy (coef (ib f)) (coef w)) n); [apply (cauchy_upto A (length x)); auto; apply upto_refl|].
  rewrite (cauchy_swap A L).
  transitivity (cauchy (coef (ib f)) (cauchy (coef (fb g)) (coef x)) n); [apply (cauchy_upto A (length x)); auto; apply upto_refl|].
  rewrite (cauchy_swap A L).
  transitivity (cauchy (coef (fb g)) (cauchy (den (ia f)) (coef y)) n);
    [apply (cauchy_upto A (length x)); auto; [apply upto_refl|apply upto_sym; exact Df]|].
  rewrite (cauchy_swap A L). apply (cauchy_upto A (length x)); auto; [apply upto_refl|apply upto_sym; exact Dg].
Qed.
Print Assumptions C180_order.

(** ** Over the reals *)

(** The weights of the combined filter: partial sums of the derivative's coefficients. *)
Definition partial (b : list R) (j : nat) : R := @bigsum RA (S j) (fun i => nth i b 0).
(** The weighted window of the integral at time n, and 0 before the signal. *)
Definition window (k : nat) (x : list R) (n : Z) : R :=
  if (n <? 0)%Z then 0 else @convolution RA (integral_weights k) [] x (Z.to_nat n).

Lemma bigsum_R_S n (f : nat -> R) : @bigsum RA (S n) f = @bigsum RA n f + f n.
Proof. reflexivity. Qed.

Lemma abel (b : list R) (Y c : Z -> R) (n : Z) : (forall k, Y k = Y (k - 1)%Z + c k) -> forall N,
  @bigsum RA N (fun i => nth i b 0 * Y (n - Z.of_nat i)%Z) =
  @bigsum RA N (fun j => partial b j * c (n - Z.of_nat j)%Z) + @bigsum RA N (fun i => nth i b 0) * Y (n - Z.of_nat N)%Z.
Proof.
  intros H. induction N as [|N IH]; [cbn; ring|]. rewrite !bigsum_R_S, IH. change (partial b N) with (@bigsum RA N (fun i => nth i b 0) + nth N b 0).
  rewrite (H (n - Z.of_nat N)%Z). replace (n - Z.of_nat N - 1)%Z with (n - Z.of_nat (S N))%Z by lia. rr. ring.
Qed.

Lemma derivative_new d o (g : fir RA) : @derivative_make RA d o = Ok g -> exists deg, exact_degree d o = Some deg.
Proof.
  intros H. destruct (exact_degree d o) as [deg|] eqn:E; [eauto|]. exfalso.
  rewrite (proj1 (C22_derivative_pairs RA d o) E) in H. discriminate.
Qed.

(** The running sum of the window, and 0 before the signal. *)
Definition running (k : nat) (x : list R) (n : Z) : R :=
  if (n <? 0)%Z then 0 else @bigsum RA (S (Z.to_nat n)) (fun m => @convolution RA (integral_weights k) [] x m).
Lemma running_step k x n : running k x n = running k x (n - 1)%Z + window k x n.
Proof.
  unfold running, window. destruct (Z.ltb_spec n 0) as [H|H]; [rewrite (proj2 (Z.ltb_lt _ _)) by lia; rr; ring|].
  destruct (Z.ltb_spec (n - 1) 0) as [H1|H1].
  - replace n with 0%Z by lia. cbn [Z.to_nat bigsum]. rr. ring.
  - rewrite bigsum_R_S. replace (S (Z.to_nat (n - 1))) with (Z.to_nat n) by lia. reflexivity.
Qed.

Lemma partial_last b N : partial b N = @bigsum RA (S N) (fun i => nth i b 0).
Proof. reflexivity. Qed.

Lemma partial_total d o deg ns den : exact_degree d o = Some deg -> @derivative_B RA d o = Some (Some (rrow ns den)) -> length ns = S (Z.to_nat o) ->
  @bigsum RA (Z.to_nat o) (partial (rrow ns den)) = (if (d =? 1)%Z then 1 else 0).
Proof.
  intros Hd EB Hl.
  destruct (exact_degree_cases _ _ _ Hd) as (ns1 & den1 & EB1 & _ & Hr & Hex). rewrite EB in EB1. injection EB1 as EB1.
  assert (Hdeg : (1 <= deg)%nat).
  { pose proof (exact_degree_list _ _ _ Hd) as Hin. cbn [In] in Hin. repeat match type of Hin with _ \/ _ => let h := fresh in destruct Hin as [h|Hin]; [injection h; intros; lia|] end; contradiction. }
  pose proof (Hex [0; 1] 0 ltac:(cbn [length]; lia)) as H. rewrite <- EB1 in H.
  pose proof (rrow_sum _ _ _ _ _ Hd EB Hl) as H0. set (b := rrow ns den) in *. set (N := Z.to_nat o) in *.
  assert (G : forall M, @bigsum RA M (partial b) = INR M * @bigsum RA (S M) (fun i => nth i b 0) - @bigsum RA (S M) (fun i => nth i b 0 * INR i)).
  { induction M as [|M IH]; [cbn; ring|]. rewrite bigsum_R_S, IH, partial_last. rewrite (bigsum_R_S (S M)), (bigsum_R_S (S M) (fun i => nth i b 0 * INR i)). rewrite (S_INR M). rr. ring. }
  rewrite G, H0. replace (@bigsum RA (S N) (fun i => nth i b 0 * INR i)) with (- @bigsum RA (S N) (fun i => nth i b 0 * peval [0; 1] (0 - INR i))).
  - rewrite H. assert (C : d = 1%Z \/ d = 2%Z \/ d = 3%Z) by lia. destruct C as [C|[C|C]]; rewrite C; to_nat; cbn; ring.
  - clear. induction (S N) as [|M IH]; [cbn; ring|]. rewrite !bigsum_R_S, <- IH. cbn [peval]. rr. ring.
Qed.

(** C180.  What DerivativeFilter returns for the output of IntegralFilter: the window of the
    integral, averaged with the partial sums of the derivative's coefficients.  For first
    derivatives these weights add up to 1, for higher ones to 0. *)
Theorem C180_derivative_of_integral (d o order : Z) (f : iir RA) (g : fir RA) (x : list R) :
  @integral_make RA order = Ok f -> @derivative_make RA d o = Ok g -> x <> [] ->
  exists k f' g' y z, (k <= 4)%nat /\ order = Z.of_nat k /\
    iir_filter f x = (f', Ok y) /\ fir_filter g y = (g', Ok z) /\ length z = length x /\
    (forall n, (n < length x)%nat ->
      nth n z 0 = @bigsum RA (Z.to_nat o) (fun j => partial (fb g) j * window k x (Z.of_nat n - Z.of_nat j))) /\
    @bigsum RA (Z.to_nat o) (partial (fb g)) = (if (d =? 1)%Z then 1 else 0).
Proof.
  intros Hf Hg Hx. destruct (C19_integral_running_sum order f x Hf Hx) as (k & f' & y & Hk & Eo & Ef & Ly & Hy).
  destruct (derivative_new d o g Hg) as [deg Hd].
  destruct (derivative_used_fir d o deg [] g Hd (ex_intro _ g (conj Hg eq_refl))) as (ns & den & EB & Hl & Hu & Eb & Ed).
  assert (Hyn : y <> []) by (destruct y; [destruct x; [congruence|discriminate Ly]|discriminate]).
  assert (Es : fs g = repeat 0 (S (Z.to_nat o))).
  { unfold derivative_make in Hg. rewrite EB in Hg. unfold fir_make in Hg. cbn [els adt length] in Hg. destruct (Nat.eqb _ _); [discriminate|].
    rewrite (proj2 (Nat.ltb_ge _ 0)) in Hg by lia. injection Hg as <-. cbn [fs]. rewrite map_id. assert (Lr : length (rrow ns den) = S (Z.to_nat o)) by (unfold rrow; rewrite map_length; exact Hl). rewrite Lr. reflexivity. }
  destruct (C01_fir_convolution RA RA_laws _ _ _ g y (Forall_RA_float _ : arr_ok (mkArr DFloat _)) Hu Hyn) as (g' & z & Eg & Lz & Hz & _).
  { rewrite Ed. apply Forall_RA_float. }
  exists k, f', g', y, z. split; [exact Hk|]. split; [exact Eo|]. split; [exact Ef|]. split; [exact Eg|]. split; [congruence|]. split.
  - intros n Hn. refine (eq_trans (Hz n ltac:(congruence)) _). unfold convolution. rewrite Eb. unfold rrow at 1. rewrite map_length, Hl.
    transitivity (@bigsum RA (S (Z.to_nat o)) (fun i => nth i (rrow ns den) 0 * running k x (Z.of_nat n - Z.of_nat i))).
    { apply (@bigsum_ext RA). intros i Hi. rr. apply f_equal. unfold sig, running. destruct (Z.ltb_spec (Z.of_nat n - Z.of_nat i) 0%Z).
      - rewrite Es. refine (nth_repeat _ _ _).
      - refine (eq_trans (Hy (Z.to_nat (Z.of_nat n - Z.of_nat i)) ltac:(lia)) _). reflexivity. }
    rewrite (abel (rrow ns den) (running k x) (window k x) (Z.of_nat n) (running_step k x)).
    rewrite (rrow_sum _ _ _ _ _ Hd EB Hl). rewrite bigsum_R_S, partial_last, (rrow_sum _ _ _ _ _ Hd EB Hl). rr. ring.
  - rewrite Eb. apply (partial_total _ _ _ _ _ Hd EB Hl).
Qed.
Print Assumptions C180_derivative_of_integral.

Lemma integral_rest order f : @integral_make RA order = Ok f -> iir_at_rest DFloat f.
Proof.
  intros Hf. destruct (C19_integral_running_sum order f [0] Hf ltac:(discriminate)) as (k & _ & _ & Hk & -> & _).
  assert (Hu : integral_used k [] f) by (exists f; auto). destruct (integral_used_iir k [] f Hk Hu) as (U & La & Lb & Id & _ & _).
  split; [|split; [|exact Id]].
  - exists (mkArr DFloat [0; 1] : arr RA), (mkArr DFloat (integral_weights k) : arr RA), (mkArr DFloat [] : arr RA), []. split; [|exact U].
    split; [apply Forall_RA_float|]. split; [apply Forall_RA_float|discriminate].
  - pose proof (proj2 U) as (f0 & E & E1). cbn in E1. subst f0. unfold iir_make in E. cbn [els adt] in E.
    destruct (negb (@eqb RA 0 zero)); [discriminate|]. cbv zeta in E.
    destruct (pad [0; 1] _) as [|a0 a']; [discriminate|]. destruct (negb _); [discriminate|].
    match type of E with context [fir_make ?b1 ?s1] => destruct (fir_make b1 s1) as [g|e] eqn:Eg end; [|discriminate].
    injection E as <-. cbn [is_ ib]. unfold fir_make in Eg. destruct (Nat.eqb _ _); [discriminate|].
    do 5 (destruct k as [|k]; [cbn in Eg; injection Eg as <-; reflexivity|]). lia.
Qed.
Lemma derivative_rest d o g : @derivative_make RA d o = Ok g -> fir_at_rest DFloat g.
Proof.
  intros Hg. destruct (derivative_new d o g Hg) as [deg Hd].
  destruct (derivative_used_fir d o deg [] g Hd (ex_intro _ g (conj Hg eq_refl))) as (ns & den & EB & Hl & Hu & Eb & Ed).
  split; [|split; [|exact Ed]].
  - exists (mkArr DFloat (rrow ns den) : arr RA), (mkArr DFloat [] : arr RA), []. split; [apply Forall_RA_float|exact Hu].
  - unfold derivative_make in Hg. rewrite EB in Hg. unfold fir_make in Hg. cbn [els adt length] in Hg. destruct (Nat.eqb _ _) eqn:Q; [discriminate|].
    rewrite (proj2 (Nat.ltb_ge _ 0)) in Hg by lia. injection Hg as <-. cbn [fs fb]. rewrite map_id. assert (Lr : length (rrow ns den) = S (Z.to_nat o)) by (unfold rrow; rewrite map_length; exact Hl). refine (eq_trans _ (f_equal zeros (eq_sym Lr))). rewrite Lr. reflexivity.
Qed.

(** C180.  Derivative 1 of order 1 undoes the integral of order 0, in either order. *)
Theorem C180_identity (f : iir RA) (g : fir RA) (x : list R) :
  @integral_make RA 0 = Ok f -> @derivative_make RA 1 1 = Ok g -> x <> [] ->
  exists f' g' y f'' g'' w,
    iir_filter f x = (f', Ok y) /\ fir_filter g y = (g', Ok x) /\
    fir_filter g x = (g'', Ok w) /\ iir_filter f w = (f'', Ok x).
Proof.
  intros Hf Hg Hx. destruct (C180_derivative_of_integral 1 1 0 f g x Hf Hg Hx) as (k & f' & g' & y & z & Hk & Eo & Ef & Eg & Lz & Hz & _).
  assert (k = 0)%nat by lia. subst k.
  assert (z = x). { apply (nth_ext _ _ 0 0); [exact Lz|]. intros n Hn. rewrite Hz by (rewrite <- Lz; exact Hn).
    assert (Eb : fb g = [1; -1]). { unfold derivative_make in Hg. cbn [derivative_B] in Hg. rewrite table_row_R in Hg. unfold rrow in Hg. cbn [map] in Hg. unfold fir_make in Hg. cbn in Hg. injection Hg as <-. cbn [fb]. f_equal; [lra|f_equal; lra]. }
    rewrite Eb. change (Z.to_nat 1) with 1%nat. unfold partial, window. cbn [bigsum nth]. rewrite Z.sub_0_r. rewrite (proj2 (Z.ltb_ge _ _)) by lia. rewrite Nat2Z.id.
    unfold convolution. cbn [integral_weights length bigsum nth]. unfold sig. rewrite Z.sub_0_r. rewrite (proj2 (Z.ltb_ge _ _)) by lia. rewrite Nat2Z.id. rr. ring. }
  subst z.
  destruct (C180_order RA RA_laws DFloat f g x (integral_rest _ _ Hf) (derivative_rest _ _ _ Hg) Hx (Forall_RA_float _)) as (f1 & g1 & f2 & g2 & y1 & w & z & E1 & E2 & E3 & E4).
  rewrite Ef in E1. injection E1 as <- <-. rewrite Eg in E2. injection E2 as <- <-.
  exists f', g', y, f2, g2, w. auto.
Qed.
Print Assumptions C180_identity.

(** ** In doubles *)
Lemma window0 (x : list R) n j : (j <= n)%nat -> (n < length x)%nat -> window 0 x (Z.of_nat n - Z.of_nat j) = nth (n - j) x 0.
Proof.
  intros Hj Hn. unfold window. rewrite (proj2 (Z.ltb_ge _ _)) by lia. unfold convolution. cbn [integral_weights length bigsum nth]. unfold sig.
  rewrite (proj2 (Z.ltb_ge _ _)) by lia. replace (Z.to_nat (Z.of_nat (Z.to_nat (Z.of_nat n - Z.of_nat j)) - Z.of_nat 0)) with (n - j)%nat by lia. rr. ring.
Qed.
Lemma sum_first (x : list R) n : @bigsum RA n (fun m => nth m x 0) = fold_right Rplus 0 (firstn n x).
Proof.
  revert x. induction n as [|n IH]; intros x; [reflexivity|]. rewrite bigsum_R_S, IH. clear IH. revert x. induction n as [|n IH]; intros x.
  - destruct x; cbn; rr; ring.
  - destruct x as [|v x]; [cbn; rr; ring|]. cbn [nth]. change (firstn (S n) (v :: x)) with (v :: firstn n x). change (firstn (S (S n)) (v :: x)) with (v :: firstn (S n) x). cbn [fold_right]. rewrite <- IH. rr. ring.
Qed.
Lemma grid_sum g (x : list R) : Forall (on_grid g) x -> on_grid g (fold_right Rplus 0 x).
Proof. induction 1 as [|v x Hv _ IH]; cbn [fold_right]; [exists 0%Z; ring|apply on_grid_add; assumption]. Qed.

(** C180.  On multiples of 2^g whose running sums stay below 2^(49+g), a DerivativeFilter with
    dyadic coefficients returns in doubles exactly what it returns in exact arithmetic for
    the integral of order 0. *)
Theorem C180_doubles d der o g (f : iir (FAd d)) (h : fir (FAd d)) (hr : fir RA) (x : list float) : any_order d -> dyadic der o ->
  @integral_make (FAd d) 0 = Ok f -> @derivative_make (FAd d) der o = Ok h -> @derivative_make RA der o = Ok hr -> x <> [] -> (-1071 <= g <= 940)%Z ->
  Forall (multiple g) x -> Forall (within (bpow radix2 (49 + g))) (map val x) ->
  (forall n, (n < length x)%nat -> within (bpow radix2 (49 + g)) (fold_right Rplus 0 (firstn (S n) (map val x)))) ->
  exists f' h' (y z : list float), iir_filter f x = (f', Ok y) /\ fir_filter h y = (h', Ok z) /\ length z = length x /\
    forall n, (n < length x)%nat -> finite (nth n z 0%float) /\
      val (nth n z 0%float) = @bigsum RA (Z.to_nat o) (fun j => partial (fb hr) j * (if (j <=? n)%nat then val (nth (n - j) x 0%float) else 0)).
Proof.
  intros Hd Hdy Hf Hh Hr Hx Hg Mx Bx BS.
  assert (Uf : integral_usedF d 0 [] f) by (exists f; split; [exact Hf|reflexivity]).
  destruct (proj2 (C19_integral_orders RA 0 (proj2 (law_eqb RA_laws _ _) eq_refl)) ltac:(lia)) as [fr Hfr].
  assert (Ur : integral_used 0 [] fr) by (exists fr; split; [exact Hfr|reflexivity]).
  assert (Ef : is_ f = [0; 0]%float) by (unfold integral_make in Hf; cbn in Hf; injection Hf as <-; reflexivity).
  assert (Er : is_ fr = [0; 0]).
  { destruct (integral_rest _ _ Hfr) as (_ & E & _). destruct (integral_used_iir 0 [] fr ltac:(lia) Ur) as (_ & _ & Lb & _). rewrite E. rewrite Lb. reflexivity. }
  assert (E0 : map val (is_ f) = [0; 0]) by (refine (eq_trans (f_equal (map val) Ef) _); cbn [map]; rewrite val_zero; reflexivity).
  assert (W0 : within (bpow radix2 (49 + g)) 0) by (unfold within; rewrite Rabs_R0; apply bpow_ge_0).
  assert (M0 : multiple g 0%float) by (split; [reflexivity|exists 0%Z; rewrite val_zero; ring]).
  destruct (C176_exact d 0 g [] [] f fr x Hd (or_introl eq_refl) Uf Ur) as (f' & fr' & y & Ey & Eyr & Fy & _ & _).
  { rewrite E0. exact Er. } { exact Hx. } { exact Hg. } { rewrite Ef. exact (Forall_cons _ M0 (Forall_cons _ M0 (Forall_nil _))). } { exact Mx. } { exact Bx. }
  { rewrite E0. exact (Forall_cons _ W0 (Forall_cons _ W0 (Forall_nil _))). }
  { rewrite E0. unfold ledger. cbn [opening nth]. unfold idR at 2 3. rewrite Rplus_0_r. apply Forall_app. split; [|exact (Forall_cons _ W0 (Forall_cons _ W0 (Forall_nil _)))].
    apply Forall_rev, Forall_firstn'. apply Forall_forall. intros v Hv. apply (In_nth _ _ 0) in Hv. destruct Hv as (n & Hn & <-). rewrite length_sums in Hn.
    refine (eq_ind_r (within _) _ (sums_exact (map val x) 0 n Hn)). rewrite Rplus_0_l. apply BS. rewrite map_length in Hn. exact Hn. }
  destruct (C180_derivative_of_integral der o 0 fr hr (map val x) Hfr Hr) as (k & fr1 & hr' & y1 & z1 & _ & Ek & E1 & E2 & L2 & H2 & _); [destruct x; [congruence|discriminate]|].
  assert (k = 0)%nat by lia. subst k. rewrite Eyr in E1. injection E1 as _ <-. rewrite map_length in L2, H2.
  destruct (C19_integral_running_sum 0 fr (map val x) Hfr) as (k & fr2 & y2 & _ & Ek2 & E3 & L3 & H3); [destruct x; [congruence|discriminate]|].
  assert (k = 0)%nat by lia. subst k. rewrite Eyr in E3. injection E3 as _ <-. rewrite !map_length in L3. rewrite map_length in H3.
  assert (Yv : forall n, (n < length x)%nat -> val (nth n y 0%float) = fold_right Rplus 0 (firstn (S n) (map val x))).
  { intros n Hn. refine (eq_trans (eq_sym (map_nth val y 0%float n)) _). rewrite val_zero. refine (eq_trans (H3 n Hn) _). rewrite <- sum_first. apply (@bigsum_ext RA). intros m Hm. pose proof (window0 (map val x) m 0 ltac:(lia) ltac:(rewrite map_length; lia)) as W. rewrite Nat.sub_0_r in W. refine (eq_trans _ W).
    unfold window. rewrite (proj2 (Z.ltb_ge _ _)) by lia. replace (Z.to_nat (Z.of_nat m - Z.of_nat 0)) with m by lia. reflexivity. }
  assert (Hyn : y <> []) by (destruct y; [destruct x; [congruence|discriminate]|discriminate]).
  assert (Gx : Forall (on_grid g) (map val x)) by (apply Forall_forall; intros v Hv; apply in_map_iff in Hv; destruct Hv as (u & <- & Hu'); exact (proj2 (proj1 (Forall_forall _ _) Mx u Hu'))).
  assert (Sy : Forall (sample g) y).
  { apply Forall_forall. intros v Hv. pose proof (proj1 (Forall_forall _ _) Fy v Hv) as Fv. apply (In_nth _ _ 0%float) in Hv. destruct Hv as (n & Hn & <-).
    assert (Hn' : (n < length x)%nat) by (rewrite <- L3; exact Hn).
    split; [split; [exact Fv|]|]; rewrite (Yv n Hn').
    - apply grid_sum, Forall_firstn', Gx.
    - apply Rle_trans with (1 := BS n Hn'). apply bpow_le. lia. }
  assert (Uh : derivative_usedF d der o [] h) by (exists h; split; [exact Hh|reflexivity]).
  assert (Zh : exists m, fs h = repeat 0%float m /\ fs hr = repeat 0 m).
  { destruct (dyadic_row d der o Hdy) as (row & kk & EB & ER & _ & _ & _ & Lrow). unfold derivative_make in Hh, Hr. rewrite EB in Hh. rewrite ER in Hr.
    destruct row as [|r0 row]; [discriminate Lrow|]. unfold fir_make in Hh, Hr. cbn in Hh, Hr. exists (S (length row)).
    injection Hh as <-. injection Hr as <-. cbn [fs repeat]. split; [f_equal; apply map_id|]. f_equal. rewrite map_id, map_length. reflexivity. }
  destruct Zh as (m & Zh & Zr).
  destruct (C175_derivative_exact d der o [] h hr y g Hd Hdy Uh Hr Hyn ltac:(lia)) as (h' & z & z' & Ez & Ez' & Lz & Lz' & Hz).
  { rewrite Zh. apply Forall_forall. intros v Hv. apply repeat_spec in Hv. subst v. apply sample_zero. } { exact Sy. }
  assert (Ew : with_s hr (map val (fs h)) = hr).
  { assert (EZ : map val (fs h) = fs hr).
    { refine (eq_trans (f_equal (map val) Zh) (eq_trans _ (eq_sym Zr))). clear. induction m as [|m IH]; [reflexivity|]. cbn [repeat map]. rewrite val_zero, IH. reflexivity. }
    refine (eq_trans (f_equal (with_s hr) EZ) _). destruct hr. reflexivity. }
  rewrite Ew, E2 in Ez'. injection Ez' as <-.
  exists f', h', y, z. split; [exact Ey|]. split; [exact Ez|]. split; [exact (eq_trans Lz L3)|]. intros n Hn. destruct (Hz n ltac:(rewrite L3; exact Hn)) as [Fz Vz]. split; [exact Fz|].
  refine (eq_trans Vz _). refine (eq_trans (H2 n Hn) _). apply (@bigsum_ext RA). intros j Hj. rr. apply f_equal. destruct (Nat.leb_spec j n) as [Hjn|Hjn].
  - rewrite window0 by (try rewrite map_length; lia). rewrite <- val_zero. apply map_nth.
  - unfold window. rewrite (proj2 (Z.ltb_lt _ _)) by lia. reflexivity.
Qed.
Print Assumptions C180_doubles.

(** C180.  "Derivative 1 of order 1 undoes the integral of order 0" is false in doubles. *)
Theorem C180_doubles_identity_refuted : exists d f h f' h' (y : list float), any_order d /\
  @integral_make (FAd d) 0 = Ok f /\ @derivative_make (FAd d) 1 1 = Ok h /\
  iir_filter f ([0x1p53; 1]%float : list (FAd d)) = (f', Ok y) /\ fir_filter h y = (h', Ok ([0x1p53; 0]%float : list (FAd d))).
Proof.
  exists dotL176. do 5 eexists. split; [exact left_any_order|]. split; [reflexivity|]. split; [reflexivity|]. split; reflexivity.
Qed.
Print Assumptions C180_doubles_identity_refuted.

(** Simpson's integral then the first derivative of order 2 on 6, 12, 0, -6: the window
    1, 6, 9, 3, averaged over two neighbours. *)
Example C180_example : exists (f : iir QA) (g : fir QA), @integral_make QA 2 = Ok f /\ @derivative_make QA 1 2 = Ok g /\
  match snd (iir_filter f [q 6 1; q 12 1; q 0 1; q (-6) 1]) with
  | Ok y => Some (qs y, match snd (fir_filter g y) with Ok z => Some (qs z) | Err _ => None end)
  | Err _ => None
  end = Some ([1 # 1; 7 # 1; 16 # 1; 17 # 1]%Q, Some [1 # 2; 7 # 2; 15 # 2; 5 # 1]%Q).
Proof. eexists _, _. split; [reflexivity|]. split; [reflexivity|]. vm_compute. reflexivity. Qed.

(** The hypotheses of the theorems over the reals hold for every documented pair. *)
Example C180_pairs : (exists f, @integral_make RA 4 = Ok f) /\ (exists g, @derivative_make RA 3 8 = Ok g) /\ [2; -5; 1 / 3] <> [].
Proof.
  split; [apply (proj2 (C19_integral_orders RA 4 (proj2 (law_eqb RA_laws _ _) eq_refl))); lia|].
  split; [|discriminate]. destruct (proj2 (C22_derivative_pairs RA 3 8) ltac:(discriminate)) as (g & E & _). exists g. exact E.
Qed.

(** 1.5, -0.25, 3 are multiples of 2^-2 with small sums. *)
Example C180_doubles_example : exists f h hr, @integral_make (FAd dotL176) 0 = Ok f /\ @derivative_make (FAd dotL176) 1 1 = Ok h /\ @derivative_make RA 1 1 = Ok hr /\
  any_order dotL176 /\ dyadic 1 1 /\ Forall (multiple (-2)) [1.5; -0.25; 3]%float /\ Forall (within (bpow radix2 (49 + -2))) (map val [1.5; -0.25; 3]%float) /\
  (forall n, (n < 3)%nat -> within (bpow radix2 (49 + -2)) (fold_right Rplus 0 (firstn (S n) (map val [1.5; -0.25; 3]%float)))).
Proof.
  assert (V1 : val 1.5%float = 3 / 2) by litval. assert (V2 : val (-0.25)%float = - / 4) by litval. assert (V3 : val 3%float = 3) by litval.
  destruct (proj2 (C22_derivative_pairs RA 1 1) ltac:(discriminate)) as (hr & E & _).
  do 2 eexists. exists hr. split; [reflexivity|]. split; [reflexivity|]. split; [exact E|]. split; [exact left_any_order|]. split; [cbn; tauto|].
  assert (P : bpow radix2 (-2) = / 4) by (cbn; lra). assert (Q : 4 <= bpow radix2 (49 + -2)) by (change 4 with (bpow radix2 2); apply bpow_le; lia).
  split; [|split].
  - apply Forall_cons; [split; [reflexivity|exists 6%Z; rewrite V1, P; lra]|]. apply Forall_cons; [split; [reflexivity|exists (-1)%Z; rewrite V2, P; lra]|].
    apply Forall_cons; [split; [reflexivity|exists 12%Z; rewrite V3, P; lra]|apply Forall_nil].
  - cbn [map]. rewrite V1, V2, V3. unfold within. repeat apply Forall_cons; try apply Forall_nil; apply Rabs_le; lra.
  - intros n Hn. cbn [map]. rewrite V1, V2, V3. unfold within. do 3 (destruct n as [|n]; [cbn; apply Rabs_le; cbn in Q; lra|]). lia.
Qed.
