(** Property C160: filters designed by FirFilter with scipy's firwin. *)
From Coq Require Import String List Arith ZArith Bool Reals Lra Lia.
From Coquelicot Require Import Complex.
From Verif Require Import Base BaseLemmas PyString Instances FirModel FirDesignProofs FirProps WindowProps FirwinModel PolyC PolyphaseModel AnalysisModel AnalysisProps.
Import ListNotations.
Set Asymmetric Patterns.
Open Scope R_scope.

(** ** Specification *)
(** Real coefficients as a filter over the complex numbers. *)
Definition of_reals (b : list R) : list C := map RtoC b.
(** b[k] (-1)^k *)
Definition signs (b : list R) : list R := map (fun k => (-1) ^ k * nth k b 0) (seq 0 (length b)).

(** ** The window and the taps are symmetric *)
Lemma sinc_even x : sinc (- x) = sinc x.
Proof.
  unfold sinc. destruct (Reqb x 0) eqn:E.
  - apply Reqb_iff in E. subst x. rewrite (proj2 (Reqb_iff (- 0) 0)) by ring. reflexivity.
  - assert (x <> 0) by (intros Q; apply Reqb_iff in Q; congruence).
    destruct (Reqb (- x) 0) eqn:E'; [apply Reqb_iff in E'; lra|].
    replace (PI * - x) with (- (PI * x)) by ring. rewrite sin_neg. pose proof PI_RGT_0. field. split; lra.
Qed.

Lemma INR_flip M i : (i <= M - 1)%nat -> INR (M - 1 - i) = INR (M - 1) - INR i.
Proof. intros H. apply minus_INR. exact H. Qed.

Lemma cosine_sum_flip a M i : (2 <= M)%nat -> (i <= M - 1)%nat -> cosine_sum a M (M - 1 - i) = cosine_sum a M i.
Proof.
  intros HM Hi. unfold cosine_sum. f_equal. apply map_ext. intros [k c]. cbn [fst snd]. f_equal.
  rewrite INR_flip by exact Hi. rewrite <- cos_neg. f_equal.
  assert (INR (M - 1) <> 0) by (apply not_0_INR; lia). field. assumption.
Qed.

Lemma kaiser_flip i0 M i : (2 <= M)%nat -> (i <= M - 1)%nat -> kaiser i0 M (M - 1 - i) = kaiser i0 M i.
Proof.
  intros HM Hi. unfold kaiser. rewrite INR_flip by exact Hi.
  assert (INR (M - 1) <> 0) by (apply not_0_INR; lia). do 4 f_equal.
  field. assumption.
Qed.

Lemma window_flip i0 w M i : (i <= M - 1)%nat -> window_point i0 w M (M - 1 - i) = window_point i0 w M i.
Proof.
  intros Hi. unfold window_point. destruct (Nat.leb_spec M 1) as [H|H]; [reflexivity|].
  destruct (String.eqb w "kaiser"); [apply kaiser_flip; lia|].
  destruct (String.eqb w "hann"); [apply cosine_sum_flip; lia|].
  destruct (String.eqb w "hamming"); apply cosine_sum_flip; lia.
Qed.

Lemma tap_flip i0 M c w i : (i <= M - 1)%nat -> tap i0 M c w (M - 1 - i) = tap i0 M c w i.
Proof.
  intros Hi. unfold tap. rewrite window_flip by exact Hi. do 2 f_equal. rewrite <- sinc_even. f_equal.
  rewrite INR_flip by exact Hi. field.
Qed.

(** What firwin returns. *)
Lemma fold_div s l : fold_right Rplus 0 (map (fun v => v / s) l) = fold_right Rplus 0 l / s.
Proof. induction l as [|x l IH]; cbn; [unfold Rdiv; ring|]. rewrite IH. unfold Rdiv. ring. Qed.

Definition even_list (v : list R) : Prop := forall k, (k < length v)%nat -> nth (length v - 1 - k) v 0 = nth k v 0.

Lemma nth_map_seq (f : nat -> R) n k : (k < n)%nat -> nth k (map f (seq 0 n)) 0 = f k.
Proof.
  intros H. rewrite (nth_indep _ 0 (f 0%nat)) by (rewrite map_length, seq_length; exact H).
  rewrite map_nth, seq_nth by exact H. reflexivity.
Qed.

Lemma firwin_shape i0 M c w v : firwin i0 M c w = Some v ->
  0 < c < 1 /\ length v = M /\ fold_right Rplus 0 v = 1 /\ even_list v.
Proof.
  unfold firwin. destruct (Rleb c 0) eqn:E1; [discriminate|]. destruct (Rleb 1 c) eqn:E2; [discriminate|]. cbn [orb].
  set (h := map (tap i0 M c w) (seq 0 M)). destruct (Reqb _ 0) eqn:E3; [discriminate|]. intros [= <-].
  assert (c > 0) by (destruct (Rle_lt_dec c 0) as [Q|Q]; [apply Rleb_iff in Q; congruence|lra]).
  assert (c < 1) by (destruct (Rle_lt_dec 1 c) as [Q|Q]; [apply Rleb_iff in Q; congruence|lra]).
  assert (fold_right Rplus 0 h <> 0) by (intros Q; apply Reqb_iff in Q; congruence).
  assert (Lh : length h = M) by (unfold h; rewrite map_length, seq_length; reflexivity).
  split; [lra|]. rewrite map_length. split; [exact Lh|]. split.
  - rewrite fold_div. field. assumption.
  - unfold even_list. rewrite map_length, Lh. intros k Hk.
    rewrite !(nth_map_scale (fun v => v / fold_right Rplus 0 h)) by (unfold Rdiv; ring). f_equal.
    unfold h. rewrite !nth_map_seq by lia. apply tap_flip. lia.
Qed.

(** ** The search *)
Section Search.
  Context {V : Type} (cand : R -> option V) (err : V -> R) (eps tol rate : R).
  Notation search := (@fir_search RO V cand err eps tol rate).
  Lemma next_pos scale v : 0 < eps -> 0 < @omax RO (@add RO scale (@mul RO rate (err v))) eps.
  Proof. intros H. rewrite omax_RO. apply Rlt_le_trans with eps; [exact H|apply Rmax_r]. Qed.
  (** The result is a candidate of some positive scale. *)
  Lemma search_some (He : 0 < eps) fuel : forall scale best b, 0 < scale -> search fuel scale best = Ok (Some b) ->
    best = Some b \/ exists sc, 0 < sc /\ cand sc = Some (fst b).
  Proof.
    induction fuel as [|n IH]; intros scale best b Hs; cbn [fir_search].
    - intros E. injection E as E. left. exact E.
    - destruct (cand scale) as [v|] eqn:Ev; [|discriminate].
      match goal with |- context [if ?a then _ else _] => destruct a end.
      + match goal with |- context [if ?a then _ else _] => destruct a end.
        * intros E. injection E as E. right. exists scale. rewrite <- E. auto.
        * intros E. destruct (IH _ _ _ (next_pos scale v He) E) as [Q|Q]; [|right; exact Q].
          injection Q as Q. right. exists scale. rewrite <- Q. auto.
      + intros E. apply (IH _ _ _ (next_pos scale v He) E).
  Qed.
  (** The search fails only when a candidate of a positive scale does. *)
  Lemma search_total (He : 0 < eps) fuel : forall scale best, 0 < scale -> (fuel <> 0%nat \/ best <> None) ->
    (search fuel scale best = Err ValueError /\ exists sc, 0 < sc /\ cand sc = None) \/
    exists b, search fuel scale best = Ok (Some b).
  Proof.
    induction fuel as [|n IH]; intros scale best Hs H; cbn [fir_search].
    - destruct best as [b|]; [right; exists b; reflexivity|]. destruct H as [H|H]; congruence.
    - destruct (cand scale) as [v|] eqn:Ev; [|left; split; [reflexivity|exists scale; auto]].
      destruct best as [[w m]|]; cbn [oltinf RO].
      + match goal with |- context [if ?a then _ else _] => destruct a end.
        * match goal with |- context [if ?a then _ else _] => destruct a end; [right; eexists; reflexivity|].
          apply IH; [apply next_pos, He|right; discriminate].
        * apply IH; [apply next_pos, He|right; discriminate].
      + match goal with |- context [if ?a then _ else _] => destruct a end; [right; eexists; reflexivity|].
        apply IH; [apply next_pos, He|right; discriminate].
  Qed.
  Lemma search_fail fuel scale best r : fuel <> 0%nat -> search fuel scale best = r -> cand scale = None -> r = Err ValueError.
  Proof. intros H <- E. destruct fuel as [|n]; [congruence|]. cbn [fir_search]. rewrite E. reflexivity. Qed.
  Lemma search_result (He : 0 < eps) fuel scale best r : 0 < scale -> (fuel <> 0%nat \/ best <> None) ->
    search fuel scale best = r ->
    (r = Err ValueError /\ exists sc, 0 < sc /\ cand sc = None) \/ exists b, r = Ok (Some b).
  Proof. intros Hs H <-. apply search_total; assumption. Qed.
End Search.

(** ** Sums, signs and responses *)
Lemma bigsum_fold (v : list R) : @bigsum RA (length v) (fun i => nth i v 0) = fold_right Rplus 0 v.
Proof. transitivity (@Base.sum RA v); [symmetry; exact (law_sum RA_laws v)|apply sum_RA]. Qed.

Lemma signs_alternate b : signs b = alternate b.
Proof.
  unfold signs. apply nth_ext with (d := 0) (d' := 0).
  - rewrite map_length, seq_length, length_alternate. reflexivity.
  - intros n Hn. rewrite map_length, seq_length in Hn. rewrite nth_map_seq by exact Hn. rewrite nth_alternate. reflexivity.
Qed.
Lemma signs_cons x b : signs (x :: b) = x :: map Ropp (signs b).
Proof.
  unfold signs. cbn [length seq map nth pow]. f_equal; [ring|]. rewrite <- seq_shift, !map_map. apply map_ext.
  intros k. cbn [nth pow]. ring.
Qed.
Lemma pe_reals_opp b z : pe (of_reals (map Ropp b)) z = Copp (pe (of_reals b) z).
Proof.
  unfold of_reals. induction b as [|x b IH]; cbn [map pe]; [ring|]. rewrite IH, RtoC_opp. ring.
Qed.
Lemma pe_signs b : forall z, pe (of_reals (signs b)) z = pe (of_reals b) (Copp z).
Proof.
  induction b as [|x b IH]; intros z; [reflexivity|]. rewrite signs_cons.
  unfold of_reals. cbn [map pe]. fold (of_reals (map Ropp (signs b))). fold (of_reals b).
  rewrite pe_reals_opp, IH. ring.
Qed.
Lemma pe_reals_1 b : pe (of_reals b) (RtoC 1) = RtoC (fold_right Rplus 0 b).
Proof.
  unfold of_reals. induction b as [|x b IH]; cbn [map pe fold_right]; [reflexivity|]. rewrite IH, RtoC_plus. ring.
Qed.
Lemma pe_reals_scale g b z : pe (of_reals (map (fun c => c * g) b)) z = Cmult (RtoC g) (pe (of_reals b) z).
Proof.
  unfold of_reals. induction b as [|x b IH]; cbn [map pe]; [ring|]. rewrite IH, RtoC_mult. ring.
Qed.

(** What a successful design returns, and when it fails. *)
Lemma designed_ok i0 eps style f order count (complement : bool) gain b : 0 < eps ->
  fir_designed i0 eps style f order count complement gain = Ok b ->
  exists sc v, 0 < sc /\
    firwin i0 (Z.to_nat order + 1) (Rmin (sc * (if complement then 1 - f else f)) (1 - eps)) (py_lower (py_title style)) = Some v /\
    (0 < order)%Z /\
    b = map (fun c => c * gain) (if complement then signs v else v).
Proof.
  intros He. unfold fir_designed, fir_design.
  destruct (negb _); [discriminate|]. destruct (orb _ _); [discriminate|].
  destruct (Z.leb_spec order 0) as [|Ho]; [discriminate|]. destruct (Z.leb_spec count 0) as [|Hc]; [discriminate|].
  cbv zeta.
  match goal with |- context [@fir_search ?o ?V ?a ?b ?c ?d ?e ?n ?s ?m] =>
    destruct (@fir_search o V a b c d e n s m) as [[[v m']|]|e'] eqn:Es end; [|discriminate|discriminate].
  intros E. injection E as E. destruct (search_some _ _ _ _ _ He _ _ _ _ Rlt_0_1 Es) as [Q|(sc & Hs & Q)]; [discriminate|].
  cbn [fst] in Q. exists sc, v. split; [exact Hs|]. split; [exact Q|]. split; [exact Ho|].
  destruct complement; [|symmetry; exact E]. rewrite <- E. apply (f_equal (map (fun c => c * gain))).
  destruct (firwin_shape _ _ _ _ _ Q) as (_ & _ & S1 & _).
  change (sum_from Rplus 0 (alternate (alternate v))) with (@Base.sum RA (alternate (alternate v))).
  rewrite sum_alternate2, bigsum_fold, S1, signs_alternate.
  transitivity (map (fun c : R => c) (alternate v)); [|apply map_id]. apply map_ext. intros a. field.
Qed.

(** ** C160 *)
Lemma cis_neg_PI : cis (- PI) = Copp (RtoC 1).
Proof. unfold cis. rewrite cos_neg, sin_neg, cos_PI, sin_PI. unfold Copp, RtoC. cbn. f_equal; ring. Qed.
Lemma cis_neg_0 : cis (- 0) = RtoC 1.
Proof. unfold cis. rewrite Ropp_0, cos_0, sin_0. reflexivity. Qed.

Lemma nth_signs b k : nth k (signs b) 0 = (-1) ^ k * nth k b 0.
Proof. rewrite signs_alternate, nth_alternate. reflexivity. Qed.
Lemma length_signs b : length (signs b) = length b.
Proof. unfold signs. rewrite map_length, seq_length. reflexivity. Qed.

Lemma pow_m1_flip n k : (k <= n)%nat -> (-1) ^ (n - k) = (-1) ^ n * (-1) ^ k.
Proof.
  intros H. replace ((-1) ^ n) with ((-1) ^ (n - k) * (-1) ^ k) by (rewrite <- pow_add; f_equal; lia).
  rewrite Rmult_assoc. change ((-1) ^ k * (-1) ^ k) with (sgn k * sgn k). rewrite sgn_sq. ring.
Qed.

(** A designed filter has order + 1 coefficients, is symmetric (antisymmetric when it is a
    complement of odd order) and has exactly the requested gain at zero frequency
    (complement: at the Nyquist frequency). *)
Theorem C160_designed_shape i0 eps style f (n : nat) count (complement : bool) gain b : 0 < eps ->
  fir_designed i0 eps style f (Z.of_nat n) count complement gain = Ok b ->
  length b = (n + 1)%nat /\
  (forall k, (k <= n)%nat -> nth (n - k) b 0 = (if complement then (-1) ^ n else 1) * nth k b 0) /\
  fir_at (of_reals b) (if complement then PI else 0) = RtoC gain.
Proof.
  intros He Hd. destruct (designed_ok _ _ _ _ _ _ _ _ _ He Hd) as (sc & v & Hs & Hv & Ho & ->).
  rewrite Nat2Z.id in Hv. destruct (firwin_shape _ _ _ _ _ Hv) as (_ & Lv & Sv & Ev). clear Hv.
  unfold even_list in Ev. rewrite Lv in Ev. split; [|split].
  - rewrite map_length. destruct complement; rewrite ?length_signs; exact Lv.
  - intros k Hk. rewrite !(nth_map_scale (fun c => c * gain)) by ring.
    assert (E : nth (n - k) v 0 = nth k v 0) by (rewrite <- (Ev k) by lia; f_equal; lia).
    destruct complement; [|rewrite E; ring]. rewrite !nth_signs, E, pow_m1_flip by exact Hk. ring.
  - unfold fir_at. rewrite pe_reals_scale. destruct complement.
    + rewrite cis_neg_PI, pe_signs. replace (- - RtoC 1)%C with (RtoC 1) by ring. rewrite pe_reals_1, Sv. ring.
    + rewrite cis_neg_0, pe_reals_1, Sv. ring.
Qed.
Print Assumptions C160_designed_shape.

(** Hence FirFilter.delay is count * order / 2 in every bin. *)
Lemma designed_linear_phase i0 eps style f (n : nat) count complement gain b : 0 < eps ->
  fir_designed i0 eps style f (Z.of_nat n) count complement gain = Ok b -> linear_phase (of_reals b).
Proof.
  intros He Hd. destruct (C160_designed_shape _ _ _ _ _ _ _ _ _ He Hd) as (L & S & _).
  exists (RtoC (if complement then (-1) ^ n else 1)). split.
  - rewrite Cmod_R. destruct complement; [|apply Rabs_R1]. apply pow_1_abs.
  - unfold of_reals. rewrite map_length, L. intros i Hi.
    replace (n + 1 - 1 - i)%nat with (n - i)%nat by lia.
    change (RtoC 0) with (RtoC 0). rewrite !(map_nth RtoC b 0). rewrite S by lia.
    rewrite RtoC_mult. f_equal. unfold Cconj, RtoC. cbn [fst snd]. f_equal. ring.
Qed.

Theorem C160_designed_delay i0 eps style f (n : nat) count complement gain b singular tol (L c : Z) y ax :
  0 < eps -> fir_designed i0 eps style f (Z.of_nat n) count complement gain = Ok b ->
  only_small singular tol -> fir_delay singular (fir_of (of_reals b)) L c = Ok (y, ax) ->
  (forall k, (k < Z.to_nat L)%nat -> (k <> 0%nat \/ (L <= 2)%Z) ->
    tol <= Cmod (fir_at (of_reals b) (PI * sampled_at L (nth k ax 0)))) ->
  forall k, (k < Z.to_nat L)%nat -> nth k y 0 = IZR c * (INR n / 2).
Proof.
  intros He Hd Hs Hy Hm k Hk.
  rewrite (C126_fir_delay_linear_phase singular tol (fir_of (of_reals b)) L c y ax Hs (designed_linear_phase _ _ _ _ _ _ _ _ _ He Hd) Hy Hm k Hk).
  destruct (C160_designed_shape _ _ _ _ _ _ _ _ _ He Hd) as (Lb & _ & _).
  cbn [fb fir_of]. unfold of_reals. rewrite map_length, Lb, plus_INR. cbn [INR]. field.
Qed.
Print Assumptions C160_designed_delay.

(** The complement at frequency f is the plain design at 1 - f, moved by the Nyquist
    frequency: one is accepted exactly when the other is. *)
Theorem C160_complement_mirrors i0 eps style f (n : nat) count gain : 0 < eps ->
  fir_designed i0 eps style f (Z.of_nat n) count true gain =
    match fir_designed i0 eps style (1 - f) (Z.of_nat n) count false gain with
    | Ok b => Ok (signs b) | Err e => Err e end /\
  forall b w, fir_at (of_reals (signs b)) w = fir_at (of_reals b) (w - PI).
Proof.
  intros He. split.
  - unfold fir_designed, fir_design. destruct (negb _); [reflexivity|].
    assert (Q : (Rleb f 0 || Rleb 1 f)%bool = (Rleb (1 - f) 0 || Rleb 1 (1 - f))%bool).
    { rewrite orb_comm. f_equal; apply eq_true_iff_eq; rewrite !Rleb_iff; split; lra. }
    rewrite <- Q. destruct (orb _ _); [reflexivity|].
    destruct (Z.leb_spec (Z.of_nat n) 0) as [|Ho]; [reflexivity|]. destruct (Z.leb_spec count 0) as [|Hc]; [reflexivity|].
    cbv zeta.
    match goal with |- context [@fir_search ?o ?V ?a ?b ?c ?d ?e ?n ?s ?m] =>
      destruct (@fir_search o V a b c d e n s m) as [[[v m']|]|e'] eqn:Es end; [|reflexivity|reflexivity].
    destruct (search_some _ _ _ _ _ He _ _ _ _ Rlt_0_1 Es) as [Q1|(sc & Hs & Q1)]; [discriminate|]. cbn [fst] in Q1.
    destruct (firwin_shape _ _ _ _ _ Q1) as (_ & _ & S1 & _). f_equal.
    rewrite sum_alternate2, bigsum_fold, S1. apply nth_ext with (d := 0) (d' := 0).
    + rewrite !map_length, length_signs, length_alternate, map_length. reflexivity.
    + intros k _. rewrite nth_signs, !(nth_map_scale (fun c => c * gain)) by ring.
      rewrite (nth_map_scale (fun c => c / 1)) by field. rewrite nth_alternate. unfold sgn. field.
  - intros b w. unfold fir_at. rewrite pe_signs. f_equal.
    unfold cis. rewrite !cos_neg, !sin_neg, cos_minus, sin_minus, cos_PI, sin_PI.
    unfold Copp. cbn [fst snd]. f_equal; ring.
Qed.
Print Assumptions C160_complement_mirrors.

(** A symmetric filter of odd order cannot pass the Nyquist frequency, nor its complement
    zero frequency. *)
Lemma fold_snoc l x : fold_right Rplus 0 (l ++ [x]) = fold_right Rplus 0 l + x.
Proof. induction l as [|y l IH]; cbn; [ring|]. rewrite IH. ring. Qed.
Lemma fold_rev l : fold_right Rplus 0 (rev l) = fold_right Rplus 0 l.
Proof. induction l as [|y l IH]; cbn; [reflexivity|]. rewrite fold_snoc, IH. ring. Qed.
Lemma fold_opp l : fold_right Rplus 0 (map Ropp l) = - fold_right Rplus 0 l.
Proof. induction l as [|y l IH]; cbn; [ring|]. rewrite IH. ring. Qed.
Lemma odd_sum n : forall b, length b = (2 * n)%nat -> (forall k, (k < 2 * n)%nat -> nth (2 * n - 1 - k) b 0 = - nth k b 0) -> fold_right Rplus 0 b = 0.
Proof.
  intros b Lb H. assert (E : fold_right Rplus 0 b = fold_right Rplus 0 (map Ropp (rev b))).
  { f_equal. apply nth_ext with (d := 0) (d' := 0); [rewrite map_length, rev_length; reflexivity|].
    intros k Hk. rewrite (nth_map_scale Ropp) by ring. rewrite rev_nth by exact Hk. rewrite Lb in *.
    replace (2 * n - S k)%nat with (2 * n - 1 - k)%nat by lia. rewrite H by exact Hk. ring. }
  assert (F : fold_right Rplus 0 (map Ropp (rev b)) = - fold_right Rplus 0 b).
  { rewrite fold_opp, fold_rev. reflexivity. }
  lra.
Qed.

Theorem C160_odd_order_null i0 eps style f (n : nat) count (complement : bool) gain b : 0 < eps -> Nat.odd n = true ->
  fir_designed i0 eps style f (Z.of_nat n) count complement gain = Ok b ->
  fir_at (of_reals b) (if complement then 0 else PI) = RtoC 0.
Proof.
  intros He Hn Hd. destruct (C160_designed_shape _ _ _ _ _ _ _ _ _ He Hd) as (Lb & S & _).
  apply Nat.odd_spec in Hn. destruct Hn as (m & ->).
  assert (P : (-1) ^ (2 * m + 1) = -1) by (rewrite pow_add, pow_1_even; ring). unfold fir_at. destruct complement.
  - rewrite cis_neg_0, pe_reals_1. f_equal. apply (odd_sum (m + 1)); [lia|]. intros k Hk.
    replace (2 * (m + 1) - 1 - k)%nat with (2 * m + 1 - k)%nat by lia. rewrite S by lia. rewrite P. ring.
  - rewrite cis_neg_PI, <- pe_signs, pe_reals_1. f_equal. apply (odd_sum (m + 1)); [rewrite length_signs; lia|]. intros k Hk.
    rewrite !nth_signs. replace (2 * (m + 1) - 1 - k)%nat with (2 * m + 1 - k)%nat by lia.
    rewrite S, pow_m1_flip by lia. rewrite P. ring.
Qed.
Print Assumptions C160_odd_order_null.

(** The bank that PolyphaseRateFilter builds from such a filter (polyphase_rate_filter.py:126-131)
    is its own image under exchanging the order of the phases and of the taps. *)
Lemma fold_left_right l : forall a, fold_left Rplus l a = a + fold_right Rplus 0 l.
Proof. induction l as [|x l IH]; intros a; cbn; [ring|]. rewrite IH. ring. Qed.
Lemma fold_seq_flip (g : nat -> R) n : fold_right Rplus 0 (map g (seq 0 n)) = fold_right Rplus 0 (map (fun j => g (n - 1 - j)%nat) (seq 0 n)).
Proof.
  rewrite <- (fold_rev (map g (seq 0 n))). f_equal. apply nth_ext with (d := 0) (d' := 0).
  - rewrite rev_length, !map_length. reflexivity.
  - intros k Hk. rewrite rev_length, map_length, seq_length in Hk. rewrite rev_nth by (rewrite map_length, seq_length; exact Hk).
    rewrite map_length, seq_length. rewrite !nth_map_seq by lia. f_equal. lia.
Qed.

Theorem C160_polyphase_bank_symmetric i0 eps f (rr cc : nat) count gain h (B0 : list (list R)) :
  0 < eps -> (0 < rr)%nat -> (0 < cc)%nat -> Forall (Forall (fun v => v = 0)) B0 ->
  fir_designed i0 eps "Hann" f (Z.of_nat (cc * rr - 1)) count false gain = Ok h ->
  let B : list (list R) := @bank_init RO rr cc B0 h in
  forall i j, (i < rr)%nat -> (j < cc)%nat ->
    nth (cc - 1 - j) (nth (rr - 1 - i) B []) 0 = nth j (nth i B []) 0.
Proof.
  intros He Hr Hc HB Hd B i j Hi Hj. destruct (C160_designed_shape _ _ _ _ _ _ _ _ _ He Hd) as (_ & S & _).
  assert (HS : forall i j, (i < rr)%nat -> (j < cc)%nat -> nth (rr - 1 - i + rr * (cc - 1 - j)) h 0 = nth (i + rr * j) h 0).
  { intros i' j' Hi' Hj'. transitivity (1 * nth (i' + rr * j') h 0); [|ring]. rewrite <- (S (i' + rr * j')%nat) by nia. f_equal. nia. }
  assert (EB : B = map (@bank_row RO rr cc h) (seq 0 rr)).
  { unfold B, bank_init. replace (existsb _ B0) with false; [reflexivity|]. symmetry. apply not_true_iff_false. intros Q.
    apply existsb_exists in Q. destruct Q as (row & Hrow & Q). apply existsb_exists in Q. destruct Q as (v & Hv & Q).
    rewrite Forall_forall in HB. specialize (HB row Hrow). rewrite Forall_forall in HB. specialize (HB v Hv).
    subst v. change (negb (Reqb 0 0) = true) in Q. rewrite (proj2 (Reqb_iff 0 0) eq_refl) in Q. discriminate. }
  assert (En : forall i, (i < rr)%nat -> nth i B [] = @bank_row RO rr cc h i).
  { intros i' Hi'. rewrite EB. rewrite (nth_indep _ [] (@bank_row RO rr cc h 0)) by (rewrite map_length, seq_length; exact Hi').
    rewrite (map_nth (@bank_row RO rr cc h)), seq_nth by exact Hi'. reflexivity. }
  rewrite !En by lia. unfold bank_row.
  set (s := fun k => fold_left (@add RO) (map (fun j0 => nth (k + rr * j0) h (@zero RO)) (seq 0 cc)) (@zero RO)).
  assert (Es : s (rr - 1 - i)%nat = s i).
  { unfold s. change (@add RO) with Rplus. change (@zero RO) with 0. rewrite !fold_left_right. f_equal.
    rewrite fold_seq_flip. f_equal. apply map_ext_in. intros k Hk. apply in_seq in Hk. apply HS; lia. }
  assert (Er : forall k j, (j < cc)%nat -> nth j (map (fun v => @div RO v (s k)) (map (fun j0 => nth (k + rr * j0) h (@zero RO)) (seq 0 cc))) 0 = nth (k + rr * j) h 0 / s k).
  { intros k j' Hj'. rewrite map_map. exact (nth_map_seq (fun x => nth (k + rr * x) h 0 / s k) cc j' Hj'). }
  etransitivity; [apply (Er (rr - 1 - i)%nat (cc - 1 - j)%nat); lia|]. etransitivity; [|symmetry; apply (Er i j Hj)].
  rewrite Es, HS by assumption. reflexivity.
Qed.
Print Assumptions C160_polyphase_bank_symmetric.

(** ** Small orders *)
Definition admissible (style : string) (f : R) (count : Z) : Prop :=
  In (py_title style) fir_STYLE /\ 0 < f < 1 /\ (0 < count)%Z.

Lemma designed_constant i0 eps style f (n : nat) count (complement : bool) gain v : 0 < eps < 1 -> (0 < n)%nat ->
  admissible style f count ->
  (forall c, 0 < c < 1 -> firwin i0 (n + 1) c (py_lower (py_title style)) = Some v) ->
  fir_designed i0 eps style f (Z.of_nat n) count complement gain = Ok (map (fun c => c * gain) (if complement then signs v else v)).
Proof.
  intros He Hn (Hs & Hf & Hc) Hv.
  destruct (fir_designed i0 eps style f (Z.of_nat n) count complement gain) as [b|e] eqn:E.
  - destruct (designed_ok _ _ _ _ _ _ _ _ _ (proj1 He) E) as (sc & w & Hsc & Hw & _ & ->).
    rewrite Nat2Z.id in Hw. destruct (firwin_shape _ _ _ _ _ Hw) as (Hr & _).
    rewrite Hv in Hw by exact Hr. injection Hw as Hw. rewrite Hw. reflexivity.
  - exfalso. revert E. unfold fir_designed, fir_design.
    assert (Em : mem_str (py_title style) fir_STYLE = true).
    { unfold mem_str. apply existsb_exists. exists (py_title style). split; [exact Hs|apply String.eqb_refl]. }
    rewrite Em. cbn [negb].
    destruct (Rleb f 0) eqn:E1; [apply Rleb_iff in E1; lra|]. destruct (Rleb 1 f) eqn:E2; [apply Rleb_iff in E2; lra|]. cbn [orb].
    destruct (Z.leb_spec (Z.of_nat n) 0); [lia|]. destruct (Z.leb_spec count 0); [lia|]. cbv zeta.
    assert (Hcand : forall sc, 0 < sc -> firwin i0 (Z.to_nat (Z.of_nat n) + 1)
      (Rmin (sc * (if complement then 1 - f else f)) (1 - eps)) (py_lower (py_title style)) <> None).
    { intros sc Hsc. rewrite Nat2Z.id, Hv; [discriminate|].
      assert (0 < sc * (if complement then 1 - f else f)) by (apply Rmult_lt_0_compat; [exact Hsc|destruct complement; lra]).
      split; [apply Rmin_glb_lt; lra|]. apply Rle_lt_trans with (1 - eps); [apply Rmin_r|lra]. }
    match goal with |- context [@fir_search ?o ?V ?a ?b ?c ?d ?e ?n ?s ?m] =>
      destruct (@fir_search o V a b c d e n s m) as [best|e'] eqn:Es end;
    destruct (search_result _ _ _ _ _ (proj1 He) _ _ _ _ Rlt_0_1 (or_introl (Nat.neq_succ_0 499)) Es) as [(Q1 & sc & Hsc & Q)|(w & Ew)];
      try discriminate.
    + injection Ew as Ew. rewrite Ew. destruct w. discriminate.
    + exfalso. exact (Hcand sc Hsc Q).
Qed.

Lemma designed_rejected i0 eps style f (n : nat) count (complement : bool) gain : 0 < eps ->
  (forall c, firwin i0 (n + 1) c (py_lower (py_title style)) = None) ->
  fir_designed i0 eps style f (Z.of_nat n) count complement gain = Err ValueError.
Proof.
  intros He Hv. unfold fir_designed, fir_design. destruct (negb _); [reflexivity|]. destruct (orb _ _); [reflexivity|].
  destruct (Z.leb_spec (Z.of_nat n) 0); [reflexivity|]. destruct (Z.leb_spec count 0); [reflexivity|]. cbv zeta.
  match goal with |- context [@fir_search ?o ?V ?a ?b ?c ?d ?e ?n ?s ?m] =>
    destruct (@fir_search o V a b c d e n s m) as [best|e'] eqn:Es end;
  pose proof (search_fail _ _ _ _ _ _ _ _ _ (Nat.neq_succ_0 499) Es) as Q; cbv beta in Q;
  rewrite Nat2Z.id in Q; specialize (Q (Hv _)); [discriminate|]. injection Q as Q. rewrite Q. reflexivity.
Qed.

Lemma sinc_pos x : -1 < x < 1 -> 0 < sinc x.
Proof.
  assert (G : forall x, 0 < x < 1 -> 0 < sinc x).
  { intros y Hy. unfold sinc. destruct (Reqb y 0) eqn:E; [apply Reqb_iff in E; lra|]. pose proof PI_RGT_0.
    apply Rdiv_lt_0_compat; [apply sin_gt_0; nra|nra]. }
  intros H. destruct (Rtotal_order x 0) as [Q|[Q|Q]].
  - rewrite <- sinc_even. apply G. lra.
  - subst x. unfold sinc. rewrite (proj2 (Reqb_iff 0 0) eq_refl). lra.
  - apply G. lra.
Qed.

Lemma cosine_ends a b M : (2 <= M)%nat -> cosine_sum [a; b] M 0 = a - b.
Proof.
  intros H. unfold cosine_sum. cbn [length seq combine map fold_right fst snd INR].
  replace (0 * (- PI + 0 * (2 * PI / INR (M - 1)))) with 0 by ring.
  replace (1 * (- PI + 0 * (2 * PI / INR (M - 1)))) with (- PI) by ring.
  rewrite cos_0, cos_neg, cos_PI. ring.
Qed.
Lemma cosine_ends3 a b c M : (2 <= M)%nat -> cosine_sum [a; b; c] M 0 = a - b + c.
Proof.
  intros H. unfold cosine_sum. cbn [length seq combine map fold_right fst snd INR].
  replace (0 * (- PI + 0 * (2 * PI / INR (M - 1)))) with 0 by ring.
  replace (1 * (- PI + 0 * (2 * PI / INR (M - 1)))) with (- PI) by ring.
  replace ((1 + 1) * (- PI + 0 * (2 * PI / INR (M - 1)))) with (- (2 * PI)) by ring.
  rewrite cos_0, !cos_neg, cos_PI, cos_2PI. ring.
Qed.
Lemma cosine_middle a M i : INR i = INR (M - 1) / 2 -> (2 <= M)%nat -> cosine_sum a M i = fold_right Rplus 0 a.
Proof.
  intros H HM. unfold cosine_sum. assert (INR (M - 1) <> 0) by (apply not_0_INR; lia).
  assert (E : - PI + INR i * (2 * PI / INR (M - 1)) = 0) by (rewrite H; field; assumption). rewrite E. f_equal.
  assert (G : forall l k, map (fun p : nat * R => snd p * cos (INR (fst p) * 0)) (combine (seq k (length l)) l) = l).
  { induction l as [|x l IH]; intros k; cbn [length seq combine map]; [reflexivity|]. rewrite IH. cbn [fst snd].
    rewrite Rmult_0_r, cos_0, Rmult_1_r. reflexivity. }
  apply G.
Qed.

Lemma ok2 (a b a' b' : R) : a = a' -> b = b' -> Ok [a; b] = Ok [a'; b'].
Proof. intros -> ->. reflexivity. Qed.
Lemma ok3 (a b c a' b' c' : R) : a = a' -> b = b' -> c = c' -> Ok [a; b; c] = Ok [a'; b'; c'].
Proof. intros -> -> ->. reflexivity. Qed.
Lemma some2 (a b a' b' : R) : a = a' -> b = b' -> Some [a; b] = Some [a'; b'].
Proof. intros -> ->. reflexivity. Qed.
Lemma some3 (a b c a' b' c' : R) : a = a' -> b = b' -> c = c' -> Some [a; b; c] = Some [a'; b'; c'].
Proof. intros -> -> ->. reflexivity. Qed.

(** Windows that vanish at their ends. *)
Definition vanishing (style : string) : Prop := In (py_title style) ["Hann"; "Blackman"]%string.
Lemma vanishing_ends i0 style M : vanishing style -> (2 <= M)%nat -> window_point i0 (py_lower (py_title style)) M 0 = 0.
Proof.
  intros [<-|[<-|[]]] HM; unfold window_point; destruct (Nat.leb_spec M 1); try lia.
  - change (String.eqb (py_lower "Hann") "kaiser") with false. change (String.eqb (py_lower "Hann") "hann") with true. cbv iota.
    rewrite cosine_ends by exact HM. lra.
  - change (String.eqb (py_lower "Blackman") "kaiser") with false. change (String.eqb (py_lower "Blackman") "hann") with false.
    change (String.eqb (py_lower "Blackman") "hamming") with false. cbv iota. rewrite cosine_ends3 by exact HM. lra.
Qed.
Lemma vanishing_middle i0 style M i : vanishing style -> INR i = INR (M - 1) / 2 -> (2 <= M)%nat -> window_point i0 (py_lower (py_title style)) M i = 1.
Proof.
  intros [<-|[<-|[]]] Hi HM; unfold window_point; destruct (Nat.leb_spec M 1); try lia.
  - change (String.eqb (py_lower "Hann") "kaiser") with false. change (String.eqb (py_lower "Hann") "hann") with true. cbv iota.
    rewrite cosine_middle by assumption. cbn. lra.
  - change (String.eqb (py_lower "Blackman") "kaiser") with false. change (String.eqb (py_lower "Blackman") "hann") with false.
    change (String.eqb (py_lower "Blackman") "hamming") with false. cbv iota. rewrite cosine_middle by assumption. cbn. lra.
Qed.

(** Order 1 with a Hann or Blackman window is always rejected; the windows that do not vanish
    at their ends give the mean of two samples (complement: half their difference), whatever
    the frequency is. *)
Theorem C160_order_one i0 eps style f count (complement : bool) gain : 0 < eps < 1 ->
  (vanishing style -> fir_designed i0 eps style f 1 count complement gain = Err ValueError) /\
  (admissible style f count -> ~ vanishing style -> i0 0 <> 0 -> i0 7 <> 0 ->
   fir_designed i0 eps style f 1 count complement gain = Ok [gain / 2; if complement then - (gain / 2) else gain / 2]).
Proof.
  intros He.
  assert (T : forall c, tap i0 2 c (py_lower (py_title style)) 1 = tap i0 2 c (py_lower (py_title style)) 0).
  { intros c. apply (tap_flip i0 2 c _ 0). lia. }
  split.
  - intros Hv. apply (designed_rejected i0 eps style f 1); [lra|]. intros c. unfold firwin.
    destruct (orb _ _); [reflexivity|]. cbn [Nat.add seq map fold_right]. rewrite T.
    replace (tap i0 2 c (py_lower (py_title style)) 0) with 0 by (unfold tap; rewrite vanishing_ends by (assumption || lia); ring).
    rewrite (proj2 (Reqb_iff _ 0)) by ring. reflexivity.
  - intros Ha Hv H0 H7.
    change 1%Z with (Z.of_nat 1). rewrite (designed_constant i0 eps style f 1 count complement gain [1 / 2; 1 / 2] He ltac:(lia) Ha).
    + destruct complement; unfold signs; cbn [length seq map nth pow]; apply ok2; field.
    + intros c Hc. unfold firwin. destruct (Rleb c 0) eqn:E1; [apply Rleb_iff in E1; lra|]. destruct (Rleb 1 c) eqn:E2; [apply Rleb_iff in E2; lra|].
      cbn [orb Nat.add seq map fold_right]. rewrite T. set (t := tap i0 2 c (py_lower (py_title style)) 0).
      assert (Ht : t <> 0).
      { unfold t, tap. assert (W : window_point i0 (py_lower (py_title style)) 2 0 <> 0).
        { destruct Ha as (Hs & _). cbn in Hs. unfold vanishing in Hv. destruct Hs as [Q|[Q|[Q|[Q|[]]]]]; rewrite <- Q in *.
          - exfalso. apply Hv. cbn. tauto.
          - unfold window_point. change (String.eqb (py_lower "Hamming") "kaiser") with false. change (String.eqb (py_lower "Hamming") "hann") with false.
            change (String.eqb (py_lower "Hamming") "hamming") with true. cbn [Nat.leb]. rewrite cosine_ends by lia. lra.
          - exfalso. apply Hv. cbn. tauto.
          - unfold window_point. change (String.eqb (py_lower "Kaiser") "kaiser") with true. cbn [Nat.leb]. unfold kaiser. cbn [Nat.sub INR].
            replace (1 - ((0 - 1 / 2) / (1 / 2)) ^ 2) with 0 by field. rewrite sqrt_0, Rmult_0_r.
            unfold Rdiv. intros Q1. apply Rmult_integral in Q1. destruct Q1 as [Q1|Q1]; [contradiction|]. apply Rinv_neq_0_compat in H7. contradiction. }
        assert (0 < sinc (c * (INR 0 - INR (2 - 1) / 2))) by (apply sinc_pos; cbn [INR Nat.sub]; lra).
        intros Q. apply Rmult_integral in Q. destruct Q as [Q|Q]; [|contradiction]. apply Rmult_integral in Q. lra. }
      destruct (Reqb _ 0) eqn:E3; [apply Reqb_iff in E3; lra|]. apply some2; field; lra.
Qed.
Print Assumptions C160_order_one.

(** Order 2 with a Hann or Blackman window never filters: the output is the input delayed by
    one sample (with the sign changed for a complement), whatever the frequency is. *)
Theorem C160_order_two i0 eps style f count (complement : bool) gain : 0 < eps < 1 ->
  admissible style f count -> vanishing style ->
  fir_designed i0 eps style f 2 count complement gain = Ok [0; if complement then - gain else gain; 0].
Proof.
  intros He Ha Hv. change 2%Z with (Z.of_nat 2). rewrite (designed_constant i0 eps style f 2 count complement gain [0; 1; 0] He ltac:(lia) Ha).
  - destruct complement; unfold signs; cbn [length seq map nth pow]; apply ok3; ring.
  - intros c Hc. unfold firwin. destruct (Rleb c 0) eqn:E1; [apply Rleb_iff in E1; lra|]. destruct (Rleb 1 c) eqn:E2; [apply Rleb_iff in E2; lra|].
    cbn [orb Nat.add seq map fold_right].
    assert (T0 : tap i0 3 c (py_lower (py_title style)) 0 = 0) by (unfold tap; rewrite vanishing_ends by (assumption || lia); ring).
    assert (T2 : tap i0 3 c (py_lower (py_title style)) 2 = 0) by (rewrite <- T0; apply (tap_flip i0 3 c _ 0); lia).
    assert (T1 : tap i0 3 c (py_lower (py_title style)) 1 = c).
    { unfold tap. rewrite vanishing_middle; [|exact Hv|cbn; lra|lia]. replace (c * (INR 1 - INR (3 - 1) / 2)) with 0 by (cbn; field).
      unfold sinc. rewrite (proj2 (Reqb_iff 0 0) eq_refl). ring. }
    rewrite T0, T1, T2. destruct (Reqb _ 0) eqn:E3; [apply Reqb_iff in E3; lra|].
    apply some3; field; lra.
Qed.
Print Assumptions C160_order_two.

(** So the search does not always find the corner: a design that is accepted need not have the
    response 2^(-1/2) at the frequency asked for, nor come near it. *)
Theorem C160_corner_refuted i0 eps f : 0 < eps < 1 -> 0 < f < 1 ->
  exists b, fir_designed i0 eps "Hann" f 2 1 false 1 = Ok b /\
    forall w, Cmod (fir_at (of_reals b) w) = 1.
Proof.
  intros He Hf. exists [0; 1; 0]. split.
  - apply (C160_order_two i0 eps "Hann" f 1 false 1 He); [|left; reflexivity].
    split; [cbn; tauto|]. split; [exact Hf|lia].
  - intros w. unfold fir_at, of_reals. cbn [map pe].
    replace (RtoC 0 + cis (- w) * (RtoC 1 + cis (- w) * (RtoC 0 + cis (- w) * 0)))%C with (cis (- w)) by ring.
    apply Cmod_cis.
Qed.
Print Assumptions C160_corner_refuted.

(** A bank of three phases with one tap, from a Hann design of order 2. *)
Example C160_bank_example : fir_designed exp (1 / 1000) "Hann" (1 / 4) (Z.of_nat (1 * 3 - 1)) 1 false 3 = Ok [0; 3; 0] /\
  Forall (Forall (fun v => v = 0)) [[0]; [0]; [0]].
Proof.
  split; [|repeat constructor]. apply (C160_order_two exp (1 / 1000) "Hann" (1 / 4) 1 false 3); [lra| |left; reflexivity].
  split; [cbn; tauto|split; [lra|lia]].
Qed.

(** Witnesses: a Hamming design of order 1 and its complement. *)
Example C160_example :
  fir_designed exp (1 / 1000) "hamming" (1 / 4) (Z.of_nat 1) 1 false 3 = Ok [3 / 2; 3 / 2] /\
  fir_designed exp (1 / 1000) "hamming" (1 / 4) (Z.of_nat 1) 1 true 3 = Ok [3 / 2; - (3 / 2)] /\
  Nat.odd 1 = true /\ 0 < 1 / 1000 < 1 /\ admissible "hamming" (1 / 4) 1 /\ ~ vanishing "hamming" /\
  admissible "hann" (1 / 4) 1 /\ vanishing "hann".
Proof.
  assert (He : 0 < 1 / 1000 < 1) by lra.
  assert (Ha : forall s, In (py_title s) fir_STYLE -> admissible s (1 / 4) 1) by (intros s Hs; split; [exact Hs|split; [lra|lia]]).
  assert (A : admissible "hamming" (1 / 4) 1) by (apply Ha; cbn; tauto).
  assert (V : ~ vanishing "hamming") by (intros [Q|[Q|[]]]; discriminate).
  assert (P : forall x, exp x <> 0) by (intros x; pose proof (exp_pos x); lra).
  change (Z.of_nat 1) with 1%Z.
  destruct (C160_order_one exp _ "hamming" (1 / 4) 1 false 3 He) as (_ & H1).
  destruct (C160_order_one exp _ "hamming" (1 / 4) 1 true 3 He) as (_ & H2).
  rewrite (H1 A V (P 0) (P 7)), (H2 A V (P 0) (P 7)).
  repeat split; try lra; try (cbn; tauto); try lia; try exact V.
Qed.
