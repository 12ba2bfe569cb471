(** Property C192: which samples a wavelet coefficient depends on, and which coefficients a
    restored sample depends on, in any arithmetic and at any number of levels; in doubles a
    NaN spoils exactly these. *)
From Flocq Require Import Core BinarySingleNaN PrimFloat.
From Coq Require Import List Arith ZArith Lia Bool String Floats.
From Verif Require Import Base BaseLemmas PyString Instances CalculusModel FirModel FirSpec FirProofs WaveletModel WaveletProofs WaveletProps
  DoubleSpec DoubleProofs.
Import ListNotations.
Set Asymmetric Patterns.
Close Scope R_scope. Close Scope Z_scope. Close Scope string_scope. Open Scope nat_scope.

(** ** Specification *)
(** Index [p] of a transform of length [n] with [count] levels holds number [k] of level [L]:
    the details of level L start at n / 2^L, the approximations of the last level at 0. *)
Definition place (n count L k p : nat) : Prop :=
  1 <= L <= count /\ k < n / 2 ^ L /\ (p = n / 2 ^ L + k \/ (L = count /\ p = k)).
(** The samples that number [k] of level [L] looks at, for order + 1 taps. *)
Definition looks_at (order L k i : nat) : Prop :=
  2 ^ L * k <= i + (2 ^ L - 1) * (order - 1) /\ i < 2 ^ L * (k + 1).
(** The samples that are restored from number [k] of level [L]. *)
Definition reaches (order L k i : nat) : Prop :=
  2 ^ L * k <= i <= 2 ^ L * k + (2 ^ L - 1) * order.

Lemma place_all n count p : n mod 2 ^ count = 0 -> p < n -> 0 < count -> exists L k, place n count L k p.
Proof.
  revert n p. induction count as [|c IH]; intros n p Hn Hp Hc; [lia|].
  assert (E : n = 2 * (n / 2)).
  { rewrite Nat.pow_succ_r' in Hn. pose proof (Nat.div_mod n (2 * 2 ^ c)) as D. pose proof (Nat.pow_nonzero 2 c).
    rewrite Hn in D. assert (H1 : n = 2 * (2 ^ c * (n / (2 * 2 ^ c)))) by lia. rewrite H1 at 2. rewrite (Nat.mul_comm 2 (_ * _)), Nat.div_mul; lia. }
  destruct (le_lt_dec (n / 2) p) as [H|H].
  - exists 1, (p - n / 2). unfold place. change (2 ^ 1) with 2. lia.
  - destruct c as [|c].
    + exists 1, p. unfold place. change (2 ^ 1) with 2. lia.
    + destruct (IH (n / 2) p) as (L & k & H1 & H2 & H3); [|exact H|lia|].
      * rewrite E in Hn. rewrite Nat.pow_succ_r' in Hn. rewrite Nat.mul_mod_distr_l in Hn; [lia|apply Nat.pow_nonzero; lia|lia].
      * exists (S L), k. rewrite Nat.div_div in * by (try apply Nat.pow_nonzero; lia). unfold place. rewrite Nat.pow_succ_r'. lia.
Qed.

Section Local.
  Context {A : Arith}.
  Implicit Types x y b : list A.

  Lemma zf_local b x x' n : n < length x -> n < length x' ->
    (forall i, i <= n -> n < i + length b -> nth i x zero = nth i x' zero) -> nth n (zf b x) zero = nth n (zf b x') zero.
  Proof.
    intros H1 H2 H. unfold zf. rewrite !nth_fir_ys by assumption. f_equal. f_equal.
    rewrite !fir_window by (assumption || apply repeat_length). apply map_ext_in. intros k Hk. apply in_seq in Hk.
    unfold sig. destruct (Z.ltb_spec (Z.of_nat n - Z.of_nat k) 0); [reflexivity|].
    rewrite !(nth_map_lt (cast DFloat) _ _ zero zero) by lia. f_equal. apply H; lia.
  Qed.

  Lemma pa_low dt b0 b1 x h j : length x = 2 * h -> j < h -> nth j (pure_analysis dt b0 b1 x) zero = cast dt (nth (2 * j + 1) (zf b0 x) zero).
  Proof.
    intros Hx Hj. assert (E : length (every2 (tl (zf b0 x))) = h) by (apply odds_length; rewrite zf_length; exact Hx).
    unfold pure_analysis. rewrite app_nth1 by (rewrite map_length; lia). rewrite (nth_map_lt (cast dt) _ _ zero zero) by lia.
    rewrite every2_nth, tl_nth. do 2 f_equal. lia.
  Qed.
  Lemma pa_high dt b0 b1 x h j : length x = 2 * h -> j < h -> nth (h + j) (pure_analysis dt b0 b1 x) zero = cast dt (nth (2 * j + 1) (zf b1 x) zero).
  Proof.
    intros Hx Hj. assert (E : length (every2 (tl (zf b0 x))) = h) by (apply odds_length; rewrite zf_length; exact Hx).
    assert (E1 : length (every2 (tl (zf b1 x))) = h) by (apply odds_length; rewrite zf_length; exact Hx).
    unfold pure_analysis. rewrite app_nth2 by (rewrite map_length; lia). rewrite map_length, E. replace (h + j - h) with j by lia.
    rewrite (nth_map_lt (cast dt) _ _ zero zero) by lia. rewrite every2_nth, tl_nth. do 2 f_equal. lia.
  Qed.
  Lemma up_local (u v : list A) j m : j < 2 * length u -> length v = length u -> m = j / 2 -> nth m u zero = nth m v zero ->
    nth j (upsample u) zero = nth j (upsample v) zero.
  Proof.
    intros Hj Hl Hm H. destruct (Nat.Even_or_Odd j) as [[i ->]|[i ->]].
    - rewrite Nat.mul_comm, Nat.div_mul in Hm by lia. subst m. rewrite !upsample_even by lia. f_equal. exact H.
    - rewrite !upsample_odd. reflexivity.
  Qed.
  (** Sample m of one level of synthesis. *)
  Lemma ps_nth dt b0 b1 y h m : length y = 2 * h -> m < 2 * h ->
    nth m (pure_synthesis dt b0 b1 y) zero =
    cast dt (add (add zero (mul (add one one) (nth m (zf b0 (upsample (firstn h y))) zero)))
                 (mul (add one one) (nth m (zf b1 (upsample (firstn h (skipn h y)))) zero))).
  Proof.
    intros Hy Hm. unfold pure_synthesis. rewrite Hy. replace (2 * h / 2) with h by (rewrite Nat.mul_comm, Nat.div_mul; lia).
    assert (L0 : length (zf b0 (upsample (firstn h y))) = 2 * h) by (rewrite zf_length, upsample_length, firstn_length; lia).
    assert (L1 : length (zf b1 (upsample (firstn h (skipn h y)))) = 2 * h) by (rewrite zf_length, upsample_length, firstn_length, skipn_length; lia).
    assert (LZ : length (zeros (2 * h) : list A) = 2 * h) by apply repeat_length.
    rewrite (nth_map_lt (cast dt) _ _ zero zero) by (rewrite !length_map2, !map_length; lia). f_equal.
    rewrite (nth_map2 add _ _ m zero zero zero) by (rewrite ?length_map2, ?map_length; lia).
    rewrite (nth_map2 add _ _ m zero zero zero) by (rewrite ?length_map2, ?map_length; lia).
    rewrite !(nth_map_lt (mul (add one one)) _ _ zero zero) by lia. f_equal. f_equal. unfold zeros. apply nth_repeat_lt. exact Hm.
  Qed.

  (** One more level around k levels. *)
  Lemma half_twice h : half (2 * S h) = S h.
  Proof. unfold half. rewrite Nat.mul_comm, Nat.div_mul by lia. apply Nat.max_l. lia. Qed.
  Lemma pureA_step (f : list A -> list A) k x h : keeps_len f -> adm k (S h) -> length x = 2 * S h ->
    exists u, pureA f k 1 (S h) [firstn (S h) (f x)] = [u] /\ length u = S h /\
      pureA f (S k) 1 (2 * S h) [x] = [u ++ skipn (S h) (f x)].
  Proof.
    intros Hf Ha Hx. assert (Hfx : length (f x) = 2 * S h) by (apply Hf, Hx).
    assert (W : wf 1 (S h) (pureA f k 1 (S h) [firstn (S h) (f x)])).
    { apply pureA_wf; [exact Hf|left; reflexivity|exact Ha|]. split; [reflexivity|]. repeat constructor. rewrite firstn_length. lia. }
    destruct W as [W1 W2]. destruct (pureA f k 1 (S h) [firstn (S h) (f x)]) as [|u [|]] eqn:E; try discriminate W1.
    exists u. split; [reflexivity|]. split; [inversion W2; assumption|].
    cbn [pureA]. rewrite half_twice. change (half 1) with 1. unfold cols_if. change (Nat.ltb 1 1) with false. cbv iota.
    unfold rows_if. destruct (Nat.ltb_spec 1 (2 * S h)); [|lia].
    change (block 1 (S h) (map f [x])) with [firstn (S h) (f x)]. rewrite E. reflexivity.
  Qed.
  Lemma pureS_step (f : list A -> list A) k y h : keeps_len f -> adm k (S h) -> length y = 2 * S h ->
    exists u, pureS f k 1 (S h) [firstn (S h) y] = [u] /\ length u = S h /\
      pureS f (S k) 1 (2 * S h) [y] = [f (u ++ skipn (S h) y)].
  Proof.
    intros Hf Ha Hx.
    assert (W : wf 1 (S h) (pureS f k 1 (S h) [firstn (S h) y])).
    { apply pureS_wf; [exact Hf|left; reflexivity|exact Ha|]. split; [reflexivity|]. repeat constructor. rewrite firstn_length. lia. }
    destruct W as [W1 W2]. destruct (pureS f k 1 (S h) [firstn (S h) y]) as [|u [|]] eqn:E; try discriminate W1.
    exists u. split; [reflexivity|]. split; [inversion W2; assumption|].
    cbn [pureS]. rewrite half_twice. change (half 1) with 1. unfold cols_if. change (Nat.ltb 1 1) with false. cbv iota.
    unfold rows_if. destruct (Nat.ltb_spec 1 (2 * S h)); [|lia].
    change (block 1 (S h) [y]) with [firstn (S h) y]. rewrite E. reflexivity.
  Qed.
End Local.

Lemma mod_half k h : (2 * S h) mod 2 ^ S k = 0 -> S h mod 2 ^ k = 0.
Proof. rewrite Nat.pow_succ_r', Nat.mul_mod_distr_l by (try apply Nat.pow_nonzero; lia). lia. Qed.
Lemma even_length n k : n <> 0 -> n mod 2 ^ S k = 0 -> exists h, n = 2 * S h.
Proof.
  intros H0 H. rewrite Nat.pow_succ_r' in H. pose proof (Nat.div_mod n (2 * 2 ^ k)) as D. pose proof (Nat.pow_nonzero 2 k).
  rewrite H in D. exists (2 ^ k * (n / (2 * 2 ^ k)) - 1). lia.
Qed.
Lemma div_twice h L : 2 * h / 2 ^ S L = h / 2 ^ L.
Proof. rewrite Nat.pow_succ_r', <- Nat.div_div by (try apply Nat.pow_nonzero; lia). rewrite (Nat.mul_comm 2 h), Nat.div_mul by lia. reflexivity. Qed.
(** A place of the inner transform is a place of the outer one. *)
Lemma place_inner h count L k p : place (2 * h) (S count) (S L) k p -> 1 <= L -> place h count L k p.
Proof. unfold place. rewrite div_twice. lia. Qed.
Lemma place_outer h count L k p : place h count L k p -> place (2 * h) (S count) (S L) k p.
Proof. unfold place. rewrite div_twice. lia. Qed.
Lemma place_first h count k p : place (2 * h) (S count) 1 k p -> k < h /\ (p = h + k \/ (count = 0 /\ p = k)).
Proof. unfold place. change (2 ^ 1) with 2. rewrite (Nat.mul_comm 2 h), Nat.div_mul; lia. Qed.
Lemma place_below h count L k p : place h count L k p -> p < h.
Proof.
  intros (H1 & H2 & H3). assert (2 * (h / 2 ^ L) <= h); [|lia].
  destruct L as [|L]; [lia|]. rewrite Nat.pow_succ_r' in *. rewrite <- Nat.div_div in * by (try apply Nat.pow_nonzero; lia).
  etransitivity; [|apply (Nat.mul_div_le h 2); lia]. apply Nat.mul_le_mono_l, Nat.div_le_upper_bound; [apply Nat.pow_nonzero; lia|].
  pose proof (Nat.pow_nonzero 2 L). nia.
Qed.
Lemma looks_step N L k j i : 1 <= N -> looks_at N L k j -> i <= 2 * j + 1 -> 2 * j + 1 <= i + N -> looks_at N (S L) k i.
Proof.
  unfold looks_at. rewrite Nat.pow_succ_r'. pose proof (Nat.pow_nonzero 2 L ltac:(lia)). intros HN [H1 H2] H3 H4.
  destruct (2 ^ L) as [|e]; [lia|]. replace (S e - 1) with e in * by lia. replace (2 * S e - 1) with (2 * e + 1) by lia.
  destruct N as [|N]; [lia|]. replace (S N - 1) with N in * by lia. nia.
Qed.
Lemma looks_first N k i : looks_at N 1 k i <-> 2 * k + 1 <= i + N /\ i <= 2 * k + 1 \/ (N = 0 /\ (i = 2 * k \/ i = 2 * k + 1)).
Proof. unfold looks_at. change (2 ^ 1) with 2. lia. Qed.
(** Every sample looked at is looked at through some number of the level below. *)
Lemma looks_split N L k i : 1 <= N -> looks_at N (S L) k i -> exists j, looks_at N L k j /\ i <= 2 * j + 1 /\ 2 * j + 1 <= i + N.
Proof.
  unfold looks_at. rewrite Nat.pow_succ_r'. pose proof (Nat.pow_nonzero 2 L ltac:(lia)) as He. intros HN [H1 H2].
  destruct (2 ^ L) as [|e]; [lia|]. replace (S e - 1) with e in * by lia. replace (2 * S e - 1) with (2 * e + 1) in * by lia.
  destruct N as [|N]; [lia|]. replace (S N - 1) with N in * by lia.
  (* the largest j whose window contains i, but not past the last one *)
  destruct (le_lt_dec (S e * (k + 1)) ((i + N) / 2)) as [C|C].
  - exists (S e * (k + 1) - 1). pose proof (Nat.mul_div_le (i + N) 2). repeat split; nia.
  - exists ((i + N) / 2). pose proof (Nat.mul_div_le (i + N) 2). pose proof (Nat.mul_succ_div_gt (i + N) 2).
    repeat split; lia.
Qed.
Lemma reaches_step N L k j i : reaches N L k j -> 2 * j <= i <= 2 * j + N -> reaches N (S L) k i.
Proof.
  unfold reaches. rewrite Nat.pow_succ_r'. pose proof (Nat.pow_nonzero 2 L ltac:(lia)) as He. intros [H1 H2] H3.
  destruct (2 ^ L) as [|e]; [lia|]. replace (S e - 1) with e in * by lia. replace (2 * S e - 1) with (2 * e + 1) by lia. nia.
Qed.
Lemma reaches_split N L k i : 1 <= N -> reaches N (S L) k i -> exists j, reaches N L k j /\ 2 * j <= i <= 2 * j + N.
Proof.
  unfold reaches. rewrite Nat.pow_succ_r'. pose proof (Nat.pow_nonzero 2 L ltac:(lia)) as He. intros HN [H1 H2].
  destruct (2 ^ L) as [|e]; [lia|]. replace (S e - 1) with e in * by lia. replace (2 * S e - 1) with (2 * e + 1) in * by lia.
  destruct (le_lt_dec (i / 2) (S e * k + e * N)) as [C|C].
  - exists (i / 2). pose proof (Nat.mul_div_le i 2). pose proof (Nat.mul_succ_div_gt i 2). repeat split; nia.
  - exists (S e * k + e * N). pose proof (Nat.mul_div_le i 2). repeat split; nia.
Qed.

(** ** All levels, any arithmetic *)
Section Levels.
  Context {A : Arith}.
  Context (dt : dtype) (N : nat) (b0 b1 : list A) (HN : 1 <= N) (L0 : length b0 = S N) (L1 : length b1 = S N).

  Lemma level_low x x' h j : length x = 2 * h -> length x' = 2 * h -> j < h ->
    (forall i, i <= 2 * j + 1 -> 2 * j + 1 <= i + N -> nth i x zero = nth i x' zero) ->
    nth j (pure_analysis dt b0 b1 x) zero = nth j (pure_analysis dt b0 b1 x') zero.
  Proof. intros Hx Hx' Hj H. rewrite !(pa_low dt b0 b1 _ h) by assumption. f_equal. apply zf_local; [lia..|]. intros i H1 H2. apply H; lia. Qed.
  Lemma level_high x x' h j : length x = 2 * h -> length x' = 2 * h -> j < h ->
    (forall i, i <= 2 * j + 1 -> 2 * j + 1 <= i + N -> nth i x zero = nth i x' zero) ->
    nth (h + j) (pure_analysis dt b0 b1 x) zero = nth (h + j) (pure_analysis dt b0 b1 x') zero.
  Proof. intros Hx Hx' Hj H. rewrite !(pa_high dt b0 b1 _ h) by assumption. f_equal. apply zf_local; [lia..|]. intros i H1 H2. apply H; lia. Qed.

  Lemma forward_local : forall count n (x x' : list A), length x = n -> length x' = n -> n <> 0 -> n mod 2 ^ count = 0 ->
    exists u u', pureA (pure_analysis dt b0 b1) count 1 n [x] = [u] /\ pureA (pure_analysis dt b0 b1) count 1 n [x'] = [u'] /\
      forall L k p, place n count L k p -> (forall i, i < n -> looks_at N L k i -> nth i x zero = nth i x' zero) -> nth p u zero = nth p u' zero.
  Proof.
    induction count as [|c IH]; intros n x x' Hx Hx' H0 Hn.
    - exists x, x'. split; [reflexivity|]. split; [reflexivity|]. intros L k p [P _]. lia.
    - destruct (even_length n c H0 Hn) as (h & ->). set (f := pure_analysis dt b0 b1) in *.
      pose proof (mod_half c h Hn) as Hh. assert (Ka : adm c (S h)) by (right; split; [lia|exact Hh]).
      assert (Kf : keeps_len f) by apply keeps_analysis.
      assert (F : length (f x) = 2 * S h) by (apply Kf, Hx). assert (F' : length (f x') = 2 * S h) by (apply Kf, Hx').
      destruct (pureA_step f c x h Kf Ka Hx) as (u & E1 & E2 & E3).
      destruct (pureA_step f c x' h Kf Ka Hx') as (u' & E1' & E2' & E3').
      destruct (IH (S h) (firstn (S h) (f x)) (firstn (S h) (f x'))) as (v & v' & V1 & V2 & V3); [rewrite firstn_length; lia..|lia|exact Hh|].
      rewrite E1 in V1. rewrite E1' in V2. injection V1 as <-. injection V2 as <-.
      exists (u ++ skipn (S h) (f x)), (u' ++ skipn (S h) (f x')). split; [exact E3|]. split; [exact E3'|].
      intros L k p P H. destruct L as [|L]; [destruct P; lia|]. destruct L as [|L].
      + apply place_first in P. destruct P as [P1 P2].
        assert (H' : forall i, i <= 2 * k + 1 -> 2 * k + 1 <= i + N -> nth i x zero = nth i x' zero).
        { intros i I1 I2. apply H; [lia|]. apply looks_first. left. lia. }
        destruct P2 as [->|[-> ->]].
        * rewrite !app_nth2 by lia. rewrite E2, E2', !nth_skipn_add. replace (S h + (S h + k - S h)) with (S h + k) by lia. apply (level_high x x' (S h) k); assumption.
        * apply (f_equal (hd [])) in E1. change (firstn (S h) (f x) = u) in E1. subst u. apply (f_equal (hd [])) in E1'. change (firstn (S h) (f x') = u') in E1'. subst u'. rewrite !firstn_skipn. apply (level_low x x' (S h) k); assumption.
      + apply place_inner in P; [|lia]. pose proof (place_below _ _ _ _ _ P) as Pp. rewrite !app_nth1 by lia. apply (V3 (S L) k p P).
        intros j Hj Lj. rewrite !nth_firstn by exact Hj. apply (level_low x x' (S h) j); [assumption..|].
        intros i I1 I2. apply H; [lia|]. apply (looks_step N (S L) k j i); assumption.
  Qed.

  Lemma synth_local y y' h i : length y = 2 * h -> length y' = 2 * h -> i < 2 * h ->
    (forall j, 2 * j <= i <= 2 * j + N -> nth j y zero = nth j y' zero) ->
    (forall j, 2 * j <= i <= 2 * j + N -> nth (h + j) y zero = nth (h + j) y' zero) ->
    nth i (pure_synthesis dt b0 b1 y) zero = nth i (pure_synthesis dt b0 b1 y') zero.
  Proof.
    intros Hy Hy' Hi H1 H2. rewrite !(ps_nth dt b0 b1 _ h) by assumption. f_equal.
    assert (K : forall b (u v : list A), length b = S N -> length u = h -> length v = h ->
      (forall j, 2 * j <= i <= 2 * j + N -> nth j u zero = nth j v zero) -> nth i (zf b (upsample u)) zero = nth i (zf b (upsample v)) zero).
    { intros b u v Hb Hu Hv H. apply zf_local; [rewrite upsample_length; lia..|]. intros m M1 M2.
      destruct (Nat.Even_or_Odd m) as [[j ->]|[j ->]].
      - rewrite !upsample_even by lia. f_equal. apply H. lia.
      - rewrite !upsample_odd. reflexivity. }
    rewrite (K b0 (firstn h y) (firstn h y')); [|exact L0|rewrite firstn_length; lia..|].
    2:{ intros j Hj. rewrite !nth_firstn by lia. apply H1, Hj. }
    rewrite (K b1 (firstn h (skipn h y)) (firstn h (skipn h y'))); [reflexivity|exact L1|rewrite firstn_length, skipn_length; lia..|].
    intros j Hj. rewrite !nth_firstn, !nth_skipn_add by lia. apply H2, Hj.
  Qed.

  Lemma inverse_local : forall count n (y y' : list A), length y = n -> length y' = n -> n <> 0 -> n mod 2 ^ count = 0 -> 0 < count ->
    exists u u', pureS (pure_synthesis dt b0 b1) count 1 n [y] = [u] /\ pureS (pure_synthesis dt b0 b1) count 1 n [y'] = [u'] /\
      forall i, i < n -> (forall L k p, place n count L k p -> reaches N L k i -> nth p y zero = nth p y' zero) -> nth i u zero = nth i u' zero.
  Proof.
    induction count as [|c IH]; intros n y y' Hy Hy' H0 Hn Hc; [lia|].
    destruct (even_length n c H0 Hn) as (h & ->). set (f := pure_synthesis dt b0 b1) in *.
    pose proof (mod_half c h Hn) as Hh. assert (Ka : adm c (S h)) by (right; split; [lia|exact Hh]).
    assert (Kf : keeps_len f) by apply keeps_synthesis.
    destruct (pureS_step f c y h Kf Ka Hy) as (u & E1 & E2 & E3).
    destruct (pureS_step f c y' h Kf Ka Hy') as (u' & E1' & E2' & E3').
    exists (f (u ++ skipn (S h) y)), (f (u' ++ skipn (S h) y')). split; [exact E3|]. split; [exact E3'|].
    intros i Hi H. apply (synth_local _ _ (S h) i); [rewrite app_length, skipn_length; lia..|exact Hi| |].
    - intros j Hj. rewrite !app_nth1 by lia. destruct c as [|c].
      + apply (f_equal (hd [])) in E1. change (firstn (S h) y = u) in E1. subst u. apply (f_equal (hd [])) in E1'. change (firstn (S h) y' = u') in E1'. subst u'. rewrite !nth_firstn by lia. apply (H 1 j j); [|unfold reaches; change (2 ^ 1) with 2; lia].
        unfold place. change (2 ^ 1) with 2. rewrite (Nat.mul_comm 2 (S h)), Nat.div_mul; lia.
      + destruct (IH (S h) (firstn (S h) y) (firstn (S h) y')) as (v & v' & V1 & V2 & V3); [rewrite firstn_length; lia..|lia|exact Hh|lia|].
        rewrite E1 in V1. rewrite E1' in V2. injection V1 as <-. injection V2 as <-.
        apply V3; [lia|]. intros L k p P R. pose proof (place_below _ _ _ _ _ P). rewrite !nth_firstn by lia.
        apply (H (S L) k p); [apply place_outer, P|]. apply (reaches_step N L k j i R Hj).
    - intros j Hj. rewrite !app_nth2 by lia. rewrite E2, E2'. replace (S h + j - S h) with j by lia. rewrite !nth_skipn_add.
      apply (H 1 j (S h + j)); [|unfold reaches; change (2 ^ 1) with 2; lia].
      unfold place. change (2 ^ 1) with 2. rewrite (Nat.mul_comm 2 (S h)), Nat.div_mul; lia.
  Qed.
End Levels.

(** ** The transform *)
Lemma bank_lengths {A : Arith} style order (bk : wbank A) : wt_make style order = Ok bk ->
  1 <= Z.to_nat order /\ length (ba0 bk) = S (Z.to_nat order) /\ length (ba1 bk) = S (Z.to_nat order) /\
  length (bs0 bk) = S (Z.to_nat order) /\ length (bs1 bk) = S (Z.to_nat order).
Proof.
  intros H. destruct (wt_make_row _ _ _ H) as (r & H1 & H2). destruct (table_shape _ _ _ H1) as (T1 & T2 & T3).
  unfold wt_bank in H2. destruct (_ || _); [|discriminate]. injection H2 as <-. cbn [ba0 ba1 bs0 bs1].
  destruct (Nat.eqb _ 1); rewrite ?rev_length, ?neg_from_length, ?rev_length, ?map_length; unfold wt_row; rewrite map_length; lia.
Qed.
Lemma wt_line {A : Arith} (bk : wbank A) dt inverse count (x y : list A) : bank_ok bk -> (0 < count)%Z -> x <> [] ->
  length x mod 2 ^ Z.to_nat count = 0 -> pure_wt bk dt inverse (Z.to_nat count) 1 (length x) [x] = [y] ->
  wt_transform bk dt (ND1 x) count inverse = Ok (ND1 y).
Proof.
  intros Hb Hc Hx Hm E. unfold wt_transform. assert (Hl : length x <> 0) by (destruct x; cbn; congruence).
  destruct (Nat.eqb_spec (length x) 0); [congruence|]. destruct (Z.leb_spec count 0); [lia|].
  destruct (to_nat_pos _ Hc) as [k Hk]. rewrite Hk in *.
  rewrite (wt_mat_ok bk dt inverse Hb k 1 (length x) [x] (or_introl eq_refl)); [|right; auto|split; [reflexivity|repeat constructor]].
  cbn [bind]. rewrite E. reflexivity.
Qed.

(** Every index of a transform has a place, so the next theorems speak about all of it. *)
Theorem C192_places n count : 0 < count -> n mod 2 ^ count = 0 ->
  (forall p, p < n -> exists L k, place n count L k p) /\
  (forall L k p, place n count L k p -> p < n /\ (forall i, looks_at 1 L k i <-> k = i / 2 ^ L)).
Proof.
  intros Hc Hn. split; [intros p Hp; apply place_all; assumption|]. intros L k p P. split; [apply (place_below _ _ _ _ _ P)|].
  intros i. unfold looks_at. change (1 - 1) with 0. rewrite Nat.mul_0_r, Nat.add_0_r. pose proof (Nat.pow_nonzero 2 L ltac:(lia)) as H.
  pose proof (Nat.mul_div_le i (2 ^ L) H). pose proof (Nat.mul_succ_div_gt i (2 ^ L) H). split.
  - intros [H2 H3]. nia.
  - intros ->. nia.
Qed.
Print Assumptions C192_places.
Example C192_places_example : place 24 3 2 5 11 /\ place 24 3 3 1 1 /\ looks_at 3 2 5 14 /\ ~ looks_at 3 2 5 13 /\ looks_at 3 2 5 23 /\ ~ looks_at 3 2 5 24.
Proof. unfold place, looks_at. cbn. lia. Qed.

(** Forward: number k of level L depends on nothing but the samples it looks at.  In
    particular it does not depend on samples after 2^L (k + 1) - 1. *)
Theorem C192_forward (A : Arith) style order (bk : wbank A) dt count (x x' : list A) :
  wt_make style order = Ok bk -> (0 < count)%Z -> x <> [] -> length x' = length x -> length x mod 2 ^ Z.to_nat count = 0 ->
  exists y y', wt_transform bk dt (ND1 x) count false = Ok (ND1 y) /\ wt_transform bk dt (ND1 x') count false = Ok (ND1 y') /\
    forall L k p, place (length x) (Z.to_nat count) L k p ->
      (forall i, i < length x -> looks_at (Z.to_nat order) L k i -> nth i x zero = nth i x' zero) ->
      nth p y zero = nth p y' zero.
Proof.
  intros Hb Hc Hx Hl Hm. destruct (bank_lengths _ _ _ Hb) as (B & B0 & B1 & _ & _).
  assert (Hx0 : length x <> 0) by (destruct x; cbn; congruence).
  destruct (forward_local dt (Z.to_nat order) (ba0 bk) (ba1 bk) B B0 B1 (Z.to_nat count) (length x) x x' eq_refl Hl Hx0 Hm) as (y & y' & E & E' & H).
  exists y, y'. split; [apply wt_line; eauto using wt_make_ok|]. split; [|exact H].
  apply wt_line; [eauto using wt_make_ok|exact Hc|intros ->; cbn in Hl; congruence|rewrite Hl; exact Hm|rewrite Hl; exact E'].
Qed.
Print Assumptions C192_forward.

(** Inverse: sample i depends on nothing but the numbers that reach it. *)
Theorem C192_inverse (A : Arith) style order (bk : wbank A) dt count (y y' : list A) :
  wt_make style order = Ok bk -> (0 < count)%Z -> y <> [] -> length y' = length y -> length y mod 2 ^ Z.to_nat count = 0 ->
  exists x x', wt_transform bk dt (ND1 y) count true = Ok (ND1 x) /\ wt_transform bk dt (ND1 y') count true = Ok (ND1 x') /\
    forall i, i < length y ->
      (forall L k p, place (length y) (Z.to_nat count) L k p -> reaches (Z.to_nat order) L k i -> nth p y zero = nth p y' zero) ->
      nth i x zero = nth i x' zero.
Proof.
  intros Hb Hc Hx Hl Hm. destruct (bank_lengths _ _ _ Hb) as (B & _ & _ & B0 & B1).
  assert (Hx0 : length y <> 0) by (destruct y; cbn; congruence).
  destruct (inverse_local dt (Z.to_nat order) (bs0 bk) (bs1 bk) B B0 B1 (Z.to_nat count) (length y) y y' eq_refl Hl Hx0 Hm) as (u & u' & E & E' & H); [lia|].
  exists u, u'. split; [apply wt_line; eauto using wt_make_ok|]. split; [|exact H].
  apply wt_line; [eauto using wt_make_ok|exact Hc|intros ->; cbn in Hl; congruence|rewrite Hl; exact Hm|rewrite Hl; exact E'].
Qed.
Print Assumptions C192_inverse.

(** ** NaN in doubles *)
Section Nan.
  Context (d : list float -> list float -> float) (Hd : any_order d).
  Notation F := (FAd d).
  Context (N : nat) (b0 b1 : list F) (HN : 1 <= N) (L0 : length b0 = S N) (L1 : length b1 = S N).
  Notation bad := (fun v : F => nonnumber v).

  Lemma zf_nan (b x : list F) n i : n < length x -> i <= n -> n < i + length b -> bad (nth i x zero) -> bad (nth n (zf b x) zero).
  Proof.
    intros H1 H2 H3 H. unfold zf. rewrite nth_fir_ys by exact H1.
    rewrite (fir_window (A := F) DFloat (length b) (zeros (length b)) x n H1 (repeat_length _ _)).
    set (w := map _ (seq 0 (length b))). assert (Lw : length w = length b) by (unfold w; rewrite map_length, seq_length; reflexivity).
    change (nonnumber (d b w)). apply (dots_nan (combine b w)); [apply Hd; symmetry; exact Lw|].
    apply Exists_exists. exists (nth (n - i) (combine b w) (zero, zero)).
    split; [apply nth_In; rewrite combine_length, Lw; lia|].
    rewrite combine_nth by (symmetry; exact Lw). right. left. cbn [snd]. unfold w.
    rewrite (nth_map_lt _ _ _ 0 (zero : F)) by (rewrite seq_length; lia). rewrite seq_nth by lia. unfold sig.
    destruct (Z.ltb_spec (Z.of_nat n - Z.of_nat (0 + (n - i))) 0); [lia|].
    replace (Z.to_nat _) with i by lia. rewrite (nth_map_lt _ _ _ (zero : F) (zero : F)) by lia. exact H.
  Qed.

  Lemma forward_nan : forall count n (x : list F), length x = n -> n <> 0 -> n mod 2 ^ count = 0 ->
    exists u : list F, @pureA F (pure_analysis DFloat b0 b1) count 1 n [x] = [u] /\
      forall L k p i, place n count L k p -> i < n -> looks_at N L k i -> bad (nth i x zero) -> bad (nth p u zero).
  Proof.
    induction count as [|c IH]; intros n x Hx H0 Hn.
    - exists x. split; [reflexivity|]. intros L k p i [P _]. lia.
    - destruct (even_length n c H0 Hn) as (h & ->). set (f := pure_analysis DFloat b0 b1) in *.
      pose proof (mod_half c h Hn) as Hh. assert (Ka : adm c (S h)) by (right; split; [lia|exact Hh]).
      assert (Kf : keeps_len f) by apply keeps_analysis.
      assert (Fx : length (f x) = 2 * S h) by (apply Kf, Hx).
      destruct (pureA_step f c x h Kf Ka Hx) as (u & E1 & E2 & E3).
      destruct (IH (S h) (firstn (S h) (f x))) as (v & V1 & V3); [rewrite firstn_length; lia|lia|exact Hh|].
      rewrite E1 in V1. injection V1 as <-.
      assert (Low : forall j i, j < S h -> i < 2 * S h -> i <= 2 * j + 1 -> 2 * j + 1 <= i + N -> bad (nth i x zero) -> bad (nth j (f x) zero)).
      { intros j i J1 J2 J3 J4 B. unfold f. rewrite (pa_low DFloat b0 b1 x (S h) j Hx J1). apply (zf_nan b0 x (2 * j + 1) i); [lia..|exact B]. }
      exists (u ++ skipn (S h) (f x)). split; [exact E3|].
      intros L k p i P Hi H B. destruct L as [|L]; [destruct P; lia|]. destruct L as [|L].
      + apply place_first in P. destruct P as [P1 P2]. apply looks_first in H.
        destruct P2 as [->|[-> ->]].
        * rewrite app_nth2 by lia. rewrite E2, nth_skipn_add. replace (S h + (S h + k - S h)) with (S h + k) by lia.
          unfold f. rewrite (pa_high DFloat b0 b1 x (S h) k Hx P1). apply (zf_nan b1 x (2 * k + 1) i); [lia..|exact B].
        * apply (f_equal (hd [])) in E1. change (firstn (S h) (f x) = u) in E1. subst u. rewrite firstn_skipn. apply (Low k i); try assumption; lia.
      + apply place_inner in P; [|lia]. pose proof (place_below _ _ _ _ _ P) as Pp. rewrite app_nth1 by lia.
        destruct (looks_split N (S L) k i HN H) as (j & J1 & J2 & J3).
        assert (Hj : j < S h).
        { destruct J1 as [_ J1]. destruct P as (_ & P & _). pose proof (Nat.mul_div_le (S h) (2 ^ S L) ltac:(apply Nat.pow_nonzero; lia)). nia. }
        apply (V3 (S L) k p j P Hj J1). rewrite nth_firstn by exact Hj. apply (Low j i); assumption.
  Qed.

  Lemma synth_nan (y : list F) h i j : length y = 2 * h -> i < 2 * h -> 2 * j <= i <= 2 * j + N ->
    bad (nth j y zero) \/ bad (nth (h + j) y zero) -> bad (nth i (pure_synthesis DFloat b0 b1 y) zero).
  Proof.
    intros Hy Hi Hj B. rewrite (ps_nth DFloat b0 b1 _ h) by assumption.
    match goal with |- nonnumber (cast DFloat ?e) => change (nonnumber e) end.
    destruct B as [B|B]; apply add_nan; [left; apply add_nan; right; apply mul_nan; right|right; apply mul_nan; right];
      (apply (zf_nan _ _ i (2 * j)); [rewrite upsample_length, firstn_length, ?skipn_length; lia|lia|rewrite ?L0, ?L1; lia|]);
      rewrite upsample_even by (rewrite firstn_length, ?skipn_length; lia); rewrite nth_firstn, ?nth_skipn_add by lia; exact B.
  Qed.

  Lemma inverse_nan : forall count n (y : list F), length y = n -> n <> 0 -> n mod 2 ^ count = 0 -> 0 < count ->
    exists u : list F, @pureS F (pure_synthesis DFloat b0 b1) count 1 n [y] = [u] /\
      forall L k p i, place n count L k p -> i < n -> reaches N L k i -> bad (nth p y zero) -> bad (nth i u zero).
  Proof.
    induction count as [|c IH]; intros n y Hy H0 Hn Hc; [lia|].
    destruct (even_length n c H0 Hn) as (h & ->). set (f := pure_synthesis DFloat b0 b1) in *.
    pose proof (mod_half c h Hn) as Hh. assert (Ka : adm c (S h)) by (right; split; [lia|exact Hh]).
    assert (Kf : keeps_len f) by apply keeps_synthesis.
    destruct (pureS_step f c y h Kf Ka Hy) as (u & E1 & E2 & E3).
    exists (f (u ++ skipn (S h) y)). split; [exact E3|].
    assert (Lw : length (u ++ skipn (S h) y) = 2 * S h) by (rewrite app_length, skipn_length; lia).
    intros L k p i P Hi R B. destruct L as [|L]; [destruct P; lia|]. destruct L as [|L].
    - apply place_first in P. destruct P as [P1 P2]. unfold reaches in R. change (2 ^ 1) with 2 in R.
      apply (synth_nan _ (S h) i k Lw Hi); [lia|]. destruct P2 as [->|[-> ->]].
      + right. rewrite app_nth2 by lia. rewrite E2, nth_skipn_add. replace (S h + (S h + k - S h)) with (S h + k) by lia. exact B.
      + left. apply (f_equal (hd [])) in E1. change (firstn (S h) y = u) in E1. subst u. rewrite firstn_skipn. exact B.
    - apply place_inner in P; [|lia]. pose proof (place_below _ _ _ _ _ P) as Pp.
      destruct (reaches_split N (S L) k i HN R) as (j & J1 & J2).
      destruct (IH (S h) (firstn (S h) y)) as (v & V1 & V3); [rewrite firstn_length; lia|lia|exact Hh|destruct P; lia|].
      rewrite E1 in V1. injection V1 as <-.
      apply (synth_nan _ (S h) i j Lw Hi J2). left. rewrite app_nth1 by lia. apply (V3 (S L) k p j P); [lia|exact J1|].
      rewrite nth_firstn by lia. exact B.
  Qed.
End Nan.

(** A NaN sample makes every number that looks at it a NaN, and a NaN coefficient every
    sample it reaches; by the theorems above nothing else changes. *)
Theorem C192_nan d style order (bk : wbank (FAd d)) count (x : list float) : any_order d ->
  wt_make style order = Ok bk -> (0 < count)%Z -> x <> [] -> length x mod 2 ^ Z.to_nat count = 0 ->
  (exists y : list float, wt_transform bk DFloat (ND1 (A := FAd d) x) count false = Ok (ND1 (A := FAd d) y) /\
     forall L k p i, place (length x) (Z.to_nat count) L k p -> i < length x -> looks_at (Z.to_nat order) L k i ->
       nonnumber (nth i x 0%float) -> nonnumber (nth p y 0%float)) /\
  (exists y : list float, wt_transform bk DFloat (ND1 (A := FAd d) x) count true = Ok (ND1 (A := FAd d) y) /\
     forall L k p i, place (length x) (Z.to_nat count) L k p -> i < length x -> reaches (Z.to_nat order) L k i ->
       nonnumber (nth p x 0%float) -> nonnumber (nth i y 0%float)).
Proof.
  intros Hd Hb Hc Hx Hm. destruct (bank_lengths _ _ _ Hb) as (B & A0 & A1 & B0 & B1).
  assert (Hx0 : length x <> 0) by (destruct x; cbn; congruence). split.
  - destruct (forward_nan d Hd (Z.to_nat order) (ba0 bk) (ba1 bk) B A0 A1 (Z.to_nat count) (length x) x eq_refl Hx0 Hm) as (y & E & H).
    exists y. split; [apply wt_line; eauto using wt_make_ok|exact H].
  - destruct (inverse_nan d Hd (Z.to_nat order) (bs0 bk) (bs1 bk) B B0 B1 (Z.to_nat count) (length x) x eq_refl Hx0 Hm) as (y & E & H); [lia|].
    exists y. split; [apply wt_line; eauto using wt_make_ok|exact H].
Qed.
Print Assumptions C192_nan.

(** Twelve samples with a NaN at index 5 and two levels of four taps: it spoils the
    approximations 1 and 2, the details 1 and 2 of the second level and the details 2 and 3 of
    the first one.  A NaN in the second detail of the second level (index 4) spoils the samples
    from 4 on: it reaches 4 to 4 + 3 * 3. *)
Definition c192_out (inverse : bool) (x : list float) : list float :=
  match @wt_bank (FAd (dot_from PrimFloat.add PrimFloat.mul 0%float)) [0x1.1p-1; 0x1.cp-1; 0x1.cp-3; -0x1p-3]%float with
  | Ok bk => match wt_transform bk DFloat (ND1 (A := FAd (dot_from PrimFloat.add PrimFloat.mul 0%float)) x) 2 inverse with Ok (ND1 y) => y | _ => [] end
  | Err _ => [] end.
Definition c192_x : list float := [1; 2; 4; 3; 5; 1; 7; 2; 6; 1; 3; 8]%float.
Definition c192_bad (m : nat) : list float := firstn m c192_x ++ [nan] ++ skipn (S m) c192_x.
Example C192_example :
  map PrimFloat.is_nan (c192_out false (c192_bad 5)) =
    [false; true; true; false; true; true; false; false; true; true; false; false] /\
  map PrimFloat.is_nan (c192_out true (c192_bad 4)) =
    [false; false; false; false; true; true; true; true; true; true; true; true].
Proof. vm_compute. split; reflexivity. Qed.
