(** Proofs about the FIR design search and frequency response. *)
From Coq Require Import List Arith ZArith Lia Bool String Reals Lra.
From Coquelicot Require Import Complex.
From Verif Require Import Base BaseLemmas PyString Instances FirModel FirSpec FirProofs.
Import ListNotations.
Set Asymmetric Patterns.
Open Scope R_scope.

Lemma omax_RO x y : @omax RO x y = Rmax x y.
Proof.
  unfold omax, Rmax; cbn. unfold Rltb.
  destruct (Rlt_dec x y), (Rle_dec x y); try reflexivity; lra.
Qed.

Section Search.
  Context {V : Type}.
  Variable cand : R -> option V.
  Variable err : V -> R.
  Variables (eps tol rate : R).
  Notation scale_at := (scale_at cand err eps rate).
  Notation mag_at := (mag_at cand err eps rate).
  Notation search := (@fir_search RO V cand err eps tol rate).

  (** State of the loop after k candidates, none of which stopped it. *)
  Definition sinv (k : nat) (best : option (V * R)) : Prop :=
    (forall j, (j < k)%nat -> tol <= mag_at j) /\
    match best with
    | None => k = O
    | Some (v, m) => exists i, (i < k)%nat /\ cand (scale_at i) = Some v /\ m = mag_at i /\
        (forall j, (j < k)%nat -> mag_at i <= mag_at j) /\
        (forall j, (j < i)%nat -> mag_at i < mag_at j)
    end.

  Lemma search_correct fuel : forall k best,
    (forall s, cand s <> None) ->
    sinv k best -> (fuel + k > 0)%nat ->
    exists (v : V) (m : R) n i, search fuel (scale_at k) best = Ok (Some (v, m)) /\
      best_of cand err eps rate (fuel + k) tol n i v.
  Proof.
    induction fuel as [|fuel IH]; intros k best Hc (Hlt & Hb) Hpos.
    - cbn [fir_search]. destruct best as [[v m]|]; [|lia].
      destruct Hb as (i & Hi & Hv & Hm & Hmin & Hfirst).
      exists v, m, k, i. split; [reflexivity|]. unfold best_of. repeat split; auto; try lia.
      intros j Hj. apply Hlt. lia.
    - cbn [fir_search]. destruct (cand (scale_at k)) as [v|] eqn:Ev; [|congruence].
      assert (He : mag_at k = Rabs (err v)).
      { unfold FirSpec.mag_at, cand_err. rewrite Ev. reflexivity. }
      assert (Hs : @omax RO (@add RO (scale_at k) (@mul RO rate (err v))) eps = scale_at (S k)).
      { rewrite omax_RO. cbn [FirSpec.scale_at]. unfold cand_err at 1. rewrite Ev. reflexivity. }
      change (@oabs RO (err v)) with (Rabs (err v)). rewrite <- He, Hs.
      match goal with |- context [if ?b then (if _ then _ else _) else _] => set (acc := b) end.
      assert (Hacc : acc = true -> forall j, (j < k)%nat -> mag_at k < mag_at j).
      { unfold acc. destruct best as [[w m]|].
        - destruct Hb as (i & Hi & Hw & Hm & Hmin & Hfirst).
          intros E j Hj. cbn in E. apply Rltb_iff in E. specialize (Hmin j Hj). lra.
        - intros _ j Hj. lia. }
      destruct acc eqn:Ea.
      + destruct (@oltb RO (mag_at k) tol) eqn:Et; cbn in Et.
        * apply Rltb_iff in Et. exists v, (mag_at k), (S k), k. split; [reflexivity|].
          unfold best_of. repeat split; auto; try lia.
          -- intros j Hj. destruct (Nat.eq_dec j k) as [->|]; [lra|].
             left. apply Hacc; [reflexivity|lia].
          -- right. replace (S k - 1)%nat with k by lia. exact Et.
          -- intros j Hj. apply Hlt. lia.
        * assert (Et' : tol <= mag_at k).
          { destruct (Rlt_le_dec (mag_at k) tol) as [C|C]; [|exact C].
            apply Rltb_iff in C. congruence. }
          destruct (IH (S k) (Some (v, mag_at k)) Hc) as (v' & m' & n & i & E & B).
          -- split.
             ++ intros j Hj. destruct (Nat.eq_dec j k) as [->|]; [exact Et'|]. apply Hlt. lia.
             ++ exists k. repeat split; auto.
                intros j Hj. destruct (Nat.eq_dec j k) as [->|]; [lra|].
                left. apply Hacc; [reflexivity|lia].
          -- lia.
          -- exists v', m', n, i. replace (S fuel + k)%nat with (fuel + S k)%nat by lia. auto.
      + assert (Hk : tol <= mag_at k /\ match best with
          | Some (w, m) => m <= mag_at k | None => False end).
        { unfold acc in Ea. destruct best as [[w m]|]; [|discriminate].
          cbn in Ea. destruct Hb as (i & Hi & Hw & Hm & Hmin & Hfirst).
          destruct (Rlt_le_dec (mag_at k) m) as [C|C].
          - apply Rltb_iff in C. congruence.
          - split; [|exact C]. specialize (Hlt i Hi). lra. }
        destruct (IH (S k) best Hc) as (v' & m' & n & i & E & B).
        * split.
          -- intros j Hj. destruct (Nat.eq_dec j k) as [->|]; [apply Hk|]. apply Hlt. lia.
          -- destruct best as [[w m]|]; [|tauto].
             destruct Hb as (i & Hi & Hw & Hm & Hmin & Hfirst). exists i. repeat split; auto.
             intros j Hj. destruct (Nat.eq_dec j k) as [->|]; [subst m; apply Hk|]. apply Hmin. lia.
        * lia.
        * exists v', m', n, i. replace (S fuel + k)%nat with (fuel + S k)%nat by lia. auto.
  Qed.
End Search.

Lemma sgn_sq n : sgn n * sgn n = 1.
Proof. unfold sgn. rewrite <- Rpow_mult_distr. replace (-1 * -1) with 1 by ring. apply pow1. Qed.

Lemma nth_alternate v i : nth i (alternate v) 0 = sgn i * nth i v 0.
Proof.
  unfold alternate. destruct (Nat.lt_ge_cases i (length v)) as [H|H].
  - set (g := fun p : R * nat => _).
    assert (Hlc : (i < length (combine v (seq 0 (length v))))%nat) by (rewrite combine_length, seq_length; lia).
    rewrite (nth_indep _ 0 (g (0, O))) by (rewrite map_length; exact Hlc).
    rewrite map_nth. rewrite combine_nth by (rewrite seq_length; reflexivity).
    rewrite seq_nth by exact H. unfold g; cbn [fst snd]. rewrite Nat.add_0_l. ring.
  - rewrite !nth_overflow; [ring| |]; rewrite ?map_length, ?combine_length, ?seq_length; lia.
Qed.

Lemma length_alternate v : length (alternate v) = length v.
Proof. unfold alternate. rewrite map_length, combine_length, seq_length. lia. Qed.

Lemma nth_map_scale (f : R -> R) v i : f 0 = 0 -> nth i (map f v) 0 = f (nth i v 0).
Proof. intros H. rewrite <- H at 1. apply map_nth. Qed.

Lemma sum_alternate2 v : @Base.sum RA (alternate (alternate v)) = @bigsum RA (length v) (fun i => nth i v 0).
Proof.
  rewrite (law_sum RA_laws), !length_alternate. apply bigsum_ext. intros i _.
  change (nth i (alternate (alternate v)) 0 = nth i v 0). rewrite !nth_alternate.
  rewrite <- Rmult_assoc, sgn_sq. ring.
Qed.

Lemma fir_STYLE_titles t : In t fir_STYLE -> py_title t = t.
Proof. cbn. intros [<-|[<-|[<-|[<-|[]]]]]; reflexivity. Qed.

(** ** Frequency response *)
Lemma length_rotate_half {X} (y : list X) : length (rotate_half y) = length y.
Proof.
  unfold rotate_half. rewrite app_length, skipn_length, firstn_length.
  pose proof (Nat.div_lt_upper_bound (length y) 2 (S (length y))). lia.
Qed.

Lemma nth_skipn {X} (l : list X) n i d : nth i (skipn n l) d = nth (n + i) l d.
Proof.
  revert l; induction n as [|n IH]; intros l; [reflexivity|].
  destruct l as [|a l]; [destruct i; reflexivity|]. cbn. apply IH.
Qed.

Lemma nth_rotate_half {X} (y : list X) d k :
  (k < length y)%nat ->
  nth k (rotate_half y) d = nth ((k + length y / 2) mod length y) y d.
Proof.
  intros Hk. unfold rotate_half.
  set (h := (length y / 2)%nat).
  assert (Hh : (h <= length y)%nat) by (apply Nat.div_le_upper_bound; lia).
  destruct (Nat.lt_ge_cases k (length y - h)) as [H|H].
  - rewrite app_nth1 by (rewrite skipn_length; lia). rewrite nth_skipn.
    rewrite Nat.mod_small by lia. f_equal. lia.
  - rewrite app_nth2 by (rewrite skipn_length; lia). rewrite skipn_length.
    rewrite nth_firstn by lia. f_equal.
    replace (k + h)%nat with (k - (length y - h) + 1 * length y)%nat by lia.
    rewrite Nat.mod_add by lia. rewrite Nat.mod_small by lia. reflexivity.
Qed.

Lemma nth_linspace a b n k : (k < n)%nat ->
  nth k (linspace a b n) 0 = a + INR k * ((b - a) / INR (n - 1)).
Proof.
  intros Hk. unfold linspace. set (g := fun k => _).
  rewrite (nth_indep _ 0 (g O)) by (rewrite map_length, seq_length; exact Hk).
  rewrite map_nth, seq_nth by exact Hk. reflexivity.
Qed.

(** The axis -1, -1+2/L, ... *)
Lemma axis_value L k : (k < L)%nat ->
  nth k (linspace (-1) (1 - 2 / INR L) L) 0 = -1 + 2 * INR k / INR L.
Proof.
  intros Hk. rewrite nth_linspace by exact Hk.
  assert (HL : INR L <> 0) by (apply not_0_INR; lia).
  destruct (Nat.eq_dec L 1) as [->|Hne].
  - replace k with O by lia. cbn. lra.
  - rewrite minus_INR by lia. assert (INR L - INR 1 <> 0).
    { rewrite <- minus_INR by lia. apply not_0_INR. lia. }
    cbn [INR] in *. field. auto.
Qed.

Lemma length_freqz b L : length (freqz b L) = L.
Proof. unfold freqz. rewrite map_length, seq_length. reflexivity. Qed.

Lemma nth_freqz b L k : (k < L)%nat ->
  nth k (freqz b L) (RtoC 0) = transfer b (2 * INR k / INR L).
Proof.
  intros Hk. unfold freqz. set (g := fun k => _).
  rewrite (nth_indep _ (RtoC 0) (g O)) by (rewrite map_length, seq_length; exact Hk).
  rewrite map_nth, seq_nth by exact Hk. unfold g, transfer. apply (@bigsum_ext CA). intros i _.
  f_equal. f_equal. cbn. unfold Rdiv. ring.
Qed.

(** The transfer function has period two. *)
Lemma transfer_period b f (z : Z) : transfer b (f + 2 * IZR z) = transfer b f.
Proof.
  unfold transfer. apply (@bigsum_ext CA). intros i _. f_equal.
  replace (- (PI * (f + 2 * IZR z)) * INR i)
    with (- (PI * f) * INR i + 2 * IZR (- (z * Z.of_nat i)) * PI).
  - apply cis_2PI_IZR.
  - rewrite opp_IZR, mult_IZR, <- INR_IZR_INZ. ring.
Qed.

Lemma rotated_transfer b L k : (k < L)%nat ->
  nth k (rotate_half (freqz b L)) (RtoC 0) =
  transfer b (2 * INR (k + L / 2) / INR L).
Proof.
  intros Hk. rewrite nth_rotate_half by (rewrite length_freqz; exact Hk). rewrite length_freqz.
  assert (HL : (L <> 0)%nat) by lia.
  rewrite nth_freqz by (apply Nat.mod_upper_bound; exact HL).
  set (m := (k + L / 2)%nat).
  rewrite <- (transfer_period b (2 * INR (m mod L) / INR L) (Z.of_nat (m / L))).
  assert (E : INR m = INR L * INR (m / L) + INR (m mod L)).
  { rewrite <- mult_INR, <- plus_INR, <- Nat.div_mod by exact HL. reflexivity. }
  rewrite E, <- INR_IZR_INZ. f_equal. field. apply not_0_INR. exact HL.
Qed.

Lemma nth_map_Cpow n y k :
  (k < length y)%nat -> nth k (map (fun v => Cpow v n) y) (RtoC 0) = Cpow (nth k y (RtoC 0)) n.
Proof.
  intros H. set (g := fun v => _). rewrite (nth_indep _ (RtoC 0) (g (RtoC 0))) by (rewrite map_length; exact H).
  apply (map_nth g).
Qed.

Lemma fir_response_even (f : fir CA) (L c : Z) y ax :
  fir_response f (2 * L) c = Ok (y, ax) ->
  length y = Z.to_nat (2 * L) /\ length ax = length y /\
  forall k, (k < length y)%nat ->
    nth k ax 0 = -1 + 2 * INR k / IZR (2 * L) /\
    nth k y (RtoC 0) = Cpow (transfer (fb f) (nth k ax 0)) (Z.to_nat c).
Proof.
  unfold fir_response. remember (2 * L)%Z as M eqn:HM. destruct (Z.leb_spec M 0) as [H|H]; [discriminate|].
  destruct (Z.leb_spec c 0) as [Hc|Hc]; [discriminate|].
  intros E. injection E as <- <-.
  set (N := Z.to_nat M).
  assert (HN : N = (2 * Z.to_nat L)%nat) by (unfold N; lia).
  rewrite map_length, length_rotate_half, length_freqz. split; [reflexivity|].
  unfold linspace at 1. rewrite map_length, seq_length. split; [reflexivity|].
  intros k Hk.
  assert (EL : IZR M = INR N) by (unfold N; rewrite INR_IZR_INZ, Z2Nat.id by lia; reflexivity).
  rewrite axis_value by exact Hk. rewrite EL. split; [reflexivity|].
  rewrite nth_map_Cpow by (rewrite length_rotate_half, length_freqz; exact Hk). f_equal.
  rewrite rotated_transfer by exact Hk.
  rewrite <- (transfer_period (fb f) (-1 + 2 * INR k / INR N) 1). f_equal.
  assert (INR N <> 0) by (apply not_0_INR; lia).
  rewrite HN at 1. rewrite Nat.mul_comm, Nat.div_mul by lia.
  rewrite plus_INR. replace (INR (Z.to_nat L)) with (INR N / 2).
  - field. assumption.
  - rewrite HN, mult_INR. cbn. field.
Qed.

Lemma fir_response_odd (f : fir CA) (L c : Z) y ax :
  fir_response f (2 * L + 1) c = Ok (y, ax) ->
  length y = Z.to_nat (2 * L + 1) /\ length ax = length y /\
  forall k, (k < length y)%nat ->
    nth k ax 0 = -1 + 2 * INR k / IZR (2 * L + 1) /\
    nth k y (RtoC 0) = Cpow (transfer (fb f) (nth k ax 0 - / IZR (2 * L + 1))) (Z.to_nat c).
Proof.
  unfold fir_response. remember (2 * L + 1)%Z as M eqn:HM. destruct (Z.leb_spec M 0) as [H|H]; [discriminate|].
  destruct (Z.leb_spec c 0) as [Hc|Hc]; [discriminate|].
  intros E. injection E as <- <-.
  set (N := Z.to_nat M).
  assert (HN : N = (2 * Z.to_nat L + 1)%nat) by (unfold N; lia).
  rewrite map_length, length_rotate_half, length_freqz. split; [reflexivity|].
  unfold linspace at 1. rewrite map_length, seq_length. split; [reflexivity|].
  intros k Hk.
  assert (EL : IZR M = INR N) by (unfold N; rewrite INR_IZR_INZ, Z2Nat.id by lia; reflexivity).
  rewrite axis_value by exact Hk. rewrite EL. split; [reflexivity|].
  rewrite nth_map_Cpow by (rewrite length_rotate_half, length_freqz; exact Hk). f_equal.
  rewrite rotated_transfer by exact Hk.
  rewrite <- (transfer_period (fb f) (-1 + 2 * INR k / INR N - / INR N) 1). f_equal.
  assert (INR N <> 0) by (apply not_0_INR; lia).
  replace (N / 2)%nat with (Z.to_nat L).
  2:{ rewrite HN, Nat.mul_comm, Nat.div_add_l by lia. cbn. lia. }
  rewrite plus_INR. replace (INR (Z.to_nat L)) with ((INR N - 1) / 2).
  - field. assumption.
  - rewrite HN, plus_INR, mult_INR. cbn. field.
Qed.
