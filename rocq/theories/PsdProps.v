(** Properties C73-C75 and C113: PsdTransform. *)
From Coq Require Import List Arith ZArith Bool Reals Lra Lia.
From Coquelicot Require Import Complex.
From Verif Require Import Base BaseLemmas Instances FirModel FirDesignProofs Sums PolyC DftModel DftProofs DftProps.
Import ListNotations.
Set Asymmetric Patterns.
Open Scope R_scope.

(** ** Specification *)
(** Power in bin k of the windowed frame starting at sample i. *)
Definition power (x b : list C) (i k : nat) : R :=
  let N := length b in
  (Cmod (csumn N (fun n => at_ x (i + n) * at_ b n * cis (- (2 * PI * INR k * INR n / INR N))))%C / INR N) ^ 2.
Definition frames (x b : list C) (index : nat) : nat := ((length x - length b) / index + 1)%nat.

(** ** Lemmas *)
Lemma range0_spec L step : (0 < step)%nat -> range0 (L + 1) step = map (fun i => i * step)%nat (seq 0 (L / step + 1)).
Proof.
  intros Hs. unfold range0. set (c := (L / step + 1)%nat). pose proof (Nat.div_mod L step ltac:(lia)) as D. pose proof (Nat.mod_upper_bound L step ltac:(lia)) as B.
  assert (Hc : (c <= L + 1)%nat) by (unfold c; nia).
  assert (Es : seq 0 (L + 1) = seq 0 c ++ seq c (L + 1 - c)) by (rewrite <- seq_app; f_equal; lia). rewrite Es, map_app, filter_app.
  assert (F1 : filter (fun i => (i <? L + 1)%nat) (map (fun i => i * step)%nat (seq 0 c)) = map (fun i => i * step)%nat (seq 0 c)).
  { assert (G : forall l, (forall i, In i l -> (i < L + 1)%nat) -> filter (fun i => (i <? L + 1)%nat) l = l).
    { induction l as [|a l IH]; intros H; [reflexivity|]. cbn [filter]. destruct (Nat.ltb_spec a (L + 1)); [|specialize (H a (or_introl eq_refl)); lia]. f_equal. apply IH. intros; apply H; right; assumption. }
    apply G. intros i Hi. apply in_map_iff in Hi. destruct Hi as [j [<- Hj]]. apply in_seq in Hj. unfold c in Hj. nia. }
  assert (F2 : filter (fun i => (i <? L + 1)%nat) (map (fun i => i * step)%nat (seq c (L + 1 - c))) = []).
  { assert (G : forall l, (forall i, In i l -> (L + 1 <= i)%nat) -> filter (fun i => (i <? L + 1)%nat) l = []).
    { induction l as [|a l IH]; intros H; [reflexivity|]. cbn [filter]. destruct (Nat.ltb_spec a (L + 1)); [specialize (H a (or_introl eq_refl)); lia|]. apply IH. intros; apply H; right; assumption. }
    apply G. intros i Hi. apply in_map_iff in Hi. destruct Hi as [j [<- Hj]]. apply in_seq in Hj. unfold c in Hj. nia. }
  rewrite F1, F2. apply app_nil_r.
Qed.
Lemma psd_frame_length x b ii : (ii + length b <= length x)%nat -> length (psd_frame x b ii) = (length b / 2)%nat.
Proof.
  intros H. unfold psd_frame. rewrite map_length, firstn_length, length_fft, length_map2, firstn_length, skipn_length.
  assert (length b / 2 <= length b)%nat by (apply Nat.div_le_upper_bound; lia). lia.
Qed.
Lemma psd_frame_nth x b ii k : (ii + length b <= length x)%nat -> (k < length b / 2)%nat -> nth k (psd_frame x b ii) 0 = power x b ii k.
Proof.
  intros H Hk. unfold psd_frame. set (N := length b) in *.
  assert (HN : (N / 2 <= N)%nat) by (apply Nat.div_le_upper_bound; lia).
  assert (Lf : length (firstn N (skipn ii x)) = N) by (rewrite firstn_length, skipn_length; lia).
  assert (Lm : length (map2 Cmult (firstn N (skipn ii x)) b) = N) by (rewrite length_map2, Lf; fold N; lia).
  assert (P : (0 < INR N)) by (apply lt_0_INR; lia).
  rewrite nth_map_lt with (d := RtoC 0) by (rewrite firstn_length, length_fft, Lm; lia).
  rewrite nth_firstn by exact Hk. rewrite nth_fft by (rewrite Lm; lia). rewrite Lm.
  unfold power. fold N. f_equal. rewrite Cmod_div by (intros F; apply RtoC_inj in F; lra). rewrite Cmod_R, (Rabs_right (INR N)) by lra.
  do 2 f_equal. apply csumn_ext. intros n Hn. rewrite nth_map2 with (dx := RtoC 0) (dy := RtoC 0) by (rewrite ?Lf; fold N; exact Hn).
  rewrite nth_firstn by exact Hn. rewrite nth_skipn. unfold at_. f_equal. unfold root. f_equal. rewrite opp_IZR, mult_IZR, <- !INR_IZR_INZ. unfold Rdiv. ring.
Qed.
Lemma psd_sum_nth cols y k : (k < cols)%nat -> nth k (psd_sum cols y) 0 = rsum (length y) (fun i => nth k (nth i y []) 0).
Proof.
  intros Hk. unfold psd_sum. rewrite nth_map_lt with (d := 0%nat) by (rewrite seq_length; exact Hk). rewrite seq_nth by exact Hk. cbn [Nat.add].
  assert (G : forall a, fold_left (fun acc row => acc + nth k row 0) y a = a + rsum (length y) (fun i => nth k (nth i y []) 0)).
  { induction y as [|r y IH]; intros a; [cbn; ring|]. cbn [fold_left length]. rewrite IH, rsum_S_l. cbn [nth]. ring. }
  rewrite G. ring.
Qed.
Lemma usable_psd x b : usable x b <-> (length x =? 0)%nat = false /\ forallb close0 b = false /\ (length x <? length b)%nat = false.
Proof. rewrite usable_ok, orb_false_iff. tauto. Qed.

Definition psd_y (x b : list C) (index : nat) : list (list R) := map (fun i => psd_frame x b (i * index)) (seq 0 (frames x b index)).
Lemma psd_eval x b index s : usable x b -> (0 < index)%nat ->
  psd_transform x b (Z.of_nat index) s =
  Ok (if s then Spectrogram (psd_y x b index)
      else Mean (map (fun v => v / INR (frames x b index)) (psd_sum (length b / 2) (psd_y x b index))),
      linspace 0 (1 - 2 / INR (length b)) (length b / 2)).
Proof.
  intros U Hi. apply usable_psd in U. destruct U as (U1 & U2 & U3). unfold psd_transform. rewrite U1, U2, U3.
  destruct (Z.eqb_spec (Z.of_nat index) 0); [lia|]. destruct (Z.ltb_spec 0 (Z.of_nat index)); [|lia]. rewrite Nat2Z.id.
  rewrite range0_spec by exact Hi. fold (frames x b index). rewrite map_map. fold (psd_y x b index).
  assert (Ly : length (psd_y x b index) = frames x b index) by (unfold psd_y; rewrite map_length, seq_length; reflexivity). rewrite Ly.
  destruct (Nat.eqb_spec (frames x b index) 0); [unfold frames in *; lia|]. destruct s; reflexivity.
Qed.
Lemma frame_fits x b index i : (length b <= length x)%nat -> (0 < index)%nat -> (i < frames x b index)%nat -> (i * index + length b <= length x)%nat.
Proof. intros Hl Hi H. unfold frames in H. pose proof (Nat.div_mod (length x - length b) index ltac:(lia)). nia. Qed.
Lemma psd_y_nth x b index i : (i < frames x b index)%nat -> nth i (psd_y x b index) [] = psd_frame x b (i * index).
Proof. intros H. unfold psd_y. rewrite nth_map_lt with (d := 0%nat) by (rewrite seq_length; exact H). rewrite seq_nth by exact H. reflexivity. Qed.

(** C73. *)
Theorem C73_psd_spectrogram x b index : usable x b -> (0 < index)%nat ->
  exists y f, psd_transform x b (Z.of_nat index) true = Ok (Spectrogram y, f) /\
    length y = ((length x - length b) / index + 1)%nat /\ length f = (length b / 2)%nat /\
    forall i, (i < length y)%nat -> length (nth i y []) = (length b / 2)%nat /\
      forall k, (k < length b / 2)%nat -> 0 <= nth k (nth i y []) 0 /\ nth k (nth i y []) 0 = power x b (i * index) k.
Proof.
  intros U Hi. eexists. eexists. split; [exact (psd_eval x b index true U Hi)|].
  assert (Ly : length (psd_y x b index) = frames x b index) by (unfold psd_y; rewrite map_length, seq_length; reflexivity).
  split; [exact Ly|]. split; [unfold linspace; rewrite map_length, seq_length; reflexivity|].
  intros i Hin. rewrite Ly in Hin. rewrite psd_y_nth by exact Hin. pose proof (frame_fits x b index i (proj1 U) Hi Hin) as Ff.
  split; [apply psd_frame_length, Ff|]. intros k Hk. rewrite psd_frame_nth by assumption. split; [|reflexivity]. unfold power. apply pow2_ge_0.
Qed.
Print Assumptions C73_psd_spectrogram.
Theorem C73_psd_mean x b index : usable x b -> (0 < index)%nat ->
  exists y m f, psd_transform x b (Z.of_nat index) true = Ok (Spectrogram y, f) /\ psd_transform x b (Z.of_nat index) false = Ok (Mean m, f) /\
    length m = (length b / 2)%nat /\
    forall k, (k < length b / 2)%nat -> 0 <= nth k m 0 /\
      nth k m 0 = rsum (length y) (fun i => nth k (nth i y []) 0) / INR (length y).
Proof.
  intros U Hi. eexists. eexists. eexists. split; [exact (psd_eval x b index true U Hi)|]. split; [exact (psd_eval x b index false U Hi)|].
  assert (Ly : length (psd_y x b index) = frames x b index) by (unfold psd_y; rewrite map_length, seq_length; reflexivity).
  split; [unfold psd_sum; rewrite !map_length, seq_length; reflexivity|]. intros k Hk.
  assert (E : nth k (map (fun v => v / INR (frames x b index)) (psd_sum (length b / 2) (psd_y x b index))) 0 =
              rsum (length (psd_y x b index)) (fun i => nth k (nth i (psd_y x b index) []) 0) / INR (length (psd_y x b index))).
  { rewrite nth_map_lt with (d := 0) by (unfold psd_sum; rewrite map_length, seq_length; exact Hk). rewrite psd_sum_nth by exact Hk. rewrite Ly. reflexivity. }
  split; [|exact E]. rewrite E. apply Rmult_le_pos.
  - apply rsum_nonneg. intros i Hn. rewrite Ly in Hn. rewrite psd_y_nth by exact Hn.
    rewrite psd_frame_nth by (exact Hk || (apply frame_fits; [exact (proj1 U)|exact Hi|exact Hn])). unfold power. apply pow2_ge_0.
  - apply Rlt_le, Rinv_0_lt_compat, lt_0_INR. rewrite Ly. unfold frames. lia.
Qed.
Print Assumptions C73_psd_mean.
(** What the code does with the remaining arguments: unusable signal or window, stride 0,
    and a negative stride (an empty range). *)
Theorem C73_psd_rejects x b index s :
  (~ usable x b -> psd_transform x b index s = Err ValueError) /\
  (usable x b -> index = 0%Z -> psd_transform x b index s = Err ValueError) /\
  (usable x b -> (index < 0)%Z ->
     psd_transform x b index true = Err ValueError /\ exists f, psd_transform x b index false = Ok (MeanNan, f)).
Proof.
  split; [|split].
  - intros U. unfold psd_transform. destruct (length x =? 0)%nat eqn:E1; [reflexivity|]. destruct (forallb close0 b) eqn:E2; [reflexivity|].
    destruct (length x <? length b)%nat eqn:E3; [reflexivity|]. exfalso. apply U, usable_psd. auto.
  - intros U ->. apply usable_psd in U. destruct U as (U1 & U2 & U3). unfold psd_transform. rewrite U1, U2, U3. reflexivity.
  - intros U Hi. apply usable_psd in U. destruct U as (U1 & U2 & U3). unfold psd_transform. rewrite U1, U2, U3.
    destruct (Z.eqb_spec index 0); [lia|]. destruct (Z.ltb_spec 0 index); [lia|]. cbn. split; [reflexivity|eexists; reflexivity].
Qed.
Print Assumptions C73_psd_rejects.
Example C73_example : usable [RtoC 3; RtoC 5; RtoC 7; RtoC 9] [RtoC 1; RtoC 2] /\ (0 < 2)%nat.
Proof. split; [|lia]. split; [cbn; lia|]. exists 0%nat. split; [cbn; lia|]. unfold at_. cbn [nth]. rewrite Cmod_1. lra. Qed.

(** C74. *)
Lemma power_scale (c : C) x b i k : power (map (Cmult c) x) b i k = (Cmod c) ^ 2 * power x b i k.
Proof.
  unfold power. set (N := length b).
  rewrite (csumn_ext N _ (fun n => Cmult c (Cmult (Cmult (at_ x (i + n)) (at_ b n)) (cis (- (2 * PI * INR k * INR n / INR N)))))).
  2:{ intros n _. unfold at_ at 1. replace (RtoC 0) with (Cmult c (RtoC 0)) at 1 by ring. rewrite map_nth. fold (at_ x (i + n)). ring. }
  rewrite csumn_scal, Cmod_mult. unfold Rdiv. ring.
Qed.
Lemma usable_scale (c : C) x b : usable x b -> usable (map (Cmult c) x) b.
Proof. intros [H1 H2]. split; [rewrite map_length; exact H1|exact H2]. Qed.
Lemma frames_scale (c : C) x b index : frames (map (Cmult c) x) b index = frames x b index.
Proof. unfold frames. rewrite map_length. reflexivity. Qed.
Lemma psd_y_scale (c : C) x b index : usable x b -> (0 < index)%nat ->
  psd_y (map (Cmult c) x) b index = map (map (Rmult ((Cmod c) ^ 2))) (psd_y x b index).
Proof.
  intros U Hi. unfold psd_y. rewrite frames_scale, map_map. apply map_ext_in. intros i Hin. apply in_seq in Hin.
  assert (F : (i * index + length b <= length x)%nat) by (apply frame_fits; [exact (proj1 U)|exact Hi|lia]).
  assert (F' : (i * index + length b <= length (map (Cmult c) x))%nat) by (rewrite map_length; exact F).
  apply nth_ext with (d := 0) (d' := 0); [rewrite map_length, !psd_frame_length by assumption; reflexivity|].
  intros k Hk. rewrite psd_frame_length in Hk by exact F'. rewrite psd_frame_nth by assumption.
  rewrite nth_map_lt with (d := 0) by (rewrite psd_frame_length by exact F; exact Hk). rewrite psd_frame_nth by assumption. apply power_scale.
Qed.
Definition psd_scale (g : R) (y : psd_out) : psd_out :=
  match y with Spectrogram y => Spectrogram (map (map (Rmult g)) y) | Mean y => Mean (map (Rmult g) y) | MeanNan => MeanNan end.
Theorem C74_psd_scale (c : C) x b index s y f : usable x b -> (0 < index)%nat ->
  psd_transform x b (Z.of_nat index) s = Ok (y, f) ->
  psd_transform (map (Cmult c) x) b (Z.of_nat index) s = Ok (psd_scale ((Cmod c) ^ 2) y, f).
Proof.
  intros U Hi E. rewrite psd_eval in E by assumption. rewrite psd_eval by (try apply usable_scale; assumption).
  rewrite psd_y_scale, frames_scale by assumption. injection E as <- <-. do 2 f_equal. destruct s; cbn [psd_scale]; f_equal.
  set (Y := psd_y x b index). set (n := (length b / 2)%nat).
  apply nth_ext with (d := 0) (d' := 0); [unfold psd_sum; rewrite !map_length; reflexivity|].
  intros k Hk. unfold psd_sum at 1 in Hk. rewrite !map_length, seq_length in Hk. 
  rewrite !nth_map_lt with (d := 0) by (unfold psd_sum; rewrite ?map_length, ?seq_length; exact Hk).
  rewrite !psd_sum_nth by exact Hk. rewrite map_length.
  rewrite (rsum_ext _ _ (fun i => (Cmod c) ^ 2 * nth k (nth i Y []) 0)).
  - rewrite rsum_scal. unfold Rdiv. ring.
  - intros i Hin. rewrite nth_map_lt with (d := []) by exact Hin. replace 0 with (Cmod c ^ 2 * 0) at 1 by ring. apply map_nth.
Qed.
Print Assumptions C74_psd_scale.
Theorem C74_psd_zero n b index : usable (repeat (RtoC 0) n) b -> (0 < index)%nat ->
  exists y m f, psd_transform (repeat (RtoC 0) n) b (Z.of_nat index) true = Ok (Spectrogram y, f) /\
    psd_transform (repeat (RtoC 0) n) b (Z.of_nat index) false = Ok (Mean m, f) /\
    (forall row v, In row y -> In v row -> v = 0) /\ (forall v, In v m -> v = 0).
Proof.
  intros U Hi. set (x := repeat (RtoC 0) n) in *.
  assert (Ez : map (Cmult (RtoC 0)) x = x).
  { unfold x. clear. induction n as [|n IH]; [reflexivity|]. cbn [repeat map]. rewrite IH. f_equal. ring. }
  pose proof (psd_eval x b index true U Hi) as E1. pose proof (psd_eval x b index false U Hi) as E2. cbn iota in E1, E2.
  pose proof (C74_psd_scale (RtoC 0) _ _ _ _ _ _ U Hi E1) as S1. pose proof (C74_psd_scale (RtoC 0) _ _ _ _ _ _ U Hi E2) as S2. rewrite Ez in S1, S2.
  eexists. eexists. eexists. split; [exact S1|]. split; [exact S2|]. rewrite Cmod_0. split.
  - intros row v Hr Hv. apply in_map_iff in Hr. destruct Hr as [r [<- _]]. apply in_map_iff in Hv. destruct Hv as [w [<- _]]. ring.
  - intros v Hv. apply in_map_iff in Hv. destruct Hv as [w [<- _]]. ring.
Qed.
Print Assumptions C74_psd_zero.
Example C74_example : usable (repeat (RtoC 0) 4) [RtoC 1; RtoC 2].
Proof. split; [cbn; lia|]. exists 0%nat. split; [cbn; lia|]. unfold at_. cbn [nth]. rewrite Cmod_1. lra. Qed.

(** C75. *)
Theorem C75_psd_axis_even x b index s y f k : Nat.Even (length b) -> psd_transform x b index s = Ok (y, f) -> (k < length b / 2)%nat ->
  length f = (length b / 2)%nat /\ nth k f 0 = 2 * INR k / INR (length b).
Proof.
  intros [m Em] E Hk.
  assert (Ef : f = linspace 0 (1 - 2 / INR (length b)) (length b / 2)).
  { unfold psd_transform in E. repeat match type of E with (if ?c then _ else _) = _ => destruct c; try discriminate end; injection E as _ <-; reflexivity. }
  rewrite Ef. split; [unfold linspace; rewrite map_length, seq_length; reflexivity|]. rewrite nth_linspace by exact Hk.
  rewrite Em in *. rewrite Nat.mul_comm, Nat.div_mul in * by lia. destruct (Nat.eq_dec m 1) as [->|N1].
  - replace k with 0%nat by lia. cbn. lra.
  - rewrite minus_INR, mult_INR by lia. cbn [INR]. assert (2 <= INR m) by (replace 2 with (INR 2) by reflexivity; apply le_INR; lia). field. lra.
Qed.
Print Assumptions C75_psd_axis_even.
Theorem C75_psd_axis_odd x b index s y f k : Nat.Odd (length b) -> (3 < length b)%nat -> psd_transform x b index s = Ok (y, f) -> (k < length b / 2)%nat ->
  let N := INR (length b) in
  nth k f 0 = 2 * INR k / N * ((N - 2) / (N - 3)) /\ ((0 < k)%nat -> nth k f 0 <> 2 * INR k / N).
Proof.
  intros [m Em] H3 E Hk N.
  assert (Ef : f = linspace 0 (1 - 2 / INR (length b)) (length b / 2)).
  { unfold psd_transform in E. repeat match type of E with (if ?c then _ else _) = _ => destruct c; try discriminate end; injection E as _ <-; reflexivity. }
  assert (Hm : (length b / 2 = m)%nat) by (rewrite Em; symmetry; apply Nat.div_unique with (r := 1%nat); lia).
  assert (EN : N = 2 * INR m + 1) by (unfold N; rewrite Em, plus_INR, mult_INR; cbn [INR]; ring).
  assert (M2 : 2 <= INR m) by (replace 2 with (INR 2) by reflexivity; apply le_INR; lia).
  assert (F : nth k f 0 = 2 * INR k / N * ((N - 2) / (N - 3))).
  { rewrite Ef, nth_linspace by exact Hk. fold N. rewrite Hm, minus_INR by lia. cbn [INR]. replace (INR m) with ((N - 1) / 2) by lra. field. lra. }
  split; [exact F|]. intros K0 G. rewrite F in G. assert (0 < INR k) by (apply lt_0_INR; exact K0).
  assert (2 * INR k / N * ((N - 2) / (N - 3)) - 2 * INR k / N = 2 * INR k / N / (N - 3)) by (field; lra).
  assert (0 < 2 * INR k / N / (N - 3)) by (apply Rdiv_lt_0_compat; [apply Rdiv_lt_0_compat; lra|lra]). lra.
Qed.
Print Assumptions C75_psd_axis_odd.
Example C75_example : exists y f, psd_transform (repeat (RtoC 1) 9) (repeat (RtoC 1) 5) (Z.of_nat 2) false = Ok (y, f) /\ nth 1 f 0 = 3 / 5.
Proof.
  assert (U : usable (repeat (RtoC 1) 9) (repeat (RtoC 1) 5)) by (split; [cbn; lia|]; exists 0%nat; split; [cbn; lia|]; unfold at_; cbn [nth repeat]; rewrite Cmod_1; lra).
  eexists. eexists. split; [exact (psd_eval _ _ 2 false U ltac:(lia))|]. rewrite nth_linspace by (cbn; lia). cbn. lra.
Qed.

(** C113.  A tone at a bin centre under a rectangular window. *)
Definition tone (A : C) (q N L : nat) : list C := map (fun n => Cmult A (cis (2 * PI * INR q * INR n / INR N))) (seq 0 L).
Definition ones (N : nat) : list C := repeat (RtoC 1) N.
Lemma tone_at A q N L n : (n < L)%nat -> at_ (tone A q N L) n = Cmult A (root N (Z.of_nat q * Z.of_nat n)).
Proof.
  intros H. unfold at_, tone. rewrite nth_map_lt with (d := 0%nat) by (rewrite seq_length; exact H). rewrite seq_nth by exact H.
  f_equal. unfold root. f_equal. rewrite mult_IZR, <- !INR_IZR_INZ. cbn [Nat.add]. unfold Rdiv. ring.
Qed.
Lemma ones_at N n : (n < N)%nat -> at_ (ones N) n = RtoC 1.
Proof. apply nth_repeat_lt. Qed.
Lemma tone_usable A q N L : (0 < N <= L)%nat -> usable (tone A q N L) (ones N).
Proof.
  intros H. unfold ones. split; [unfold tone; rewrite map_length, seq_length, repeat_length; lia|]. exists 0%nat.
  rewrite repeat_length. split; [lia|]. fold (ones N). rewrite ones_at by lia. rewrite Cmod_1. lra.
Qed.
Lemma tone_power A q N L i k : (0 < N)%nat -> (i + N <= L)%nat -> (q < N)%nat -> (k < N)%nat ->
  power (tone A q N L) (ones N) i k = if (k =? q)%nat then (Cmod A) ^ 2 else 0.
Proof.
  intros HN Hi Hq Hk. unfold power. assert (LN : length (ones N) = N) by apply repeat_length. rewrite LN. assert (P : 0 < INR N) by (apply lt_0_INR; exact HN).
  rewrite (csumn_ext N _ (fun n => Cmult (Cmult A (root N (Z.of_nat q * Z.of_nat i))) (root N (Z.of_nat n * (Z.of_nat q - Z.of_nat k))))).
  2:{ intros n Hn. rewrite tone_at by lia. rewrite (ones_at N n Hn).
      replace (cis (- (2 * PI * INR k * INR n / INR N))) with (root N (- (Z.of_nat k * Z.of_nat n))).
      2:{ unfold root. f_equal. rewrite opp_IZR, mult_IZR, <- !INR_IZR_INZ. unfold Rdiv. ring. }
      transitivity (Cmult A (Cmult (root N (Z.of_nat q * Z.of_nat (i + n))) (root N (- (Z.of_nat k * Z.of_nat n))))); [ring|].
      rewrite <- root_add. rewrite <- Cmult_assoc, <- root_add. do 2 f_equal. lia. }
  rewrite csumn_scal, orth by lia. rewrite !Cmod_mult, Cmod_root.
  destruct (Nat.eqb_spec k q) as [->|Ne].
  - rewrite Z.sub_diag. cbn [Z.eqb]. rewrite Cmod_R, Rabs_right by lra. f_equal. field. lra.
  - destruct (Z.eqb_spec (Z.of_nat q - Z.of_nat k) 0); [lia|]. rewrite Cmod_0. unfold Rdiv. ring.
Qed.
Theorem C113_psd_tone A q N L index : (0 < index)%nat -> (q < N / 2)%nat -> (N <= L)%nat ->
  exists y m f, psd_transform (tone A q N L) (ones N) (Z.of_nat index) true = Ok (Spectrogram y, f) /\
    psd_transform (tone A q N L) (ones N) (Z.of_nat index) false = Ok (Mean m, f) /\
    length m = (N / 2)%nat /\ (forall row, In row y -> row = m) /\
    forall k, (k < N / 2)%nat -> nth k m 0 = if (k =? q)%nat then (Cmod A) ^ 2 else 0.
Proof.
  intros Hi Hq HL. assert (HN : (N / 2 <= N)%nat) by (apply Nat.div_le_upper_bound; lia).
  assert (U : usable (tone A q N L) (ones N)) by (apply tone_usable; lia).
  assert (LN : length (ones N) = N) by apply repeat_length.
  assert (LL : length (tone A q N L) = L) by (unfold tone; rewrite map_length, seq_length; reflexivity).
  destruct (C73_psd_spectrogram _ _ index U Hi) as (y & f & E & Ly & _ & Hy). destruct (C73_psd_mean _ _ index U Hi) as (y' & m & f' & E' & Em & Lm & Hm).
  rewrite E in E'. assert (y' = y /\ f' = f) as [-> ->] by (split; congruence). clear E'. rewrite LN in *. rewrite LL in *.
  exists y, m, f. split; [exact E|]. split; [exact Em|]. split; [exact Lm|].
  assert (V : forall i k, (i < length y)%nat -> (k < N / 2)%nat -> nth k (nth i y []) 0 = if (k =? q)%nat then (Cmod A) ^ 2 else 0).
  { intros i k Hin Hk. rewrite (proj2 (proj2 (Hy i Hin) k Hk)). apply tone_power; try lia. rewrite Ly in Hin.
    pose proof (frame_fits (tone A q N L) (ones N) index i) as F. unfold frames in F. rewrite LN, LL in F. apply F; try lia. }
  assert (M : forall k, (k < N / 2)%nat -> nth k m 0 = if (k =? q)%nat then (Cmod A) ^ 2 else 0).
  { intros k Hk. rewrite (proj2 (Hm k Hk)). rewrite (rsum_ext _ _ (fun _ => if (k =? q)%nat then (Cmod A) ^ 2 else 0)) by (intros i Hin; apply V; assumption).
    rewrite rsum_const. field. apply not_0_INR. rewrite Ly. lia. }
  split; [|exact M]. intros row Hr. destruct (In_nth _ _ [] Hr) as [i [Hin <-]].
  apply nth_ext with (d := 0) (d' := 0); [rewrite (proj1 (Hy i Hin)); symmetry; exact Lm|].
  intros k Hk. rewrite (proj1 (Hy i Hin)) in Hk. rewrite V, M by assumption. reflexivity.
Qed.
Print Assumptions C113_psd_tone.
Theorem C113_fourier_tone A q N L : Nat.Even N -> (q < N / 2)%nat -> (N <= L)%nat ->
  exists y f, fourier (tone A q N L) (ones N) false = Ok (y, f) /\
    nth (q + N / 2) f 0 = 2 * INR q / INR N /\
    forall k, (k < N)%nat -> at_ y k = if (k =? q + N / 2)%nat then A else RtoC 0.
Proof.
  intros [h Eh] Hq HL. assert (H2 : (N / 2 = h)%nat) by (rewrite Eh, Nat.mul_comm; apply Nat.div_mul; lia). rewrite H2 in *.
  assert (U : usable (tone A q N L) (ones N)) by (apply tone_usable; lia).
  assert (LN : length (ones N) = N) by apply repeat_length.
  destruct (proj1 (C76_fourier_rejects _ _ false) U) as (y & f & E & Ly & Lf). exists y, f. split; [exact E|].
  destruct (fourier_forward _ _ _ _ E) as (HN & _ & _ & _ & _ & Fy). rewrite LN, H2 in *. assert (P : 0 < INR N) by (apply lt_0_INR; exact HN).
  assert (NZ : RtoC (INR N) <> RtoC 0) by (intros F; apply RtoC_inj in F; lra).
  split.
  - destruct (C78_fourier_bins _ _ _ _ (q + h)%nat E) as [F _]; [rewrite LN; lia|]. rewrite F, LN, plus_INR.
    assert (EN : INR N = 2 * INR h) by (rewrite Eh, mult_INR; reflexivity). rewrite EN in *. field. lra.
  - intros k Hk. unfold at_. rewrite Fy by exact Hk. unfold dft.
    assert (Sum : forall d : Z, (Z.abs d < Z.of_nat N)%Z -> (exists c : Z, (Z.of_nat q - Z.of_nat (k + h) = d + Z.of_nat N * c)%Z) ->
       csumn N (fun n => Cmult (Cmult (nth n (ones N) (RtoC 0)) (nth n (tone A q N L) (RtoC 0))) (root N (- (Z.of_nat (k + h) * Z.of_nat n)))) =
       Cmult A (if (d =? 0)%Z then RtoC (INR N) else RtoC 0)).
    { intros d Hd [c Hc]. rewrite <- (orth N d Hd), <- csumn_scal. apply csumn_ext. intros n Hn.
      fold (at_ (ones N) n) (at_ (tone A q N L) n). rewrite (ones_at N n Hn), tone_at by lia.
      transitivity (Cmult A (Cmult (root N (Z.of_nat q * Z.of_nat n)) (root N (- (Z.of_nat (k + h) * Z.of_nat n))))); [ring|].
      f_equal. rewrite <- root_add. rewrite <- (root_period N (Z.of_nat n * d) (c * Z.of_nat n)) by exact HN. f_equal. nia. }
    destruct (Nat.eqb_spec k (q + h)) as [->|Ne].
    + rewrite (Sum 0%Z) by (try lia; exists (-1)%Z; lia). cbn [Z.eqb]. field. exact NZ.
    + destruct (Nat.lt_ge_cases k (q + h)) as [Hlt|Hge].
      * destruct (Nat.lt_ge_cases (k + h) (q + 1)).
        -- rewrite (Sum (Z.of_nat q - Z.of_nat (k + h))%Z) by (try lia; exists 0%Z; lia). destruct (Z.eqb_spec (Z.of_nat q - Z.of_nat (k + h)) 0); [lia|]. unfold Cdiv. ring.
        -- rewrite (Sum (Z.of_nat q - Z.of_nat (k + h))%Z) by (try lia; exists 0%Z; lia). destruct (Z.eqb_spec (Z.of_nat q - Z.of_nat (k + h)) 0); [lia|]. unfold Cdiv. ring.
      * rewrite (Sum (Z.of_nat q - Z.of_nat (k + h) + Z.of_nat N)%Z) by (try lia; exists (-1)%Z; lia). destruct (Z.eqb_spec (Z.of_nat q - Z.of_nat (k + h) + Z.of_nat N) 0); [lia|]. unfold Cdiv. ring.
Qed.
Print Assumptions C113_fourier_tone.
Example C113_example : Nat.Even 8 /\ (3 < 8 / 2)%nat /\ (8 <= 21)%nat.
Proof. split; [exists 4%nat; reflexivity|]. cbn. lia. Qed.
