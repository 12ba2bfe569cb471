(** The Haar lines in IEEE doubles. *)
From Flocq Require Import Core BinarySingleNaN PrimFloat.
From Coq Require Import List Arith ZArith Lia Bool Reals Lra Psatz String Floats Permutation.
From Verif Require Import Base BaseLemmas Instances FirModel FirSpec FirProofs WaveletModel WaveletProofs WaveletLift.
From Verif Require Import DoubleSpec DoubleProofs DoubleOps.
Import ListNotations.
Open Scope R_scope.
Set Asymmetric Patterns.

(** ** Dot products on a grid *)
Definition on_grid (e : Z) (x : R) : Prop := exists z, x = IZR z * bpow radix2 e.
Lemma on_grid_0 e : on_grid e 0. Proof. exists 0%Z. ring. Qed.
Lemma on_grid_add e x y : on_grid e x -> on_grid e y -> on_grid e (x + y).
Proof. intros [a ->] [b ->]. exists (a + b)%Z. rewrite plus_IZR. ring. Qed.
Lemma on_grid_opp e x : on_grid e x -> on_grid e (- x).
Proof. intros [a ->]. exists (- a)%Z. rewrite opp_IZR. ring. Qed.
Lemma on_grid_sub e x y : on_grid e x -> on_grid e y -> on_grid e (x - y).
Proof. intros Hx Hy. apply on_grid_add; [exact Hx|apply on_grid_opp, Hy]. Qed.
Lemma on_grid_finer d e x : (d <= e)%Z -> on_grid e x -> on_grid d x.
Proof.
  intros H [a ->]. exists (a * 2 ^ (e - d))%Z. rewrite mult_IZR, (IZR_Zpower radix2) by lia. rewrite Rmult_assoc, <- bpow_plus. do 2 f_equal. lia.
Qed.
Lemma on_grid_half e x : on_grid e x -> on_grid (e - 1) (x / 2).
Proof.
  intros [a ->]. exists a. replace (e - 1)%Z with (e + -1)%Z by lia. rewrite bpow_plus. change (bpow radix2 (-1)) with (/ 2). field.
Qed.
Lemma on_grid_double e x : on_grid e x -> on_grid e (2 * x).
Proof. intros [a ->]. exists (2 * a)%Z. rewrite mult_IZR. ring. Qed.
Lemma grid_nearest e x : (-1074 <= e <= 970)%Z -> on_grid e x -> Rabs x <= bpow radix2 (53 + e) -> nearest x = x /\ Rabs (nearest x) < huge.
Proof.
  intros He [a ->] Hx. assert (E : nearest (IZR a * bpow radix2 e) = IZR a * bpow radix2 e).
  { apply nearest_grid; [lia|]. rewrite Rabs_mult, (Rabs_pos_eq (bpow radix2 e)), bpow_plus in Hx by apply bpow_ge_0.
    apply Rmult_le_reg_r in Hx; [|apply bpow_gt_0]. rewrite <- abs_IZR in Hx. apply le_IZR. rewrite (IZR_Zpower radix2) by lia. exact Hx. }
  split; [exact E|]. rewrite E. eapply Rle_lt_trans; [exact Hx|]. apply bpow_lt. lia.
Qed.

Definition grid_pair e (p : float * float) : Prop := finite (fst p) /\ finite (snd p) /\ on_grid e (val (fst p) * val (snd p)).
Lemma exact_grid e l : Forall (grid_pair e) l -> on_grid e (exact l).
Proof. induction 1 as [|p l (_ & _ & H) _ IH]; [apply on_grid_0|]. apply on_grid_add; assumption. Qed.
Theorem dots_grid e l v : dots l v -> (-1074 <= e <= 970)%Z -> Forall (grid_pair e) l -> mags l <= bpow radix2 (53 + e) ->
  finite v /\ val v = exact l.
Proof.
  intros D He. induction D as [|x y|x y l v w D IH Hf|l m v w D1 IH1 D2 IH2|l m v P D IH]; intros F H.
  - split; reflexivity.
  - inversion F as [|p q (Fx & Fy & G) _]; subst. cbn [fst snd mags fold_right] in *.
    destruct (grid_nearest e _ He G) as [E1 E2]; [rewrite Rabs_mult; lra|]. destruct (mul_fin x y Fx Fy E2) as [F1 V1].
    split; [exact F1|]. rewrite V1, E1. cbn. ring.
  - inversion F as [|p q (Fx & Fy & G) Fl]; subst. cbn [fst snd] in *.
    assert (Em : mags ((x, y) :: l) = Rabs (val x * val y) + mags l) by (rewrite Rabs_mult; reflexivity). rewrite Em in H.
    pose proof (Rabs_pos (val x * val y)). destruct (IH Fl ltac:(lra)) as [Fv Vv].
    pose proof (exact_grid _ _ Fl) as Gl. pose proof (exact_mags l) as Ml.
    destruct (grid_nearest e (val x * val y + val v) He) as [E1 E2].
    + rewrite Vv. apply on_grid_add; assumption.
    + rewrite Vv. eapply Rle_trans; [apply Rabs_triang|]. lra.
    + destruct (proj1 Hf Fx Fy Fv E2) as [Fw Vw]. split; [exact Fw|]. rewrite Vw, E1, Vv. reflexivity.
  - apply Forall_app in F. destruct F as [F1 F2]. rewrite mags_app in H. pose proof (mags_pos l). pose proof (mags_pos m).
    destruct (IH1 F1 ltac:(lra)) as [Fv Vv]. destruct (IH2 F2 ltac:(lra)) as [Fw Vw].
    pose proof (exact_mags l). pose proof (exact_mags m).
    destruct (grid_nearest e (val v + val w) He) as [E1 E2].
    + rewrite Vv, Vw. apply on_grid_add; apply exact_grid; assumption.
    + rewrite Vv, Vw. eapply Rle_trans; [apply Rabs_triang|]. lra.
    + destruct (add_fin v w Fv Fw E2) as [Fs Vs]. split; [exact Fs|]. rewrite Vs, E1, Vv, Vw, exact_app. reflexivity.
  - rewrite <- (mags_perm _ _ P) in H. rewrite <- (exact_perm _ _ P). apply IH; [|exact H].
    eapply Permutation_Forall; [apply Permutation_sym; exact P|exact F].
Qed.

(** ** Two-tap lines in any double arithmetic *)
Section Lines.
  Variable d : list float -> list float -> float.
  Local Notation FD := (FAd d).
  Definition win (x : list float) (n : nat) : float := if (n =? 0)%nat then 0%float else @nth float (n - 1) x 0%float.
  Lemma zf2 (b x : list float) n : length b = 2%nat -> (n < length x)%nat ->
    @nth float n (@zf FD b x) 0%float = d b [@nth float n x 0%float; win x n].
  Proof.
    intros Hb Hn. unfold zf. etransitivity; [apply (@nth_fir_ys FD DFloat b (@zeros FD (length b)) x n Hn)|].
    change (@length (carrier FD)) with (@length float). rewrite Hb.
    rewrite (@fir_window FD DFloat 2 (@zeros FD 2) x n Hn eq_refl).
    change (@map (carrier FD) (carrier FD) (@cast FD DFloat) x) with (map (fun v : float => v) x). rewrite map_id. cbn [seq map].
    change (@cast FD DFloat) with (fun v : float => v). cbv beta. f_equal. unfold sig.
    replace (Z.of_nat n - Z.of_nat 0)%Z with (Z.of_nat n) by lia. destruct (Z.ltb_spec (Z.of_nat n) 0); [lia|]. rewrite Nat2Z.id.
    f_equal. f_equal. unfold win. destruct (Nat.eqb_spec n 0) as [C|C].
    - subst n. reflexivity.
    - destruct (Z.ltb_spec (Z.of_nat n - Z.of_nat 1) 0); [lia|]. replace (Z.to_nat (Z.of_nat n - Z.of_nat 1)) with (n - 1)%nat by lia. reflexivity.
  Qed.
  Lemma an2_low (b0 b1 x : list float) h j : length b0 = 2%nat -> length x = (2 * h)%nat -> (j < h)%nat ->
    @nth float j (@pure_analysis FD DFloat b0 b1 x) 0%float = d b0 [@nth float (2 * j + 1) x 0%float; @nth float (2 * j) x 0%float].
  Proof.
    intros Hb Hx Hj. unfold pure_analysis.
    change (@map (carrier FD) (carrier FD) (@cast FD DFloat)) with (map (fun v : float => v)). rewrite !map_id.
    rewrite app_nth1 by (rewrite (@odds_length FD _ h); [exact Hj|rewrite (@zf_length FD); exact Hx]).
    etransitivity; [apply (@every2_nth FD)|]. etransitivity; [apply (@tl_nth FD)|]. change (@zero FD) with 0%float.
    rewrite zf2 by (assumption || lia). unfold win. cbn [Nat.eqb]. replace (S (2 * j) - 1)%nat with (2 * j)%nat by lia. rewrite Nat.add_1_r. reflexivity.
  Qed.
  Lemma an2_high (b0 b1 x : list float) h j : length b1 = 2%nat -> length x = (2 * h)%nat -> (j < h)%nat ->
    @nth float (h + j) (@pure_analysis FD DFloat b0 b1 x) 0%float = d b1 [@nth float (2 * j + 1) x 0%float; @nth float (2 * j) x 0%float].
  Proof.
    intros Hb Hx Hj. unfold pure_analysis.
    change (@map (carrier FD) (carrier FD) (@cast FD DFloat)) with (map (fun v : float => v)). rewrite !map_id.
    assert (E : length (@every2 FD (tl (@zf FD b0 x))) = h) by (apply (@odds_length FD); rewrite (@zf_length FD); exact Hx).
    rewrite app_nth2 by (change (@length float) with (@length (carrier FD)); lia). change (@length float) with (@length (carrier FD)). rewrite E.
    replace (h + j - h)%nat with j by lia.
    etransitivity; [apply (@every2_nth FD)|]. etransitivity; [apply (@tl_nth FD)|]. change (@zero FD) with 0%float.
    rewrite zf2 by (assumption || lia). unfold win. cbn [Nat.eqb]. replace (S (2 * j) - 1)%nat with (2 * j)%nat by lia. rewrite Nat.add_1_r. reflexivity.
  Qed.
  Local Notation two := (@add FD (@one FD) (@one FD)).
  Lemma sy2_raw (b0 b1 y : list float) h m : length y = (2 * h)%nat -> (m < 2 * h)%nat ->
    @nth float m (@pure_synthesis FD DFloat b0 b1 y) 0%float =
    (0 + two * @nth float m (@zf FD b0 (@upsample FD (firstn h y))) 0 + two * @nth float m (@zf FD b1 (@upsample FD (skipn h y))) 0)%float.
  Proof.
    intros Hy Hm. unfold pure_synthesis. change (@length (carrier FD) y) with (length y). rewrite Hy.
    replace (2 * h / 2)%nat with h by (rewrite Nat.mul_comm, Nat.div_mul; lia).
    assert (E : firstn h (skipn h y) = skipn h y) by (apply firstn_all2; rewrite skipn_length; lia).
    change (@firstn (carrier FD)) with (@firstn float). change (@skipn (carrier FD)) with (@skipn float). rewrite E.
    change (@map (carrier FD) (carrier FD) (@cast FD DFloat)) with (map (fun v : float => v)). rewrite map_id.
    set (w0 := @zf FD b0 _). set (w1 := @zf FD b1 _).
    assert (L0 : length w0 = (2 * h)%nat) by (unfold w0; etransitivity; [apply (@zf_length FD)|]; etransitivity; [apply (@upsample_length FD)|];
      cbn [carrier FAd]; rewrite firstn_length, Hy; lia).
    assert (L1 : length w1 = (2 * h)%nat) by (unfold w1; etransitivity; [apply (@zf_length FD)|]; etransitivity; [apply (@upsample_length FD)|];
      cbn [carrier FAd]; rewrite skipn_length, Hy; lia).
    clearbody w0 w1. change (carrier FD) with float in *.
    assert (Lz : @length float (@zeros FD (2 * h)) = (2 * h)%nat) by apply (repeat_length 0%float).
    rewrite (@nth_map2 float float float (@add FD) _ _ m 0%float 0%float 0%float); [|rewrite length_map2, map_length; lia|rewrite map_length; lia].
    rewrite (@nth_map2 float float float (@add FD) _ _ m 0%float 0%float 0%float); [|lia|rewrite map_length; lia].
    rewrite !(@nth_map_lt float float (@mul FD two) _ m 0%float 0%float) by lia.
    replace (@nth float m (@zeros FD (2 * h)) 0%float) with 0%float; [reflexivity|]. unfold zeros. symmetry. apply (nth_repeat (0%float) (2 * h) m).
  Qed.
  Lemma up_even (y : list float) j : (j < length y)%nat -> @nth float (2 * j) (@upsample FD y) 0%float = @nth float j y 0%float.
  Proof. apply (@upsample_even FD). Qed.
  Lemma up_odd (y : list float) j : @nth float (2 * j + 1) (@upsample FD y) 0%float = 0%float.
  Proof. apply (@upsample_odd FD). Qed.
  Lemma up_len (y : list float) : @length float (@upsample FD y) = (2 * length y)%nat.
  Proof. apply (@upsample_length FD). Qed.
  Lemma zf_up_even (b y : list float) j : length b = 2%nat -> (j < length y)%nat -> @nth float (2 * j) (@zf FD b (@upsample FD y)) 0%float = d b [@nth float j y 0%float; 0%float].
  Proof.
    intros Hb Hj. rewrite zf2; [|exact Hb|rewrite up_len; lia].
    rewrite up_even by exact Hj. unfold win. destruct (Nat.eqb_spec (2 * j) 0) as [C|C]; [reflexivity|].
    replace (2 * j - 1)%nat with (2 * (j - 1) + 1)%nat by lia. rewrite up_odd. reflexivity.
  Qed.
  Lemma zf_up_odd (b y : list float) j : length b = 2%nat -> (j < length y)%nat -> @nth float (2 * j + 1) (@zf FD b (@upsample FD y)) 0%float = d b [0%float; @nth float j y 0%float].
  Proof.
    intros Hb Hj. rewrite zf2; [|exact Hb|rewrite up_len; lia].
    rewrite up_odd. unfold win. destruct (Nat.eqb_spec (2 * j + 1) 0) as [C|C]; [lia|].
    replace (2 * j + 1 - 1)%nat with (2 * j)%nat by lia. rewrite up_even by exact Hj. reflexivity.
  Qed.
  Lemma sy2_even (b0 b1 y : list float) h j : length b0 = 2%nat -> length b1 = 2%nat -> length y = (2 * h)%nat -> (j < h)%nat ->
    @nth float (2 * j) (@pure_synthesis FD DFloat b0 b1 y) 0%float =
    (0 + two * d b0 [@nth float j y 0; 0] + two * d b1 [@nth float (h + j) y 0; 0])%float.
  Proof.
    intros H0 H1 Hy Hj. rewrite (sy2_raw b0 b1 y h) by (assumption || lia). rewrite !zf_up_even by (rewrite ?firstn_length, ?skipn_length; assumption || lia).
    rewrite nth_firstn by exact Hj. rewrite nth_skipn_add. reflexivity.
  Qed.
  Lemma sy2_odd (b0 b1 y : list float) h j : length b0 = 2%nat -> length b1 = 2%nat -> length y = (2 * h)%nat -> (j < h)%nat ->
    @nth float (2 * j + 1) (@pure_synthesis FD DFloat b0 b1 y) 0%float =
    (0 + two * d b0 [0; @nth float j y 0] + two * d b1 [0; @nth float (h + j) y 0])%float.
  Proof.
    intros H0 H1 Hy Hj. rewrite (sy2_raw b0 b1 y h) by (assumption || lia). rewrite !zf_up_odd by (rewrite ?firstn_length, ?skipn_length; assumption || lia).
    rewrite nth_firstn by exact Hj. rewrite nth_skipn_add. reflexivity.
  Qed.
End Lines.
