(** Property C171: PolynomialRateFilter in IEEE doubles. *)
From Flocq Require Import Core BinarySingleNaN PrimFloat.
From Coq Require Import List Arith ZArith Bool Reals Lra Lia Floats.
From Verif Require Import Base BaseLemmas Instances CalculusModel CalculusProps RankModel Rounding PolyphaseModel PolyphaseProps PolynomialModel DoubleSpec DoubleProofs DoubleOps PolyphaseDoubleProofs PolyphaseDoubleProps PolynomialDoubleProofs.
Import ListNotations.
Set Asymmetric Patterns.
Local Open Scope R_scope.

(** ** Specification *)
Definition fitter : Type := list float -> list float -> Z -> list float.
(** The filter in doubles, with numpy.polyfit any function [fit]. *)
Definition interpF d rnd trunc (fit : fitter) (rate : float) (order : Z) (x : list float) : res (list float) :=
  @prate_filter (FOd d) rnd trunc fit (@mkPrate (FOd d) rate order) x.
(** Two samples or more, a positive rate, and not more than 2^49 samples or outputs. *)
Definition suits (rate : float) (x : list float) : Prop :=
  (2 <= length x)%nat /\ finite rate /\ 0 < val rate /\ (Z.of_nat (length x) + 1 <= 2 ^ 49)%Z /\ (INR (length x) + 1) * val rate <= IZR (2 ^ 49).
Definition roomQ (rate : float) (x : list float) : Z := rheR (nearest (INR (length x) * val rate)).
(** The signal extended by straight lines, one sample before it and two after it. *)
Definition padded (x : list float) : list float :=
  let a := nth (length x - 1) x 0%float in let b := nth (length x - 2) x 0%float in
  ((2 * nth 0 x 0 - nth 1 x 0) :: x ++ [2 * a - b; 3 * a - 2 * b])%float.
(** The exact values of the signal, extended by one sample on the line through the last two. *)
Definition line_ext (x : list float) : list R :=
  map val x ++ [2 * val (nth (length x - 1) x 0%float) - val (nth (length x - 2) x 0%float)].

(** ** Lemmas: the counts *)
Lemma lit2 d : @of_Z (FOd d) 2 = 2%float. Proof. reflexivity. Qed.
Lemma lit3 d : @of_Z (FOd d) 3 = 3%float. Proof. reflexivity. Qed.
Lemma val2 : val 2%float = 2. Proof. unfold val, B2R. cbn. unfold F2R. cbn. lra. Qed.
Lemma val_half : val 0.5%float = 1 / 2. Proof. unfold val, B2R. cbn. unfold F2R. cbn. lra. Qed.
Lemma below_huge t : 0 <= t <= IZR (2 ^ 53) -> Rabs t < huge.
Proof. intros H. pose proof huge_big. assert (IZR (2 ^ 53) < IZR (2 ^ 60)) by (apply IZR_lt; reflexivity). rewrite Rabs_pos_eq; lra. Qed.

Section Count.
  Variables (d : list float -> list float -> float) (rate : float) (x : list float).
  Hypothesis Hs : suits rate x.
  Notation L := (INR (length x)).
  Notation r := (val rate).
  Lemma L_top : L + 1 <= IZR (2 ^ 49).
  Proof. destruct Hs as (_ & _ & _ & H & _). apply IZR_le in H. rewrite plus_IZR, <- INR_IZR_INZ in H. exact H. Qed.
  Lemma Lr_top : 0 <= L * r <= IZR (2 ^ 49).
  Proof. destruct Hs as (_ & _ & P & _ & H). pose proof (pos_INR (length x)). split; [apply Rmult_le_pos; lra|lra]. Qed.
  Lemma near_top t : 0 <= t <= IZR (2 ^ 49) -> 0 <= nearest t <= IZR (2 ^ 49).
  Proof. intros H. split; [apply nearest_nonneg; lra|]. rewrite <- (nearest_IZR (2 ^ 49)) by (cbn; lia). apply nearest_le. lra. Qed.
  Lemma times_rate n : (n = length x \/ n = S (length x)) ->
    finite (@of_nat (FOd d) n * rate)%float /\ val (@of_nat (FOd d) n * rate)%float = nearest (INR n * r) /\ 0 <= nearest (INR n * r) <= IZR (2 ^ 49).
  Proof.
    intros Hn. destruct Hs as (H1 & F & P & H2 & H3). destruct (of_nat_double d n) as [Fn Vn]; [lia|].
    assert (B : 0 <= INR n * r <= IZR (2 ^ 49)).
    { pose proof Lr_top. destruct Hn as [-> | ->]; [assumption|]. rewrite S_INR. lra. }
    pose proof (near_top _ B) as Nb. destruct (mul_fin _ _ Fn F) as [Fm Vm].
    { rewrite Vn. apply below_huge. assert (IZR (2 ^ 49) <= IZR (2 ^ 53)) by (apply IZR_le; lia). lra. }
    rewrite Vn in Vm. split; [exact Fm|]. split; [exact Vm|exact Nb].
  Qed.
  Lemma room_bounds : (0 <= roomQ rate x <= 2 ^ 49)%Z.
  Proof.
    pose proof (near_top _ Lr_top) as B. unfold roomQ. split; [apply rheR_nonneg; lra|].
    destruct (rheR_spec (nearest (L * r))) as [K _]. pose proof (Rle_abs (IZR (rheR (nearest (L * r))) - nearest (L * r))) as K2.
    assert (A : IZR (rheR (nearest (L * r))) < IZR (2 ^ 49 + 1)) by (rewrite plus_IZR; lra). apply lt_IZR in A. lia.
  Qed.
  (** Positions of the outputs there is room for do not pass the end of the signal. *)
  Lemma room_inside n : (Z.of_nat n < roomQ rate x)%Z -> INR n <= L * r /\ INR n / r <= L.
  Proof.
    intros Hn. destruct Hs as (H1 & F & P & H2 & H3). assert (A : INR n <= L * r).
    { set (a := L * r) in *. pose proof Lr_top as Ba. fold a in Ba. unfold roomQ in Hn. fold a in Hn. destruct (rheR_spec (nearest a)) as [K _]. pose proof (Rle_abs (IZR (rheR (nearest a)) - nearest a)) as K2.
      assert (J : (Z.of_nat n + 1 <= rheR (nearest a))%Z) by lia. apply IZR_le in J. rewrite plus_IZR, <- INR_IZR_INZ in J.
      assert (E : Rabs (nearest a - a) <= 1 / 2); [|pose proof (Rle_abs (nearest a - a)); lra].
      pose proof (nearest_close a) as C. rewrite (Rabs_pos_eq a) in C by lra. 
      assert (U : uro * IZR (2 ^ 49) = 1 / 16). { unfold uro. change (IZR (2 ^ 49)) with (bpow radix2 49). rewrite Rmult_assoc, <- bpow_plus. cbn. lra. }
      pose proof uro_pos. pose proof eta_uro. assert (uro * a <= uro * IZR (2 ^ 49)) by (apply Rmult_le_compat_l; lra).
      assert (uro * 1 <= uro * IZR (2 ^ 49)) by (apply Rmult_le_compat_l; [lra|apply (IZR_le 1); lia]). lra. }
    split; [exact A|]. apply Rmult_le_reg_r with r; [exact P|]. unfold Rdiv. rewrite Rmult_assoc, Rinv_l by lra. lra.
  Qed.
End Count.

(** ** Lemmas: straight lines *)
Lemma lines_seg z t (k : nat) : INR k <= t <= INR (S k) -> lines z t = nth k z 0 + (t - INR k) * (nth (S k) z 0 - nth k z 0).
Proof.
  intros H. unfold lines. rewrite S_INR in H. destruct (Req_dec t (INR k + 1)) as [E|E].
  - assert (I : Int_part t = Z.of_nat (S k)). { apply Int_part_unique. rewrite <- INR_IZR_INZ, S_INR. lra. }
    rewrite I, Nat2Z.id, S_INR, E. ring.
  - assert (I : Int_part t = Z.of_nat k). { apply Int_part_unique. rewrite <- INR_IZR_INZ. lra. }
    rewrite I, Nat2Z.id. reflexivity.
Qed.
Lemma lines_end z (k : nat) : lines z (INR k) = nth k z 0.
Proof. rewrite (lines_seg z (INR k) k); [ring|]. rewrite S_INR. lra. Qed.
Section Lipschitz.
  Variables (z : list R) (K : R).
  Hypothesis HK : forall m, (S m < length z)%nat -> Rabs (nth (S m) z 0 - nth m z 0) <= K.
  Lemma lines_lip_up : forall j k s t, (S (k + j) < length z)%nat -> INR k <= s <= INR (S k) -> INR (k + j) <= t <= INR (S (k + j)) -> s <= t ->
    Rabs (lines z t - lines z s) <= K * (t - s).
  Proof.
    induction j as [|j IH]; intros k s t Hk Hs Ht Hst.
    - rewrite Nat.add_0_r in *. rewrite (lines_seg z s k Hs), (lines_seg z t k Ht).
      match goal with |- Rabs ?e <= _ => replace e with ((nth (S k) z 0 - nth k z 0) * (t - s)) by ring end. rewrite Rabs_mult, (Rabs_pos_eq (t - s)) by lra.
      apply Rmult_le_compat_r; [lra|apply HK; exact Hk].
    - assert (S1 : s <= INR (k + S j)). { apply Rle_trans with (INR (S k)); [lra|]. apply le_INR. lia. }
      pose proof (IH k s (INR (k + S j)) ltac:(lia) Hs) as A. replace (S (k + j)) with (k + S j)%nat in A by lia. assert (A0 : INR (k + j) <= INR (k + S j)) by (apply le_INR; lia). specialize (A (conj A0 (Rle_refl _)) S1).
      assert (C : Rabs (lines z t - lines z (INR (k + S j))) <= K * (t - INR (k + S j))).
      { rewrite (lines_seg z t _ Ht), lines_end. match goal with |- Rabs ?e <= _ => replace e with ((nth (S (k + S j)) z 0 - nth (k + S j) z 0) * (t - INR (k + S j))) by ring end.
        rewrite Rabs_mult, (Rabs_pos_eq (t - _)) by lra. apply Rmult_le_compat_r; [lra|apply HK; exact Hk]. }
      replace (lines z t - lines z s) with ((lines z t - lines z (INR (k + S j))) + (lines z (INR (k + S j)) - lines z s)) by ring.
      eapply Rle_trans; [apply Rabs_triang|]. lra.
  Qed.
  Lemma segment t : 0 <= t <= INR (length z - 1) -> (2 <= length z)%nat -> exists k, (S k < length z)%nat /\ INR k <= t <= INR (S k).
  Proof.
    intros Ht Hz. destruct (Req_dec t (INR (length z - 1))) as [E|E].
    - exists (length z - 2)%nat. split; [lia|]. rewrite E. split; apply le_INR; lia.
    - destruct (base_Int_part t) as [A B]. assert (P : (0 <= Int_part t)%Z). { assert (IZR (-1) < IZR (Int_part t)) by (change (IZR (-1)) with (-1); lra). apply lt_IZR in H. lia. }
      exists (Z.to_nat (Int_part t)). assert (V : INR (Z.to_nat (Int_part t)) = IZR (Int_part t)) by (rewrite INR_IZR_INZ, Z2Nat.id by lia; reflexivity).
      rewrite S_INR, V. split; [|lra]. assert (Z.to_nat (Int_part t) < length z - 1)%nat by (apply INR_lt; rewrite V; lra). lia.
  Qed.
  Lemma lines_lip s t : (2 <= length z)%nat -> 0 <= s <= INR (length z - 1) -> 0 <= t <= INR (length z - 1) -> Rabs (lines z t - lines z s) <= K * Rabs (t - s).
  Proof.
    intros Hz. revert s t. assert (Up : forall s t, 0 <= s <= INR (length z - 1) -> 0 <= t <= INR (length z - 1) -> s <= t -> Rabs (lines z t - lines z s) <= K * Rabs (t - s)).
    { intros s t Hs Ht Hst. destruct (segment s Hs Hz) as (k & K1 & K2). destruct (segment t Ht Hz) as (l & L1 & L2). rewrite (Rabs_pos_eq (t - s)) by lra.
      destruct (Nat.le_gt_cases k l) as [C|C].
      - apply (lines_lip_up (l - k) k s t); replace (k + (l - k))%nat with l by lia; assumption.
      - assert (E : s = t). { apply Rle_antisym; [exact Hst|]. apply Rle_trans with (INR (S l)); [lra|]. apply Rle_trans with (INR k); [apply le_INR; lia|lra]. }
        subst t. unfold Rminus. rewrite !Rplus_opp_r, Rabs_R0. lra. }
    intros s t Hs Ht. destruct (Rle_lt_dec s t) as [C|C]; [apply Up; assumption|]. rewrite Rabs_minus_sym, (Rabs_minus_sym t s). apply Up; lra.
  Qed.
End Lipschitz.

(** ** Lemmas: order one *)
Section Linear.
  Variables (d : list float -> list float -> float) (rnd trunc : float -> Z) (fit : fitter) (rate : float) (x : list float).
  Hypotheses (Hrnd : rounds rnd) (Htr : truncates trunc) (Hs : suits rate x).
  Notation L := (INR (length x)).
  Notation r := (val rate).
  Definition extF : list float := (x ++ [2 * nth (length x - 1) x 0 - nth (length x - 2) x 0])%float.
  Definition placeF (n : nat) : float := (@of_nat (FOd d) n / rate)%float.

  Lemma linear_run : exists y, interpF d rnd trunc fit rate 1 x = Ok y /\ Z.of_nat (length y) = roomQ rate x /\
    forall n, (n < length y)%nat -> nth n y 0%float = @np_interp (FOd d) (combine (map (@of_nat (FOd d)) (seq 0 (length extF))) extF) (placeF n).
  Proof.
    pose proof Hs as (H1 & F & P & H2 & H3). destruct (times_rate d rate x Hs (length x) (or_introl eq_refl)) as (F1 & V1 & B1).
    destruct (times_rate d rate x Hs (S (length x)) (or_intror eq_refl)) as (F2 & V2 & B2). pose proof (room_bounds rate x Hs) as Rb.
    assert (Le : length extF = S (length x)) by (unfold extF; rewrite app_length; cbn [length]; lia).
    assert (Er : rnd (@of_nat (FOd d) (length x) * rate)%float = roomQ rate x) by (rewrite (Hrnd _ F1), V1; reflexivity).
    assert (Mono : nearest (L * r) <= nearest (INR (S (length x)) * r)) by (apply nearest_le; apply Rmult_le_compat_r; [lra|rewrite S_INR; lra]).
    set (w := (@of_nat (FOd d) (S (length x)) * rate)%float) in *.
    assert (Nb : 0 <= nearest (val w + val 0.5%float) <= IZR (2 ^ 50)).
    { rewrite val_half. split; [apply nearest_nonneg; lra|]. rewrite <- (nearest_IZR (2 ^ 50)) by (cbn; lia). apply nearest_le.
      assert (IZR (2 ^ 49) + IZR 1 <= IZR (2 ^ 50)) by (rewrite <- plus_IZR; apply IZR_le; lia). lra. }
    destruct (add_fin w 0.5%float F2 eq_refl) as [F3 V3]. { apply below_huge. assert (IZR (2 ^ 50) <= IZR (2 ^ 53)) by (apply IZR_le; lia). lra. }
    set (n := trunc (w + 0.5)%float).
    assert (Hn : (roomQ rate x <= n)%Z).
    { destruct (Htr (w + 0.5)%float F3 ltac:(rewrite V3; lra)) as [T1 T2]. fold n in T1, T2. rewrite V3 in T2.
      assert (A : IZR (roomQ rate x) <= nearest (val w + val 0.5%float)).
      { rewrite <- (nearest_IZR (roomQ rate x)) by lia. apply nearest_le. rewrite val_half, V2.
        unfold roomQ. destruct (rheR_spec (nearest (L * r))) as [K _]. pose proof (Rle_abs (IZR (rheR (nearest (L * r))) - nearest (L * r))). lra. }
      assert (C : IZR (roomQ rate x) < IZR (n + 1)) by (rewrite plus_IZR; lra). apply lt_IZR in C. lia. }
    eexists. split.
    - unfold interpF, prate_filter. cbn [qrate qorder].
      assert (E2 : Nat.ltb (@length (carrier (FOd d)) x) 2 = false) by (apply Nat.ltb_ge; exact H1). rewrite E2. change (1 =? 1)%Z with true. cbv iota.
      change (@length (carrier (FOd d)) x) with (@length float x).
      match goal with |- context [rnd ?v] => replace (rnd v) with (roomQ rate x) by (symmetry; exact Er) end.
      match goal with |- context [@app ?t ?a ?b] => change (@app t a b) with extF end.
      change (@length (carrier (FOd d)) extF) with (@length float extF). rewrite Le.
      match goal with |- context [trunc ?v] => change (trunc v) with n end.
      destruct (Z.ltb_spec n 0); [lia|]. reflexivity.
    - set (y := map _ _). assert (Ly : length y = Z.to_nat n) by (unfold y; rewrite !map_length, seq_length; reflexivity).
      assert (Mn : Z.to_nat (Z.min (roomQ rate x) (Z.of_nat (length y))) = Z.to_nat (roomQ rate x)) by (rewrite Ly; f_equal; lia).
      rewrite Mn. split; [rewrite firstn_length, Ly; lia|]. intros j Hj. rewrite firstn_length, Ly in Hj.
      match goal with |- @nth ?t j (firstn ?k y) _ = _ => change (@nth float j (firstn k y) 0%float = @np_interp (FOd d) (combine (map (@of_nat (FOd d)) (seq 0 (length extF))) extF) (placeF j)) end.
      rewrite nth_firstn by lia. rewrite Le. unfold y, placeF. rewrite map_map.
      etransitivity; [apply nth_map_lt with (d := 0%nat); rewrite seq_length; lia|]. rewrite seq_nth by lia. reflexivity.
  Qed.

  Lemma place_double n : (Z.of_nat n < roomQ rate x)%Z -> finite (placeF n) /\ 0 <= val (placeF n) <= L /\ Rabs (val (placeF n) - INR n / r) <= uro * (INR n / r).
  Proof.
    intros Hn. pose proof Hs as (H1 & F & P & H2 & H3). destruct (room_inside rate x Hs n Hn) as [I1 I2]. pose proof (room_bounds rate x Hs) as Rb.
    destruct (of_nat_double d n) as [Fn Vn]; [lia|]. assert (Q : 0 <= INR n / r) by (apply Rmult_le_pos; [apply pos_INR|left; apply Rinv_0_lt_compat, P]).
    assert (NL : nearest L = L) by (rewrite INR_IZR_INZ; apply nearest_IZR; lia).
    assert (N : 0 <= nearest (INR n / r) <= L) by (split; [apply nearest_nonneg, Q|rewrite <- NL; apply nearest_le, I2]).
    destruct (div_fin (@of_nat (FOd d) n) rate Fn ltac:(lra)) as [Fp Vp].
    { rewrite Vn. apply below_huge. pose proof (L_top rate x Hs). assert (IZR (2 ^ 49) <= IZR (2 ^ 53)) by (apply IZR_le; lia). lra. }
    rewrite Vn in Vp. fold (placeF n) in *. split; [exact Fp|]. rewrite Vp. split; [exact N|].
    destruct n as [|n].
    - cbn [INR]. unfold Rdiv. rewrite Rmult_0_l, Rmult_0_r. rewrite (nearest_IZR 0) by (cbn; lia). unfold Rminus. rewrite Rplus_opp_r, Rabs_R0. lra.
    - rewrite <- (Rabs_pos_eq (INR (S n) / r)) at 3 by exact Q. apply nearest_normal. rewrite Rabs_pos_eq by exact Q.
      assert (R1 : r <= IZR (2 ^ 49)). { pose proof (pos_INR (length x)). apply Rle_trans with ((L + 1) * r); [|exact H3]. nra. }
      apply Rle_trans with (/ IZR (2 ^ 49)).
      + change (IZR (2 ^ 49)) with (bpow radix2 49). rewrite <- bpow_opp. apply bpow_le. lia.
      + apply Rle_trans with (/ r); [apply Rinv_le_contravar; assumption|]. pose proof (Rinv_0_lt_compat r P). rewrite S_INR. pose proof (pos_INR n). unfold Rdiv. nra.
  Qed.
End Linear.

(** The samples are numbers of magnitude at most M. *)
Definition within (M : R) (x : list float) : Prop := M <= bpow radix2 990 /\ Forall (fun v => finite v /\ Rabs (val v) <= M) x.
Section LinearValue.
  Variables (x : list float) (M : R).
  Hypotheses (H1 : (2 <= length x)%nat) (Hw : within M x).
  Notation a := (nth (length x - 1) x 0%float).
  Notation b := (nth (length x - 2) x 0%float).
  Lemma sample_ok i : (i < length x)%nat -> finite (nth i x 0%float) /\ Rabs (val (nth i x 0%float)) <= M.
  Proof. intros Hi. destruct Hw as [_ F]. rewrite Forall_forall in F. apply F, nth_In, Hi. Qed.
  Lemma M_pos : 0 <= M. Proof. destruct (sample_ok 0 ltac:(lia)) as [_ H]. eapply Rle_trans; [apply Rabs_pos|exact H]. Qed.
  Lemma ext_last : finite (2 * a - b)%float /\ Rabs (val (2 * a - b)%float - (2 * val a - val b)) <= 3 * uro * M /\ Rabs (val (2 * a - b)%float) <= 4 * M.
  Proof.
    destruct (sample_ok (length x - 1) ltac:(lia)) as [Fa Ba]. destruct (sample_ok (length x - 2) ltac:(lia)) as [Fb Bb]. destruct Hw as [HM _]. pose proof M_pos as PM.
    pose proof uro_pos as U. pose proof eta0_pos as Et. pose proof eta_uro as Eu.
    assert (Ub : uro <= 1 / 1000). { unfold uro. pose proof (bpow_le radix2 (-52) (-10) ltac:(lia)) as H. change (bpow radix2 (-10)) with (/ 1024) in H. lra. }
    assert (Hg : 100 * M + 100 < huge).
    { assert (A : huge = bpow radix2 34 * bpow radix2 990) by (unfold huge; rewrite <- bpow_plus; reflexivity).
      pose proof (bpow_le radix2 0 990 ltac:(lia)) as C. change (bpow radix2 0) with 1 in C. assert (bpow radix2 34 = 17179869184) by (cbn; lra). nra. }
    assert (E2 : nearest (val 2%float * val a) = 2 * val a).
    { rewrite val2. destruct (Req_dec (val a) 0) as [Z|Z]; [rewrite Z, Rmult_0_r; apply (nearest_IZR 0); cbn; lia|].
      apply round_generic; [apply valid_rnd_N|]. pose proof (val_format a) as Fm. unfold generic_format in Fm |- *.
      set (m := Ztrunc (scaled_mantissa radix2 (FLT_exp (-1074) 53) (val a))) in Fm. set (e := cexp radix2 (FLT_exp (-1074) 53) (val a)) in Fm.
      change (generic_format radix2 (FLT_exp (-1074) 53) (2 * val a)).
      replace (2 * val a) with (F2R (Float radix2 m (e + 1))).
      2:{ rewrite Fm. unfold F2R. cbn [Fnum Fexp]. rewrite bpow_plus. change (bpow radix2 1) with 2. ring. }
      apply generic_format_F2R. intros Hm. assert (E3 : F2R (Float radix2 m (e + 1)) = val a * bpow radix2 1).
      { rewrite Fm. unfold F2R. cbn [Fnum Fexp]. rewrite bpow_plus. ring. }
      rewrite E3. unfold cexp at 1. rewrite mag_mult_bpow by exact Z. unfold e, cexp, FLT_exp. lia. }
    destruct (mul_fin 2%float a eq_refl Fa) as [Fm Vm]. { rewrite E2, Rabs_mult, Rabs_pos_eq by lra. lra. } rewrite E2 in Vm.
    assert (Bd : Rabs (val (2 * a)%float - val b) <= 3 * M). { rewrite Vm. eapply Rle_trans; [apply Rabs_triang|]. rewrite Rabs_Ropp, Rabs_mult, (Rabs_pos_eq 2) by lra. lra. }
    assert (Hh : Rabs (nearest (val (2 * a)%float - val b)) < huge). { eapply Rle_lt_trans; [apply nearest_bound|]. pose proof (Rabs_pos (val (2 * a)%float - val b)). nra. }
    destruct (sub_fin (2 * a)%float b Fm Fb Hh) as [Fs Vs]. pose proof (sub_close (2 * a)%float b) as C. rewrite <- Vs in C. rewrite Vm in C, Bd.
    assert (C2 : Rabs (val (2 * a - b)%float - (2 * val a - val b)) <= 3 * uro * M) by (eapply Rle_trans; [exact C|]; apply Rle_trans with (uro * (3 * M)); [apply Rmult_le_compat_l; lra|lra]).
    split; [exact Fs|]. split; [exact C2|]. replace (val (2 * a - b)%float) with ((val (2 * a - b)%float - (2 * val a - val b)) + (2 * val a - val b)) by ring.
    eapply Rle_trans; [apply Rabs_triang|]. assert (uro * M <= 1 / 1000 * M) by (apply Rmult_le_compat_r; lra). lra.
  Qed.
  Lemma ext_len : length (line_ext x) = S (length x). Proof. unfold line_ext. rewrite app_length, map_length. cbn [length]. lia. Qed.
  Lemma ext_nth i : (i < length x)%nat -> nth i (line_ext x) 0 = val (nth i x 0%float) /\ nth i (extF x) 0%float = nth i x 0%float.
  Proof. intros Hi. unfold line_ext, extF. rewrite !app_nth1 by (rewrite ?map_length; exact Hi). split; [|reflexivity]. apply (nth_map_lt val) with (d := 0%float). exact Hi. Qed.
  Lemma ext_nth_last : nth (length x) (line_ext x) 0 = 2 * val a - val b /\ nth (length x) (extF x) 0%float = (2 * a - b)%float.
  Proof. unfold line_ext, extF. rewrite !app_nth2 by (rewrite ?map_length; lia). rewrite map_length, Nat.sub_diag. split; reflexivity. Qed.
  Lemma ext_steps m : (S m < length (line_ext x))%nat -> Rabs (nth (S m) (line_ext x) 0 - nth m (line_ext x) 0) <= 2 * M.
  Proof.
    rewrite ext_len. intros Hm. destruct (Nat.eq_dec (S m) (length x)) as [E|E].
    - rewrite E, (proj1 ext_nth_last), (proj1 (ext_nth m ltac:(lia))). replace m with (length x - 1)%nat by lia.
      destruct (sample_ok (length x - 1) ltac:(lia)) as [_ Ba]. destruct (sample_ok (length x - 2) ltac:(lia)) as [_ Bb].
      replace (2 * val a - val b - val a) with (val a - val b) by ring. eapply Rle_trans; [apply Rabs_triang|]. rewrite Rabs_Ropp. lra.
    - rewrite (proj1 (ext_nth m ltac:(lia))), (proj1 (ext_nth (S m) ltac:(lia))). destruct (sample_ok m ltac:(lia)) as [_ Ba]. destruct (sample_ok (S m) ltac:(lia)) as [_ Bb].
      eapply Rle_trans; [apply Rabs_triang|]. rewrite Rabs_Ropp. lra.
  Qed.
End LinearValue.

Lemma extF_ok x M i : (2 <= length x)%nat -> within M x -> (i <= length x)%nat -> finite (nth i (extF x) 0%float) /\ Rabs (val (nth i (extF x) 0%float)) <= 4 * M /\
  Rabs (val (nth i (extF x) 0%float) - nth i (line_ext x) 0) <= 3 * uro * M.
Proof.
  intros H1 Hw Hi. pose proof (M_pos x M H1 Hw) as PM. pose proof uro_pos. destruct (Nat.eq_dec i (length x)) as [-> | N].
  - destruct (ext_nth_last x H1) as [-> ->]. destruct (ext_last x M H1 Hw) as (A & B & C). repeat split; assumption.
  - destruct (ext_nth x i ltac:(lia)) as [-> ->]. destruct (sample_ok x M Hw i ltac:(lia)) as [F B]. split; [exact F|]. split; [lra|].
    unfold Rminus. rewrite Rplus_opp_r, Rabs_R0. apply Rmult_le_pos; lra.
Qed.
Lemma interp_value d x M w : (2 <= length x)%nat -> (Z.of_nat (length x) + 1 <= 2 ^ 49)%Z -> within M x -> finite w -> 0 <= val w <= INR (length x) ->
  let y := @np_interp (FOd d) (combine (map (@of_nat (FOd d)) (seq 0 (length (extF x)))) (extF x)) w in
  finite y /\ Rabs (val y - lines (line_ext x) (val w)) <= 36 * (uro * M) + 2 * eta0.
Proof.
  intros H1 H2 Hw Fw Bw y. pose proof (M_pos x M H1 Hw) as PM. pose proof uro_pos as U. pose proof eta0_pos as Et. assert (UM : 0 <= uro * M) by (apply Rmult_le_pos; lra).
  assert (Le : length (extF x) = S (length x)) by (unfold extF; rewrite app_length; cbn [length]; lia).
  assert (Ex : forall i, (i <= length x)%nat -> finite (nth i (extF x) 0%float) /\ Rabs (val (nth i (extF x) 0%float)) <= 4 * M /\ Rabs (val (nth i (extF x) 0%float) - nth i (line_ext x) 0) <= 3 * uro * M) by (intros i Hi; apply extF_ok; assumption).
  unfold y. clear y. destruct (extF x) as [|z0 zs] eqn:Ez; [discriminate|]. cbn [length] in Le. injection Le as Le.
  cbn [length seq map combine np_interp]. assert (W0 : @oltb (FOd d) w (@of_nat (FOd d) 0) = false).
  { change (PrimFloat.ltb w 0 = false). destruct (PrimFloat.ltb w 0) eqn:L; [|reflexivity]. apply (ltb_val w 0%float Fw eq_refl) in L. rewrite val_zero in L. lra. }
  rewrite W0. change (@length (carrier (FOd d)) zs) with (@length float zs) in *.
  assert (Hb : INR 0 <= val w <= INR (0 + length zs)) by (cbn [INR Nat.add]; rewrite Le; exact Bw).
  destruct (interp_chord d zs z0 w 0 ltac:(lia) Fw Hb) as (k & K1 & K2 & [(K3 & K4 & K5)|(K3 & K4 & K5)]); rewrite Nat.sub_0_r in K5; cbn [Nat.add] in K1, K3.
  - match goal with |- context [@interp_from ?o ?a ?b ?c ?e] => replace (@interp_from o a b c e) with (nth k (z0 :: zs) 0%float) by (symmetry; exact K5) end.
    destruct (Ex k ltac:(lia)) as (E1 & E2 & E3). split; [exact E1|]. rewrite K4, lines_end. lra.
  - match goal with |- context [@interp_from ?o ?a ?b ?c ?e] => replace (@interp_from o a b c e) with (chord d k (nth k (z0 :: zs) 0%float) (nth (S k) (z0 :: zs) 0%float) w) by (symmetry; exact K5) end.
    destruct (Ex k ltac:(lia)) as (E1 & E2 & E3). destruct (Ex (S k) ltac:(lia)) as (G1 & G2 & G3).
    set (za := nth k (z0 :: zs) 0%float) in *. set (zb := nth (S k) (z0 :: zs) 0%float) in *.
    assert (HM : 4 * M <= bpow radix2 1000). { destruct Hw as [HM _]. change 1000%Z with (10 + 990)%Z. rewrite bpow_plus. pose proof (bpow_gt_0 radix2 990). assert (bpow radix2 10 = 1024) by (cbn; lra). nra. }
    destruct (chord_double d k za zb w (4 * M) ltac:(lia) Fw (conj K2 K4) E1 G1 E2 G2 HM) as [C1 C2]. split; [exact C1|].
    rewrite (lines_seg (line_ext x) (val w) k (conj K2 (Rlt_le _ _ K4))). rewrite S_INR in K4. set (t := val w - INR k) in *. assert (Bt : 0 <= t < 1) by (unfold t; lra).
    set (ea := nth k (line_ext x) 0) in *. set (eb := nth (S k) (line_ext x) 0) in *.
    assert (D : Rabs ((val za + t * (val zb - val za)) - (ea + t * (eb - ea))) <= 3 * uro * M).
    { replace ((val za + t * (val zb - val za)) - (ea + t * (eb - ea))) with ((1 - t) * (val za - ea) + t * (val zb - eb)) by ring.
      eapply Rle_trans; [apply Rabs_triang|]. rewrite !Rabs_mult, (Rabs_pos_eq t), (Rabs_pos_eq (1 - t)) by lra. nra. }
    match goal with |- Rabs (?u - ?v) <= _ => replace (u - v) with ((u - (val za + t * (val zb - val za))) + ((val za + t * (val zb - val za)) - v)) by ring end.
    eapply Rle_trans; [apply Rabs_triang|]. lra.
Qed.

(** ** C171 *)
(** Order one: as many outputs as there is room for, and output n is close to the exact value, on the
    straight line between the samples around n / rate. *)
Theorem C171_linear d rnd trunc (fit : fitter) (rate : float) (x : list float) : rounds rnd -> truncates trunc -> suits rate x ->
  exists y, interpF d rnd trunc fit rate 1 x = Ok y /\ Z.of_nat (length y) = roomQ rate x /\
    forall M, within M x -> forall n, (n < length y)%nat ->
      finite (nth n y 0%float) /\ Rabs (val (nth n y 0%float) - lines (line_ext x) (INR n / val rate)) <= uro * M * (36 + 2 * (INR n / val rate)) + 2 * eta0.
Proof.
  intros Hrnd Htr Hs. destruct (linear_run d rnd trunc fit rate x Hrnd Htr Hs) as (y & Y1 & Y2 & Y3). exists y. split; [exact Y1|]. split; [exact Y2|].
  intros M Hw n Hn. pose proof Hs as (H1 & F & P & H2 & H3). assert (Rn : (Z.of_nat n < roomQ rate x)%Z) by lia.
  destruct (place_double d rate x Hs n Rn) as (P1 & P2 & P3). destruct (room_inside rate x Hs n Rn) as [_ I2]. rewrite (Y3 n Hn).
  destruct (interp_value d x M (placeF d rate n) H1 H2 Hw P1 P2) as [V1 V2]. split; [exact V1|].
  assert (Q : 0 <= INR n / val rate) by (apply Rmult_le_pos; [apply pos_INR|left; apply Rinv_0_lt_compat, P]).
  pose proof (lines_lip (line_ext x) (2 * M) (ext_steps x M H1 Hw) (INR n / val rate) (val (placeF d rate n))) as Lp. rewrite ext_len in Lp by exact H1. replace (S (length x) - 1)%nat with (length x) in Lp by lia.
  specialize (Lp ltac:(lia) (conj Q I2) P2). pose proof (M_pos x M H1 Hw) as PM.
  assert (L2 : 2 * M * Rabs (val (placeF d rate n) - INR n / val rate) <= 2 * M * (uro * (INR n / val rate))) by (apply Rmult_le_compat_l; lra).
  match goal with |- Rabs (?u - ?v) <= _ => replace (u - v) with ((u - lines (line_ext x) (val (placeF d rate n))) + (lines (line_ext x) (val (placeF d rate n)) - v)) by ring end.
  eapply Rle_trans; [apply Rabs_triang|]. lra.
Qed.
Print Assumptions C171_linear.

(** ** Lemmas: orders two and more *)
Section Steps.
  Variables (rate : float) (x : list float).
  Hypothesis Hs : suits rate x.
  Hypothesis Hroom : (0 < roomQ rate x)%Z.
  Notation r := (val rate).
  Lemma step_range : / IZR (2 ^ 49) <= 1 / r <= IZR (2 ^ 51).
  Proof.
    destruct Hs as (H1 & F & P & H2 & H3). pose proof (pos_INR (length x)) as Lp. split.
    - assert (R1 : r <= IZR (2 ^ 49)) by (apply Rle_trans with ((INR (length x) + 1) * r); [nra|exact H3]). unfold Rdiv. rewrite Rmult_1_l. apply Rinv_le_contravar; assumption.
    - assert (Q : 1 / 4 <= INR (length x) * r) by (apply room_rate; exact Hroom). pose proof (L_top rate x Hs) as Lt.
      apply Rmult_le_reg_r with r; [exact P|]. unfold Rdiv. rewrite Rmult_assoc, Rinv_l, Rmult_1_r by lra.
      replace (2 ^ 51)%Z with (4 * 2 ^ 49)%Z by reflexivity. rewrite mult_IZR. nra.
  Qed.
  Lemma step_double : finite (1 / rate)%float /\ val (1 / rate)%float = nearest (1 / r) /\ 0 <= val (1 / rate)%float <= IZR (2 ^ 51) /\ Rabs (val (1 / rate)%float - 1 / r) <= uro * (1 / r).
  Proof.
    pose proof Hs as (H1 & F & P & H2 & H3). pose proof step_range as [S1 S2]. assert (P49 : 0 < / IZR (2 ^ 49)) by (apply Rinv_0_lt_compat, (IZR_lt 0); lia).
    assert (N : 0 <= nearest (1 / r) <= IZR (2 ^ 51)). { split; [apply nearest_nonneg; lra|]. rewrite <- (nearest_IZR (2 ^ 51)) by (cbn; lia). apply nearest_le, S2. }
    destruct (div_fin 1%float rate eq_refl ltac:(lra)) as [Fv Vv].
    { rewrite one_val. apply below_huge. assert (IZR (2 ^ 51) <= IZR (2 ^ 53)) by (apply IZR_le; lia). lra. }
    rewrite one_val in Vv. split; [exact Fv|]. rewrite Vv. split; [reflexivity|]. split; [exact N|]. rewrite <- (Rabs_pos_eq (1 / r)) at 3 by lra. apply nearest_normal. rewrite Rabs_pos_eq by lra.
    eapply Rle_trans; [|exact S1]. change (IZR (2 ^ 49)) with (bpow radix2 49). rewrite <- bpow_opp. apply bpow_le. lia.
  Qed.
  Definition slip : R := uro * (1 + 3 * (1 / r)).
  Lemma slip_pos : 0 <= slip.
  Proof. unfold slip. pose proof uro_pos. pose proof step_range as [S1 _]. assert (0 < / IZR (2 ^ 49)) by (apply Rinv_0_lt_compat, (IZR_lt 0); lia). apply Rmult_le_pos; lra. Qed.
  Lemma slip_double p : 0 <= val p < 1 -> Rabs (nearest (val p + val (1 / rate)%float) - (val p + 1 / r)) <= slip.
  Proof.
    intros Hp. destruct step_double as (Fv & Vv & Bv & Cv). set (v := (1 / rate)%float) in *. pose proof (add_close p v) as A. set (st := 1 / r) in *. pose proof uro_pos as U.
    assert (U1 : uro <= 1) by (unfold uro; pose proof (bpow_le radix2 (-52) 0 ltac:(lia)) as Bq0; change (bpow radix2 0) with 1 in Bq0; lra).
    assert (St : 0 <= st). { pose proof step_range as [S1 _]. assert (0 < / IZR (2 ^ 49)) by (apply Rinv_0_lt_compat, (IZR_lt 0); lia). unfold st. lra. }
    assert (Q2 : val v <= 2 * st). { assert (val v - st <= uro * st) by (eapply Rle_trans; [apply Rle_abs|exact Cv]). nra. }
    rewrite (Rabs_pos_eq (val p + val v)) in A by lra.
    replace (nearest (val p + val v) - (val p + st)) with ((nearest (val p + val v) - (val p + val v)) + (val v - st)) by ring.
    eapply Rle_trans; [apply Rabs_triang|]. unfold slip. fold st. nra.
  Qed.
End Steps.

Lemma padded_run d rnd trunc (fit : fitter) (rate : float) (order : Z) (x : list float) (D : R -> Prop) (E : R) : rounds rnd -> suits rate x -> order <> 1%Z ->
  0 <= E -> D 0 -> (forall w, D w -> D (w - 1)) ->
  ((0 < roomQ rate x)%Z -> forall p, place D p -> val p < 1 -> D (nearest (val p + val (1 / rate)%float)) /\ Rabs (nearest (val p + val (1 / rate)%float) - (val p + 1 / val rate)) <= E) ->
  exists (y : list float) (ts : list R) (a : R), interpF d rnd trunc fit rate order x = Ok y /\ length ts = length y /\ (Z.of_nat (length y) <= roomQ rate x)%Z /\
    ((Z.of_nat (length y) < roomQ rate x)%Z -> INR (length x) <= a) /\ Rabs (a - INR (length y) * (1 / val rate)) <= INR (length y) * E /\
    forall n, (n < length y)%nat -> Rabs (nth n ts 0 - INR n * (1 / val rate)) <= INR n * E /\ piece_double d fit order (padded x) (length x) (nth n ts 0) (nth n y 0%float).
Proof.
  intros Hrnd Hs Ho E0 D0 Hsub Hadd. pose proof Hs as (H1 & F & P & H2 & H3). destruct (times_rate d rate x Hs (length x) (or_introl eq_refl)) as (F1 & V1 & B1). pose proof (room_bounds rate x Hs) as Rb.
  assert (Er : rnd (@of_nat (FOd d) (length x) * rate)%float = roomQ rate x) by (rewrite (Hrnd _ F1), V1; reflexivity).
  assert (Nz : PrimFloat.eqb rate 0 = false).
  { destruct (PrimFloat.eqb rate 0) eqn:C; [exfalso|reflexivity]. assert (PrimFloat.leb rate 0 = true).
    { rewrite eqb_equiv in C. rewrite leb_equiv. unfold Beqb, Bleb in *. unfold SpecFloat.SFeqb in C. unfold SpecFloat.SFleb. destruct (SpecFloat.SFcompare _ _) as [[| |]|]; congruence || reflexivity. }
    apply (leb_val rate 0%float F eq_refl) in H. rewrite val_zero in H. lra. }
  assert (Run : interpF d rnd trunc fit rate order x = Ok (@prate_outer (FOd d) fit [-1; 0; 1; 2]%float order (length x) (padded x) (Z.to_nat (roomQ rate x)) (1 / rate)%float 0%float)).
  { unfold interpF, prate_filter. cbn [qrate qorder].
    assert (E2 : Nat.ltb (@length (carrier (FOd d)) x) 2 = false) by (apply Nat.ltb_ge; exact H1). rewrite E2. destruct (Z.eqb_spec order 1); [contradiction|].
    change (@length (carrier (FOd d)) x) with (@length float x).
    match goal with |- context [rnd ?v] => replace (rnd v) with (roomQ rate x) by (symmetry; exact Er) end.
    destruct (Z.ltb_spec (roomQ rate x) 0); [lia|]. change (@eqb (FOd d) rate zero) with (PrimFloat.eqb rate 0). rewrite Nz. reflexivity. }
  destruct (Z.eq_dec (roomQ rate x) 0) as [Z0|Z0].
  - exists [], [], 0. rewrite Run, Z0. cbn [Z.to_nat]. split; [f_equal; apply outer_done|]. cbn [length]. split; [reflexivity|]. split; [cbn; lia|]. split; [cbn; lia|]. split; [|intros n Hn; lia].
    change (INR 0) with 0. rewrite !Rmult_0_l. unfold Rminus. rewrite Rplus_opp_r, Rabs_R0. lra.
  - pose proof (Hadd ltac:(lia)) as Ha. destruct (step_double rate x Hs ltac:(lia)) as (Fv & Vv & Bv & Cv).
    assert (P0 : place D 0%float). { unfold place. rewrite val_zero. split; [reflexivity|]. split; [split; [lra|apply (IZR_le 0); lia]|exact D0]. }
    destruct (outer_double d fit order (padded x) (1 / rate)%float (1 / val rate) E D Fv Bv Hsub Ha (length x) (length x) 0 (Z.to_nat (roomQ rate x)) 0%float eq_refl P0)
      as (ys & ts & a & G1 & G2 & G3 & G4 & G5 & G6).
    rewrite val_zero in G5, G6. change (INR 0) with 0 in G5, G6. rewrite !Rplus_0_l in G5.
    exists ys, ts, a. split; [rewrite Run; f_equal; exact G1|]. split; [exact G2|]. split; [lia|]. split; [intros; apply G4; lia|]. split; [exact G5|].
    intros n Hn. destruct (G6 n Hn) as [A B]. rewrite !Rplus_0_l in A. split; assumption.
Qed.

Definition anywhere (v : R) : Prop := True.
(** Orders two and more: output n is the fitted polynomial at a position within n 2^-53 (1 + 3 / rate)
    samples of n / rate, whatever the samples are. *)
Theorem C171_positions d rnd trunc (fit : fitter) (rate : float) (order : Z) (x : list float) : rounds rnd -> suits rate x -> order <> 1%Z ->
  exists y ts, interpF d rnd trunc fit rate order x = Ok y /\ length ts = length y /\ (Z.of_nat (length y) <= roomQ rate x)%Z /\
    forall n, (n < length y)%nat -> Rabs (nth n ts 0 - INR n / val rate) <= INR n * (uro * (1 + 3 / val rate)) /\
      piece_double d fit order (padded x) (length x) (nth n ts 0) (nth n y 0%float).
Proof.
  intros Hrnd Hs Ho. pose proof Hs as (H1 & F & P & H2 & H3).
  destruct (Z.eq_dec (roomQ rate x) 0) as [Z0|Z0].
  - destruct (padded_run d rnd trunc fit rate order x anywhere 0 Hrnd Hs Ho (Rle_refl 0) I (fun _ _ => I)) as (y & ts & a & G1 & G2 & G3 & _); [intros; lia|].
    exists y, ts. split; [exact G1|]. split; [exact G2|]. split; [exact G3|]. intros n Hn. lia.
  - pose proof (room_bounds rate x Hs) as Rb. assert (Hr : (0 < roomQ rate x)%Z) by lia.
    destruct (padded_run d rnd trunc fit rate order x anywhere (slip rate) Hrnd Hs Ho (slip_pos rate x Hs Hr) I (fun _ _ => I)) as (y & ts & a & G1 & G2 & G3 & _ & _ & G6).
    + intros _ p (_ & Bp & _) Lp. split; [exact I|]. apply (slip_double rate x Hs Hr). lra.
    + exists y, ts. split; [exact G1|]. split; [exact G2|]. split; [exact G3|]. intros n Hn. destruct (G6 n Hn) as [A B]. split; [|exact B].
      unfold slip in A. replace (INR n / val rate) with (INR n * (1 / val rate)) by (field; lra). replace (3 / val rate) with (3 * (1 / val rate)) by (field; lra). exact A.
Qed.
Print Assumptions C171_positions.

(** Every output there is room for is computed, for len * rate * (rate + 4) up to 2^50. *)
Theorem C171_count d rnd trunc (fit : fitter) (rate : float) (order : Z) (x : list float) : rounds rnd -> suits rate x -> order <> 1%Z ->
  INR (length x) * val rate * (val rate + 4) <= IZR (2 ^ 50) ->
  exists y, interpF d rnd trunc fit rate order x = Ok y /\ Z.of_nat (length y) = roomQ rate x.
Proof.
  intros Hrnd Hs Ho Small. pose proof Hs as (H1 & F & P & H2 & H3). pose proof (room_bounds rate x Hs) as Rb.
  destruct (Z.eq_dec (roomQ rate x) 0) as [Z0|Z0].
  - destruct (padded_run d rnd trunc fit rate order x anywhere 0 Hrnd Hs Ho (Rle_refl 0) I (fun _ _ => I)) as (y & ts & a & G1 & G2 & G3 & _); [intros; lia|]. exists y. split; [exact G1|lia].
  - assert (Hr : (0 < roomQ rate x)%Z) by lia.
    destruct (padded_run d rnd trunc fit rate order x anywhere (slip rate) Hrnd Hs Ho (slip_pos rate x Hs Hr) I (fun _ _ => I)) as (y & ts & pos & G1 & G2 & G3 & G4 & G5 & _).
    + intros _ p (_ & Bp & _) Lp. split; [exact I|]. apply (slip_double rate x Hs Hr). lra.
    + exists y. split; [exact G1|]. destruct (Z.eq_dec (Z.of_nat (length y)) (roomQ rate x)) as [C|C]; [exact C|exfalso].
      assert (Lt : (Z.of_nat (length y) < roomQ rate x)%Z) by lia. specialize (G4 Lt).
      set (n := INR (length y)) in *. set (r := val rate) in *. set (L := INR (length x)) in *. set (a := L * r) in *.
      pose proof (Rle_abs (pos - n * (1 / r))) as Ab. unfold roomQ in Lt, Hr. fold L r a in Lt, Hr.
      assert (Q : 1 / 4 <= a) by (apply (room_rate L r); exact Hr). assert (Pn : 0 <= n) by apply pos_INR. pose proof uro_pos as U.
      assert (Hn : n + 1 / 2 <= nearest a).
      { destruct (rheR_spec (nearest a)) as [K _]. assert (J : (Z.of_nat (length y) + 1 <= rheR (nearest a))%Z) by lia. apply IZR_le in J. rewrite plus_IZR, <- INR_IZR_INZ in J. fold n in J.
        pose proof (Rle_abs (IZR (rheR (nearest a)) - nearest a)). lra. }
      assert (Na : nearest a <= a + uro * a + uro).
      { pose proof (nearest_close a) as K. rewrite (Rabs_pos_eq a) in K by lra. pose proof (Rle_abs (nearest a - a)). pose proof eta_uro. lra. }
      assert (Ub : uro * IZR (2 ^ 50) = 1 / 8). { unfold uro. change (IZR (2 ^ 50)) with (bpow radix2 50). rewrite Rmult_assoc, <- bpow_plus. cbn. lra. }
      assert (Ba : uro * (a * (r + 4)) <= 1 / 8) by (rewrite <- Ub; apply Rmult_le_compat_l; lra).
      assert (Ur : uro <= 1 / 8). { rewrite <- Ub. rewrite <- (Rmult_1_r uro) at 1. apply Rmult_le_compat_l; [lra|]. apply (IZR_le 1). lia. }
      assert (Ua : 0 <= uro * a) by (apply Rmult_le_pos; lra). assert (Uar : 0 <= uro * a * r) by (apply Rmult_le_pos; lra).
      replace (uro * (a * (r + 4))) with (uro * a * r + 4 * (uro * a)) in Ba by ring.
      assert (N2 : n <= a) by lra. assert (Pr : 0 < r) by exact P.
      assert (S : 0 < 1 / r) by (apply Rdiv_lt_0_compat; lra). assert (LR : L = a * (1 / r)) by (unfold a; field; lra).
      assert (Se : slip rate = uro * (r + 3) * (1 / r)) by (unfold slip; fold r; field; lra). rewrite Se in G5. rewrite LR in G4. set (s := 1 / r) in *.
      assert (K2 : a <= n + n * (uro * (r + 3))). { apply Rmult_le_reg_r with s; [exact S|]. lra. }
      assert (K3 : n * (uro * (r + 3)) <= a * (uro * (r + 3))) by (apply Rmult_le_compat_r; [apply Rmult_le_pos; lra|exact N2]).
      replace (a * (uro * (r + 3))) with (uro * a * r + 3 * (uro * a)) in K3 by ring. lra.
Qed.
Print Assumptions C171_count.

(** If the rate is a power of two no position is rounded. *)
Theorem C171_exact d rnd trunc (fit : fitter) (rate : float) (order : Z) (x : list float) (j : Z) : rounds rnd -> suits rate x -> order <> 1%Z -> val rate = bpow radix2 j ->
  exists y, interpF d rnd trunc fit rate order x = Ok y /\
    forall n, (n < length y)%nat -> piece_double d fit order (padded x) (length x) (INR n / val rate) (nth n y 0%float).
Proof.
  intros Hrnd Hs Ho Hj. pose proof Hs as (H1 & F & P & H2 & H3). set (e := Z.max j 0). assert (He : (0 <= e)%Z) by (unfold e; lia).
  assert (E1 : IZR (2 ^ e) * bpow radix2 (- e) = 1).
  { change (2 ^ e)%Z with (radix2 ^ e)%Z. rewrite IZR_Zpower by exact He. rewrite <- bpow_plus. replace (e + - e)%Z with 0%Z by lia. reflexivity. }
  assert (Inv : 1 / val rate = bpow radix2 (- j)) by (rewrite Hj, bpow_opp; unfold Rdiv; ring).
  set (D := fun v : R => exists z, v = IZR z * bpow radix2 (- e)). pose proof (room_bounds rate x Hs) as Rb.
  destruct (padded_run d rnd trunc fit rate order x D 0 Hrnd Hs Ho (Rle_refl 0)) as (y & ts & a & G1 & G2 & G3 & _ & _ & G6).
  - exists 0%Z. ring.
  - intros w [z ->]. exists (z - 2 ^ e)%Z. rewrite minus_IZR, Rmult_minus_distr_r, E1. reflexivity.
  - intros Hr p (Fp & Bp & [z Ez]) Lp. destruct (step_range rate x Hs Hr) as [S1 S2]. destruct (step_double rate x Hs Hr) as (_ & Vv & _). rewrite Inv in *.
    assert (J : (-51 <= j <= 49)%Z).
    { change (IZR (2 ^ 51)) with (bpow radix2 51) in S2. change (IZR (2 ^ 49)) with (bpow radix2 49) in S1. rewrite <- bpow_opp in S1. apply le_bpow in S1, S2. lia. }
    assert (Nv : nearest (bpow radix2 (- j)) = bpow radix2 (- j)) by (rewrite <- (Rmult_1_l (bpow radix2 (- j))); apply (nearest_grid 1); cbn; lia).
    rewrite Vv, Nv. assert (Bj : bpow radix2 (- j) = IZR (2 ^ (e - j)) * bpow radix2 (- e)).
    { change (2 ^ (e - j))%Z with (radix2 ^ (e - j))%Z. rewrite IZR_Zpower by lia. rewrite <- bpow_plus. f_equal. lia. }
    assert (Bz : (0 <= z < 2 ^ e)%Z).
    { pose proof (bpow_gt_0 radix2 (- e)) as Pe. split.
      - apply le_IZR. apply Rmult_le_reg_r with (bpow radix2 (- e)); [exact Pe|]. rewrite Rmult_0_l, <- Ez. lra.
      - apply lt_IZR. apply Rmult_lt_reg_r with (bpow radix2 (- e)); [exact Pe|]. rewrite <- Ez, E1. exact Lp. }
    assert (Sum : val p + bpow radix2 (- j) = IZR (z + 2 ^ (e - j)) * bpow radix2 (- e)) by (rewrite Bj, Ez, plus_IZR; ring).
    rewrite Sum, nearest_grid.
    + split; [eexists; reflexivity|]. unfold Rminus. rewrite Rplus_opp_r, Rabs_R0. lra.
    + unfold e. lia.
    + assert (A1 : (2 ^ e <= 2 ^ 49)%Z) by (apply Z.pow_le_mono_r; unfold e; lia). assert (A2 : (0 < 2 ^ (e - j) <= 2 ^ 51)%Z) by (split; [apply Z.pow_pos_nonneg; unfold e; lia|apply Z.pow_le_mono_r; unfold e; lia]). lia.
  - exists y. split; [exact G1|]. intros n Hn. destruct (G6 n Hn) as [A B]. rewrite Rmult_0_r in A. pose proof (Rabs_pos (nth n ts 0 - INR n * (1 / val rate))) as A2.
    replace (INR n / val rate) with (nth n ts 0); [exact B|]. apply Rminus_diag_uniq. destruct (Req_dec (nth n ts 0 - INR n / val rate) 0) as [G|G]; [exact G|]. apply Rabs_pos_lt in G.
    replace (INR n * (1 / val rate)) with (INR n / val rate) in A by (field; lra). lra.
Qed.
Print Assumptions C171_exact.

(** In general an output may be taken from the piece next to the one that spans its exact position: at
    rate 0.2, whose double is above 1/5, the second output is taken from the piece of sample 5, although the piece of
    sample 4 spans its exact position. *)
Definition truncF (p : float) : Z :=
  match Prim2B p with B754_finite s m e _ => cond_Zopp s (if (0 <=? e)%Z then Z.pos m * 2 ^ e else Z.pos m / 2 ^ (- e))%Z | _ => 0%Z end.
Lemma truncF_truncates : truncates truncF.
Proof.
  intros v F P. unfold truncF. pose proof F as F'. unfold finite in F'. rewrite is_finite_equiv in F'. unfold val in *. destruct (Prim2B v) as [s|s| |s m e H] eqn:E; try discriminate.
  - cbn [B2R]. lra.
  - cbn [B2R] in *. destruct s.
    { exfalso. pose proof (F2R_lt_0 radix2 (Float radix2 (Z.neg m) e) eq_refl). cbn [cond_Zopp Z.opp] in P. lra. }
    cbn [cond_Zopp]. unfold F2R. cbn [Fnum Fexp]. destruct (Z.leb_spec 0 e) as [C|C].
    + rewrite mult_IZR. change (2 ^ e)%Z with (radix2 ^ e)%Z. rewrite IZR_Zpower by exact C. lra.
    + assert (Hk : (0 < 2 ^ (- e))%Z) by (apply Z.pow_pos_nonneg; lia). set (k := (2 ^ (- e))%Z) in *.
      assert (Bk : IZR k * bpow radix2 e = 1).
      { unfold k. change (2 ^ (- e))%Z with (radix2 ^ (- e))%Z. rewrite IZR_Zpower by lia. rewrite <- bpow_plus. replace (- e + e)%Z with 0%Z by lia. reflexivity. }
      pose proof (Z.div_mod (Z.pos m) k ltac:(lia)) as Dm. pose proof (Z.mod_pos_bound (Z.pos m) k Hk) as Bd. set (w := (Z.pos m / k)%Z) in *. set (g := (Z.pos m mod k)%Z) in *.
      set (b := bpow radix2 e) in *. assert (Pb : 0 < b) by apply bpow_gt_0.
      assert (Vm : IZR (Z.pos m) * b = IZR w + IZR g * b) by (rewrite Dm, plus_IZR, mult_IZR; replace ((IZR k * IZR w + IZR g) * b) with (IZR w * (IZR k * b) + IZR g * b) by ring; rewrite Bk; ring).
      rewrite Vm. assert (0 <= IZR g * b) by (apply Rmult_le_pos; [apply IZR_le; lia|lra]).
      assert (IZR g * b < 1). { rewrite <- Bk. apply Rmult_lt_compat_r; [exact Pb|apply IZR_lt; lia]. } lra.
Qed.
(** numpy.polyfit replaced by the constant through the second of its four points. *)
Definition holdF : fitter := fun _ xs _ => [nth 1 xs 0%float].
Lemma hold_value d (w c : float) : finite w -> finite c -> val (@polyval (FOd d) [c] w) = val c.
Proof.
  intros Fw Fc. cbn [polyval fold_left]. change (val (0 * w + c)%float = val c).
  assert (N0 : nearest (val 0%float * val w) = 0) by (rewrite val_zero, Rmult_0_l; apply (nearest_IZR 0); cbn; lia).
  destruct (mul_fin 0%float w eq_refl Fw) as [F1 V1]; [rewrite N0, Rabs_R0; apply huge_pos|]. rewrite N0 in V1.
  assert (N1 : nearest (val (0 * w)%float + val c) = val c) by (rewrite V1, Rplus_0_l; apply nearest_val).
  destruct (add_fin (0 * w)%float c F1 Fc) as [F2 V2].
  - rewrite N1. unfold val, huge. apply abs_B2R_lt_emax.
  - rewrite V2. exact N1.
Qed.
Lemma fifth_val : val fifth = 3602879701896397 / 18014398509481984. Proof. unfold val, B2R; cbn; unfold F2R; cbn; lra. Qed.
Lemma fifth_suits : suits fifth samples.
Proof.
  split; [cbn; lia|]. split; [reflexivity|]. rewrite fifth_val. split; [lra|]. split; [cbn; lia|]. apply Rle_trans with 100; [cbn; lra|apply (IZR_le 100); lia].
Qed.
Theorem C171_exact_refuted : ~ forall d rnd trunc (fit : fitter) (rate : float) (order : Z) (x y : list float), rounds rnd -> truncates trunc -> suits rate x -> (2 <= order)%Z ->
  interpF d rnd trunc fit rate order x = Ok y -> forall n, (n < length y)%nat ->
  exists (m : nat) (w : float), INR m <= INR n / val rate < INR (S m) /\ finite w /\ nth n y 0%float = @polyval (FOd d) (fit [-1; 0; 1; 2]%float (firstn 4 (skipn m (padded x))) order) w.
Proof.
  intros H. assert (Run : interpF dotF rneF truncF holdF fifth 2 samples = Ok [0; 5]%float) by (vm_compute; reflexivity).
  destruct (H dotF rneF truncF holdF fifth 2%Z samples [0; 5]%float rneF_rounds truncF_truncates fifth_suits ltac:(lia) Run 1%nat ltac:(cbn; lia)) as (m & w & Hm & Fw & Y). clear H.
  rewrite fifth_val, (S_INR m) in Hm. change (INR 1) with 1 in Hm.
  assert (M : m = 4%nat).
  { assert (INR m < 5) by lra. assert (3 < INR m) by lra. assert (m < 5)%nat by (apply INR_lt; replace (INR 5) with 5 by (cbn; ring); assumption).
    assert (3 < m)%nat by (apply INR_lt; replace (INR 3) with 3 by (cbn; ring); assumption). lia. }
  subst m. cbn [nth] in Y. assert (V : val 5%float = val (@polyval (FOd dotF) [4%float] w)) by (rewrite Y; reflexivity).
  rewrite hold_value in V by (exact Fw || reflexivity). revert V. unfold val, B2R. cbn. unfold F2R. cbn. lra.
Qed.
Print Assumptions C171_exact_refuted.

(** ** Examples *)
Definition oneA : list float := [1; 3; nan; 2]%float.
Example C171_linear_ex : rounds rneF /\ truncates truncF /\ suits 2%float [1; 3; 2]%float /\ within 3 [1; 3; 2]%float /\
  interpF dotF rneF truncF holdF 2 1 [1; 3; 2]%float = Ok [1; 2; 3; 2.5; 2; 1.5]%float.
Proof.
  split; [exact rneF_rounds|]. split; [exact truncF_truncates|]. split.
  - split; [cbn; lia|]. split; [reflexivity|]. rewrite val2. split; [lra|]. split; [cbn; lia|]. apply Rle_trans with 100; [cbn; lra|apply (IZR_le 100); lia].
  - split; [|vm_compute; reflexivity]. split.
    + apply Rle_trans with (bpow radix2 2); [cbn; lra|apply bpow_le; lia].
    + repeat (apply Forall_cons; [split; [reflexivity|]; unfold val, B2R; cbn; unfold F2R; cbn; rewrite Rabs_pos_eq; lra|]). apply Forall_nil.
Qed.
Example C171_positions_ex : suits fifth samples /\ interpF dotF rneF truncF holdF fifth 3 samples = Ok [0; 5]%float.
Proof. split; [exact fifth_suits|vm_compute; reflexivity]. Qed.
Example C171_count_ex : INR (length samples) * val fifth * (val fifth + 4) <= IZR (2 ^ 50) /\ roomQ fifth samples = 2%Z.
Proof.
  rewrite fifth_val. split; [apply Rle_trans with 100; [cbn; lra|apply (IZR_le 100); lia]|].
  destruct (C171_count dotF rneF truncF holdF fifth 3 samples rneF_rounds fifth_suits ltac:(lia)) as (y & Y1 & Y2).
  - rewrite fifth_val. apply Rle_trans with 100; [cbn; lra|apply (IZR_le 100); lia].
  - rewrite (proj2 C171_positions_ex) in Y1. injection Y1 as <-. symmetry. exact Y2.
Qed.
(** NaN samples change the outputs of their pieces only. *)
Example C171_exact_ex : val 2%float = bpow radix2 1 /\ suits 2%float oneA /\ interpF dotF rneF truncF holdF 2 3 oneA = Ok [1; 1; 3; 3; nan; nan; 2; 2]%float.
Proof.
  split; [exact val2|]. split; [|vm_compute; reflexivity].
  split; [cbn; lia|]. split; [reflexivity|]. rewrite val2. split; [lra|]. split; [cbn; lia|]. apply Rle_trans with 100; [cbn; lra|apply (IZR_le 100); lia].
Qed.
