(** Property C169: the phase of ComplexExponentialFilter in IEEE doubles. *)
From Flocq Require Import Core BinarySingleNaN PrimFloat.
From Coq Require Import List Arith ZArith Bool Reals Lra Lia Floats.
From Coquelicot Require Import Complex.
From Verif Require Import Base BaseLemmas Instances CalculusModel CalculusProps CExpModel CExpProps Rounding DoubleSpec DoubleProofs DoubleOps.
Import ListNotations.
Set Asymmetric Patterns.
Local Open Scope R_scope.

(** ** Specification *)
(** numpy.fmod is exact, numpy.sign is the sign. *)
Definition fmod_exact (f : float -> float) : Prop := forall v, finite v -> finite (f v) /\ val (f v) = fmod2R (val v).
Definition sign_exact (f : float -> float) : Prop := forall v, finite v -> finite (f v) /\ val (f v) = sgnR (val v).
(** Signals of numbers in [-1, 1]. *)
Definition frequencies (x : list float) : Prop := x <> [] /\ Forall (fun v => finite v /\ Rabs (val v) <= 1) x.
Definition float_sig (x : list float) : fsig FO := mkFsig x false false.
(** Multiples of 2^-q. *)
Definition dyadic (q : nat) (v : float) : Prop := exists z, val v = IZR z * bpow radix2 (- Z.of_nat q).

(** ** The exact remainder by 2 is a double: numpy.fmod(., 2.0) *)
Definition fmod2F (p : float) : float :=
  match Prim2B p with
  | B754_finite s m e _ => if (0 <? e)%Z then (p * 0)%float
      else B2Prim (@BinarySingleNaN.binary_normalize 53 1024 eq_refl eq_refl mode_NE (cond_Zopp s (Z.pos m mod 2 ^ (1 - e))) e s)
  | B754_infinity _ => nan
  | _ => p
  end.
Definition sgnF (p : float) : float := if PrimFloat.ltb 0 p then 1%float else if PrimFloat.ltb p 0 then (-1)%float else p.
Lemma fmod2R_opp v : fmod2R (- v) = - fmod2R v.
Proof.
  unfold fmod2R. assert (T : Rtrunc (- v / 2) = - Rtrunc (v / 2)); [|rewrite T; ring]. replace (- v / 2) with (- (v / 2)) by field.
  generalize (v / 2). clear v. intros v. unfold Rtrunc. destruct (Rle_dec 0 (- v)), (Rle_dec 0 v).
  - assert (v = 0) by lra. subst. rewrite Ropp_0. replace (Int_part 0) with 0%Z; [cbn; ring|]. symmetry. apply (Int_part_unique 0 0). lra.
  - ring.
  - rewrite Ropp_involutive. reflexivity.
  - lra.
Qed.
Lemma fmod2R_pos m e : (e <= 0)%Z -> fmod2R (IZR (Z.pos m) * bpow radix2 e) = IZR (Z.pos m mod 2 ^ (1 - e)) * bpow radix2 e.
Proof.
  intros He. set (k := (1 - e)%Z). assert (Hk : (0 < 2 ^ k)%Z) by (apply Z.pow_pos_nonneg; lia).
  assert (B : IZR (2 ^ k) * bpow radix2 e = 2).
  { change (2 ^ k)%Z with (radix2 ^ k)%Z. rewrite IZR_Zpower by (unfold k; lia). rewrite <- bpow_plus. replace (k + e)%Z with 1%Z by (unfold k; lia). reflexivity. }
  pose proof (bpow_gt_0 radix2 e) as Pe. pose proof (Z.div_mod (Z.pos m) (2 ^ k) ltac:(lia)) as D. pose proof (Z.mod_pos_bound (Z.pos m) (2 ^ k) Hk) as Bd.
  set (d := (Z.pos m / 2 ^ k)%Z) in *. set (r := (Z.pos m mod 2 ^ k)%Z) in *.
  assert (V : IZR (Z.pos m) * bpow radix2 e = 2 * IZR d + IZR r * bpow radix2 e).
  { rewrite D, plus_IZR, mult_IZR. rewrite <- B. ring. }
  assert (Br : 0 <= IZR r * bpow radix2 e < 2).
  { split; [apply Rmult_le_pos; [apply IZR_le; lia|lra]|]. rewrite <- B. apply Rmult_lt_compat_r; [exact Pe|apply IZR_lt; lia]. }
  assert (Pd : 0 <= IZR d) by (apply IZR_le, Z.div_pos; lia).
  unfold fmod2R, Rtrunc. rewrite V. destruct (Rle_dec 0 ((2 * IZR d + IZR r * bpow radix2 e) / 2)); [|lra].
  rewrite (Int_part_unique _ d); [ring|]. lra.
Qed.
Lemma fmod2R_even m e : (0 < e)%Z -> fmod2R (IZR (Z.pos m) * bpow radix2 e) = 0.
Proof.
  intros He. unfold fmod2R, Rtrunc. assert (V : IZR (Z.pos m) * bpow radix2 e = 2 * IZR (Z.pos m * 2 ^ (e - 1))).
  { rewrite mult_IZR. change (2 ^ (e - 1))%Z with (radix2 ^ (e - 1))%Z. rewrite IZR_Zpower by lia. replace e with (1 + (e - 1))%Z at 1 by lia. rewrite bpow_plus. change (bpow radix2 1) with 2. ring. }
  rewrite V. assert (0 <= IZR (Z.pos m * 2 ^ (e - 1))) by (apply IZR_le; apply Z.mul_nonneg_nonneg; [lia|apply Z.pow_nonneg; lia]).
  destruct (Rle_dec 0 (2 * IZR (Z.pos m * 2 ^ (e - 1)) / 2)); [|lra]. rewrite (Int_part_unique _ (Z.pos m * 2 ^ (e - 1))); [ring|]. lra.
Qed.
Lemma fmod2F_exact : fmod_exact fmod2F.
Proof.
  intros v F. unfold fmod2F. pose proof F as F'. unfold finite in F'. rewrite is_finite_equiv in F'. 
  destruct (Prim2B v) as [s|s| |s m e H] eqn:E; try discriminate.
  - split; [exact F|]. assert (V : val v = 0) by (unfold val; rewrite E; reflexivity). rewrite V. unfold fmod2R, Rtrunc.
    destruct (Rle_dec 0 (0 / 2)); [|lra]. rewrite (Int_part_unique _ 0); lra.
  - assert (V : val v = (if s then -1 else 1) * (IZR (Z.pos m) * bpow radix2 e)).
    { unfold val. rewrite E. unfold B2R, F2R. cbn [Fnum Fexp]. destruct s; cbn [cond_Zopp]; [rewrite opp_IZR|]; ring. }
    assert (Fm : fmod2R (val v) = (if s then -1 else 1) * fmod2R (IZR (Z.pos m) * bpow radix2 e)).
    { rewrite V. destruct s; [|rewrite !Rmult_1_l; reflexivity]. replace (-1 * (IZR (Z.pos m) * bpow radix2 e)) with (- (IZR (Z.pos m) * bpow radix2 e)) by ring. rewrite fmod2R_opp. ring. }
    rewrite Fm. destruct (Z.ltb_spec 0 e) as [Pe|Pe].
    + rewrite fmod2R_even by exact Pe. rewrite Rmult_0_r. 
      assert (Hh : Rabs (nearest (val v * val 0%float)) < huge) by (rewrite val_zero, Rmult_0_r, (nearest_IZR 0 ltac:(cbn; lia)), Rabs_R0; apply huge_pos).
      destruct (mul_fin v 0%float F eq_refl Hh) as [F2 V2]. split; [exact F2|]. rewrite V2, val_zero, Rmult_0_r. apply (nearest_IZR 0). cbn. lia.
    + rewrite fmod2R_pos by exact Pe. set (r := (Z.pos m mod 2 ^ (1 - e))%Z).
      assert (Hb : (Z.pos m < 2 ^ 53)%Z /\ (-1074 <= e)%Z).
      { clear -H. unfold bounded, canonical_mantissa in H. apply andb_prop in H. destruct H as [H _]. apply Zeq_bool_eq in H.
        unfold SpecFloat.fexp, SpecFloat.emin in H. rewrite Digits.Zpos_digits2_pos in H. change FloatOps.prec with 53%Z in H. change FloatOps.emax with 1024%Z in H. split; [|lia].
        apply (Digits.Zpower_gt_Zdigits radix2 53 (Z.pos m)). lia. }
      assert (Rb : (0 <= r < 2 ^ 53)%Z).
      { unfold r. assert (0 < 2 ^ (1 - e))%Z by (apply Z.pow_pos_nonneg; lia). pose proof (Z.mod_pos_bound (Z.pos m) (2 ^ (1 - e)) H0). pose proof (Z.mod_le (Z.pos m) (2 ^ (1 - e)) ltac:(lia) H0). lia. }
      set (c := cond_Zopp s r). assert (Cv : F2R (Float radix2 c e) = (if s then -1 else 1) * (IZR r * bpow radix2 e)).
      { unfold F2R. cbn [Fnum Fexp]. unfold c. destruct s; cbn [cond_Zopp]; [rewrite opp_IZR|]; ring. }
      assert (Cb : (Z.abs c <= 2 ^ 53)%Z) by (unfold c; destruct s; cbn [cond_Zopp]; lia).
      pose proof (@binary_normalize_correct 53 1024 eq_refl eq_refl mode_NE c e s) as K. cbv zeta in K.
      assert (Ne : round radix2 (SpecFloat.fexp 53 1024) (round_mode mode_NE) (F2R (Float radix2 c e)) = F2R (Float radix2 c e)) by (apply (nearest_grid c e); [lia|exact Cb]).
      rewrite Ne in K. rewrite Rlt_bool_true in K.
      2:{ unfold F2R. cbn [Fnum Fexp]. rewrite Rabs_mult, <- abs_IZR, (Rabs_pos_eq (bpow _ _)) by apply bpow_ge_0.
          apply Rle_lt_trans with (IZR (2 ^ 53) * 1).
          - apply Rmult_le_compat; [apply IZR_le; lia|apply bpow_ge_0|apply IZR_le; exact Cb|]. change 1 with (bpow radix2 0). apply bpow_le. exact Pe.
          - rewrite Rmult_1_r. change (IZR (2 ^ 53)) with (bpow radix2 53). apply bpow_lt. lia. }
      destruct K as (K1 & K2 & _). unfold finite, val. rewrite is_finite_equiv, !Prim2B_B2Prim. split; [exact K2|]. etransitivity; [exact K1|exact Cv].
Qed.
Lemma sgnF_exact : sign_exact sgnF.
Proof.
  intros v F. unfold sgnF, sgnR. assert (V1 : val 1%float = 1) by (unfold val, B2R; cbn; unfold F2R; cbn; lra).
  assert (V2 : val (-1)%float = -1) by (unfold val, B2R; cbn; unfold F2R; cbn; lra).
  destruct (PrimFloat.ltb 0 v) eqn:E1.
  - apply (ltb_val 0 v eq_refl F) in E1. rewrite val_zero in E1. apply Rltb_iff in E1. rewrite E1. split; [reflexivity|exact V1].
  - assert (N1 : ~ 0 < val v) by (intros C; rewrite <- val_zero in C; apply (ltb_val 0 v eq_refl F) in C; congruence).
    destruct (Rltb 0 (val v)) eqn:G1; [apply Rltb_iff in G1; contradiction|].
    destruct (PrimFloat.ltb v 0) eqn:E2.
    + apply (ltb_val v 0 F eq_refl) in E2. rewrite val_zero in E2. apply Rltb_iff in E2. rewrite E2. split; [reflexivity|exact V2].
    + assert (N2 : ~ val v < 0) by (intros C; rewrite <- val_zero in C; apply (ltb_val v 0 F eq_refl) in C; congruence).
      destruct (Rltb (val v) 0) eqn:G2; [apply Rltb_iff in G2; contradiction|]. split; [exact F|lra].
Qed.

(** ** Lemmas *)
Lemma val_1 : finite (@of_Z FA 1) /\ val (@of_Z FA 1) = 1. Proof. apply (of_Z_double 1). cbn. lia. Qed.
Lemma val_2 : finite (@of_Z FA 2) /\ val (@of_Z FA 2) = 2. Proof. apply (of_Z_double 2). cbn. lia. Qed.
Lemma val_m1 : finite (@of_Z FA (-1)) /\ val (@of_Z FA (-1)) = -1. Proof. apply (of_Z_double (-1)). cbn. lia. Qed.
Lemma saturate x : Rabs x <= IZR (2 ^ 53) + 1 -> Rabs (nearest x) <= IZR (2 ^ 53).
Proof.
  set (big := 9007199254740992%float). assert (F : finite big) by reflexivity.
  assert (V : val big = IZR (2 ^ 53)) by (unfold val, B2R; cbn; unfold F2R; cbn; lra). assert (F1 : finite 1%float) by reflexivity.
  assert (V1 : val 1%float = 1) by (unfold val, B2R; cbn; unfold F2R; cbn; lra).
  assert (S : nearest (IZR (2 ^ 53) + 1) = IZR (2 ^ 53)).
  { assert (Hh : Rabs (nearest (val big + val 1%float)) < huge).
    { rewrite V, V1. eapply Rle_lt_trans; [apply nearest_bound|]. pose proof huge_big. pose proof eta_uro.
      assert (uro <= 1). { unfold uro. pose proof (bpow_le radix2 (-52) 0 ltac:(lia)) as B. change (bpow radix2 0) with 1 in B. lra. }
      rewrite Rabs_pos_eq by (apply Rplus_le_le_0_compat; [apply IZR_le; lia|lra]).
      assert (B : 2 * (IZR (2 ^ 53) + 1) + 1 < IZR (2 ^ 60)).
      { replace (2 * (IZR (2 ^ 53) + 1) + 1) with (IZR (2 * (2 ^ 53 + 1) + 1)) by (rewrite plus_IZR, mult_IZR, plus_IZR; ring). apply IZR_lt. reflexivity. }
      assert (0 <= IZR (2 ^ 53)) by (apply IZR_le; lia). nra. }
    destruct (add_fin _ _ F F1 Hh) as [_ E]. rewrite V, V1 in E. rewrite <- E.
    assert (Eq : (big + 1)%float = big) by (vm_compute; reflexivity). rewrite Eq. exact V. }
  intros H. assert (-(IZR (2 ^ 53) + 1) <= x <= IZR (2 ^ 53) + 1) by (revert H; unfold Rabs; destruct (Rcase_abs x); lra). apply Rabs_le. split.
  - rewrite <- S, <- nearest_opp. apply nearest_le. lra.
  - rewrite <- S. apply nearest_le. lra.
Qed.
Definition cap (K : Z) : Z := Z.min K (2 ^ 53).
Lemma step_double K p v : (1 <= K)%Z -> finite p -> Rabs (val p) <= IZR (cap K) -> finite v -> Rabs (val v) <= 1 ->
  finite (p + v)%float /\ Rabs (val (p + v)%float) <= IZR (cap (K + 1)) /\ val (p + v)%float = nearest (val p + val v) /\ Rabs (val p + val v) <= IZR (K + 1).
Proof.
  intros HK Fp Bp Fv Bv. pose proof (Rabs_triang (val p) (val v)) as T.
  assert (C1 : IZR (cap K) <= IZR K) by (apply IZR_le; unfold cap; lia). assert (C2 : IZR (cap K) <= IZR (2 ^ 53)) by (apply IZR_le; unfold cap; lia).
  assert (B : Rabs (nearest (val p + val v)) <= IZR (cap (K + 1))).
  { destruct (Z_le_gt_dec (K + 1) (2 ^ 53)) as [L|L].
    - replace (cap (K + 1)) with (K + 1)%Z by (unfold cap; lia). apply nearest_ceil; [lia|]. rewrite plus_IZR. lra.
    - replace (cap (K + 1)) with (2 ^ 53)%Z by (unfold cap; lia). apply saturate. lra. }
  assert (Hh : Rabs (nearest (val p + val v)) < huge).
  { eapply Rle_lt_trans; [exact B|]. eapply Rlt_trans; [|exact huge_big]. apply IZR_lt. unfold cap. lia. }
  destruct (add_fin p v Fp Fv Hh) as [F E]. split; [exact F|]. split; [rewrite E; exact B|]. split; [exact E|]. rewrite plus_IZR. lra.
Qed.
(** The wrap of lines 89-91 is exact. *)
Lemma wrap_double fmod2 sgn p : fmod_exact fmod2 -> sign_exact sgn -> finite p ->
  finite (@cexp_wrap FO fmod2 sgn p) /\ val (@cexp_wrap FO fmod2 sgn p) = wrapR (val p).
Proof.
  intros Hf Hs Fp. destruct (Hf p Fp) as [Ff Vf]. destruct (Hs _ Ff) as [Fs Vs]. destruct val_1 as [F1 V1]. destruct val_2 as [F2 V2].
  destruct (abs_fin _ Ff) as [Fa Va]. pose proof (fmod2R_lt (val p)) as Lt.
  unfold wrapR, cexp_wrap. change (@oltb RO (of_Z 1) (oabs (fmod2R (val p)))) with (Rltb (@of_Z RA 1) (Rabs (fmod2R (val p)))). rewrite of_Z_IZR.
  change (@oltb FO (of_Z 1) (oabs (fmod2 p))) with (PrimFloat.ltb (@of_Z FA 1) (PrimFloat.abs (fmod2 p))).
  change (@sub RO) with Rminus. change (@mul RO) with Rmult. change (@of_Z RO 2) with (@of_Z RA 2). rewrite of_Z_IZR.
  change (@sub FO) with PrimFloat.sub. change (@mul FO) with PrimFloat.mul. change (@of_Z FO 2) with (@of_Z FA 2).
  destruct (PrimFloat.ltb (@of_Z FA 1) (PrimFloat.abs (fmod2 p))) eqn:E.
  - apply (ltb_val _ _ F1 Fa) in E. rewrite V1, Va, Vf in E. assert (E' := E). apply Rltb_iff in E'. rewrite E'. rewrite Vf in Vs.
    set (f := fmod2R (val p)) in *.
    assert (Sg : sgnR f = 1 \/ sgnR f = -1).
    { unfold sgnR. destruct (Rltb 0 f) eqn:G1; [left; reflexivity|]. destruct (Rltb f 0) eqn:G2; [right; reflexivity|]. exfalso.
      assert (~ 0 < f) by (intros C; apply Rltb_iff in C; congruence). assert (~ f < 0) by (intros C; apply Rltb_iff in C; congruence).
      replace f with 0 in E by lra. rewrite Rabs_R0 in E. lra. }
    assert (Sf : sgnR f = 1 /\ 1 < f < 2 \/ sgnR f = -1 /\ -2 < f < -1).
    { revert E Lt. unfold sgnR. unfold Rabs. destruct (Rcase_abs f) as [C|C]; intros E Lt.
      - right. split; [|lra]. destruct (Rltb 0 f) eqn:G1; [apply Rltb_iff in G1; lra|]. assert (G : f < 0) by lra. apply Rltb_iff in G. rewrite G. reflexivity.
      - left. split; [|lra]. assert (G : 0 < f) by lra. apply Rltb_iff in G. rewrite G. reflexivity. }
    assert (M : nearest (val (sgn (fmod2 p)) * val (@of_Z FA 2)) = sgnR f * 2).
    { rewrite Vs, V2. destruct Sg as [-> | ->]; [replace (1 * 2) with (IZR 2) by lra|replace (-1 * 2) with (IZR (-2)) by lra]; apply nearest_IZR; cbn; lia. }
    assert (Hm : Rabs (nearest (val (sgn (fmod2 p)) * val (@of_Z FA 2))) < huge).
    { rewrite M. pose proof huge_big. assert (2 < IZR (2 ^ 60)) by (apply (IZR_lt 2); reflexivity). destruct Sg as [-> | ->]; unfold Rabs; destruct (Rcase_abs _); lra. }
    destruct (mul_fin _ _ Fs F2 Hm) as [Fm Vm]. rewrite M in Vm.
    assert (D : nearest (val (fmod2 p) - val (sgn (fmod2 p) * of_Z 2)%float) = f - sgnR f * 2).
    { rewrite Vm, Vf. fold f. assert (Gf : generic_format radix2 (FLT_exp (-1074) 53) f) by (rewrite <- Vf; apply val_format).
      assert (G2 : generic_format radix2 (FLT_exp (-1074) 53) 2) by (rewrite <- V2; apply val_format).
      destruct Sf as [[-> H]|[-> H]].
      - rewrite Rmult_1_l. apply nearest_sterbenz; [exact Gf|exact G2|lra].
      - replace (f - -1 * 2) with (- (- f - 2)) by ring. rewrite nearest_opp. f_equal. apply nearest_sterbenz; [apply generic_format_opp, Gf|exact G2|lra]. }
    assert (Hd : Rabs (nearest (val (fmod2 p) - val (sgn (fmod2 p) * of_Z 2)%float)) < huge).
    { rewrite D. pose proof huge_big. assert (2 < IZR (2 ^ 60)) by (apply (IZR_lt 2); reflexivity). destruct Sf as [[-> Hq]|[-> Hq]]; unfold Rabs; destruct (Rcase_abs _); lra. }
    destruct (sub_fin _ _ Ff Fm Hd) as [Fd Vd]. rewrite D in Vd. split; [exact Fd|exact Vd].
  - assert (N : ~ 1 < Rabs (fmod2R (val p))).
    { intros C. rewrite <- Vf, <- Va, <- V1 in C. apply (ltb_val _ _ F1 Fa) in C. congruence. }
    destruct (Rltb 1 (Rabs (fmod2R (val p)))) eqn:G; [apply Rltb_iff in G; contradiction|]. split; [exact Ff|exact Vf].
Qed.
Lemma psum_cons v x n : psum (v :: x) (S n) = v + psum x n.
Proof. induction n as [|n IH]; [cbn; ring|]. cbn [psum] in *. rewrite IH. cbn [nth]. ring. Qed.

Section Phase.
  Variables (fmod2 sgn : float -> float) (Y : Type) (expj : float -> Y).
  Hypotheses (Hf : fmod_exact fmod2) (Hs : sign_exact sgn).
  (** D: a property of phases and frequencies kept by the filter; M bounds the phases plus one
      sample, E the error of one addition. *)
  Variables (D : float -> Prop) (M : Z) (E : R).
  Hypothesis Hadd : forall p v, finite p -> finite v -> D p -> D v -> Rabs (val p + val v) <= IZR M -> finite (p + v)%float -> val (p + v)%float = nearest (val p + val v) ->
    D (p + v)%float /\ Rabs (val (p + v)%float - (val p + val v)) <= E.
  Hypothesis Hwrap : forall p w k, finite p -> D p -> finite w -> val w = val p + 2 * IZR k -> D w.

  Definition call (s : float) (x : list float) : float * res (list Y) := @cexp_filter FO Y fmod2 sgn expj s (float_sig x).

  Lemma loop_double x : forall K p, (1 <= K)%Z -> (K + Z.of_nat (length x) <= M)%Z -> finite p -> Rabs (val p) <= IZR (cap K) -> D p ->
    Forall (fun v => finite v /\ Rabs (val v) <= 1) x -> Forall D x ->
    exists ph p', @cexp_loop FO Y expj p x = (p', map expj ph) /\ length ph = length x /\ finite p' /\ D p' /\
      Rabs (val p' - (val p + psum (map val x) (length x))) <= INR (length x) * E /\
      forall n, (n < length x)%nat -> finite (nth n ph 0%float) /\ Rabs (val (nth n ph 0%float) - (val p + psum (map val x) n)) <= INR n * E.
  Proof.
    induction x as [|v x IH]; intros K p HK HM Fp Bp Dp Fx Dx.
    - exists [], p. cbn. split; [reflexivity|]. split; [reflexivity|]. split; [exact Fp|]. split; [exact Dp|]. split; [|intros n Hn; lia].
      replace (val p - (val p + 0)) with 0 by ring. rewrite Rabs_R0. lra.
    - inversion Fx as [|? ? [Fv Bv] Fx']. inversion Dx as [|? ? Dv Dx']. subst. cbn [length] in HM.
      destruct (step_double K p v HK Fp Bp Fv Bv) as (F1 & B1 & V1 & S1).
      destruct (Hadd p v Fp Fv Dp Dv) as [D1 E1]; [eapply Rle_trans; [exact S1|apply IZR_le; lia]|exact F1|exact V1|].
      destruct (IH (K + 1)%Z (p + v)%float ltac:(lia) ltac:(lia) F1 B1 D1 Fx' Dx') as (ph & p' & L & Lp & Fp' & Dp' & Ep' & Hn).
      exists (p :: ph), p'. cbn [cexp_loop]. change (@add FO p v) with (p + v)%float. rewrite L. split; [reflexivity|]. cbn [length map]. split; [lia|]. split; [exact Fp'|]. split; [exact Dp'|].
      assert (Comb : forall a n, Rabs (a - (val (p + v)%float + psum (map val x) n)) <= INR n * E -> Rabs (a - (val p + psum (val v :: map val x) (S n))) <= INR (S n) * E).
      { intros a n H. rewrite psum_cons, S_INR.
        replace (a - (val p + (val v + psum (map val x) n))) with ((a - (val (p + v)%float + psum (map val x) n)) + (val (p + v)%float - (val p + val v))) by ring.
        eapply Rle_trans; [apply Rabs_triang|]. lra. }
      split; [apply Comb, Ep'|]. intros [|n] Hlt; cbn [nth].
      + split; [exact Fp|]. cbn. replace (val p - (val p + 0)) with 0 by ring. rewrite Rabs_R0. lra.
      + destruct (Hn n ltac:(lia)) as [Fn En]. split; [exact Fn|]. apply Comb, En.
  Qed.
  Lemma checks_double x : Forall (fun v => finite v /\ Rabs (val v) <= 1) x -> existsb (fun v => @oltb FO (of_Z 1) (oabs v)) x = false.
  Proof.
    intros F. match goal with |- ?b = false => destruct b eqn:Ex; [|reflexivity] end. apply existsb_exists in Ex. destruct Ex as [v [Iv Ev]]. rewrite Forall_forall in F. destruct (F v Iv) as [Fv Bv].
    destruct val_1 as [F1 V1]. destruct (abs_fin v Fv) as [Fa Va]. change (PrimFloat.ltb (@of_Z FA 1) (PrimFloat.abs v) = true) in Ev.
    apply (ltb_val _ _ F1 Fa) in Ev. rewrite V1, Va in Ev. lra.
  Qed.
  Lemma phase_double p : finite p -> Rabs (val p) <= 1 -> @phase_bad FO p = false.
  Proof.
    intros F B. unfold phase_bad. destruct val_1 as [F1 V1]. destruct val_m1 as [F2 V2]. apply orb_false_iff.
    assert (-1 <= val p <= 1) by (revert B; unfold Rabs; destruct (Rcase_abs (val p)); lra). split.
    - change (PrimFloat.ltb p (@of_Z FA (-1)) = false). destruct (PrimFloat.ltb p (@of_Z FA (-1))) eqn:G; [|reflexivity]. apply (ltb_val _ _ F F2) in G. lra.
    - change (PrimFloat.ltb (@of_Z FA 1) p = false). destruct (PrimFloat.ltb (@of_Z FA 1) p) eqn:G; [|reflexivity]. apply (ltb_val _ _ F1 F) in G. lra.
  Qed.
  Lemma call_double s x : (1 + Z.of_nat (length x) <= M)%Z -> finite s -> Rabs (val s) <= 1 -> D s -> frequencies x -> Forall D x ->
    exists ph s', call s x = (s', Ok (map expj ph)) /\ length ph = length x /\ finite s' /\ Rabs (val s') <= 1 /\ D s' /\
      (exists k, Rabs (val s' - (val s + psum (map val x) (length x)) - 2 * IZR k) <= INR (length x) * E) /\
      forall n, (n < length x)%nat -> finite (nth n ph 0%float) /\ Rabs (val (nth n ph 0%float) - (val s + psum (map val x) n)) <= INR n * E.
  Proof.
    intros HM Fs Bs Ds [Nx Fx] Dx. destruct (loop_double x 1 s ltac:(lia) HM Fs Bs Ds Fx Dx) as (ph & p' & L & Lp & Fp' & Dp' & Ep' & Hn).
    destruct (wrap_double fmod2 sgn p' Hf Hs Fp') as [Fw Vw]. destruct (cexp_wrap_R (val p')) as [Rw [k Hk]]. rewrite <- Vw in Rw, Hk.
    set (w := @cexp_wrap FO fmod2 sgn p') in *. assert (Bw : Rabs (val w) <= 1) by (apply Rabs_le; lra).
    exists ph, w. split.
    { unfold call, cexp_filter, float_sig. cbn [fimag fre fcomplex orb].
      match goal with |- (if ?b then _ else _) = _ => assert (Hb : b = false) end.
      { apply orb_false_iff. split; [destruct x; [contradiction|reflexivity]|apply checks_double; exact Fx]. }
      rewrite Hb. change (@cexp_loop FO Y expj s x = (p', map expj ph)) in L. rewrite L. unfold cexp_set_phase. fold w. rewrite phase_double by assumption. reflexivity. }
    split; [exact Lp|]. split; [exact Fw|]. split; [exact Bw|]. split; [apply (Hwrap p' w k Fp' Dp' Fw Hk)|]. split; [|exact Hn].
    exists k. rewrite Hk. replace (val p' + 2 * IZR k - (val s + psum (map val x) (length x)) - 2 * IZR k) with (val p' - (val s + psum (map val x) (length x))) by ring. exact Ep'.
  Qed.
  Lemma chunks_double chunks : forall s, finite s -> Rabs (val s) <= 1 -> D s -> Forall frequencies chunks -> Forall (Forall D) chunks ->
    Forall (fun c => (1 + Z.of_nat (length c) <= M)%Z) chunks ->
    exists ph s', call_chunks call s chunks = (s', Ok (map expj ph)) /\ length ph = length (concat chunks) /\ finite s' /\ Rabs (val s') <= 1 /\
      (exists k, Rabs (val s' - (val s + psum (map val (concat chunks)) (length (concat chunks))) - 2 * IZR k) <= INR (length (concat chunks)) * E) /\
      forall n, (n < length ph)%nat -> finite (nth n ph 0%float) /\ exists k, Rabs (val (nth n ph 0%float) - (val s + psum (map val (concat chunks)) n) - 2 * IZR k) <= INR n * E.
  Proof.
    induction chunks as [|c cs IH]; intros s Fs Bs Ds Ff FD FM.
    - exists [], s. cbn. split; [reflexivity|]. split; [reflexivity|]. split; [exact Fs|]. split; [exact Bs|]. split; [|intros n Hn; lia].
      exists 0%Z. replace (val s - (val s + 0) - 2 * 0) with 0 by ring. rewrite Rabs_R0. lra.
    - inversion Ff as [|? ? Fc Ff']. inversion FD as [|? ? Dc FD']. inversion FM as [|? ? Mc FM']. subst.
      destruct (call_double s c Mc Fs Bs Ds Fc Dc) as (ph & s1 & L & Lp & F1 & B1 & D1 & (k & Ek) & Hn).
      destruct (IH s1 F1 B1 D1 Ff' FD' FM') as (qh & s2 & L2 & Lq & F2 & B2 & (k2 & Ek2) & Hn2).
      exists (ph ++ qh), s2. cbn [call_chunks concat]. rewrite L, L2, map_app. split; [reflexivity|]. rewrite !app_length, map_app.
      split; [lia|]. split; [exact F2|]. split; [exact B2|].
      assert (Comb : forall a n j, Rabs (a - (val s1 + psum (map val (concat cs)) n) - 2 * IZR j) <= INR n * E ->
        Rabs (a - (val s + psum (map val c ++ map val (concat cs)) (length c + n)) - 2 * IZR (k + j)) <= INR (length c + n) * E).
      { intros a n j H. replace (length c) with (length (map val c)) at 1 by apply map_length. rewrite psum_app, map_length, plus_INR, plus_IZR.
        replace (a - (val s + (psum (map val c) (length c) + psum (map val (concat cs)) n)) - 2 * (IZR k + IZR j))
          with ((a - (val s1 + psum (map val (concat cs)) n) - 2 * IZR j) + (val s1 - (val s + psum (map val c) (length c)) - 2 * IZR k)) by ring.
        eapply Rle_trans; [apply Rabs_triang|]. lra. }
      split; [exists (k + k2)%Z; apply Comb, Ek2|]. intros n Hlt. destruct (lt_dec n (length ph)) as [C|C].
      + rewrite app_nth1 by exact C. destruct (Hn n ltac:(lia)) as [Fn En]. split; [exact Fn|]. exists 0%Z. rewrite psum_app_l by (rewrite map_length; lia). rewrite Rmult_0_r, Rminus_0_r. exact En.
      + rewrite app_nth2 by lia. destruct (Hn2 (n - length ph)%nat ltac:(lia)) as [Fn [j Ej]]. split; [exact Fn|]. exists (k + j)%Z.
        replace n with (length c + (n - length ph))%nat at 2 3 by lia. apply Comb, Ej.
  Qed.
End Phase.

(** ** C169 *)
Inductive double_op : Type := DSet (p : float) | DRun (x : fsig FO).
Definition numbers (o : double_op) : Prop := match o with DSet p => finite p | DRun x => Forall finite (fre x) end.
Definition double_exec {Y} (fmod2 sgn : float -> float) (expj : float -> Y) (s : float) (o : double_op) : float :=
  match o with DSet p => fst (@cexp_set_phase FO s p) | DRun x => fst (@cexp_filter FO Y fmod2 sgn expj s x) end.

Lemma drift_add M : forall p v, finite p -> finite v -> True -> True -> Rabs (val p + val v) <= IZR M -> finite (p + v)%float -> val (p + v)%float = nearest (val p + val v) ->
    True /\ Rabs (val (p + v)%float - (val p + val v)) <= uro * IZR M.
Proof.
  intros p v _ _ _ _ B _ E. split; [exact I|]. rewrite E. eapply Rle_trans; [apply add_close|]. apply Rmult_le_compat_l; [pose proof uro_pos; lra|exact B].
Qed.
Lemma trues (x : list float) : Forall (fun _ => True) x. Proof. apply Forall_forall. intros; exact I. Qed.
Lemma phase_bad_double p : finite p -> @phase_bad FO p = false -> Rabs (val p) <= 1.
Proof.
  intros F H. unfold phase_bad in H. apply orb_false_iff in H. destruct H as [H1 H2]. destruct val_1 as [F1 V1]. destruct val_m1 as [F2 V2].
  change (PrimFloat.ltb p (@of_Z FA (-1)) = false) in H1. change (PrimFloat.ltb (@of_Z FA 1) p = false) in H2.
  assert (~ val p < -1) by (rewrite <- V2; intros C; apply (ltb_val _ _ F F2) in C; congruence).
  assert (~ 1 < val p) by (rewrite <- V1; intros C; apply (ltb_val _ _ F1 F) in C; congruence). apply Rabs_le. lra.
Qed.

(** Whatever is assigned and filtered, as long as it is numbers, the phase stays a number in
    [-1, 1], for signals of any length, and every admissible signal is accepted. *)
Theorem C169_phase_range fmod2 sgn (Y : Type) (expj : float -> Y) (p0 s : float) (ops : list double_op) : fmod_exact fmod2 -> sign_exact sgn ->
  finite p0 -> @cexp_make FO p0 = Ok s -> Forall numbers ops ->
  let s' := fold_left (double_exec fmod2 sgn expj) ops s in
  finite s' /\ Rabs (val s') <= 1 /\
  forall x, frequencies x -> exists y, snd (@cexp_filter FO Y fmod2 sgn expj s' (float_sig x)) = Ok y /\ length y = length x.
Proof.
  intros Hf Hs F0 E Fo s'.
  assert (Run : forall q (x : list float), finite q -> Rabs (val q) <= 1 -> frequencies x ->
     exists q' y, @cexp_filter FO Y fmod2 sgn expj q (float_sig x) = (q', Ok y) /\ length y = length x /\ finite q' /\ Rabs (val q') <= 1).
  { intros q x Fq Bq Fx. set (M := (1 + Z.of_nat (length x))%Z).
    destruct (call_double fmod2 sgn Y expj Hf Hs (fun _ => True) M (uro * IZR M) (drift_add M) (fun _ _ _ _ _ _ _ => I) q x ltac:(unfold M; lia) Fq Bq I Fx (trues x)) as (ph & q' & C & L & Fq' & Bq' & _).
    exists q', (map expj ph). split; [exact C|]. split; [rewrite map_length; exact L|]. split; assumption. }
  assert (G : finite s' /\ Rabs (val s') <= 1).
  { assert (G0 : finite s /\ Rabs (val s) <= 1).
    { unfold cexp_make in E. destruct (phase_bad p0) eqn:Eb; [discriminate|]. injection E as <-. split; [exact F0|apply phase_bad_double; assumption]. }
    unfold s'. clear E s'. revert s G0. induction Fo as [|o ops Ho Fo IH]; intros s G0; [exact G0|]. cbn [fold_left]. apply IH.
    destruct o as [p|[x c im]]; cbn [double_exec numbers fre] in *.
    - unfold cexp_set_phase. destruct (phase_bad p) eqn:Eb; cbn [fst]; [exact G0|]. split; [exact Ho|apply phase_bad_double; assumption].
    - destruct ((im || Nat.eqb (length x) 0 || existsb (fun v => @oltb FO (of_Z 1) (oabs v)) x)%bool) eqn:Ec.
      + unfold cexp_filter. cbn [fimag fre fcomplex]. rewrite Ec. exact G0.
      + apply orb_false_iff in Ec. destruct Ec as [Ec Ex]. apply orb_false_iff in Ec. destruct Ec as [Ei En].
        destruct c.
        * unfold cexp_filter. cbn [fimag fre fcomplex]. rewrite Ei, En, Ex. cbn [orb]. destruct (cexp_loop expj s x). exact G0.
        * assert (Fx : frequencies x).
          { split; [destruct x; [discriminate|discriminate]|]. apply Forall_forall. intros v Iv. rewrite Forall_forall in Ho. split; [apply Ho, Iv|].
            destruct (Rle_lt_dec (Rabs (val v)) 1) as [C|C]; [exact C|exfalso]. destruct val_1 as [F1 V1]. destruct (abs_fin v (Ho v Iv)) as [Fa Va].
            rewrite <- Va, <- V1 in C. apply (ltb_val _ _ F1 Fa) in C. apply Bool.not_true_iff_false in Ex. apply Ex. apply existsb_exists. exists v. split; [exact Iv|exact C]. }
          destruct G0 as [G1 G2]. destruct (Run s x G1 G2 Fx) as (q' & y & C & _ & A & B). unfold float_sig in C. rewrite Ei. 
          match goal with |- context [fst ?t] => replace t with (q', Ok y) by (symmetry; exact C) end. split; assumption. }
  split; [apply G|]. split; [apply G|]. intros x Fx. destruct (Run s' x (proj1 G) (proj2 G) Fx) as (q' & y & C & L & _). exists y. rewrite C. split; [reflexivity|exact L].
Qed.
Print Assumptions C169_phase_range.

(** Over any sequence of calls of at most m samples each, the phase of sample n differs from the
    exact one, up to full turns, by at most n (m + 1) 2^-53. *)
Theorem C169_phase_drift fmod2 sgn (Y : Type) (expj : float -> Y) (s : float) (chunks : list (list float)) (m : nat) : fmod_exact fmod2 -> sign_exact sgn ->
  finite s -> Rabs (val s) <= 1 -> Forall frequencies chunks -> Forall (fun c => (length c <= m)%nat) chunks ->
  let x := map val (concat chunks) in
  exists ph s', call_chunks (fun s c => @cexp_filter FO Y fmod2 sgn expj s (float_sig c)) s chunks = (s', Ok (map expj ph)) /\ length ph = length x /\ finite s' /\ Rabs (val s') <= 1 /\
    (exists k, Rabs (val s' - (val s + psum x (length x)) - 2 * IZR k) <= INR (length x) * (uro * (INR m + 1))) /\
    forall n, (n < length x)%nat -> finite (nth n ph 0%float) /\ exists k, Rabs (val (nth n ph 0%float) - (val s + psum x n) - 2 * IZR k) <= INR n * (uro * (INR m + 1)).
Proof.
  intros Hf Hs Fs Bs Fc Fm x. assert (Em : INR m + 1 = IZR (1 + Z.of_nat m)) by (rewrite plus_IZR, <- INR_IZR_INZ; ring). rewrite Em.
  set (M := (1 + Z.of_nat m)%Z).
  destruct (chunks_double fmod2 sgn Y expj Hf Hs (fun _ => True) M (uro * IZR M) (drift_add M) (fun _ _ _ _ _ _ _ => I) chunks s Fs Bs I Fc) as (ph & s' & C & L & F' & B' & K & H).
  - apply Forall_forall. intros; apply trues.
  - revert Fm. apply Forall_impl. unfold M. intros; lia.
  - exists ph, s'. unfold x. rewrite map_length. split; [exact C|]. split; [exact L|]. split; [exact F'|]. split; [exact B'|]. split; [exact K|]. intros n Hn. apply H. lia.
Qed.
Print Assumptions C169_phase_drift.

Lemma cis_lipschitz a b : Cmod (cis a - cis b)%C <= Rabs (a - b).
Proof.
  assert (S : (Cmod (cis a - cis b)%C ^ 2 <= Rabs (a - b) ^ 2)).
  { unfold Cmod. rewrite pow2_sqrt by (apply Rplus_le_le_0_compat; apply pow2_ge_0). rewrite pow2_abs. unfold cis. cbn [fst snd Cminus Cplus Copp].
    replace ((cos a + - cos b) ^ 2 + (sin a + - sin b) ^ 2) with ((sin a ^ 2 + cos a ^ 2) + (sin b ^ 2 + cos b ^ 2) - 2 * (cos a * cos b + sin a * sin b)) by ring.
    rewrite <- cos_minus. assert (P : forall t, sin t ^ 2 + cos t ^ 2 = 1) by (intros t; rewrite <- !Rsqr_pow2; apply sin2_cos2). rewrite !P.
    set (u := (a - b) / 2). replace (a - b) with (2 * u) by (unfold u; field). rewrite cos_2a_sin.
    assert (Su : sin u ^ 2 <= u ^ 2).
    { assert (Pos : forall t, 0 <= t -> sin t ^ 2 <= t ^ 2).
      { intros t Ht. destruct (Rle_lt_dec t 1) as [C|C].
        - assert (0 <= sin t) by (apply sin_ge_0; [lra|pose proof PI2_1; lra]). assert (sin t <= t).
          { destruct (Req_dec t 0) as [->|N]; [rewrite sin_0; lra|]. apply Rlt_le, sin_lt_x. lra. } nra.
        - pose proof (P t). pose proof (pow2_ge_0 (cos t)). nra. }
      destruct (Rle_lt_dec 0 u) as [C|C]; [apply Pos, C|]. specialize (Pos (- u) ltac:(lra)). rewrite sin_neg in Pos. lra. }
    nra. }
  pose proof (Cmod_ge_0 (cis a - cis b)%C). pose proof (Rabs_pos (a - b)). destruct (Rle_lt_dec (Cmod (cis a - cis b)%C) (Rabs (a - b))) as [C|C]; [exact C|]. nra.
Qed.
Lemma cis_turns t k : cis (t + 2 * IZR k * PI) = cis t.
Proof.
  pose proof PI_RGT_0. pose proof (expjR_turn (t / PI) k) as E. unfold expjR in E. replace (PI * (t / PI)) with t in E by (field; lra). rewrite <- E.
  f_equal. field. lra.
Qed.
(** So the output is within n (m + 1) 2^-53 pi of the exact exponential, plus the error e of
    numpy.exp. *)
Theorem C169_output_error fmod2 sgn (expj : float -> C) (e : R) (s : float) (chunks : list (list float)) (m : nat) : fmod_exact fmod2 -> sign_exact sgn ->
  (forall p, finite p -> Cmod (expj p - cis (PI * val p))%C <= e) ->
  finite s -> Rabs (val s) <= 1 -> Forall frequencies chunks -> Forall (fun c => (length c <= m)%nat) chunks ->
  let x := map val (concat chunks) in
  exists y s', call_chunks (fun s c => @cexp_filter FO C fmod2 sgn expj s (float_sig c)) s chunks = (s', Ok y) /\ length y = length x /\
    forall n, (n < length x)%nat -> Cmod (nth n y (RtoC 0) - cis (PI * (val s + psum x n)))%C <= e + INR n * (uro * (INR m + 1)) * PI.
Proof.
  intros Hf Hs He Fs Bs Fc Fm x. destruct (C169_phase_drift fmod2 sgn C expj s chunks m Hf Hs Fs Bs Fc Fm) as (ph & s' & C & L & _ & _ & _ & H). fold x in L, H.
  exists (map expj ph), s'. split; [exact C|]. split; [rewrite map_length; exact L|]. intros n Hn. destruct (H n Hn) as [Fn [k Ek]].
  rewrite nth_map_lt with (d := 0%float) by lia. set (p := nth n ph 0%float) in *. set (t := val s + psum x n) in *.
  replace (expj p - cis (PI * t))%C with ((expj p - cis (PI * val p)) + (cis (PI * val p) - cis (PI * t)))%C by ring.
  eapply Rle_trans; [apply Cmod_triangle|]. apply Rplus_le_compat; [apply He, Fn|].
  rewrite <- (cis_turns (PI * t) k). eapply Rle_trans; [apply cis_lipschitz|].
  replace (PI * val p - (PI * t + 2 * IZR k * PI)) with ((val p - t - 2 * IZR k) * PI) by ring.
  rewrite Rabs_mult, (Rabs_pos_eq PI) by (pose proof PI_RGT_0; lra). apply Rmult_le_compat_r; [pose proof PI_RGT_0; lra|exact Ek].
Qed.
Print Assumptions C169_output_error.

(** Frequencies and phases that are multiples of 2^-q are accumulated without any error, in
    calls of at most 2^(53-q) - 1 samples. *)
Theorem C169_dyadic_exact fmod2 sgn (Y : Type) (expj : float -> Y) (s : float) (chunks : list (list float)) (q : nat) : fmod_exact fmod2 -> sign_exact sgn ->
  finite s -> Rabs (val s) <= 1 -> dyadic q s -> Forall frequencies chunks -> Forall (Forall (dyadic q)) chunks ->
  Forall (fun c => ((1 + Z.of_nat (length c)) * 2 ^ Z.of_nat q <= 2 ^ 53)%Z) chunks ->
  let x := map val (concat chunks) in
  exists ph s', call_chunks (fun s c => @cexp_filter FO Y fmod2 sgn expj s (float_sig c)) s chunks = (s', Ok (map expj ph)) /\ length ph = length x /\
    (exists k, val s' = val s + psum x (length x) + 2 * IZR k) /\
    forall n, (n < length x)%nat -> exists k, val (nth n ph 0%float) = val s + psum x n + 2 * IZR k.
Proof.
  intros Hf Hs Fs Bs Ds Fc Fd Fm x. destruct chunks as [|c0 cs0].
  { exists [], s. unfold x. cbn. split; [reflexivity|]. split; [reflexivity|]. split; [exists 0%Z; ring|intros n Hn; lia]. }
  assert (Pq : (0 < 2 ^ Z.of_nat q)%Z) by (apply Z.pow_pos_nonneg; lia).
  assert (Q53 : (Z.of_nat q <= 53)%Z).
  { pose proof (Forall_inv Fm) as H0. cbn beta in H0. destruct (Z_le_gt_dec (Z.of_nat q) 53) as [L|L]; [exact L|exfalso].
    assert (2 ^ 54 <= 2 ^ Z.of_nat q)%Z by (apply Z.pow_le_mono_r; lia). nia. }
  revert Fc Fd Fm x. generalize (c0 :: cs0). clear c0 cs0. intros chunks Fc Fd Fm x.
  set (M := (2 ^ 53 / 2 ^ Z.of_nat q)%Z).
  assert (MQ : (M * 2 ^ Z.of_nat q <= 2 ^ 53)%Z) by (unfold M; rewrite Z.mul_comm; apply Z.mul_div_le; lia).
  assert (Bq : IZR (2 ^ Z.of_nat q) * bpow radix2 (- Z.of_nat q) = 1).
  { change (2 ^ Z.of_nat q)%Z with (radix2 ^ Z.of_nat q)%Z. rewrite IZR_Zpower by lia. rewrite <- bpow_plus. replace (Z.of_nat q + - Z.of_nat q)%Z with 0%Z by lia. reflexivity. }
  pose proof (bpow_gt_0 radix2 (- Z.of_nat q)) as Pb.
  assert (Hadd : forall p v, finite p -> finite v -> dyadic q p -> dyadic q v -> Rabs (val p + val v) <= IZR M -> finite (p + v)%float -> val (p + v)%float = nearest (val p + val v) ->
    dyadic q (p + v)%float /\ Rabs (val (p + v)%float - (val p + val v)) <= 0).
  { intros p v _ _ [a Ha] [b Hb] B _ E. assert (Sum : val p + val v = IZR (a + b) * bpow radix2 (- Z.of_nat q)) by (rewrite Ha, Hb, plus_IZR; ring).
    assert (Z1 : (Z.abs (a + b) <= M * 2 ^ Z.of_nat q)%Z).
    { apply le_IZR. rewrite abs_IZR, mult_IZR. rewrite Sum, Rabs_mult, (Rabs_pos_eq (bpow _ _)) in B by lra.
      apply (Rmult_le_compat_r (IZR (2 ^ Z.of_nat q))) in B; [|apply IZR_le; lia]. rewrite Rmult_assoc, (Rmult_comm (bpow _ _)), Bq, Rmult_1_r in B. exact B. }
    assert (Ex : val (p + v)%float = IZR (a + b) * bpow radix2 (- Z.of_nat q)).
    { rewrite E, Sum. apply nearest_grid; lia. }
    split; [exists (a + b)%Z; exact Ex|]. rewrite Ex, Sum. unfold Rminus. rewrite Rplus_opp_r, Rabs_R0. lra. }
  assert (Hwrap : forall p w k, finite p -> dyadic q p -> finite w -> val w = val p + 2 * IZR k -> dyadic q w).
  { intros p w k _ [a Ha] _ E. exists (a + 2 * k * 2 ^ Z.of_nat q)%Z. rewrite E, Ha, plus_IZR, !mult_IZR. 
    replace ((IZR a + 2 * IZR k * IZR (2 ^ Z.of_nat q)) * bpow radix2 (- Z.of_nat q)) with (IZR a * bpow radix2 (- Z.of_nat q) + 2 * IZR k * (IZR (2 ^ Z.of_nat q) * bpow radix2 (- Z.of_nat q))) by ring.
    rewrite Bq. ring. }
  destruct (chunks_double fmod2 sgn Y expj Hf Hs (dyadic q) M 0 Hadd Hwrap chunks s Fs Bs Ds Fc Fd) as (ph & s' & C & L & F' & B' & [k K] & H).
  { revert Fm. apply Forall_impl. intros c Hc. unfold M. apply Z.div_le_lower_bound; lia. }
  assert (Z0 : forall t n, Rabs t <= INR n * 0 -> t = 0).
  { intros t n Ht. rewrite Rmult_0_r in Ht. pose proof (Rabs_pos t). destruct (Req_dec t 0) as [G|G]; [exact G|]. apply Rabs_pos_lt in G. lra. }
  exists ph, s'. unfold x. rewrite map_length. split; [exact C|]. split; [exact L|]. split.
  - exists k. apply Z0 in K. lra.
  - intros n Hn. destruct (H n) as [_ [j J]]; [lia|]. exists j. apply Z0 in J. lra.
Qed.
Print Assumptions C169_dyadic_exact.

(** In general the phase depends, beyond full turns, on how the samples are divided into calls:
    four samples of 0.7 in one call or in two. *)
Definition seven_tenths : float := 0x1.6666666666666p-1%float.
Lemma small_val (v : float) : PrimFloat.leb (PrimFloat.abs v) 1%float = true -> finite v -> Rabs (val v) <= 1.
Proof.
  intros L F. destruct (abs_fin v F) as [Fa Va]. destruct val_1 as [F1 V1]. rewrite <- Va, <- V1. apply (leb_val _ _ Fa F1).
  change (@of_Z FA 1) with 1%float in *. exact L.
Qed.
Definition freq_check (c : list float) : bool := match c with [] => false | _ => forallb (fun v => PrimFloat.is_finite v && PrimFloat.leb (PrimFloat.abs v) 1)%bool c end.
Lemma freq_checked chunks : forallb freq_check chunks = true -> Forall frequencies chunks.
Proof.
  intros H. apply Forall_forall. intros c Ic. rewrite forallb_forall in H. specialize (H c Ic). split; [destruct c; discriminate|].
  apply Forall_forall. intros v Iv. assert (G : forallb (fun v => PrimFloat.is_finite v && PrimFloat.leb (PrimFloat.abs v) 1)%bool c = true) by (destruct c; [contradiction|exact H]).
  rewrite forallb_forall in G. specialize (G v Iv). apply andb_true_iff in G. split; [apply G|apply small_val; apply G].
Qed.
Theorem C169_chunks_refuted : ~ forall (s : float) (chunks1 chunks2 : list (list float)), finite s -> Rabs (val s) <= 1 ->
  Forall frequencies chunks1 -> Forall frequencies chunks2 -> concat chunks1 = concat chunks2 ->
  let run c := fst (call_chunks (fun s c => @cexp_filter FO float fmod2F sgnF (fun p => p) s (float_sig c)) s c) in
  exists k, val (run chunks1) = val (run chunks2) + 2 * IZR k.
Proof.
  intros H. set (z := seven_tenths) in *. set (c1 := [[z; z; z]]). set (c2 := [[z; z]; [z]]).
  assert (A1 : Forall frequencies c1) by (apply freq_checked; vm_compute; reflexivity).
  assert (A2 : Forall frequencies c2) by (apply freq_checked; vm_compute; reflexivity).
  destruct (H 0%float c1 c2 eq_refl ltac:(rewrite val_zero, Rabs_R0; lra) A1 A2 eq_refl) as [k E]. clear H.
  set (a := fst (call_chunks _ _ c1)) in E. set (b := fst (call_chunks _ _ c2)) in E.
  assert (Fa : finite a) by (vm_compute; reflexivity). assert (Fb : finite b) by (vm_compute; reflexivity).
  destruct val_1 as [F1 V1].
  assert (L1 : val a < val b) by (apply (ltb_val _ _ Fa Fb); vm_compute; reflexivity).
  assert (L2 : val 0%float < val a) by (apply (ltb_val 0%float _ eq_refl Fa); vm_compute; reflexivity).
  assert (L3 : val b < 1) by (rewrite <- V1; apply (ltb_val _ _ Fb F1); vm_compute; reflexivity).
  rewrite val_zero in L2. assert (-1 < IZR k < 0) by lra. assert (-1 < k)%Z by (apply lt_IZR; lra). assert (k < 0)%Z by (apply lt_IZR; lra). lia.
Qed.
Print Assumptions C169_chunks_refuted.

(** ** Examples *)
(** numpy.fmod and numpy.sign as the theorems assume them exist. *)
Example C169_fmod_sign : fmod_exact fmod2F /\ sign_exact sgnF /\ fmod2F (-3.5)%float = (-1.5)%float /\ fmod2F 4503599627370497%float = 1%float /\ fmod2F 0x1.7p+996%float = 0%float.
Proof. split; [exact fmod2F_exact|]. split; [exact sgnF_exact|]. vm_compute. repeat split. Qed.
Example C169_range_ex : finite (-0.5)%float /\ @cexp_make FO (-0.5)%float = Ok (-0.5)%float /\
  Forall numbers [DRun (float_sig [0.75; 1; 1]%float); DSet 7%float; DRun (float_sig [0.25; 3]%float); DSet 0.5%float; DRun (float_sig [1]%float)] /\
  fold_left (double_exec fmod2F sgnF (fun p => p)) [DRun (float_sig [0.75; 1; 1]%float); DSet 7%float; DRun (float_sig [0.25; 3]%float); DSet 0.5%float; DRun (float_sig [1]%float)] (-0.5)%float = (-0.5)%float.
Proof. split; [reflexivity|]. split; [vm_compute; reflexivity|]. split; [|vm_compute; reflexivity]. repeat constructor. Qed.
Example C169_drift_ex : Forall frequencies [[seven_tenths; seven_tenths]; [seven_tenths]] /\
  Forall (fun c : list float => (length c <= 2)%nat) [[seven_tenths; seven_tenths]; [seven_tenths]] /\
  fst (call_chunks (fun s c => @cexp_filter FO float fmod2F sgnF (fun p => p) s (float_sig c)) 0%float [[seven_tenths; seven_tenths]; [seven_tenths]]) = 0x1.9999999999990p-4%float.
Proof. split; [apply freq_checked; vm_compute; reflexivity|]. split; [repeat constructor|vm_compute; reflexivity]. Qed.
(** numpy.exp as a correctly rounded function: with no error at all the bound is the drift. *)
Example C169_output_ex : forall p : float, finite p -> Cmod (cis (PI * val p) - cis (PI * val p))%C <= 0.
Proof. intros p _. replace (cis (PI * val p) - cis (PI * val p))%C with (RtoC 0) by ring. rewrite Cmod_0. lra. Qed.
(** Frequencies 3/8 and -5/8 with a phase of 1/4. *)
Example C169_dyadic_ex : dyadic 3 0.25%float /\ Forall (Forall (dyadic 3)) [[0.375; -0.625]; [0.375; 0.375; 1]]%float /\ Forall frequencies [[0.375; -0.625]; [0.375; 0.375; 1]]%float /\
  Forall (fun c : list float => ((1 + Z.of_nat (length c)) * 2 ^ Z.of_nat 3 <= 2 ^ 53)%Z) [[0.375; -0.625]; [0.375; 0.375; 1]]%float /\
  fst (call_chunks (fun s c => @cexp_filter FO float fmod2F sgnF (fun p => p) s (float_sig c)) 0.25%float [[0.375; -0.625]; [0.375; 0.375; 1]]%float) = (-0.25)%float.
Proof.
  assert (D1 : dyadic 3 0.375%float) by (exists 3%Z; unfold val, B2R; cbn; unfold F2R; cbn; lra).
  assert (D2 : dyadic 3 (-0.625)%float) by (exists (-5)%Z; unfold val, B2R; cbn; unfold F2R; cbn; lra).
  assert (D3 : dyadic 3 1%float) by (exists 8%Z; unfold val, B2R; cbn; unfold F2R; cbn; lra).
  split; [exists 2%Z; unfold val, B2R; cbn; unfold F2R; cbn; lra|]. split; [repeat constructor; assumption|].
  split; [apply freq_checked; vm_compute; reflexivity|]. split; [repeat constructor; cbn; lia|vm_compute; reflexivity].
Qed.
Example C169_chunks_ex : fst (@cexp_filter FO float fmod2F sgnF (fun p => p) 0%float (float_sig [seven_tenths; seven_tenths; seven_tenths])) = 0x1.9999999999980p-4%float.
Proof. vm_compute. reflexivity. Qed.
