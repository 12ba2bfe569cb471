(** Properties C69-C72 and C112: ComplexTransform. *)
From Coq Require Import List Arith ZArith Bool Reals Lra Lia.
From Coquelicot Require Import Complex.
From Verif Require Import Base BaseLemmas Instances PolyC CTransModel.
Import ListNotations.
Set Asymmetric Patterns.
Open Scope R_scope.
Open Scope C_scope.

(** ** Specification *)
(** Projection of the vector v on the axis of phase k, at 120 k degrees. *)
Definition phase (k : nat) (v : C) : R := (fst v * cos (2 * PI / 3 * INR k) + snd v * sin (2 * PI / 3 * INR k))%R.
Definition three (v : list C) : ndarr := Mat (length v) (map (fun k => map (fun a => RtoC (phase k a)) v) [0%nat; 1%nat; 2%nat]).
(** sqrt(3) at 30 degrees. *)
Definition line_factor (neutral : bool) : C := if neutral then 1 else ((3 / 2)%R, (sqrt 3 / 2)%R).

Lemma cos_2PI3 : cos (2 * PI / 3) = (- (1 / 2))%R.
Proof. replace (2 * PI / 3)%R with (- (PI / 3) + PI)%R by field. rewrite neg_cos, cos_neg, cos_PI3. reflexivity. Qed.
Lemma sin_2PI3 : sin (2 * PI / 3) = (sqrt 3 / 2)%R.
Proof. replace (2 * PI / 3)%R with (PI - PI / 3)%R by field. rewrite sin_PI_x, sin_PI3. reflexivity. Qed.
Lemma cos_4PI3 : cos (2 * PI / 3 * 2) = (- (1 / 2))%R.
Proof. replace (2 * PI / 3 * 2)%R with (PI / 3 + PI)%R by field. rewrite neg_cos, cos_PI3. reflexivity. Qed.
Lemma sin_4PI3 : sin (2 * PI / 3 * 2) = (- (sqrt 3 / 2))%R.
Proof. replace (2 * PI / 3 * 2)%R with (PI / 3 + PI)%R by field. rewrite neg_sin, sin_PI3. reflexivity. Qed.
Lemma phase0 v : phase 0 v = fst v.
Proof. unfold phase. cbn [INR]. rewrite Rmult_0_r, cos_0, sin_0. ring. Qed.
Lemma phase1 v : phase 1 v = (- (1 / 2) * fst v + sqrt 3 / 2 * snd v)%R.
Proof. unfold phase. cbn [INR]. rewrite Rmult_1_r, cos_2PI3, sin_2PI3. ring. Qed.
Lemma phase2 v : phase 2 v = (- (1 / 2) * fst v - sqrt 3 / 2 * snd v)%R.
Proof. unfold phase. change (INR 2) with 2%R. rewrite cos_4PI3, sin_4PI3. ring. Qed.
Lemma sqrt3 : (sqrt 3 * sqrt 3 = 3)%R.
Proof. apply sqrt_sqrt. lra. Qed.
Lemma sqrt3_pos : (0 < sqrt 3)%R.
Proof. apply sqrt_lt_R0. lra. Qed.

Lemma gain_line : GAIN * line_factor false = 1.
Proof.
  unfold GAIN, line_factor, cis. replace (- PI / 6)%R with (- (PI / 6))%R by field. rewrite cos_neg, sin_neg, cos_PI6, sin_PI6.
  assert (S : sqrt (1 / 3) = (/ sqrt 3)%R) by (replace (1 / 3)%R with (/ 3)%R by field; rewrite sqrt_inv; reflexivity).
  assert (S3 : (/ sqrt 3 = sqrt 3 / 3)%R) by (pose proof sqrt3; pose proof sqrt3_pos; apply (Rmult_eq_reg_r (sqrt 3)); [rewrite Rinv_l by lra; nra|lra]). rewrite S, S3.
  pose proof sqrt3 as Q. pose proof sqrt3_pos as P. unfold Cmult, RtoC. cbn [fst snd]. f_equal; nra.
Qed.
Lemma line_nz b : line_factor b <> 0.
Proof. destruct b; cbn; intros C; apply (f_equal fst) in C; cbn in C; lra. Qed.
Lemma div_gain a : a / GAIN = a * line_factor false.
Proof.
  assert (N : GAIN <> 0). { intros C. pose proof gain_line as G. rewrite C in G. apply (f_equal fst) in G. cbn in G. lra. }
  transitivity (a / GAIN * (GAIN * line_factor false)); [rewrite gain_line; ring|]. field. exact N.
Qed.

Lemma det_coef : det3 COEFFICIENT = (2 / 3 * (2 / 3) * (2 / 3) * (3 / 2 * sqrt 3))%R.
Proof. unfold det3, cof, at2, COEFFICIENT. cbn. field. Qed.
Lemma div_eq e d v : d <> 0%R -> e = (v * d)%R -> (e / d)%R = v.
Proof. intros H ->. field. exact H. Qed.
Lemma inv_coef : inv3 COEFFICIENT = [[1; 0; 1 / 2]; [- (1 / 2); sqrt 3 / 2; 1 / 2]; [- (1 / 2); - (sqrt 3 / 2); 1 / 2]]%R.
Proof.
  pose proof sqrt3 as Q. pose proof sqrt3_pos as P. unfold inv3. rewrite det_coef. unfold cof, at2, COEFFICIENT. cbn.
  set (r := sqrt 3) in *. assert (N : (2 / 3 * (2 / 3) * (2 / 3) * (3 / 2 * r))%R <> 0%R) by nra.
  repeat (apply (f_equal2 (@cons _)); [|]); try reflexivity; (apply div_eq; [exact N|nra]).
Qed.

(** ** Sample-wise forms *)
Lemma length_three (v : list C) : (length v =? 0)%nat = false <-> v <> [].
Proof. destruct v; cbn; split; congruence. Qed.
Lemma map_seq_nth {X Y} (g : X -> Y) (d : X) l : map (fun j => g (nth j l d)) (seq 0 (length l)) = map g l.
Proof.
  induction l as [|x l IH]; [reflexivity|]. cbn [length seq map nth]. f_equal. rewrite <- seq_shift, map_map. exact IH.
Qed.
Lemma to_three v : v <> [] -> forall neutral, ct_transform (Vec v) neutral = Ok (three (map (fun a => a * line_factor neutral) v)).
Proof.
  intros Hv neutral. unfold ct_transform. rewrite (proj2 (length_three v) Hv). cbv zeta.
  assert (E : (if neutral then v else map (fun a => a / GAIN) v) = map (fun a => a * line_factor neutral) v).
  { destruct neutral; [|apply map_ext, div_gain]. symmetry. rewrite <- (map_id v) at 2. apply map_ext. intros a. cbn. ring. }
  rewrite E. set (w := map (fun a => a * line_factor neutral) v). f_equal. unfold three. f_equal. rewrite inv_coef. unfold matmul. cbn [map map2 csum fold_right].
  assert (N1 : forall j, nth j (map (fun a : C => RtoC (fst a)) w) 0 = RtoC (fst (nth j w 0))) by (intros j; change (RtoC 0) with (RtoC (fst (RtoC 0))) at 1; apply (map_nth (fun a : C => RtoC (fst a)))).
  assert (N2 : forall j, nth j (map (fun a : C => RtoC (snd a)) w) 0 = RtoC (snd (nth j w 0))) by (intros j; change (RtoC 0) with (RtoC (snd (RtoC 0))) at 1; apply (map_nth (fun a : C => RtoC (snd a)))).
  assert (N3 : forall j, nth j (repeat (RtoC 0) (length w)) 0 = 0) by (intros j; apply nth_repeat).
  rewrite <- !(map_seq_nth (fun a => RtoC (phase _ a)) (RtoC 0) w).
  repeat (apply (f_equal2 (@cons _)); [apply map_ext; intros j; rewrite N1, N2, N3|]); try reflexivity.
  - rewrite phase0, <- !RtoC_mult, <- !RtoC_plus. f_equal. ring.
  - rewrite phase1, <- !RtoC_mult, <- !RtoC_plus. f_equal. ring.
  - rewrite phase2, <- !RtoC_mult, <- !RtoC_plus. f_equal. ring.
Qed.
Definition unphase (a b c : C) : C := RtoC (2 / 3) * (a + b * ((- (1 / 2))%R, (sqrt 3 / 2)%R) + c * ((- (1 / 2))%R, (- (sqrt 3 / 2))%R)).
Lemma from_three n a b c : (0 < n)%nat -> length a = n -> length b = n -> length c = n -> forall neutral,
  ct_transform (Mat n [a; b; c]) neutral = Ok (Vec (map (fun j => unphase (nth j a 0) (nth j b 0) (nth j c 0) / line_factor neutral) (seq 0 n))).
Proof.
  intros Hn La Lb Lc neutral. unfold ct_transform. cbn [length Nat.eqb orb negb]. destruct n as [|n]; [lia|]. cbn [Nat.eqb orb]. cbv zeta.
  set (m := S n) in *. do 2 f_equal. unfold matmul, COEFFICIENT. cbn [map nth map2 csum fold_right].
  assert (M2 : forall (h : C -> C -> C) (f g : nat -> C) l, map2 h (map f l) (map g l) = map (fun j => h (f j) (g j)) l).
  { intros h f g l. induction l as [|x l IH]; cbn [map map2]; [reflexivity|]. rewrite IH. reflexivity. }
  rewrite M2. pose proof gain_line as GL.
  assert (Q : forall j, RtoC (2 / 3 * 1) * nth j a 0 + (RtoC (2 / 3 * - (1 / 2)) * nth j b 0 + (RtoC (2 / 3 * - (1 / 2)) * nth j c 0 + 0)) +
     Ci * (RtoC (2 / 3 * 0) * nth j a 0 + (RtoC (2 / 3 * (1 / 2 * sqrt 3)) * nth j b 0 + (RtoC (2 / 3 * (- (1 / 2) * sqrt 3)) * nth j c 0 + 0))) = unphase (nth j a 0) (nth j b 0) (nth j c 0)).
  { intros j. unfold unphase. destruct (nth j a 0) as [a1 a2], (nth j b 0) as [b1 b2], (nth j c 0) as [c1 c2]. unfold Cmult, Cplus, RtoC, Ci. cbn [fst snd]. f_equal; field. }
  rewrite (map_ext _ _ Q). destruct neutral.
  - apply map_ext. intros j. cbn [line_factor]. field. intros C. apply (f_equal fst) in C. cbn in C. lra.
  - rewrite map_map. apply map_ext. intros j. pose proof (line_nz false). transitivity (unphase (nth j a 0) (nth j b 0) (nth j c 0) * (GAIN * line_factor false) / line_factor false); [field; assumption|]. rewrite GL. field. assumption.
Qed.

Ltac r3 vs :=
  let Q := fresh in pose proof sqrt3 as Q;
  let H := fresh in assert (H : forall t : R, (sqrt 3 * sqrt 3 * t = 3 * t)%R) by (intros; rewrite Q; reflexivity);
  vs H; lra.
Lemma unphase_phase w : unphase (RtoC (phase 0 w)) (RtoC (phase 1 w)) (RtoC (phase 2 w)) = w.
Proof.
  rewrite phase0, phase1, phase2. destruct w as [x y]. unfold unphase, Cmult, Cplus, RtoC. cbn [fst snd]. f_equal; r3 ltac:(fun H => pose proof (H x); pose proof (H y)).
Qed.
Definition mean3 (a b c : R) : R := ((a + b + c) / 3)%R.
Lemma phase_unphase (a b c : R) : let w := unphase (RtoC a) (RtoC b) (RtoC c) in
  phase 0 w = (a - mean3 a b c)%R /\ phase 1 w = (b - mean3 a b c)%R /\ phase 2 w = (c - mean3 a b c)%R.
Proof.
  intros w. rewrite phase0, phase1, phase2. unfold w, unphase, mean3, Cmult, Cplus, RtoC. cbn [fst snd]. repeat split; r3 ltac:(fun H => pose proof (H a); pose proof (H b); pose proof (H c)).
Qed.

(** C69.  What the phases are, and the round trip. *)
Theorem C69_complex_phases (v : list C) neutral : v <> [] ->
  ct_transform (Vec v) neutral = Ok (three (map (fun a => a * line_factor neutral) v)).
Proof. intros H. apply to_three. exact H. Qed.
Print Assumptions C69_complex_phases.

Theorem C69_complex_round_trip (v : list C) neutral : v <> [] ->
  exists t, ct_transform (Vec v) neutral = Ok t /\ ct_transform t neutral = Ok (Vec v).
Proof.
  intros H. eexists. split; [apply to_three; exact H|]. set (w := map (fun a => a * line_factor neutral) v).
  unfold three. cbn [map]. assert (Lw : (0 < length w)%nat) by (unfold w; rewrite map_length; destruct v; [congruence|cbn; lia]).
  rewrite from_three by (rewrite ?map_length; auto). do 2 f_equal.
  assert (Ph : forall k j, nth j (map (fun a => RtoC (phase k a)) w) 0 = RtoC (phase k (nth j w 0))).
  { intros k j. assert (Z : RtoC 0 = RtoC (phase k 0)) by (unfold phase; cbn; f_equal; ring). rewrite Z at 1. apply (map_nth (fun a => RtoC (phase k a))). }
  transitivity (map (fun j => nth j w 0 / line_factor neutral) (seq 0 (length w))); [apply map_ext; intros j; rewrite (Ph 0%nat), (Ph 1%nat), (Ph 2%nat), unphase_phase; reflexivity|].
  rewrite (map_seq_nth (fun a => a / line_factor neutral) 0 w). unfold w. rewrite map_map. rewrite <- (map_id v) at 2. apply map_ext.
  intros a. field. apply line_nz.
Qed.
Print Assumptions C69_complex_round_trip.

Example C69_example : [(1, 2)%R; (-3, 0)%R] <> ([] : list C) /\ line_factor false <> line_factor true.
Proof. split; [discriminate|]. intros E. apply (f_equal fst) in E. cbn in E. lra. Qed.

(** C70.  Three phases to complex and back: each phase less the mean of the three. *)
Definition less_mean (x a b c : list R) : list C :=
  map (fun j => RtoC (nth j x 0 - (nth j a 0 + nth j b 0 + nth j c 0) / 3)%R) (seq 0 (length x)).
Theorem C70_three_phase_round_trip n (a b c : list R) neutral :
  (0 < n)%nat -> length a = n -> length b = n -> length c = n ->
  exists y, ct_transform (Mat n [map RtoC a; map RtoC b; map RtoC c]) neutral = Ok y /\
    ct_transform y neutral = Ok (Mat n [less_mean a a b c; less_mean b a b c; less_mean c a b c]).
Proof.
  intros Hn La Lb Lc. eexists. split; [apply from_three; rewrite ?map_length; auto|].
  rewrite to_three by (destruct n; [lia|discriminate]). rewrite map_map.
  assert (Nr : forall l j, nth j (map RtoC l) 0 = RtoC (nth j l 0%R)) by (intros l j; apply (map_nth RtoC)).
  set (u := fun j => unphase (RtoC (nth j a 0%R)) (RtoC (nth j b 0%R)) (RtoC (nth j c 0%R))).
  assert (E : map (fun j => unphase (nth j (map RtoC a) 0) (nth j (map RtoC b) 0) (nth j (map RtoC c) 0) / line_factor neutral * line_factor neutral) (seq 0 n) = map u (seq 0 n)).
  { apply map_ext. intros j. rewrite !Nr. unfold u. field. apply line_nz. }
  rewrite E. unfold three. rewrite map_length, seq_length. cbn [map]. rewrite !map_map. unfold less_mean. rewrite La, Lb, Lc.
  do 2 f_equal. repeat (apply (f_equal2 (@cons _)); [apply map_ext; intros j; f_equal; apply phase_unphase|]). reflexivity.
Qed.
Print Assumptions C70_three_phase_round_trip.

Theorem C70_three_phase_identity_iff n (a b c : list R) neutral y :
  (0 < n)%nat -> length a = n -> length b = n -> length c = n ->
  ct_transform (Mat n [map RtoC a; map RtoC b; map RtoC c]) neutral = Ok y ->
  (ct_transform y neutral = Ok (Mat n [map RtoC a; map RtoC b; map RtoC c]) <->
   forall j, (j < n)%nat -> (nth j a 0 + nth j b 0 + nth j c 0 = 0)%R).
Proof.
  intros Hn La Lb Lc Hy. destruct (C70_three_phase_round_trip n a b c neutral Hn La Lb Lc) as (y' & E & R). rewrite Hy in E. injection E as <-.
  rewrite R. clear R.
  assert (K : forall x, length x = n -> ((forall j, (j < n)%nat -> (nth j a 0 + nth j b 0 + nth j c 0 = 0)%R) <-> less_mean x a b c = map RtoC x)).
  { intros x Lx. unfold less_mean. rewrite Lx. rewrite <- (map_seq_nth RtoC 0%R x), Lx. split.
    - intros H. apply map_ext_in. intros j Hj. apply in_seq in Hj. rewrite H by lia. f_equal. field.
    - intros H j Hj. apply (f_equal (fun l : list C => nth j l (RtoC 0))) in H. rewrite !nth_map_lt with (d := 0%nat) in H by (rewrite seq_length; exact Hj).
      rewrite seq_nth in H by exact Hj. apply RtoC_inj in H. cbn [Nat.add] in H. lra. }
  split; intros H.
  - injection H as H1 _ _. apply (K a La). exact H1.
  - rewrite (proj1 (K a La) H), (proj1 (K b Lb) H), (proj1 (K c Lc) H). reflexivity.
Qed.
Print Assumptions C70_three_phase_identity_iff.

Example C70_example : exists y, ct_transform (Mat 2 [map RtoC [1; 2]; map RtoC [0; 3]; map RtoC [-1; -5]]%R) true = Ok y.
Proof. eexists. apply (from_three 2); reflexivity || lia. Qed.

(** C71.  Balanced, and power preserving up to the documented factor. *)
Theorem C71_complex_balanced (v : list C) neutral n p0 p1 p2 :
  ct_transform (Vec v) neutral = Ok (Mat n [p0; p1; p2]) ->
  n = length v /\ forall j, (j < n)%nat -> exists x0 x1 x2 : R,
    nth j p0 0 = RtoC x0 /\ nth j p1 0 = RtoC x1 /\ nth j p2 0 = RtoC x2 /\ (x0 + x1 + x2 = 0)%R /\
    (x0 ^ 2 + x1 ^ 2 + x2 ^ 2 = (if neutral then 3 / 2 else 9 / 2) * Cmod (nth j v (RtoC 0)) ^ 2)%R.
Proof.
  intros H. destruct v as [|z v]; [discriminate|]. set (l := z :: v) in *. rewrite to_three in H by discriminate.
  unfold three in H. cbn [map] in H. injection H as <- <- <- <-. rewrite map_length. split; [reflexivity|]. intros j Hj.
  set (w := nth j l 0). exists (phase 0 (w * line_factor neutral)), (phase 1 (w * line_factor neutral)), (phase 2 (w * line_factor neutral)).
  assert (Ph : forall k, nth j (map (fun a => RtoC (phase k a)) (map (fun a => a * line_factor neutral) l)) 0 = RtoC (phase k (w * line_factor neutral))).
  { intros k. rewrite map_map. rewrite nth_map_lt with (d := RtoC 0) by exact Hj. reflexivity. }
  do 3 (split; [apply Ph|]). rewrite phase0, phase1, phase2. pose proof sqrt3 as Q. fold w. clearbody w. clear - Q. split; [lra|].
  destruct w as [x y]. unfold Cmod. cbn [fst snd]. rewrite pow2_sqrt by nra.
  destruct neutral; cbn [line_factor]; unfold Cmult, RtoC; cbn [fst snd].
  - replace ((x * 1 - y * 0) ^ 2 + (- (1 / 2) * (x * 1 - y * 0) + sqrt 3 / 2 * (x * 0 + y * 1)) ^ 2 + (- (1 / 2) * (x * 1 - y * 0) - sqrt 3 / 2 * (x * 0 + y * 1)) ^ 2)%R
      with (3 / 2 * x ^ 2 + (sqrt 3 * sqrt 3) / 2 * y ^ 2)%R by field. rewrite Q. field.
  - set (r := sqrt 3) in *. set (re := (x * (3 / 2) - y * (r / 2))%R). set (im := (x * (r / 2) + y * (3 / 2))%R).
    replace (re ^ 2 + (- (1 / 2) * re + r / 2 * im) ^ 2 + (- (1 / 2) * re - r / 2 * im) ^ 2)%R with (3 / 2 * re ^ 2 + (r * r) / 2 * im ^ 2)%R by field.
    rewrite Q. replace (3 / 2 * re ^ 2 + 3 / 2 * im ^ 2)%R with (3 / 2 * ((9 / 4 + (r * r) / 4) * (x ^ 2 + y ^ 2)))%R by (unfold re, im; field). rewrite Q. field.
Qed.
Print Assumptions C71_complex_balanced.

Example C71_example : exists n p0 p1 p2, ct_transform (Vec [(1, 2)%R; (-3, 0)%R]) false = Ok (Mat n [p0; p1; p2]).
Proof. rewrite to_three by discriminate. unfold three. cbn [map]. repeat eexists. Qed.

(** C72.  The shapes that are accepted. *)
Definition accepted (x : ndarr) : Prop :=
  match x with
  | Vec v => v <> []
  | Mat cols m => length m = 3%nat /\ (0 < cols)%nat
  | _ => False
  end.
Theorem C72_complex_shapes x neutral :
  (accepted x -> exists y, ct_transform x neutral = Ok y /\ accepted y /\ match x, y with Vec v, Mat n _ => n = length v | Mat n _, Vec v => length v = n | _, _ => False end) /\
  (~ accepted x -> ct_transform x neutral = Err (match x with Scalar => TypeError | _ => ValueError end)).
Proof.
  destruct x as [|v|cols m|f|]; cbn [accepted]; (split; [intros H|intros H]); try contradiction; try reflexivity.
  - eexists. split; [apply to_three, H|]. cbn. split; [split; [reflexivity|]|]; rewrite map_length; [|reflexivity]. destruct v; [congruence|cbn; lia].
  - destruct v; [reflexivity|]. exfalso. apply H. discriminate.
  - destruct H as [Hm Hc]. unfold ct_transform. rewrite Hm. cbn [Nat.eqb orb negb]. destruct cols as [|n]; [lia|]. cbn [Nat.eqb].
    assert (L : forall g : C -> C -> C, length (map2 g (nth 0 (matmul COEFFICIENT (S n) m) []) (nth 1 (matmul COEFFICIENT (S n) m) [])) = S n).
    { intros g. rewrite length_map2. unfold matmul, COEFFICIENT. cbn [map nth]. rewrite !map_length, seq_length. lia. }
    eexists. split; [reflexivity|]. cbn [accepted]. destruct neutral; rewrite ?map_length; (split; [|apply L]); intros C; apply (f_equal (@length _)) in C; rewrite ?map_length, L in C; discriminate.
  - unfold ct_transform. cbv zeta. destruct (length m) as [|[|[|[|r]]]]; cbn [Nat.eqb orb negb]; try reflexivity; destruct cols; cbn [Nat.eqb]; try reflexivity.
    exfalso. apply H. split; [reflexivity|lia].
Qed.
Print Assumptions C72_complex_shapes.

Example C72_example : accepted (Mat 1 [[RtoC 1]; [RtoC 2]; [RtoC 3]]) /\ ~ accepted (Mat 2 [[RtoC 1; RtoC 2]]).
Proof. split; [split; [reflexivity|lia]|]. intros [H _]. discriminate. Qed.

(** C112.  Without neutral the arguments are line to line quantities: the differences
    of three phases give the same result as the phases themselves with neutral. *)
Theorem C112_complex_line_to_line n (a b c : list R) :
  (0 < n)%nat -> length a = n -> length b = n -> length c = n ->
  let diff := fun x y : list R => map (fun j => RtoC (nth j x 0 - nth j y 0)%R) (seq 0 n) in
  exists y, ct_transform (Mat n [map RtoC a; map RtoC b; map RtoC c]) true = Ok y /\
    ct_transform (Mat n [diff a b; diff b c; diff c a]) false = Ok y.
Proof.
  intros Hn La Lb Lc diff. eexists. split; [apply from_three; rewrite ?map_length; auto|].
  rewrite from_three by (unfold diff; rewrite ?map_length, ?seq_length; auto). do 2 f_equal. apply map_ext_in. intros j Hj. apply in_seq in Hj.
  assert (Nr : forall l, nth j (map RtoC l) 0 = RtoC (nth j l 0%R)) by (intros l; apply (map_nth RtoC)). rewrite !Nr. unfold diff.
  rewrite !nth_map_lt with (d := 0%nat) by (rewrite seq_length; lia). rewrite !seq_nth by lia. cbn [Nat.add].
  generalize (nth j a 0%R) (nth j b 0%R) (nth j c 0%R). intros x y z.
  transitivity (unphase (RtoC x) (RtoC y) (RtoC z) * line_factor false / line_factor false / line_factor true).
  2:{ field. split; apply line_nz. }
  assert (E : unphase (RtoC (x - y)) (RtoC (y - z)) (RtoC (z - x)) = unphase (RtoC x) (RtoC y) (RtoC z) * line_factor false).
  { unfold unphase, line_factor, Cmult, Cplus, RtoC. cbn [fst snd]. f_equal; r3 ltac:(fun H => pose proof (H x); pose proof (H y); pose proof (H z)). }
  rewrite E. change (line_factor true) with (RtoC 1). field. repeat split; first [apply (line_nz false)|apply (line_nz true)].
Qed.
Print Assumptions C112_complex_line_to_line.

(** A 120 degree rotation permutes the phases. *)
Theorem C112_complex_rotation n (a b c : list R) neutral :
  (0 < n)%nat -> length a = n -> length b = n -> length c = n ->
  exists y z, ct_transform (Mat n [map RtoC a; map RtoC b; map RtoC c]) neutral = Ok (Vec y) /\
    ct_transform (Mat n [map RtoC c; map RtoC a; map RtoC b]) neutral = Ok (Vec z) /\
    z = map (fun v => v * cis (2 * PI / 3)) y.
Proof.
  intros Hn La Lb Lc. eexists. eexists. split; [apply from_three; rewrite ?map_length; auto|]. split; [apply from_three; rewrite ?map_length; auto|].
  rewrite map_map. apply map_ext. intros j. assert (Nr : forall l, nth j (map RtoC l) 0 = RtoC (nth j l 0%R)) by (intros l; apply (map_nth RtoC)). rewrite !Nr.
  generalize (nth j a 0%R) (nth j b 0%R) (nth j c 0%R). intros x y z. unfold cis. rewrite cos_2PI3, sin_2PI3.
  assert (E : unphase (RtoC z) (RtoC x) (RtoC y) = unphase (RtoC x) (RtoC y) (RtoC z) * ((- (1 / 2))%R, (sqrt 3 / 2)%R)).
  { unfold unphase, Cmult, Cplus, RtoC. cbn [fst snd]. f_equal; r3 ltac:(fun H => pose proof (H x); pose proof (H y); pose proof (H z)). }
  rewrite E. field. apply line_nz.
Qed.
Print Assumptions C112_complex_rotation.
Example C112_example : (0 < 2)%nat /\ length [1; 2]%R = 2%nat /\ length [3; 4]%R = 2%nat /\ length [5; -7]%R = 2%nat.
Proof. repeat split; lia. Qed.
