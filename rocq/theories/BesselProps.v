(** Property C185: IirFilter(style = "Bessel") is built on the Bessel polynomials. *)
From Coq Require Import String List Arith ZArith Bool Reals Lra Lia Permutation Factorial.
From Coquelicot Require Import Coquelicot.
From Verif Require Import Base BaseLemmas PyString Instances FirModel FirDesignProofs PolyC ZModel ZProofs ZProps IirDesignProofs IirDesignProps MagnitudeProps.
Import ListNotations.
Set Asymmetric Patterns.
Open Scope R_scope.

(** ** Specification *)
(** Coefficient of s^(n - j) of the reverse Bessel polynomial of degree n. *)
Definition bessel_coef (n j : nat) : R := INR (fact (n + j)) / (2 ^ j * INR (fact j) * INR (fact (n - j))).
Definition bessel_value (n : nat) (s : C) : C :=
  csum (map (fun j => Cmult (RtoC (bessel_coef n j)) (cpow s (n - j))) (seq 0 (S n))).

(** ** The coefficients *)
Definition row (n : nat) : list R := map (bessel_coef n) (seq 0 (S n)).
Lemma row_length n : length (row n) = S n.
Proof. unfold row. rewrite map_length, seq_length. reflexivity. Qed.
Lemma row_nth n j : (j <= n)%nat -> nth j (row n) 0 = bessel_coef n j.
Proof. intros H. unfold row. rewrite nth_map_lt with (d := 0%nat) by (rewrite seq_length; lia). rewrite seq_nth by lia. reflexivity. Qed.

Lemma fact_S n : INR (fact (S n)) = (INR n + 1) * INR (fact n).
Proof. change (fact (S n)) with (S n * fact n)%nat. rewrite mult_INR, S_INR. reflexivity. Qed.
Lemma fact_pos n : 0 < INR (fact n).
Proof. apply lt_0_INR, lt_O_fact. Qed.

Lemma coef_zero n : bessel_coef n 0 = 1.
Proof. unfold bessel_coef. rewrite Nat.add_0_r, Nat.sub_0_r. pose proof (fact_pos n). cbn [pow fact INR]. field. lra. Qed.
(** j = i + 1 up to k, k = i + 1 + m *)
Lemma coef_inner i m : let k := (S i + m)%nat in
  bessel_coef (S (S k)) (S i) = bessel_coef k (S i) + (2 * INR k + 3) * bessel_coef (S k) i.
Proof.
  intros k. unfold bessel_coef.
  replace (S (S k) + S i)%nat with (S (S (S (k + i)))) by lia. replace (k + S i)%nat with (S (k + i)) by lia. replace (S k + i)%nat with (S (k + i)) by lia.
  replace (S (S k) - S i)%nat with (S (S m)) by (unfold k; lia). replace (k - S i)%nat with m by (unfold k; lia). replace (S k - i)%nat with (S (S m)) by (unfold k; lia).
  rewrite (fact_S (S (S (k + i)))), (fact_S (S (k + i))), (fact_S (S m)), (fact_S m), (fact_S i), !S_INR, plus_INR.
  assert (Ek : INR k = INR i + 1 + INR m) by (unfold k; rewrite plus_INR, S_INR; ring). rewrite Ek.
  pose proof (fact_pos m). pose proof (fact_pos i). pose proof (fact_pos (S (k + i))). pose proof (pow_lt 2 i ltac:(lra)). pose proof (pos_INR m). pose proof (pos_INR i).
  rewrite <- (tech_pow_Rmult 2 i). generalize dependent (2 ^ i). generalize dependent (INR (fact m)). generalize dependent (INR (fact i)). generalize dependent (INR (fact (S (k + i)))).
  intros. field. repeat split; lra.
Qed.
Lemma coef_last1 k : bessel_coef (S (S k)) (S k) = (2 * INR k + 3) * bessel_coef (S k) k.
Proof.
  unfold bessel_coef. replace (S (S k) + S k)%nat with (S (S (S k + k))) by lia. replace (S (S k) - S k)%nat with 1%nat by lia. replace (S k - k)%nat with 1%nat by lia.
  rewrite (fact_S (S (S k + k))), (fact_S (S k + k)), (fact_S k), !S_INR, plus_INR, S_INR. cbn [fact INR].
  pose proof (fact_pos k). pose proof (fact_pos (S k + k)). pose proof (pow_lt 2 k ltac:(lra)). pose proof (pos_INR k).
  rewrite <- (tech_pow_Rmult 2 k). change (INR (1 * 1)) with 1. field. repeat split; lra.
Qed.
Lemma coef_last2 k : bessel_coef (S (S k)) (S (S k)) = (2 * INR k + 3) * bessel_coef (S k) (S k).
Proof.
  unfold bessel_coef. replace (S (S k) + S (S k))%nat with (S (S (S k + S k))) by lia. rewrite !Nat.sub_diag.
  rewrite (fact_S (S (S k + S k))), (fact_S (S k + S k)), (fact_S (S k)), !S_INR, plus_INR, S_INR. change (INR (fact 0)) with 1.
  pose proof (fact_pos (S k)). pose proof (fact_pos (S k + S k)). pose proof (pow_lt 2 (S k) ltac:(lra)). pose proof (pos_INR k).
  rewrite <- (tech_pow_Rmult 2 (S k)). field. repeat split; lra.
Qed.
Lemma row_step k : vadd (row k ++ [0; 0]) (0 :: map (Rmult (2 * (INR k + 2) - 1)) (row (S k))) = row (S (S k)).
Proof.
  apply nth_ext with (d := 0) (d' := 0).
  { unfold vadd. rewrite length_map2, app_length. cbn [length]. rewrite map_length, !row_length. lia. }
  intros j Hj. unfold vadd in *. rewrite length_map2, app_length in Hj. cbn [length] in Hj. rewrite map_length, !row_length in Hj.
  assert (J : (j <= S (S k))%nat) by lia.
  rewrite nth_map2 with (dx := 0) (dy := 0) by (rewrite ?app_length; cbn [length]; rewrite ?map_length, ?row_length; lia).
  rewrite (row_nth (S (S k))) by exact J.
  destruct j as [|i].
  { rewrite app_nth1 by (rewrite row_length; lia). cbn [nth]. rewrite row_nth by lia. rewrite !coef_zero. ring. }
  cbn [nth]. rewrite (nth_map_scale (Rmult (2 * (INR k + 2) - 1))) by ring. rewrite (row_nth (S k)) by lia.
  replace (2 * (INR k + 2) - 1) with (2 * INR k + 3) by ring.
  destruct (Nat.le_gt_cases (S i) k) as [H|H].
  - rewrite app_nth1 by (rewrite row_length; lia). rewrite row_nth by exact H. symmetry.
    replace k with (S i + (k - S i))%nat by lia. apply coef_inner.
  - rewrite app_nth2 by (rewrite row_length; lia). rewrite row_length.
    assert (E : nth (S i - S k) [0; 0] 0 = 0) by (destruct (S i - S k)%nat as [|[|[|]]]; reflexivity). rewrite E, Rplus_0_l. symmetry.
    destruct (Nat.eq_dec i k) as [->|N]; [apply coef_last1|]. replace i with (S k) by lia. apply coef_last2.
Qed.
Lemma loop_row m : forall k, bessel_loop m (INR k + 2) (row k) (row (S k)) = row (S k + m).
Proof.
  induction m as [|m IH]; intros k; cbn [bessel_loop]; [rewrite Nat.add_0_r; reflexivity|].
  rewrite row_step. replace (INR k + 2 + 1) with (INR (S k) + 2) by (rewrite S_INR; ring). rewrite IH. f_equal. lia.
Qed.
Lemma bessel_row n : (1 <= n)%nat -> bessel n = row n.
Proof.
  intros H. unfold bessel. replace n with (1 + (n - 1))%nat at 2 by lia. rewrite <- (loop_row (n - 1) 0). f_equal.
  - cbn [INR]. ring.
  - unfold row. cbn [seq map]. rewrite coef_zero. reflexivity.
  - unfold row. cbn [seq map]. rewrite coef_zero. f_equal. f_equal. unfold bessel_coef. cbn. lra.
Qed.

(** C185.  The prototype's coefficients are those of the reverse Bessel polynomial. *)
Theorem C185_bessel_coefficients n : (1 <= n)%nat ->
  length (prototype "Bessel" n) = S n /\
  (forall j, (j <= n)%nat -> nth j (prototype "Bessel" n) 0 = INR (fact (n + j)) / (2 ^ j * INR (fact j) * INR (fact (n - j)))) /\
  (forall s, pv (prototype "Bessel" n) s = bessel_value n s).
Proof.
  intros H. change (prototype "Bessel" n) with (bessel n). rewrite bessel_row by exact H. split; [apply row_length|]. split; [intros j Hj; apply row_nth, Hj|].
  intros s. rewrite pv_pvC. unfold row, bessel_value.
  assert (G : forall m k, (k + m = S n)%nat -> pvC (map RtoC (map (bessel_coef n) (seq k m))) s = csum (map (fun j => Cmult (RtoC (bessel_coef n j)) (cpow s (n - j))) (seq k m))).
  { induction m as [|m IH]; intros k Hk; [reflexivity|]. cbn [seq map pvC csum fold_right]. rewrite IH by lia. rewrite !map_length, seq_length.
    replace (n - k)%nat with m by lia. reflexivity. }
  apply G. reflexivity.
Qed.
Print Assumptions C185_bessel_coefficients.

(** ** The delay *)
Section Delay.
  Open Scope C_scope.
  (** (theta_k, theta_(k+1)) *)
  Fixpoint th (k : nat) (s : C) : C * C :=
    match k with
    | O => (RtoC 1, s + 1)
    | S m => let '(u, a) := th m s in (a, RtoC (2 * INR m + 3) * a + s * s * u)
    end.
  Lemma loop_th s : forall m k u a, length a = S (length u) -> pv u s = fst (th k s) -> pv a s = snd (th k s) ->
    pv (bessel_loop m (INR k + 2) u a) s = snd (th (k + m) s).
  Proof.
    induction m as [|m IH]; intros k u a L Hu Ha; cbn [bessel_loop]; [rewrite Nat.add_0_r; exact Ha|].
    replace (INR k + 2 + 1)%R with (INR (S k) + 2)%R by (rewrite S_INR; ring). replace (k + S m)%nat with (S k + m)%nat by lia. apply IH.
    - unfold vadd. rewrite length_map2, app_length. cbn [length]. rewrite map_length. lia.
    - cbn [th]. destruct (th k s). exact Ha.
    - rewrite pv_bessel_step by exact L. cbn [th]. destruct (th k s) as [u1 a1]. cbn [fst snd] in *. rewrite Hu, Ha.
      replace (2 * (INR k + 2) - 1)%R with (2 * INR k + 3)%R by ring. ring.
  Qed.
  Lemma bessel_th n s : pv (bessel (S n)) s = snd (th n s).
  Proof.
    unfold bessel. replace (S n - 1)%nat with n by lia. assert (E2 : 2%R = (INR 0 + 2)%R) by (cbn [INR]; ring). rewrite E2. rewrite (loop_th s n 0); [reflexivity|reflexivity| |];
      unfold pv; cbn [horner th fst snd]; ring.
  Qed.
  (** s theta_(k-1), with s theta_(-1) = 1 *)
  Definition eh (k : nat) (s : C) : C := match k with O => RtoC 1 | S m => s * fst (th m s) end.
  Lemma th_next k s : fst (th (S k) s) = snd (th k s).
  Proof. cbn [th]. destruct (th k s). reflexivity. Qed.
  Lemma th_rec k s : snd (th k s) = RtoC (2 * INR k + 1) * fst (th k s) + s * eh k s.
  Proof.
    destruct k as [|m]; [cbn [th fst snd eh INR]; replace (2 * 0 + 1)%R with 1%R by ring; ring|]. rewrite th_next. cbn [eh th].
    destruct (th m s) as [u a]. cbn [fst snd]. rewrite S_INR. replace (2 * (INR m + 1) + 1)%R with (2 * INR m + 3)%R by ring. ring.
  Qed.
  Lemma eh_th k (w : R) : fst (eh k (0%R, w) * Cconj (fst (th k (0%R, w)))) = (w ^ (2 * k))%R.
  Proof.
    induction k as [|k IH]; [cbn; ring|]. rewrite th_next, th_rec. change (eh (S k) (0%R, w)) with ((0%R, w) * fst (th k (0%R, w))).
    replace (2 * S k)%nat with (S (S (2 * k))) by lia. cbn [pow]. rewrite <- IH. destruct (eh k (0%R, w)) as [e1 e2], (fst (th k (0%R, w))) as [u1 u2].
    cbn. ring.
  Qed.
End Delay.

(** Real and imaginary parts of theta_k along s = i w, and their derivatives: the derivative
    of theta_k is theta_k - s theta_(k-1). *)
Definition re (f : C -> C) (w : R) : R := fst (f (0, w)).
Definition im (f : C -> C) (w : R) : R := snd (f (0, w)).
Definition slope (f g : C -> C) (w : R) : Prop :=
  is_derive (re f) w (- snd (g (0, w))) /\ is_derive (im f) w (fst (g (0, w))).
Lemma comb_derive k (g f : R -> R) w dg df : is_derive g w dg -> is_derive f w df ->
  is_derive (fun w => k * g w - w ^ 2 * f w) w (k * dg - (2 * w * f w + w ^ 2 * df)).
Proof.
  intros G F. evar_last.
  - apply (is_derive_minus (fun w => k * g w) (fun w => w ^ 2 * f w)).
    + apply is_derive_scal. exact G.
    + apply (is_derive_mult (fun w : R => w ^ 2) f w (2 * w) df); [|exact F|intros; apply Rmult_comm].
      evar_last; [apply (is_derive_pow (fun x => x) 2 w 1), (is_derive_id w)|]. cbn. ring.
  - unfold minus, plus, opp, mult. cbn. ring.
Qed.
Lemma slope_step (f g df dg : C -> C) k w : slope f df w -> slope g dg w ->
  slope (fun s => Cplus (Cmult (RtoC k) (g s)) (Cmult (Cmult s s) (f s)))
        (fun s => Cplus (Cmult (RtoC k) (dg s)) (Cplus (Cmult (Cmult (RtoC 2) s) (f s)) (Cmult (Cmult s s) (df s)))) w.
Proof.
  intros [F1 F2] [G1 G2]. split.
  - apply (is_derive_ext (fun w => k * re g w - w ^ 2 * re f w)).
    { intros t. unfold re. cbn. destruct (f (0, t)), (g (0, t)). cbn. ring. }
    evar_last; [apply (comb_derive k _ _ w _ _ G1 F1)|]. unfold re. cbn.
    destruct (f (0, w)), (g (0, w)), (df (0, w)), (dg (0, w)). cbn. ring.
  - apply (is_derive_ext (fun w => k * im g w - w ^ 2 * im f w)).
    { intros t. unfold im. cbn. destruct (f (0, t)), (g (0, t)). cbn. ring. }
    evar_last; [apply (comb_derive k _ _ w _ _ G2 F2)|]. unfold im. cbn.
    destruct (f (0, w)), (g (0, w)), (df (0, w)), (dg (0, w)). cbn. ring.
Qed.
Lemma slope_ext f g df dg w : (forall s, f s = g s) -> (forall s, df s = dg s) -> slope f df w -> slope g dg w.
Proof.
  intros E1 E2 [H1 H2]. split; [eapply is_derive_ext; [|rewrite <- E2; exact H1]|eapply is_derive_ext; [|rewrite <- E2; exact H2]];
    intros t; unfold re, im; rewrite E1; reflexivity.
Qed.
Lemma slope_th w : forall k,
  slope (fun s => fst (th k s)) (fun s => Cminus (fst (th k s)) (eh k s)) w /\
  slope (fun s => snd (th k s)) (fun s => Cminus (snd (th k s)) (eh (S k) s)) w.
Proof.
  induction k as [|k [IH1 IH2]].
  - split; split; cbn; unfold re, im; cbn; auto_derive; try exact I; ring.
  - split; [apply (slope_ext _ _ _ _ w (fun s => eq_sym (th_next k s)) (fun s => f_equal (fun x => Cminus x (eh (S k) s)) (eq_sym (th_next k s)))), IH2|].
    eapply slope_ext; [| |exact (slope_step _ _ _ _ (2 * INR k + 3) w IH1 IH2)].
    + intros s. cbn [th]. destruct (th k s). reflexivity.
    + intros s. cbv beta. change (eh (S (S k)) s) with (Cmult s (fst (th (S k) s))). rewrite th_next.
      change (eh (S k) s) with (Cmult s (fst (th k s))). pose proof (th_rec k s) as Q. cbn [th]. destruct (th k s) as [u a]. cbn [fst snd] in *.
      subst a. generalize (eh k s). intros e. replace (2 * INR k + 3) with (2 * INR k + 1 + 2) by ring. rewrite !RtoC_plus. ring.
Qed.

(** C185.  The phase of the analogue Bessel prototype 1 / theta_n turns at the rate
    1 - w^(2n) / |theta_n(i w)|^2: the delay is one, flat up to order 2n at w = 0. *)
Theorem C185_bessel_flat_delay n (phi : R -> R) (w d : R) : (1 <= n)%nat ->
  (forall x, bessel_value n (0, x) = Cmult (RtoC (Cmod (bessel_value n (0, x)))) (cis (phi x))) -> is_derive phi w d ->
  bessel_value n (0, w) <> RtoC 0 /\
  d = 1 - w ^ (2 * n) / Cmod (bessel_value n (0, w)) ^ 2.
Proof.
  intros Hn Hp Hd. destruct n as [|m]; [lia|]. destruct (C185_bessel_coefficients (S m) Hn) as (_ & _ & V).
  assert (T : forall s, bessel_value (S m) s = snd (th m s)) by (intros s; rewrite <- V; apply bessel_th).
  assert (Nz : bessel_value (S m) (0, w) <> RtoC 0).
  { intros Q. rewrite <- V in Q. apply bessel_hurwitz in Q. cbn in Q. lra. }
  split; [exact Nz|]. pose proof (Cmod_gt_0 (bessel_value (S m) (0, w))) as Mp. apply Mp in Nz. clear Mp.
  destruct (proj2 (slope_th w m)) as [Dx Dy].
  assert (S0 : forall x, re (fun s => snd (th m s)) x * sin (phi x) - im (fun s => snd (th m s)) x * cos (phi x) = 0).
  { intros x. unfold re, im. rewrite <- T. rewrite (Hp x). cbn. ring. }
  assert (Dphi : is_derive (fun x => re (fun s => snd (th m s)) x * sin (phi x) - im (fun s => snd (th m s)) x * cos (phi x)) w
     ((- snd (Cminus (snd (th m (0, w))) (eh (S m) (0, w))) * sin (phi w) + re (fun s => snd (th m s)) w * (d * cos (phi w)))
      - (fst (Cminus (snd (th m (0, w))) (eh (S m) (0, w))) * cos (phi w) + im (fun s => snd (th m s)) w * (d * - sin (phi w))))).
  { apply (is_derive_minus (fun x => re (fun s => snd (th m s)) x * sin (phi x)) (fun x => im (fun s => snd (th m s)) x * cos (phi x))).
    - apply (is_derive_mult (re (fun s => snd (th m s))) (fun x => sin (phi x))); [exact Dx| |intros; apply Rmult_comm].
      apply (is_derive_comp sin phi w (cos (phi w)) d); [apply is_derive_sin|exact Hd].
    - apply (is_derive_mult (im (fun s => snd (th m s))) (fun x => cos (phi x))); [exact Dy| |intros; apply Rmult_comm].
      apply (is_derive_comp cos phi w (- sin (phi w)) d); [apply is_derive_cos|exact Hd]. }
  assert (Z : is_derive (fun x => re (fun s => snd (th m s)) x * sin (phi x) - im (fun s => snd (th m s)) x * cos (phi x)) w 0).
  { apply (is_derive_ext (fun _ => 0)); [intros t; symmetry; apply S0|apply (is_derive_const 0)]. }
  apply is_derive_unique in Dphi. apply is_derive_unique in Z. rewrite Dphi in Z. clear Dphi.
  pose proof (eh_th (S m) w) as W. rewrite th_next in W. pose proof (Hp w) as P. rewrite T in P, Nz |- *.
  unfold re, im in Z. set (r := Cmod (snd (th m (0, w)))) in *.
  assert (R2 : r ^ 2 = fst (snd (th m (0, w))) ^ 2 + snd (snd (th m (0, w))) ^ 2).
  { unfold r, Cmod. rewrite pow2_sqrt; [reflexivity|nra]. }
  destruct (snd (th m (0, w))) as [x y], (eh (S m) (0, w)) as [e1 e2]. cbn in P. cbn [fst snd] in *.
  assert (Px : x = r * cos (phi w)) by (pose proof (f_equal fst P) as Q; cbn in Q; lra).
  assert (Py : y = r * sin (phi w)) by (pose proof (f_equal snd P) as Q; cbn in Q; lra).
  cbn -[pow Nat.mul] in W, Z. rewrite <- W.
  apply (Rmult_eq_reg_r (r ^ 2)); [|apply pow_nonzero; lra].
  transitivity (r ^ 2 - (e1 * x - e2 * - y)); [|field; lra].
  assert (Z2 : r * ((- (y + - e2) * sin (phi w) + x * (d * cos (phi w))) - ((x + - e1) * cos (phi w) + y * (d * - sin (phi w)))) = 0) by (rewrite Z; ring).
  assert (Z3 : - (y - e2) * y + d * x * x - (x - e1) * x + d * y * y = 0).
  { rewrite <- Z2, Px, Py. ring. }
  rewrite R2. lra.
Qed.
Print Assumptions C185_bessel_flat_delay.

(** ** The designed filter *)
Lemma bessel_title style : py_lower style = "bessel"%string -> py_title style = "Bessel"%string.
Proof. intros H. apply (title_of _ _ _ H); [left; reflexivity|reflexivity]. Qed.

(** C185.  The poles of a designed Bessel filter are exp(c p), p the roots of the reverse
    Bessel polynomial, for one positive c; a high-pass has them mirrored. *)
Theorem C185_bessel_poles roots residue eps style frequency order count (complement : bool) gain a b : 0 < eps ->
  iir_design roots residue eps style frequency order count complement gain = Ok (a, b) ->
  py_lower style = "bessel"%string -> poles_found roots residue "Bessel" (Z.to_nat order) ->
  exists c ps, 0 < c /\ length ps = Z.to_nat order /\
    (forall s, bessel_value (Z.to_nat order) s = cprod (map (fun p => Cminus s p) ps)) /\
    (forall p, In p ps -> fst p < 0) /\
    forall w, den a w = cprod (map (fun p => Cminus 1 (Cmult (Cmult (RtoC (exp (c * fst p))) (cis (c * snd p))) (if complement then Copp w else w))) ps).
Proof.
  intros He H Hs Hp. pose proof (bessel_title _ Hs) as Ht.
  destruct (design_ok _ _ _ _ _ _ _ _ _ _ _ He H) as (Hf & Ho & _ & _ & s & u & v & Hs0 & Ev & Ea & _). rewrite Ht in Ev.
  set (f := if complement then 1 - frequency else frequency) in *.
  assert (F0 : 0 < s * f) by (apply Rmult_lt_0_compat; [exact Hs0|unfold f; destruct complement; lra]).
  assert (Hn : (0 < Z.to_nat order)%nat) by lia.
  destruct (C18_iir_candidate _ _ _ _ _ Hn F0 Hp) as (u1 & v1 & E & D & Lp & Neg & _). rewrite Ev in E. injection E as <- <-.
  set (ps := proto_poles roots residue "Bessel" (Z.to_nat order)) in *. cbn [String.eqb Ascii.eqb Bool.eqb negb] in D.
  exists (PI * (s * f)), ps. split; [apply Rmult_lt_0_compat; [apply PI_RGT_0|exact F0]|]. split; [exact Lp|]. split; [|split; [exact Neg|]].
  - destruct (C185_bessel_coefficients (Z.to_nat order) Hn) as (_ & _ & V). intros x. rewrite <- V. destruct Hp as [(k & Hk & Hr) _]. fold ps in Hr.
    assert (K1 : k = 1).
    { assert (E : rev (map RtoC (prototype "Bessel" (Z.to_nat order))) = rev (map (Cmult (RtoC k)) (cpoly ps))).
      { apply pe_ext; [rewrite !rev_length, !map_length, cpoly_length, Lp, prototype_length by exact Hn; reflexivity|].
        intros r. rewrite <- !pvC_rev, <- pv_pvC, Hr, pvC_scale, pvC_cpoly, fold_cprod. reflexivity. }
      apply (f_equal (@rev C)) in E. rewrite !rev_involutive in E. apply (f_equal (hd (RtoC 0))) in E.
      pose proof (prototype_monic "Bessel" (Z.to_nat order)) as M. destruct (prototype "Bessel" (Z.to_nat order)) as [|p0 pr]; [cbn in M; lra|].
      cbn in M. subst p0. destruct (cpoly_cons ps) as [r Er]. rewrite Er in E. cbn [map hd] in E. rewrite Cmult_1_r in E. apply RtoC_inj in E. lra. }
    rewrite Hr, K1, (fold_cprod (fun p => Cminus x p)). ring.
  - intros w. assert (G : forall w, den u w = cprod (map (fun p => Cminus 1 (Cmult (Cmult (RtoC (exp (PI * (s * f) * fst p))) (cis (PI * (s * f) * snd p))) w)) ps)).
    { intros w0. rewrite D, (fold_cprod (fun p => (1 - z_of false (s * f) p * w0)%C)). f_equal. apply map_ext. intros p. f_equal. f_equal. unfold z_of, cis, Cmult, RtoC. cbn [fst snd]. f_equal; ring. }
    rewrite Ea. destruct complement; [rewrite den_alternate|]; apply G.
Qed.
Print Assumptions C185_bessel_poles.

Example C185_example_coefficients : prototype "Bessel" 3 = [1; 6; 15; 15] /\
  bessel_coef 3 0 = 1 /\ bessel_coef 3 1 = 6 /\ bessel_coef 3 2 = 15 /\ bessel_coef 3 3 = 15.
Proof.
  split; [|unfold bessel_coef; cbn; repeat split; lra].
  unfold prototype, bessel, vadd. cbn. repeat (f_equal; try lra).
Qed.
(** Order one: the phase of 1 + i w is atan w, and the delay at w = 1 is 1/2. *)
Example C185_example_delay :
  (forall x, bessel_value 1 (0, x) = (1, x)) /\
  (forall x, bessel_value 1 (0, x) = Cmult (RtoC (Cmod (bessel_value 1 (0, x)))) (cis (atan x))) /\
  is_derive atan 1 (1 / 2) /\ 1 - 1 ^ (2 * 1) / Cmod (bessel_value 1 (0, 1)) ^ 2 = 1 / 2.
Proof.
  assert (V : forall x, bessel_value 1 (0, x) = (1, x)).
  { intros x. rewrite <- (proj2 (proj2 (C185_bessel_coefficients 1 (le_n 1)))). unfold prototype, bessel, pv. cbn. unfold Cplus, Cmult, RtoC. cbn. f_equal; ring. }
  split; [exact V|]. split; [|split].
  - intros x. rewrite V. pose proof (atan_bound x) as B. assert (Hc : 0 < cos (atan x)) by (apply cos_gt_0; lra).
    assert (S1 : sin (atan x) = x * cos (atan x)).
    { assert (Tn : tan (atan x) = x) by apply tan_atan. unfold tan in Tn. rewrite <- Tn at 2. field. lra. }
    assert (M : Cmod (1, x) * cos (atan x) = 1).
    { pose proof (sin2_cos2 (atan x)) as Q. unfold Rsqr in Q. rewrite S1 in Q.
      assert (Y : Cmod (1, x) ^ 2 = 1 + x ^ 2) by (unfold Cmod; rewrite pow2_sqrt; cbn; nra).
      pose proof (Cmod_ge_0 (1, x)). assert (0 <= Cmod (1, x) * cos (atan x)) by nra. nra. }
    unfold cis, Cmult, RtoC. cbn [fst snd]. f_equal; [rewrite <- M at 1; ring|]. rewrite S1. transitivity (x * (Cmod (1, x) * cos (atan x))); [rewrite M; ring|ring].
  - evar_last; [apply is_derive_Reals, derivable_pt_lim_atan|]. unfold Rsqr. lra.
  - rewrite V. assert (Y : Cmod (1, 1) ^ 2 = 2) by (unfold Cmod; rewrite pow2_sqrt; cbn; lra). rewrite Y. cbn. lra.
Qed.
Example C185_example_design : py_lower "bEsSel" = "bessel"%string /\
  poles_found (fun _ => []) (fun _ _ => ([RtoC 1; RtoC 2], [((-3 / 2)%R, (sqrt 3 / 2)%R); ((-3 / 2)%R, (- (sqrt 3 / 2))%R)])) "Bessel" 2.
Proof. split; [reflexivity|]. apply C18_C110_example. Qed.
