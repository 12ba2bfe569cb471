(** Properties C19-C22: IntegralFilter and DerivativeFilter. *)
From Coq Require Import List Arith ZArith Lia Bool Reals Lra QArith Qcanon Floats.
From Coquelicot Require Import Coquelicot.
From Verif Require Import Base BaseLemmas Instances FirModel FirSpec FirProofs FirProps
  IirModel IirSpec IirProofs IirProps CalculusModel CalculusSpec.
Import ListNotations.
Set Asymmetric Patterns.
Close Scope Q_scope. Close Scope C_scope. Open Scope R_scope.

(** Turn an equation over the record RA into one over R. *)
Ltac rr := match goal with |- @eq _ ?a ?b => change (@eq R a b) end; cbn [carrier add sub mul div zero one opp RA].

Lemma fits_RA_float (x : R) : @fits RA DFloat x. Proof. reflexivity. Qed.
Lemma Forall_RA_float (l : list R) : Forall (@fits RA DFloat) l.
Proof. induction l; constructor; auto; reflexivity. Qed.

(** Table entries as real numbers. *)
Definition rrow (ns : list Z) (d : Z) : list R := map (fun n => IZR n / IZR d) ns.

Lemma of_pos_IZR p : @of_pos RA p = IZR (Zpos p).
Proof.
  induction p as [p IH|p IH|]; cbn [of_pos].
  - rewrite IH. cbn. rewrite (Pos2Z.inj_xI p), plus_IZR, mult_IZR. lra.
  - rewrite IH. cbn. rewrite (Pos2Z.inj_xO p), mult_IZR. lra.
  - reflexivity.
Qed.
Lemma of_Z_IZR z : @of_Z RA z = IZR z.
Proof.
  destruct z as [|p|p]; cbn [of_Z]; [reflexivity|apply of_pos_IZR|].
  rewrite of_pos_IZR. cbn. rewrite (Pos2Z.opp_pos p) || idtac. change (Zneg p) with (Z.opp (Zpos p)).
  rewrite opp_IZR. reflexivity.
Qed.
Lemma table_row_R ns d : @table_row RA ns d = rrow ns d.
Proof.
  unfold table_row, rrow. apply map_ext. intros n. rewrite !of_Z_IZR. cbn. unfold Rdiv. ring.
Qed.

(** ** IntegralFilter *)

(** The documented weights, [1], [1 1]/2, [1 4 1]/6, [1 3 3 1]/8, [7 32 12 32 7]/90. *)
Definition integral_weights (order : nat) : list R :=
  match order with
  | 0%nat => [1]
  | 1%nat => [1 / 2; 1 / 2]
  | 2%nat => [1 / 6; 4 / 6; 1 / 6]
  | 3%nat => [1 / 8; 3 / 8; 3 / 8; 1 / 8]
  | 4%nat => [7 / 90; 32 / 90; 12 / 90; 32 / 90; 7 / 90]
  | _ => []
  end.

Lemma integral_make_out (A : Arith) (order : Z) : (order < 0 \/ 4 < order)%Z -> @integral_make A order = Err ValueError.
Proof.
  intros H. unfold integral_make, integral_B.
  destruct order as [|[p|p|]|p]; try reflexivity; try lia;
  destruct p as [p|p|]; try reflexivity; try lia; destruct p; try reflexivity; lia.
Qed.

Lemma integral_B_R k : (k <= 4)%nat -> @integral_B RA (Z.of_nat k) = Some (integral_weights k).
Proof.
  intros Hk. do 5 (destruct k as [|k]; [cbn [Z.of_nat Pos.of_succ_nat Pos.succ integral_B]; rewrite table_row_R;
    unfold rrow; cbn [map integral_weights]; try reflexivity; f_equal; f_equal; lra|]). lia.
Qed.

Lemma length_weights k : (k <= 4)%nat -> length (integral_weights k) = S k.
Proof. intros Hk. do 5 (destruct k as [|k]; [reflexivity|]). lia. Qed.

Lemma weights_total k : (k <= 4)%nat -> @bigsum RA (S k) (fun i => nth i (integral_weights k) 0) = 1.
Proof. intros Hk. do 5 (destruct k as [|k]; [cbn; lra|]). lia. Qed.

Lemma weights_moment k : (k <= 4)%nat ->
  @bigsum RA (S k) (fun i => nth i (integral_weights k) 0 * INR i) = INR k / 2.
Proof. intros Hk. do 5 (destruct k as [|k]; [cbn; lra|]). lia. Qed.

Lemma bigsum_tail (A : Arith) (L : Laws A) n m (f : nat -> A) :
  (n <= m)%nat -> (forall i, (n <= i < m)%nat -> f i = zero) -> bigsum m f = bigsum n f.
Proof.
  intros Hn H. replace m with (n + (m - n))%nat by lia. rewrite (bigsum_app A L).
  rewrite (bigsum_zero A L (m - n)); [apply (add_0_r A L)|]. intros i Hi. apply H. lia.
Qed.

(** A filter built by the constructor and then used in any way. *)
Definition integral_used (k : nat) (ops : list (iir_op RA)) (f : iir RA) : Prop :=
  exists f0, @integral_make RA (Z.of_nat k) = Ok f0 /\ f = fold_left iir_exec ops f0.

Lemma integral_used_iir k ops f : (k <= 4)%nat -> integral_used k ops f ->
  iir_used (mkArr DFloat [0; 1]) (mkArr DFloat (integral_weights k)) (mkArr DFloat []) ops f /\
  length (ia f) = S (max 1 k) /\ length (ib f) = S (max 1 k) /\ idt f = DFloat /\
  (forall i, nth i (ia f) 0 = nth i [0; 1] 0) /\ (forall i, nth i (ib f) 0 = nth i (integral_weights k) 0).
Proof.
  intros Hk (f0 & E & ->). unfold integral_make in E. rewrite integral_B_R in E by exact Hk.
  change (iir_make (mkArr DFloat [0; 1] : arr RA) (mkArr DFloat (integral_weights k)) (mkArr DFloat []) = Ok f0) in E.
  split; [split; [cbn; lia|exists f0; auto]|].
  assert (Hz : @eqb RA (@zero RA) zero = true) by (apply (law_eqb RA_laws); reflexivity).
  destruct (iir_make_ok (mkArr DFloat [0; 1] : arr RA) (mkArr DFloat (integral_weights k)) (mkArr DFloat []))
    as (f1 & E1 & Ea & Eb & Lb & Ls).
  { left. discriminate. } { intros _. exact Hz. } { exact Hz. }
  rewrite E in E1. injection E1 as <-.
  destruct (iir_fold_ab ops f0) as (-> & -> & ->).
  cbn [els length] in *. rewrite length_weights in * by exact Hk.
  assert (Hl : length (ia f0) = S (max 1 k)).
  { rewrite Ea. rewrite length_pad by (cbn [length]; lia). lia. }
  split; [exact Hl|]. split; [rewrite Lb; lia|]. split.
  - unfold iir_make in E. cbn [els adt] in E.
    destruct (negb (@eqb RA 0 zero)); [discriminate|]. cbv zeta in E. 
    destruct (pad [0; 1] _) as [|a0 a']; [discriminate|].
    destruct (negb _); [discriminate|].
    match type of E with context [fir_make ?b1 ?s1] => destruct (fir_make b1 s1) as [g|e] eqn:Eg end; [|discriminate].
    injection E as <-. cbn [idt]. unfold fir_make in Eg. destruct (Nat.eqb _ _); [discriminate|].
    injection Eg as <-. cbn [fdt els length Nat.ltb].
    destruct (Nat.ltb _ _); cbn [adt]; destruct (Nat.ltb _ _); destruct (Nat.ltb _ _); reflexivity.
  - split; [|exact Eb]. intros i. rewrite Ea. apply (@nth_pad RA).
Qed.

Lemma integral_rhs k (f : iir RA) y x n :
  (k <= 4)%nat -> length (ia f) = S (max 1 k) -> length (ib f) = S (max 1 k) ->
  (forall i, nth i (ia f) 0 = nth i [0; 1] 0) -> (forall i, nth i (ib f) 0 = nth i (integral_weights k) 0) ->
  @difference_rhs RA (ia f) (ib f) y x n =
  @sig RA [] y (Z.of_nat n - 1) + @convolution RA (integral_weights k) [] x n.
Proof.
  intros Hk La Lb Ea Eb. unfold difference_rhs, convolution. rewrite La, Lb.
  replace (S (max 1 k) - 1)%nat with (S (max 1 k - 1)) by lia.
  change Rplus with (@add RA). f_equal.
  - rewrite (bigsum_single RA RA_laws _ 0).
    + rewrite Ea. cbn [nth]. rewrite (mul_1_l RA RA_laws). f_equal. lia.
    + lia.
    + intros i Hi Hne. rewrite Ea. destruct i as [|i]; [congruence|].
      destruct i; cbn [nth]; apply (mul_0_l RA RA_laws).
  - rewrite length_weights by exact Hk. rewrite (bigsum_tail RA RA_laws (S k)); [| lia|].
    + apply bigsum_ext. intros i _. rewrite Eb. reflexivity.
    + intros i Hi. rewrite Eb. rewrite nth_overflow by (rewrite length_weights by exact Hk; lia).
      apply (mul_0_l RA RA_laws).
Qed.

Lemma integral_coeffs_ok k : @coeffs_ok RA (mkArr DFloat [0; 1]) (mkArr DFloat (integral_weights k)).
Proof. split; [apply Forall_RA_float|split; [apply Forall_RA_float|discriminate]]. Qed.

(** C19.  A fresh IntegralFilter returns the running sum of the weighted window. *)
Theorem C19_integral_running_sum (order : Z) (f : iir RA) (x : list R) :
  @integral_make RA order = Ok f -> x <> [] ->
  exists k f' y, (k <= 4)%nat /\ order = Z.of_nat k /\ iir_filter f x = (f', Ok y) /\ length y = length x /\
    forall n, (n < length x)%nat ->
      nth n y 0 = @bigsum RA (S n) (fun m => @convolution RA (integral_weights k) [] x m).
Proof.
  intros Hm Hx.
  destruct (Z_lt_ge_dec order 0) as [H|H]; [rewrite integral_make_out in Hm by lia; discriminate|].
  destruct (Z_lt_ge_dec 4 order) as [H1|H1]; [rewrite integral_make_out in Hm by lia; discriminate|].
  exists (Z.to_nat order). set (k := Z.to_nat order) in *.
  assert (Hk : (k <= 4)%nat) by (unfold k; lia).
  assert (Ho : order = Z.of_nat k) by (unfold k; lia). rewrite Ho in Hm.
  assert (Hu : integral_used k [] f) by (exists f; auto).
  destruct (integral_used_iir k [] f Hk Hu) as (Hi & La & Lb & Ed & Ea & Eb).
  pose proof Hi as (_ & f0 & E & E0). cbn [fold_left] in E0. subst f0.
  destruct (C10_iir_fresh_is_at_rest RA RA_laws _ _ _ _ E) as (Hz & _ & _).
  destruct (C10_iir_difference_from_rest RA RA_laws _ _ _ _ _ x (integral_coeffs_ok k) Hi Hz Hx) as (f' & y & Ef & [Hl Hy] & _).
  { rewrite Ed. apply Forall_RA_float. }
  exists f', y. split; [exact Hk|]. split; [exact Ho|]. split; [exact Ef|]. split; [exact Hl|].
  intros n. induction n as [|n IH]; intros Hn.
  - change 0 with (@zero RA). rewrite Hy by exact Hn. rewrite (integral_rhs k) by assumption. cbn. lra.
  - change 0 with (@zero RA). rewrite Hy by exact Hn. rewrite (integral_rhs k) by assumption.
    replace (Z.of_nat (S n) - 1)%Z with (Z.of_nat n) by lia.
    unfold sig at 1. destruct (Z.ltb_spec (Z.of_nat n) 0%Z); [lia|]. rewrite Nat2Z.id.
    change (@zero RA) with 0. rewrite IH by lia. reflexivity.
Qed.
Print Assumptions C19_integral_running_sum.

(** Exactly the orders 0 to 4 are accepted, in any arithmetic. *)
Theorem C19_integral_orders (A : Arith) (order : Z) : @eqb A zero zero = true ->
  ((order < 0 \/ 4 < order)%Z -> @integral_make A order = Err ValueError) /\
  ((0 <= order <= 4)%Z -> exists f, @integral_make A order = Ok f).
Proof.
  intros Hz. split; [apply integral_make_out|]. intros H. unfold integral_make.
  assert (E : exists b, @integral_B A order = Some b /\ b <> []).
  { assert (order = 0 \/ order = 1 \/ order = 2 \/ order = 3 \/ order = 4)%Z as C by lia.
    destruct C as [E|[E|[E|[E|E]]]]; subst order; eexists; (split; [reflexivity|discriminate]). }
  destruct E as (b & -> & Hb).
  destruct (iir_make_ok (mkArr DFloat [zero; one] : arr A) (mkArr DFloat b) (mkArr DFloat [])) as (f & E & _).
  - left. discriminate.
  - intros _. exact Hz.
  - exact Hz.
  - exists f. exact E.
Qed.
Print Assumptions C19_integral_orders.

Example C19_example : exists f, @integral_make QA 2 = Ok f /\
  rqs (snd (iir_filter f [q 6 1; q 0 1; q 12 1; q 0 1])) = Ok [1 # 1; 5 # 1; 8 # 1; 16 # 1]%Q.
Proof. eexists. split; [reflexivity|]. vm_compute. reflexivity. Qed.

(** C20.  On an affine signal the increment of the output over any span after the
    start-up is the exact integral over the span delayed by (order-1)/2. *)
Theorem C20_integral_affine (k : nat) ops (f : iir RA) (alpha beta t0 : R) (x : list R) :
  (k <= 4)%nat -> integral_used k ops f -> x <> [] -> samples_of (fun t => alpha + beta * t) t0 x ->
  exists f' y, iir_filter f x = (f', Ok y) /\ length y = length x /\
    forall m n, (k <= m <= n)%nat -> (n < length x)%nat ->
      is_RInt (fun t => alpha + beta * t) (t0 + INR m - (INR k - 1) / 2) (t0 + INR n - (INR k - 1) / 2)
              (nth n y 0 - nth m y 0).
Proof.
  intros Hk Hu Hx Hs.
  destruct (integral_used_iir k ops f Hk Hu) as (Hi & La & Lb & Ed & Ea & Eb).
  destruct (C11_iir_difference_any_state RA RA_laws _ _ _ _ _ x (integral_coeffs_ok k) Hi Hx) as (f' & y & Ef & Hl & Hy).
  { rewrite Ed. apply Forall_RA_float. }
  exists f', y. split; [exact Ef|]. split; [exact Hl|].
  set (F := fun t : R => alpha * t + beta * t * t / 2).
  assert (HF : forall a b, is_RInt (fun t => alpha + beta * t) a b (F b - F a)).
  { intros a b. apply (is_RInt_derive F).
    - intros t _. unfold F. auto_derive; [auto|]. field.
    - intros t _. apply (continuous_plus (V := R_NormedModule)); [apply continuous_const|].
      apply (continuous_mult (K := R_AbsRing)); [apply continuous_const|apply continuous_id]. }
  assert (Hstep : forall n, (k <= n)%nat -> (S n < length x)%nat ->
    nth (S n) y 0 = nth n y 0 + (alpha + beta * (t0 + INR (S n) - INR k / 2))).
  { intros n Hn1 Hn2. pose proof (Hy (S n)) as Hyn. change (@zero RA) with 0 in Hyn.
    rewrite Hyn by (split; [rewrite Lb; lia|exact Hn2]). clear Hyn.
    rewrite (integral_rhs k) by assumption.
    replace (Z.of_nat (S n) - 1)%Z with (Z.of_nat n) by lia.
    unfold sig at 1. destruct (Z.ltb_spec (Z.of_nat n) 0%Z); [lia|]. rewrite Nat2Z.id. f_equal.
    unfold convolution. rewrite length_weights by exact Hk.
    transitivity (@bigsum RA (S k) (fun i =>
      (alpha + beta * (t0 + INR (S n))) * nth i (integral_weights k) 0 - beta * (nth i (integral_weights k) 0 * INR i))).
    - apply (@bigsum_ext RA). intros i Hi'. unfold sig.
      destruct (Z.ltb_spec (Z.of_nat (S n) - Z.of_nat i) 0%Z); [lia|].
      change (@zero RA) with 0. rewrite Hs by lia.
      replace (Z.to_nat (Z.of_nat (S n) - Z.of_nat i)) with (S n - i)%nat by lia.
      rewrite minus_INR by lia. rr. ring.
    - rewrite (bigsum_sub RA RA_laws _ (fun i => (alpha + beta * (t0 + INR (S n))) * nth i (integral_weights k) 0)
        (fun i => beta * (nth i (integral_weights k) 0 * INR i))).
      rewrite (bigsum_scal RA RA_laws _ (alpha + beta * (t0 + INR (S n))) (fun i => nth i (integral_weights k) 0)).
      rewrite (bigsum_scal RA RA_laws _ beta (fun i => nth i (integral_weights k) 0 * INR i)).
      rewrite weights_total, weights_moment by exact Hk. rr. field. }
  intros m n [Hm Hmn] Hn. 
  replace (nth n y 0 - nth m y 0) with
    (F (t0 + INR n - (INR k - 1) / 2) - F (t0 + INR m - (INR k - 1) / 2)); [apply HF|].
  induction Hmn as [|n Hmn IH]; [ring|].
  rewrite Hstep by lia. 
  transitivity (F (t0 + INR n - (INR k - 1) / 2) - F (t0 + INR m - (INR k - 1) / 2) +
     (alpha + beta * (t0 + INR (S n) - INR k / 2))).
  - unfold F. rewrite S_INR. field.
  - rewrite IH by lia. ring.
Qed.
Print Assumptions C20_integral_affine.

(** Constants: the output grows by exactly c per sample. *)
Theorem C20_integral_constant (k : nat) ops (f : iir RA) (c : R) (len : nat) :
  (k <= 4)%nat -> integral_used k ops f -> len <> 0%nat ->
  exists f' y, iir_filter f (repeat c len) = (f', Ok y) /\
    forall n, (k <= n)%nat -> (S n < len)%nat -> nth (S n) y 0 = nth n y 0 + c.
Proof.
  intros Hk Hu Hn.
  destruct (C20_integral_affine k ops f c 0 0 (repeat c len) Hk Hu) as (f' & y & E & Hl & Hy).
  - destruct len; [congruence|discriminate].
  - intros i Hi. rewrite repeat_length in Hi. rewrite nth_repeat_lt by exact Hi. ring.
  - exists f', y. split; [exact E|]. intros n H1 H2. rewrite repeat_length in *.
    pose proof (Hy n (S n) (conj H1 (Nat.le_succ_diag_r n)) H2) as H.
    pose proof (@is_RInt_const R_NormedModule (0 + INR n - (INR k - 1) / 2) (0 + INR (S n) - (INR k - 1) / 2) c) as Hc.
    assert (Hc' := Hc). eapply is_RInt_ext with (g := fun t => c + 0 * t) in Hc'; [|intros t _; cbn; ring].
    pose proof (is_RInt_unique _ _ _ _ H) as U1. pose proof (is_RInt_unique _ _ _ _ Hc') as U2.
    rewrite U1 in U2. unfold scal in U2; cbn -[INR] in U2; unfold mult in U2; cbn -[INR] in U2.
    rewrite S_INR in U2. change (@nth (carrier RA)) with (@nth R) in *. lra.
Qed.
Print Assumptions C20_integral_constant.

Example C20_example : exists f, @integral_make QA 2 = Ok f /\
  rqs (snd (iir_filter f [q 1 1; q 2 1; q 3 1; q 4 1; q 5 1])) = Ok [1 # 6; 7 # 6; 19 # 6; 37 # 6; 61 # 6]%Q.
Proof. eexists. split; [reflexivity|]. vm_compute. reflexivity. Qed.

(** ** DerivativeFilter *)
Fixpoint padd (a b : list R) : list R :=
  match a, b with
  | [], _ => b
  | _, [] => a
  | x :: a', y :: b' => (x + y) :: padd a' b'
  end.
Fixpoint pderiv (c : list R) : list R :=
  match c with [] => [] | _ :: c' => padd c' (0 :: pderiv c') end.

Lemma peval_padd a b t : peval (padd a b) t = peval a t + peval b t.
Proof. revert b; induction a as [|x a IH]; intros [|y b]; cbn; try ring. rewrite IH. ring. Qed.

Lemma is_derive_peval c t : is_derive (peval c) t (peval (pderiv c) t).
Proof.
  revert t. induction c as [|c0 c IH]; intros t; cbn [peval pderiv].
  - apply (is_derive_const (V := R_NormedModule)).
  - rewrite peval_padd. cbn [peval].
    replace (peval c t + (0 + t * peval (pderiv c) t)) with (0 + (1 * peval c t + t * peval (pderiv c) t)) by ring.
    apply (is_derive_plus (V := R_NormedModule)); [apply (is_derive_const (V := R_NormedModule))|].
    apply (@is_derive_mult R_AbsRing (fun t => t) (peval c) t 1 (peval (pderiv c) t));
      [apply (@is_derive_id R_AbsRing)|apply IH|intros; apply Rmult_comm].
Qed.

Lemma Derive_n_peval d c t : Derive_n (peval c) d t = peval (Nat.iter d pderiv c) t.
Proof.
  revert t. induction d as [|d IH]; intros t; [reflexivity|]. cbn [Derive_n Nat.iter].
  rewrite (Derive_ext _ _ t IH). apply is_derive_unique. apply is_derive_peval.
Qed.

Lemma is_derive_n_peval d c t : is_derive_n (peval c) d t (peval (Nat.iter d pderiv c) t).
Proof.
  destruct d as [|d]; [reflexivity|]. cbn [is_derive_n Nat.iter].
  eapply is_derive_ext; [intros; symmetry; apply Derive_n_peval|]. apply is_derive_peval.
Qed.

Definition derivative_used (d o : Z) (ops : list (fir_op RA)) (f : fir RA) : Prop :=
  exists f0, @derivative_make RA d o = Ok f0 /\ f = fold_left fir_exec ops f0.

Ltac to_nat := repeat match goal with
  | |- context [Z.to_nat ?z] => let n := eval compute in (Z.to_nat z) in change (Z.to_nat z) with n
  | H : context [Z.to_nat ?z] |- _ => let n := eval compute in (Z.to_nat z) in change (Z.to_nat z) with n in H
  end.

Lemma exact_degree_list d o deg : exact_degree d o = Some deg ->
  In (d, o, deg) [(1,1,2%nat);(1,2,2%nat);(1,4,4%nat);(2,2,3%nat);(2,4,3%nat);(2,6,3%nat);(2,8,5%nat);
     (3,4,4%nat);(3,6,4%nat);(3,8,4%nat)]%Z.
Proof.
  unfold exact_degree. intros H.
  repeat match type of H with context [match ?p with _ => _ end] => destruct p; try discriminate end;
    injection H as <-; cbn; tauto.
Qed.

Lemma exact_degree_cases d o deg : exact_degree d o = Some deg ->
  exists ns den, @derivative_B RA d o = Some (Some (rrow ns den)) /\ length ns = S (Z.to_nat o) /\ (0 < d <= 3)%Z /\
   forall (c : list R) t, (length c <= S deg)%nat ->
     @bigsum RA (S (Z.to_nat o)) (fun i => nth i (rrow ns den) 0 * peval c (t - INR i)) =
     peval (Nat.iter (Z.to_nat d) pderiv c) (t - IZR o / 2).
Proof.
  intros H.
  pose proof (exact_degree_list _ _ _ H) as Hin. remember (d, o, deg) as p eqn:E. symmetry in E. cbn [In] in Hin.
  repeat match type of Hin with _ \/ _ => destruct Hin as [<-|Hin] end; [..|contradiction];
  injection E as -> -> ->; eexists _, _; (split; [cbn [derivative_B]; rewrite table_row_R; reflexivity|]);
  (split; [reflexivity|]); (split; [lia|]); intros c t Hc;
  repeat match goal with c : list R |- _ => destruct c as [|? c]; cbn [length] in Hc; try (exfalso; lia) end;
  to_nat; unfold rrow; cbn [Nat.add bigsum nth map Nat.iter nat_rect pderiv padd peval INR add zero mul RA]; rr; field.
Qed.

Lemma derivative_used_fir d o deg ops f : exact_degree d o = Some deg -> derivative_used d o ops f ->
  exists ns den, @derivative_B RA d o = Some (Some (rrow ns den)) /\ length ns = S (Z.to_nat o) /\
    fir_used (mkArr DFloat (rrow ns den)) (mkArr DFloat []) ops f /\ fb f = rrow ns den /\ fdt f = DFloat.
Proof.
  intros Hd (f0 & E & ->). destruct (exact_degree_cases _ _ _ Hd) as (ns & den & EB & Hl & _ & _).
  exists ns, den. split; [exact EB|]. split; [exact Hl|].
  unfold derivative_make in E. rewrite EB in E.
  assert (Hu : fir_used (mkArr DFloat (rrow ns den) : arr RA) (mkArr DFloat []) ops (fold_left fir_exec ops f0)).
  { exists f0. auto. }
  split; [exact Hu|]. destruct (fir_used_b _ _ _ _ Hu) as (f1 & E1 & -> & ->).
  unfold fir_make in E1. cbn [els adt length] in E1. destruct (Nat.eqb _ _); [discriminate|].
  rewrite (proj2 (Nat.ltb_ge _ 0)) in E1 by lia. injection E1 as <-. split; reflexivity.
Qed.

(** C21.  Exactness on polynomials: after [order] samples the output is the derivative
    of the sampled polynomial at the middle of the window. *)
Theorem C21_derivative_exact (d o : Z) (deg : nat) ops (f : fir RA) (c : list R) (t0 : R) (x : list R) :
  exact_degree d o = Some deg -> derivative_used d o ops f ->
  (length c <= S deg)%nat -> x <> [] -> samples_of (peval c) t0 x ->
  exists f' y, fir_filter f x = (f', Ok y) /\ length y = length x /\
    forall n, (Z.to_nat o <= n < length x)%nat ->
      is_derive_n (peval c) (Z.to_nat d) (t0 + INR n - IZR o / 2) (nth n y 0).
Proof.
  intros Hd Hu Hc Hx Hs.
  destruct (derivative_used_fir _ _ _ _ _ Hd Hu) as (ns & den & EB & Hl & Hf & Eb & Ed).
  destruct (exact_degree_cases _ _ _ Hd) as (ns' & den' & EB' & _ & _ & Hex).
  rewrite EB in EB'. injection EB' as EB'.
  destruct (C01_fir_convolution RA RA_laws _ _ _ f x (Forall_RA_float _ : arr_ok (mkArr DFloat _)) Hf Hx) as (f' & y & E & Hly & Hy & _).
  { rewrite Ed. apply Forall_RA_float. }
  exists f', y. split; [exact E|]. split; [exact Hly|]. intros n [Hn1 Hn2].
  replace (nth n y 0) with (peval (Nat.iter (Z.to_nat d) pderiv c) (t0 + INR n - IZR o / 2));
    [apply is_derive_n_peval|].
  change 0 with (@zero RA) at 1. rewrite (Hy n Hn2). rewrite <- Hex by exact Hc. rewrite Eb, <- EB'.
  unfold convolution, rrow. rewrite map_length, Hl. apply (@bigsum_ext RA). intros i Hi.
  unfold sig. destruct (Z.ltb_spec (Z.of_nat n - Z.of_nat i) 0%Z); [lia|].
  replace (Z.to_nat (Z.of_nat n - Z.of_nat i)) with (n - i)%nat by lia.
  pose proof (Hs (n - i)%nat) as Hsi. rr. rewrite Hsi by lia.
  rewrite minus_INR by lia. f_equal. f_equal. ring.
Qed.
Print Assumptions C21_derivative_exact.

(** The degrees are sharp: each table entry fails on the next power of t. *)
Theorem C21_derivative_degree_sharp (d o : Z) (deg : nat) ops (f : fir RA) :
  exact_degree d o = Some deg -> derivative_used d o ops f ->
  exists c x f' y n, length c = S (S deg) /\ samples_of (peval c) 0 x /\
    fir_filter f x = (f', Ok y) /\ (Z.to_nat o <= n < length x)%nat /\
    ~ is_derive_n (peval c) (Z.to_nat d) (INR n - IZR o / 2) (nth n y 0).
Proof.
  intros Hd Hu.
  destruct (derivative_used_fir _ _ _ _ _ Hd Hu) as (ns & den & EB & Hl & Hf & Eb & Ed).
  set (c := repeat 0 (S deg) ++ [1]). set (N := Z.to_nat o).
  set (x := map (fun k => peval c (INR k)) (seq 0 (S N))).
  assert (Hxn : x <> []) by discriminate.
  assert (Hlx : length x = S N) by (unfold x; rewrite map_length, seq_length; reflexivity).
  destruct (C01_fir_convolution RA RA_laws _ _ _ f x (Forall_RA_float _ : arr_ok (mkArr DFloat _)) Hf Hxn) as (f' & y & E & Hly & Hy & _).
  { rewrite Ed. apply Forall_RA_float. }
  exists c, x, f', y, N. split; [unfold c; rewrite app_length, repeat_length; cbn; lia|].
  assert (Hs : samples_of (peval c) 0 x).
  { intros k Hk. rewrite Hlx in Hk. unfold x. rewrite nth_map_seq by exact Hk. f_equal. ring. }
  split; [exact Hs|]. split; [exact E|]. split; [lia|].
  intros C.
  assert (Hu1 : nth N y 0 = peval (Nat.iter (Z.to_nat d) pderiv c) (INR N - IZR o / 2)).
  { pose proof (is_derive_n_unique _ _ _ _ C) as U. rewrite <- U. apply Derive_n_peval. }
  change 0 with (@zero RA) in Hu1 at 1. rewrite (Hy N) in Hu1 by (change (@length (carrier RA) x) with (length x); lia).
  rewrite Eb in Hu1. unfold convolution in Hu1.
  assert (Hu2 : @bigsum RA (S N) (fun i => nth i (rrow ns den) 0 * peval c (INR (N - i))) =
                peval (Nat.iter (Z.to_nat d) pderiv c) (INR N - IZR o / 2)).
  { rewrite <- Hu1. unfold rrow at 2. rewrite map_length, Hl. apply (@bigsum_ext RA). intros i Hi.
    unfold sig. destruct (Z.ltb_spec (Z.of_nat N - Z.of_nat i) 0%Z); [lia|].
    replace (Z.to_nat (Z.of_nat N - Z.of_nat i)) with (N - i)%nat by lia.
    rr. unfold x. rewrite nth_map_seq by lia. reflexivity. }
  clear -Hd EB Hl Hu2. subst c N.
  pose proof (exact_degree_list _ _ _ Hd) as Hin. remember (d, o, deg) as p eqn:E. symmetry in E. cbn [In] in Hin.
  repeat match type of Hin with _ \/ _ => destruct Hin as [<-|Hin] end; [..|contradiction];
  injection E as -> -> ->; cbn [derivative_B] in EB; rewrite table_row_R in EB; injection EB as EB; rewrite <- EB in Hu2;
  unfold rrow in Hu2; to_nat;
  cbn [Nat.add Nat.sub bigsum nth map Nat.iter nat_rect pderiv padd peval INR add zero mul RA repeat app] in Hu2;
  field_simplify in Hu2; lra.
Qed.
Print Assumptions C21_derivative_degree_sharp.

Example C21_example : exists f, @derivative_make QA 1 4 = Ok f /\
  rqs (snd (fir_filter f [q 0 1; q 1 1; q 16 1; q 81 1; q 256 1; q 625 1])) =
  Ok [0 # 1; -1 # 12; -2 # 3; 47 # 12; 32 # 1; 108 # 1]%Q.
Proof. eexists. split; [reflexivity|]. vm_compute. reflexivity. Qed.

Lemma rrow_sum d o deg ns den : exact_degree d o = Some deg ->
  @derivative_B RA d o = Some (Some (rrow ns den)) -> length ns = S (Z.to_nat o) ->
  @bigsum RA (S (Z.to_nat o)) (fun i => nth i (rrow ns den) 0) = 0.
Proof.
  intros Hd EB Hl. destruct (exact_degree_cases _ _ _ Hd) as (ns' & den' & EB' & _ & Hr & Hex).
  rewrite EB in EB'. injection EB' as EB'.
  pose proof (Hex [1] 0) as H. cbn [length] in H. rewrite <- EB' in H.
  replace (peval (Nat.iter (Z.to_nat d) pderiv [1]) (0 - IZR o / 2)) with 0 in H.
  - etransitivity; [|apply H; lia]. apply (@bigsum_ext RA). intros i _. cbn [peval]. rr. ring.
  - destruct (Z.to_nat d) as [|k] eqn:E; [lia|]. replace (Nat.iter (S k) pderiv [1]) with (Nat.iter k pderiv [0]).
    + clear. assert (Hz : forall k l, (forall t, peval l t = 0) -> forall t, peval (Nat.iter k pderiv l) t = 0).
      { intros j. induction j as [|j IH]; intros l Hl t; [apply Hl|]. cbn [Nat.iter nat_rect].
        pose proof (is_derive_peval (Nat.iter j pderiv l) t) as D.
        apply is_derive_unique in D. change (peval (pderiv (Nat.iter j pderiv l)) t = 0). rewrite <- D.
        rewrite (Derive_ext _ (fun _ => 0)); [apply Derive_const|]. intros u. apply IH. exact Hl. }
      rewrite Hz; [reflexivity|]. intros t. cbn. ring.
    + clear. induction k as [|k IH]; [reflexivity|]. exact (f_equal pderiv IH).
Qed.

(** C22.  Every table entry ignores a level established by reset. *)
Theorem C22_derivative_ignores_level (d o : Z) (deg : nat) ops (f : fir RA) (c : R) (u : list R) :
  exact_degree d o = Some deg -> derivative_used d o ops f -> u <> [] ->
  exists f1 f0 y, fir_reset f (Some c) = (f1, Ok tt) /\ fir_reset f (Some 0) = (f0, Ok tt) /\
    snd (fir_filter f1 (map (Rplus c) u)) = Ok y /\ snd (fir_filter f0 u) = Ok y.
Proof.
  intros Hd Hu Hx.
  destruct (derivative_used_fir _ _ _ _ _ Hd Hu) as (ns & den & EB & Hl & Hf & Eb & Ed).
  pose proof (rrow_sum _ _ _ _ _ Hd EB Hl) as Hsum.
  assert (Hu1 : forall v, fir_used (mkArr DFloat (rrow ns den) : arr RA) (mkArr DFloat [])
     (ops ++ [OReset (Some v)]) (with_s f (map (fun _ => @cast RA (fdt f) v) (fs f)))).
  { intros v. destruct Hf as (f0 & E & ->). exists f0. split; [exact E|]. rewrite fold_left_app. reflexivity. }
  assert (Hi := fir_used_inv _ _ _ _ Hf). destruct Hi as [_ Hls].
  destruct (C01_fir_convolution RA RA_laws _ _ _ _ (map (Rplus c) u)
    (Forall_RA_float _ : arr_ok (mkArr DFloat _)) (Hu1 c)) as (g1 & y1 & E1 & L1 & Y1 & _).
  { destruct u; [congruence|discriminate]. }
  { cbn [with_s fdt]. rewrite Ed. apply Forall_RA_float. }
  destruct (C01_fir_convolution RA RA_laws _ _ _ _ u
    (Forall_RA_float _ : arr_ok (mkArr DFloat _)) (Hu1 0) Hx) as (g0 & y0 & E0 & L0 & Y0 & _).
  { cbn [with_s fdt]. rewrite Ed. apply Forall_RA_float. }
  eexists _, _, y0. split; [reflexivity|]. split; [reflexivity|]. rewrite E1, E0. cbn [snd].
  split; [|reflexivity]. f_equal. apply (@nth_ext (carrier RA) _ _ (@zero RA) (@zero RA)).
  - rewrite L1, L0. apply map_length.
  - intros n Hn. rewrite L1 in Hn. rewrite Y1 by exact Hn.
    rewrite map_length in Hn. rewrite Y0 by exact Hn. cbn [with_s fb fs fdt].
    unfold convolution. rewrite Eb. rewrite Ed. 
    assert (Hlen : @length (carrier RA) (rrow ns den) = S (Z.to_nat o)) by (etransitivity; [apply map_length|exact Hl]).
    rewrite Hlen.
    assert (Hshift : forall k, (- Z.of_nat (S (Z.to_nat o)) <= k < Z.of_nat (length u))%Z ->
      @sig RA (map (fun _ => c) (fs f)) (map (Rplus c) u) k = c + @sig RA (map (fun _ => 0) (fs f)) u k).
    { intros k Hk. unfold sig. destruct (Z.ltb_spec k 0%Z).
      - assert (Hb : (Z.to_nat (- k - 1) < length (fs f))%nat) by (rewrite Hls, Eb, Hlen; lia).
        rewrite !(nth_map_lt _ _ _ 0) by exact Hb. rr; ring.
      - rewrite (nth_map_lt (Rplus c) u _ 0) by lia. reflexivity. }
    transitivity (@bigsum RA (S (Z.to_nat o)) (fun i => c * nth i (rrow ns den) 0 +
       nth i (rrow ns den) 0 * @sig RA (map (fun _ => 0) (fs f)) u (Z.of_nat n - Z.of_nat i))).
    + apply (@bigsum_ext RA). intros i Hi. rewrite Hshift by lia. rr. ring.
    + rewrite (bigsum_add RA RA_laws _ (fun i => c * nth i (rrow ns den) 0)).
      rewrite (bigsum_scal RA RA_laws _ c (fun i => nth i (rrow ns den) 0)).
      rewrite Hsum. change (@zero RA) with 0. rr. rewrite Rmult_0_r, Rplus_0_l. reflexivity.
Qed.
Print Assumptions C22_derivative_ignores_level.

(** A constant gives exactly zero from the first sample. *)
Theorem C22_derivative_constant_zero (d o : Z) (deg : nat) ops (f : fir RA) (c : R) (len : nat) :
  exact_degree d o = Some deg -> derivative_used d o ops f -> len <> 0%nat ->
  exists f1 y, fir_reset f (Some c) = (f1, Ok tt) /\
    snd (fir_filter f1 (repeat c len)) = Ok y /\ y = repeat 0 len.
Proof.
  intros Hd Hu Hn.
  destruct (derivative_used_fir _ _ _ _ _ Hd Hu) as (ns & den & EB & Hl & Hf & Eb & Ed).
  pose proof (rrow_sum _ _ _ _ _ Hd EB Hl) as Hsum.
  destruct (C04_fir_reset_steady RA RA_laws _ _ _ f c len (Forall_RA_float _ : arr_ok (mkArr DFloat _)) Hf)
    as (f1 & y & E & Ey & Hly & Hy).
  { rewrite Ed. reflexivity. } { exact Hn. }
  exists f1, y. split; [exact E|]. split; [exact Ey|]. apply (@nth_ext (carrier RA) _ _ (@zero RA) (@zero RA)).
  - rewrite repeat_length. exact Hly.
  - intros n Hk. rewrite Hly in Hk. rewrite nth_repeat_lt by exact Hk.
    rewrite Hy by exact Hk. rewrite Eb.
    replace (@length (carrier RA) (rrow ns den)) with (S (Z.to_nat o)) by (symmetry; etransitivity; [apply map_length|exact Hl]).
    etransitivity; [apply (f_equal (fun v => c * v)); exact Hsum|]. rr. ring.
Qed.
Print Assumptions C22_derivative_constant_zero.

(** Exactly the pairs of the table are accepted, in any arithmetic. *)
Theorem C22_derivative_pairs (A : Arith) (d o : Z) :
  (exact_degree d o = None -> @derivative_make A d o = Err ValueError) /\
  (exact_degree d o <> None -> exists f, @derivative_make A d o = Ok f /\ length (fb f) = S (Z.to_nat o)).
Proof.
  split.
  - intros H. unfold derivative_make, derivative_B, exact_degree in *.
    repeat match type of H with context [match ?p with _ => _ end] => destruct p; try discriminate end; reflexivity.
  - intros H. destruct (exact_degree d o) as [deg|] eqn:E; [|congruence].
    pose proof (exact_degree_list _ _ _ E) as Hin. remember (d, o, deg) as p eqn:Ep. symmetry in Ep. cbn [In] in Hin.
    repeat match type of Hin with _ \/ _ => destruct Hin as [<-|Hin] end; [..|contradiction];
      injection Ep as -> -> ->; eexists; (split; reflexivity).
Qed.
Print Assumptions C22_derivative_pairs.

Example C22_example : exists f, @derivative_make QA 2 2 = Ok f /\
  let g v := fst (fir_reset f (Some v)) in
  rqs (snd (fir_filter (g (q 5 1)) [q 5 1; q 6 1; q 9 1])) = Ok [0 # 1; 1 # 1; 2 # 1]%Q /\
  rqs (snd (fir_filter (g (q 0 1)) [q 0 1; q 1 1; q 4 1])) = Ok [0 # 1; 1 # 1; 2 # 1]%Q.
Proof. eexists. split; [reflexivity|]. split; vm_compute; reflexivity. Qed.
