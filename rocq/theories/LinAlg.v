(** Real matrices as functions of two indices: positive definite matrices are invertible. *)
From Coq Require Import List Arith ZArith Reals Lra Lia.
From Verif Require Import Base BaseLemmas Instances Sums.
Set Asymmetric Patterns.
Open Scope R_scope.

Definition delta (i j : nat) : R := if (i =? j)%nat then 1 else 0.
Definition mulv (n : nat) (M : nat -> nat -> R) (v : nat -> R) (i : nat) : R := rsum n (fun j => M i j * v j).
Definition inner (n : nat) (u v : nat -> R) : R := rsum n (fun i => u i * v i).
Definition quad (n : nat) (M : nat -> nat -> R) (v : nat -> R) : R := inner n v (mulv n M v).
Definition nonzero (n : nat) (v : nat -> R) : Prop := exists i, (i < n)%nat /\ v i <> 0.
Definition pos_def (n : nat) (M : nat -> nat -> R) : Prop := forall v, nonzero n v -> 0 < quad n M v.
(** P is an inverse of M on the right. *)
Definition right_inverse (n : nat) (M P : nat -> nat -> R) : Prop :=
  forall i j, (i < n)%nat -> (j < n)%nat -> rsum n (fun k => M i k * P k j) = delta i j.

(** Inverse by Schur complements. *)
Fixpoint schur_inv (n : nat) (M : nat -> nat -> R) : nat -> nat -> R :=
  match n with
  | O => fun _ _ => 0
  | S m =>
      let a := M 0%nat 0%nat in
      let Q := schur_inv m (fun i j => M (S i) (S j) - M (S i) 0%nat * M 0%nat (S j) / a) in
      let rQ := fun j => rsum m (fun k => M 0%nat (S k) * Q k j) in
      let Qc := fun i => rsum m (fun k => Q i k * M (S k) 0%nat) in
      fun i j => match i, j with
                 | O, O => / a + rsum m (fun k => rQ k * M (S k) 0%nat) / (a * a)
                 | O, S j => - rQ j / a
                 | S i, O => - Qc i / a
                 | S i, S j => Q i j
                 end
  end.

Lemma delta_S i j : delta (S i) (S j) = delta i j.
Proof. reflexivity. Qed.
Lemma rsum_delta n k f : (k < n)%nat -> rsum n (fun i => delta i k * f i) = f k.
Proof.
  intros H. rewrite (rsum_single n k) by (try exact H; intros i _ Ne; unfold delta; destruct (Nat.eqb_spec i k); try contradiction; ring).
  unfold delta. rewrite Nat.eqb_refl. ring.
Qed.

Lemma pos_def_diag n M : pos_def (S n) M -> 0 < M 0%nat 0%nat.
Proof.
  intros H. specialize (H (fun i => delta i 0)). replace (M 0%nat 0%nat) with (quad (S n) M (fun i => delta i 0)).
  - apply H. exists 0%nat. split; [lia|]. unfold delta. cbn. lra.
  - unfold quad, inner. rewrite rsum_delta by lia. unfold mulv.
    rewrite (rsum_ext _ _ (fun j => delta j 0 * M 0%nat j)) by (intros; ring). apply rsum_delta. lia.
Qed.
Lemma pos_def_schur n M : pos_def (S n) M ->
  pos_def n (fun i j => M (S i) (S j) - M (S i) 0%nat * M 0%nat (S j) / M 0%nat 0%nat).
Proof.
  intros H v [i0 [Hi0 Nz]]. pose proof (pos_def_diag n M H) as Ha. set (a := M 0%nat 0%nat) in *.
  set (rv := rsum n (fun j => M 0%nat (S j) * v j)).
  set (w := fun i => match i with O => - rv / a | S i => v i end).
  assert (Hw : 0 < quad (S n) M w) by (apply H; exists (S i0); split; [lia|exact Nz]).
  enough (E : quad (S n) M w = quad n (fun i j => M (S i) (S j) - M (S i) 0%nat * M 0%nat (S j) / a) v) by (rewrite <- E; exact Hw).
  unfold quad, inner. rewrite rsum_S_l. cbn [w]. unfold mulv. rewrite rsum_S_l. cbn [w]. fold a rv.
  replace (a * (- rv / a) + rv) with 0 by (field; lra). rewrite Rmult_0_r, Rplus_0_l.
  apply rsum_ext. intros i Hi. f_equal. rewrite rsum_S_l. cbn [w].
  rewrite (rsum_ext n (fun j => (M (S i) (S j) - M (S i) 0%nat * M 0%nat (S j) / a) * v j)
             (fun j => M (S i) (S j) * v j - M (S i) 0%nat / a * (M 0%nat (S j) * v j))) by (intros; field; lra).
  rewrite rsum_sub, rsum_scal. fold rv. field. lra.
Qed.
Theorem schur_inv_ok n : forall M, pos_def n M -> right_inverse n M (schur_inv n M).
Proof.
  induction n as [|n IH]; intros M H i j Hi Hj; [lia|]. pose proof (pos_def_diag n M H) as Ha.
  specialize (IH _ (pos_def_schur n M H)). set (P := schur_inv (S n) M). set (a := M 0%nat 0%nat) in *.
  set (Sc := fun i j => M (S i) (S j) - M (S i) 0%nat * M 0%nat (S j) / a) in *. set (Q := schur_inv n Sc) in *.
  set (rQ := fun j => rsum n (fun k => M 0%nat (S k) * Q k j)). set (Qc := fun i => rsum n (fun k => Q i k * M (S k) 0%nat)).
  assert (RQC : rsum n (fun k => M 0%nat (S k) * Qc k) = rsum n (fun k => rQ k * M (S k) 0%nat)).
  { unfold Qc, rQ. rewrite (rsum_ext n _ (fun k => rsum n (fun l => M 0%nat (S k) * Q k l * M (S l) 0%nat))) by (intros; rewrite <- rsum_scal; apply rsum_ext; intros; ring).
    rewrite rsum_swap. apply rsum_ext. intros l _. rewrite <- rsum_scal_r. reflexivity. }
  set (rqc := rsum n (fun k => rQ k * M (S k) 0%nat)) in *.
  assert (DQ : forall i j, (i < n)%nat -> (j < n)%nat -> rsum n (fun k => M (S i) (S k) * Q k j) = delta i j + M (S i) 0%nat * rQ j / a).
  { intros i' j' Hi' Hj'. rewrite <- (IH i' j' Hi' Hj'). unfold rQ, Sc.
    rewrite (rsum_ext n (fun k => (M (S i') (S k) - M (S i') 0%nat * M 0%nat (S k) / a) * Q k j')
               (fun k => M (S i') (S k) * Q k j' - M (S i') 0%nat / a * (M 0%nat (S k) * Q k j'))) by (intros; field; lra).
    rewrite rsum_sub, rsum_scal. field. lra. }
  assert (P00 : P 0%nat 0%nat = / a + rqc / (a * a)) by reflexivity. assert (P0S : forall j, P 0%nat (S j) = - rQ j / a) by reflexivity.
  assert (PS0 : forall i, P (S i) 0%nat = - Qc i / a) by reflexivity. assert (PSS : forall i j, P (S i) (S j) = Q i j) by reflexivity.
  clearbody P. rewrite rsum_S_l. destruct j as [|j].
  - rewrite (rsum_ext n _ (fun k => - / a * (M i (S k) * Qc k))) by (intros; rewrite PS0; field; lra). rewrite rsum_scal, P00.
    destruct i as [|i].
    + fold a. rewrite RQC. unfold delta. cbn [Nat.eqb]. field. lra.
    + assert (DQc : rsum n (fun k => M (S i) (S k) * Qc k) = M (S i) 0%nat + M (S i) 0%nat * rqc / a).
      { unfold Qc. rewrite (rsum_ext n _ (fun k => rsum n (fun l => M (S i) (S k) * Q k l * M (S l) 0%nat))) by (intros; rewrite <- rsum_scal; apply rsum_ext; intros; ring).
        rewrite rsum_swap. rewrite (rsum_ext n _ (fun l => delta l i * M (S l) 0%nat + M (S i) 0%nat / a * (rQ l * M (S l) 0%nat))).
        - rewrite rsum_add, rsum_scal, rsum_delta by lia. unfold rqc. field. lra.
        - intros l Hl. rewrite rsum_scal_r, DQ by lia. replace (delta i l) with (delta l i) by (unfold delta; rewrite Nat.eqb_sym; reflexivity). field. lra. }
      rewrite DQc. unfold delta. cbn [Nat.eqb]. field. lra.
  - rewrite (rsum_ext n _ (fun k => M i (S k) * Q k j)) by (intros; rewrite PSS; reflexivity). rewrite P0S. destruct i as [|i].
    + fold (rQ j). fold a. unfold delta. cbn [Nat.eqb]. field. lra.
    + rewrite DQ by lia. rewrite delta_S. field. lra.
Qed.

Lemma pos_def_kernel n M v : pos_def n M -> (forall i, (i < n)%nat -> mulv n M v i = 0) -> forall i, (i < n)%nat -> v i = 0.
Proof.
  intros H K i Hi. destruct (Req_dec (v i) 0) as [E|E]; [exact E|]. exfalso.
  assert (P : 0 < quad n M v) by (apply H; exists i; auto).
  unfold quad, inner in P. rewrite rsum_zero in P by (intros j Hj; rewrite K by exact Hj; ring). lra.
Qed.
(** The right inverse is unique and is also a left inverse. *)
Theorem pos_def_left n M P : pos_def n M -> right_inverse n M P ->
  forall i j, (i < n)%nat -> (j < n)%nat -> rsum n (fun k => P i k * M k j) = delta i j.
Proof.
  intros H R i j Hi Hj.
  assert (K : forall i, (i < n)%nat -> rsum n (fun k => P i k * M k j) - delta i j = 0).
  { apply (pos_def_kernel n M (fun i => rsum n (fun k => P i k * M k j) - delta i j) H). intros l Hl. unfold mulv.
    rewrite (rsum_ext n _ (fun m => M l m * rsum n (fun k => P m k * M k j) - delta m j * M l m)) by (intros; ring).
    rewrite rsum_sub, rsum_delta by exact Hj.
    rewrite (rsum_ext n _ (fun m => rsum n (fun k => M l m * P m k * M k j))) by (intros; rewrite <- rsum_scal; apply rsum_ext; intros; ring).
    rewrite rsum_swap. rewrite (rsum_ext n _ (fun k => delta k l * M k j)).
    - rewrite rsum_delta by exact Hl. ring.
    - intros k Hk. rewrite rsum_scal_r, R by assumption. f_equal. unfold delta. rewrite Nat.eqb_sym. reflexivity. }
  specialize (K i Hi). lra.
Qed.
Theorem pos_def_unique n M P P' : pos_def n M -> right_inverse n M P -> right_inverse n M P' ->
  forall i j, (i < n)%nat -> (j < n)%nat -> P i j = P' i j.
Proof.
  intros H R R' i j Hi Hj.
  assert (K : P i j - P' i j = 0); [|lra].
  apply (pos_def_kernel n M (fun i => P i j - P' i j) H); [|exact Hi]. intros l Hl. unfold mulv.
  rewrite (rsum_ext n _ (fun m => M l m * P m j - M l m * P' m j)) by (intros; ring).
  rewrite rsum_sub, R, R' by assumption. ring.
Qed.
(** d P d = w M w for w = P d. *)
Lemma quad_inverse n M P d : right_inverse n M P -> quad n P d = quad n M (mulv n P d) /\ forall i, (i < n)%nat -> mulv n M (mulv n P d) i = d i.
Proof.
  intros R. assert (E : forall i, (i < n)%nat -> mulv n M (mulv n P d) i = d i).
  { intros i Hi. unfold mulv. rewrite (rsum_ext n _ (fun k => rsum n (fun j => M i k * P k j * d j))) by (intros; rewrite <- rsum_scal; apply rsum_ext; intros; ring).
    rewrite rsum_swap. rewrite (rsum_ext n _ (fun j => delta j i * d j)); [apply rsum_delta, Hi|].
    intros j Hj. rewrite rsum_scal_r, R by assumption. f_equal. unfold delta. rewrite Nat.eqb_sym. reflexivity. }
  split; [|exact E]. unfold quad, inner. apply rsum_ext. intros i Hi. rewrite E by exact Hi. ring.
Qed.
(** The inverse of a positive definite matrix is positive definite. *)
Theorem inverse_pos_def n M P : pos_def n M -> right_inverse n M P -> pos_def n P.
Proof.
  intros H R d [i [Hi Nz]]. destruct (quad_inverse n M P d R) as [E K]. rewrite E. apply H.
  assert (D : nonzero n (mulv n P d) \/ forall j, (j < n)%nat -> mulv n P d j = 0).
  { generalize (mulv n P d). intros w. clear. induction n as [|n IH]; [right; intros; lia|].
    destruct (Req_dec (w n) 0) as [E|E]; [|left; exists n; split; [lia|exact E]].
    destruct IH as [[j [Hj Nj]]|IH]; [left; exists j; split; [lia|exact Nj]|]. right. intros j Hj.
    destruct (Nat.eq_dec j n) as [->|]; [exact E|apply IH; lia]. }
  destruct D as [D|D]; [exact D|]. exfalso. apply Nz. rewrite <- (K i Hi). unfold mulv at 1. apply rsum_zero. intros j Hj. rewrite D by exact Hj. ring.
Qed.
