(** Finite sums of reals. *)
From Coq Require Import List Arith ZArith Lia Bool Reals Lra.
From Verif Require Import Base BaseLemmas Instances.
Import ListNotations.
Open Scope R_scope.

(** f 0 + ... + f (n-1) *)
Fixpoint rsum (n : nat) (f : nat -> R) : R :=
  match n with 0%nat => 0 | S m => rsum m f + f m end.

Lemma bigsum_rsum n (f : nat -> R) : @bigsum RA n f = rsum n f.
Proof. induction n as [|n IH]; [reflexivity|]. cbn [bigsum rsum]. rewrite IH. reflexivity. Qed.
Lemma rsum_ext n f g : (forall i, (i < n)%nat -> f i = g i) -> rsum n f = rsum n g.
Proof. induction n as [|n IH]; intros H; [reflexivity|]. cbn. rewrite IH by (intros; apply H; lia). rewrite H by lia. reflexivity. Qed.
Lemma rsum_zero n f : (forall i, (i < n)%nat -> f i = 0) -> rsum n f = 0.
Proof. induction n as [|n IH]; intros H; [reflexivity|]. cbn. rewrite IH by (intros; apply H; lia). rewrite H by lia. ring. Qed.
Lemma rsum_add n f g : rsum n (fun i => f i + g i) = rsum n f + rsum n g.
Proof. induction n as [|n IH]; cbn; [ring|]. rewrite IH. ring. Qed.
Lemma rsum_sub n f g : rsum n (fun i => f i - g i) = rsum n f - rsum n g.
Proof. induction n as [|n IH]; cbn; [ring|]. rewrite IH. ring. Qed.
Lemma rsum_scal n c f : rsum n (fun i => c * f i) = c * rsum n f.
Proof. induction n as [|n IH]; cbn; [ring|]. rewrite IH. ring. Qed.
Lemma rsum_scal_r n c f : rsum n (fun i => f i * c) = rsum n f * c.
Proof. induction n as [|n IH]; cbn; [ring|]. rewrite IH. ring. Qed.
Lemma rsum_opp n f : rsum n (fun i => - f i) = - rsum n f.
Proof. induction n as [|n IH]; cbn; [ring|]. rewrite IH. ring. Qed.
Lemma rsum_swap n m (f : nat -> nat -> R) : rsum n (fun i => rsum m (f i)) = rsum m (fun j => rsum n (fun i => f i j)).
Proof.
  induction n as [|n IH]; cbn; [symmetry; apply rsum_zero; reflexivity|]. rewrite IH, <- rsum_add. apply rsum_ext. reflexivity.
Qed.
Lemma rsum_single n k f : (k < n)%nat -> (forall i, (i < n)%nat -> i <> k -> f i = 0) -> rsum n f = f k.
Proof.
  induction n as [|n IH]; intros Hk H; [lia|]. cbn. destruct (Nat.eq_dec k n) as [->|C].
  - rewrite rsum_zero; [ring|]. intros i Hi. apply H; lia.
  - rewrite IH; [|lia|intros; apply H; lia]. rewrite (H n) by lia. ring.
Qed.
Lemma rsum_S_l n f : rsum (S n) f = f 0%nat + rsum n (fun i => f (S i)).
Proof. induction n as [|n IH]; [cbn; ring|]. change (rsum (S (S n)) f) with (rsum (S n) f + f (S n)). rewrite IH. cbn [rsum]. ring. Qed.
Lemma rsum_app n m f : rsum (n + m) f = rsum n f + rsum m (fun i => f (n + i)%nat).
Proof.
  induction m as [|m IH]; [rewrite Nat.add_0_r; cbn; ring|]. rewrite Nat.add_succ_r. cbn [rsum]. rewrite IH. ring.
Qed.
Lemma rsum_rev n f : rsum n f = rsum n (fun i => f (n - 1 - i)%nat).
Proof.
  induction n as [|n IH]; [reflexivity|]. rewrite (rsum_S_l n (fun i => f (S n - 1 - i)%nat)). cbn [rsum]. rewrite IH.
  replace (S n - 1 - 0)%nat with n by lia. rewrite Rplus_comm. f_equal. apply rsum_ext. intros i Hi. f_equal. lia.
Qed.
Lemma rsum_pair h f : rsum (2 * h) f = rsum h (fun j => f (2 * j)%nat + f (2 * j + 1)%nat).
Proof.
  induction h as [|h IH]; [reflexivity|]. replace (2 * S h)%nat with (S (S (2 * h))) by lia. cbn [rsum]. rewrite IH.
  replace (2 * h + 1)%nat with (S (2 * h)) by lia. ring.
Qed.
Lemma rsum_le n f g : (forall i, (i < n)%nat -> f i <= g i) -> rsum n f <= rsum n g.
Proof. induction n as [|n IH]; intros H; [cbn; lra|]. cbn. pose proof (IH ltac:(intros; apply H; lia)). pose proof (H n ltac:(lia)). lra. Qed.
Lemma rsum_nonneg n f : (forall i, (i < n)%nat -> 0 <= f i) -> 0 <= rsum n f.
Proof. intros H. rewrite <- (rsum_zero n (fun _ => 0)) by reflexivity. apply rsum_le, H. Qed.
Lemma rsum_abs n f : Rabs (rsum n f) <= rsum n (fun i => Rabs (f i)).
Proof. induction n as [|n IH]; [cbn; rewrite Rabs_R0; lra|]. cbn. eapply Rle_trans; [apply Rabs_triang|]. lra. Qed.
Lemma rsum_const n c : rsum n (fun _ => c) = INR n * c.
Proof. induction n as [|n IH]; [cbn; ring|]. cbn [rsum]. rewrite IH, S_INR. ring. Qed.
Lemma rsum_nonneg_zero n f : (forall i, (i < n)%nat -> 0 <= f i) -> rsum n f = 0 -> forall i, (i < n)%nat -> f i = 0.
Proof.
  induction n as [|n IH]; intros H E i Hi; [lia|]. cbn in E.
  pose proof (rsum_nonneg n f ltac:(intros; apply H; lia)). pose proof (H n ltac:(lia)).
  destruct (Nat.eq_dec i n) as [->|C]; [lra|]. apply IH; [intros; apply H; lia|lra|lia].
Qed.
Lemma rsum_list (l : list R) : fold_right Rplus 0 l = rsum (length l) (fun i => nth i l 0).
Proof. induction l as [|x l IH]; [reflexivity|]. cbn [fold_right length]. rewrite rsum_S_l. cbn [nth]. rewrite IH. reflexivity. Qed.

(** A list as a function on all integers, zero outside. *)
Definition ex (l : list R) (z : Z) : R := if (z <? 0)%Z then 0 else nth (Z.to_nat z) l 0.
Lemma ex_neg l z : (z < 0)%Z -> ex l z = 0.
Proof. intros H. unfold ex. destruct (Z.ltb_spec z 0); [reflexivity|lia]. Qed.
Lemma ex_big l z : (Z.of_nat (length l) <= z)%Z -> ex l z = 0.
Proof. intros H. unfold ex. destruct (Z.ltb_spec z 0); [reflexivity|]. apply nth_overflow. lia. Qed.
Lemma ex_nat l n : ex l (Z.of_nat n) = nth n l 0.
Proof. unfold ex. destruct (Z.ltb_spec (Z.of_nat n) 0); [lia|]. rewrite Nat2Z.id. reflexivity. Qed.

(** Convolution is symmetric. *)
Lemma conv_swap (b x : list R) (t : Z) :
  rsum (length b) (fun k => nth k b 0 * ex x (t - Z.of_nat k)) = rsum (length x) (fun i => ex b (t - Z.of_nat i) * nth i x 0).
Proof.
  transitivity (rsum (length b) (fun k => rsum (length x) (fun i => if Z.eqb (Z.of_nat k + Z.of_nat i) t then nth k b 0 * nth i x 0 else 0))).
  - apply rsum_ext. intros k Hk. destruct (Z_le_dec 0 (t - Z.of_nat k)) as [C|C].
    + destruct (Z_lt_dec (t - Z.of_nat k) (Z.of_nat (length x))) as [D|D].
      * rewrite (rsum_single _ (Z.to_nat (t - Z.of_nat k))); [|lia|].
        { destruct (Z.eqb_spec (Z.of_nat k + Z.of_nat (Z.to_nat (t - Z.of_nat k))) t); [|lia].
          unfold ex. destruct (Z.ltb_spec (t - Z.of_nat k) 0); [lia|reflexivity]. }
        { intros i Hi Hne. destruct (Z.eqb_spec (Z.of_nat k + Z.of_nat i) t); [lia|reflexivity]. }
      * rewrite ex_big by lia. rewrite rsum_zero; [ring|]. intros i Hi. destruct (Z.eqb_spec (Z.of_nat k + Z.of_nat i) t); [lia|reflexivity].
    + rewrite ex_neg by lia. rewrite rsum_zero; [ring|]. intros i Hi. destruct (Z.eqb_spec (Z.of_nat k + Z.of_nat i) t); [lia|reflexivity].
  - rewrite rsum_swap. apply rsum_ext. intros i Hi. destruct (Z_le_dec 0 (t - Z.of_nat i)) as [C|C].
    + destruct (Z_lt_dec (t - Z.of_nat i) (Z.of_nat (length b))) as [D|D].
      * rewrite (rsum_single _ (Z.to_nat (t - Z.of_nat i))); [|lia|].
        { destruct (Z.eqb_spec (Z.of_nat (Z.to_nat (t - Z.of_nat i)) + Z.of_nat i) t); [|lia].
          unfold ex. destruct (Z.ltb_spec (t - Z.of_nat i) 0); [lia|reflexivity]. }
        { intros k Hk Hne. destruct (Z.eqb_spec (Z.of_nat k + Z.of_nat i) t); [lia|reflexivity]. }
      * rewrite (ex_big b) by lia. rewrite rsum_zero; [ring|]. intros k Hk. destruct (Z.eqb_spec (Z.of_nat k + Z.of_nat i) t); [lia|reflexivity].
    + rewrite (ex_neg b) by lia. rewrite rsum_zero; [ring|]. intros k Hk. destruct (Z.eqb_spec (Z.of_nat k + Z.of_nat i) t); [lia|reflexivity].
Qed.

(** A sum over every second integer from [a] on is the sum over one parity class, when all
    the terms left out vanish. *)
Lemma reindex (F : Z -> R) (a s : Z) (h N : nat) :
  (s = 1 \/ s = -1)%Z ->
  (forall p, F p <> 0 -> (0 <= p < Z.of_nat N)%Z /\ (Z.odd p = Z.odd a -> (0 <= s * (p - a) < 2 * Z.of_nat h)%Z)) ->
  rsum h (fun j => F (a + s * (2 * Z.of_nat j))%Z) =
  rsum N (fun p => if Bool.eqb (Z.odd (Z.of_nat p)) (Z.odd a) then F (Z.of_nat p) else 0).
Proof.
  intros Hs HF.
  assert (Hdec : forall p, F p = 0 \/ F p <> 0) by (intros p; destruct (Req_dec (F p) 0); auto).
  transitivity (rsum h (fun j => rsum N (fun p => if Z.eqb (Z.of_nat p) (a + s * (2 * Z.of_nat j)) then F (Z.of_nat p) else 0))).
  - apply rsum_ext. intros j Hj. set (t := (a + s * (2 * Z.of_nat j))%Z). destruct (Hdec t) as [E|E].
    + rewrite E. symmetry. apply rsum_zero. intros p Hp. destruct (Z.eqb_spec (Z.of_nat p) t) as [D|D]; [rewrite D; exact E|reflexivity].
    + destruct (HF t E) as [H1 _]. rewrite (rsum_single _ (Z.to_nat t)); [|lia|].
      * destruct (Z.eqb_spec (Z.of_nat (Z.to_nat t)) t); [f_equal; lia|lia].
      * intros i Hi Hne. destruct (Z.eqb_spec (Z.of_nat i) t); [lia|reflexivity].
  - rewrite rsum_swap. apply rsum_ext. intros p Hp.
    assert (Hodd : forall j, Z.odd (a + s * (2 * j)) = Z.odd a).
    { intros j. rewrite Z.odd_add, Z.odd_mul. replace (Z.odd (2 * j)) with false by (rewrite Z.odd_mul; reflexivity).
      rewrite andb_false_r, xorb_false_r. reflexivity. }
    destruct (Bool.eqb (Z.odd (Z.of_nat p)) (Z.odd a)) eqn:E.
    + apply Bool.eqb_prop in E. destruct (Hdec (Z.of_nat p)) as [D|D].
      * rewrite D. apply rsum_zero. intros j _. destruct (Z.eqb _ _); [reflexivity|reflexivity].
      * destruct (HF _ D) as [_ H2]. specialize (H2 E).
        assert (Hev : exists j, (Z.of_nat p - a = 2 * j)%Z).
        { assert (Z.odd (Z.of_nat p - a) = false) by (rewrite Z.odd_sub, E; apply xorb_nilpotent).
          exists ((Z.of_nat p - a) / 2)%Z. rewrite Zodd_mod in H. apply Zeq_bool_neq in H. pose proof (Z.div_mod (Z.of_nat p - a) 2). pose proof (Z.mod_pos_bound (Z.of_nat p - a) 2). lia. }
        destruct Hev as [j0 Hj0]. rewrite (rsum_single _ (Z.to_nat (s * j0))); [| |].
        { destruct (Z.eqb_spec (Z.of_nat p) (a + s * (2 * Z.of_nat (Z.to_nat (s * j0))))) as [D2|D2]; [reflexivity|].
          exfalso. apply D2. destruct Hs; subst s; lia. }
        { destruct Hs; subst s; lia. }
        { intros j Hj Hne. destruct (Z.eqb_spec (Z.of_nat p) (a + s * (2 * Z.of_nat j))) as [D2|D2]; [|reflexivity].
          exfalso. apply Hne. destruct Hs; subst s; lia. }
    + apply rsum_zero. intros j _. destruct (Z.eqb_spec (Z.of_nat p) (a + s * (2 * Z.of_nat j))) as [D|D]; [|reflexivity].
      rewrite D, Hodd, Bool.eqb_reflx in E. discriminate.
Qed.
