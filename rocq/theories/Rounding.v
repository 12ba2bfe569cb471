(** numpy.round (round half to even) on exact real numbers. *)
From Coq Require Import ZArith Bool Reals Lra Lia.
From Verif Require Import Instances.
Open Scope R_scope.

Definition rheR (x : R) : Z :=
  let n := Int_part x in
  if Rltb (x - IZR n) (1 / 2) then n
  else if Rltb (1 / 2) (x - IZR n) then (n + 1)%Z
  else if Z.even n then n else (n + 1)%Z.

Lemma Int_part_bounds x : IZR (Int_part x) <= x < IZR (Int_part x) + 1.
Proof. destruct (base_Int_part x). lra. Qed.

Lemma Int_part_unique x z : IZR z <= x < IZR z + 1 -> Int_part x = z.
Proof.
  intros H. pose proof (Int_part_bounds x) as B.
  assert (H1 : IZR z < IZR (Int_part x + 1)) by (rewrite plus_IZR; lra).
  assert (H2 : IZR (Int_part x) < IZR (z + 1)) by (rewrite plus_IZR; lra).
  apply lt_IZR in H1, H2. lia.
Qed.

(** The nearest integer, and the even one of two equally near. *)
Lemma rheR_spec x : Rabs (IZR (rheR x) - x) <= 1 / 2 /\
  (Rabs (IZR (rheR x) - x) = 1 / 2 -> Z.even (rheR x) = true).
Proof.
  unfold rheR. pose proof (Int_part_bounds x) as B. set (n := Int_part x) in *.
  destruct (Rltb (x - IZR n) (1 / 2)) eqn:E1.
  - apply Rltb_iff in E1. rewrite Rabs_left1 by lra. split; intros; lra.
  - assert (H1 : ~ x - IZR n < 1 / 2) by (intros C; apply Rltb_iff in C; congruence).
    destruct (Rltb (1 / 2) (x - IZR n)) eqn:E2.
    + apply Rltb_iff in E2. rewrite plus_IZR. rewrite Rabs_pos_eq by lra. split; intros; lra.
    + assert (H2 : ~ 1 / 2 < x - IZR n) by (intros C; apply Rltb_iff in C; congruence).
      destruct (Z.even n) eqn:E3.
      * split; [rewrite Rabs_left1 by lra; lra|]. intros _. exact E3.
      * rewrite plus_IZR. split; [rewrite Rabs_pos_eq by lra; lra|]. intros _.
        rewrite Z.even_add, E3. reflexivity.
Qed.

Lemma rheR_unique x z : Rabs (IZR z - x) <= 1 / 2 -> (Rabs (IZR z - x) = 1 / 2 -> Z.even z = true) -> rheR x = z.
Proof.
  intros H1 H2. destruct (rheR_spec x) as [H3 H4]. set (w := rheR x) in *.
  destruct (Z.eq_dec w z) as [E|E]; [exact E|exfalso].
  assert (Hd : Rabs (IZR w - IZR z) <= 1).
  { replace (IZR w - IZR z) with ((IZR w - x) - (IZR z - x)) by ring.
    eapply Rle_trans; [apply Rabs_triang|]. rewrite Rabs_Ropp. lra. }
  rewrite <- minus_IZR in Hd. rewrite <- abs_IZR in Hd. apply le_IZR in Hd.
  assert (Ha : (Z.abs (w - z) = 1)%Z) by lia.
  assert (Hs : Rabs (IZR w - x) = 1 / 2 /\ Rabs (IZR z - x) = 1 / 2).
  { assert (Hx : Rabs (IZR w - IZR z) = 1) by (rewrite <- minus_IZR, <- abs_IZR, Ha; reflexivity).
    assert (1 <= Rabs (IZR w - x) + Rabs (IZR z - x)).
    { rewrite <- Hx. replace (IZR w - IZR z) with ((IZR w - x) + - (IZR z - x)) by ring.
      eapply Rle_trans; [apply Rabs_triang|]. rewrite Rabs_Ropp. lra. }
    lra. }
  destruct Hs as [Hs1 Hs2]. specialize (H2 Hs2). specialize (H4 Hs1).
  assert (E2 : w = (z + 1)%Z \/ w = (z - 1)%Z) by lia.
  destruct E2 as [E2|E2]; rewrite E2 in H4.
  - rewrite Z.even_add, H2 in H4. discriminate.
  - rewrite Z.even_sub, H2 in H4. discriminate.
Qed.

Lemma rheR_IZR z : rheR (IZR z) = z.
Proof. apply rheR_unique; replace (IZR z - IZR z) with 0 by ring; rewrite Rabs_R0; [lra|intros; lra]. Qed.

Lemma rheR_le x z : x <= IZR z + 1 / 2 -> Z.even z = true \/ x < IZR z + 1 / 2 -> (rheR x <= z)%Z.
Proof.
  intros H1 H2. destruct (rheR_spec x) as [H3 H4]. destruct (Z_le_gt_dec (rheR x) z) as [H|H]; [exact H|exfalso].
  assert (Hz : IZR (z + 1) <= IZR (rheR x)) by (apply IZR_le; lia). rewrite plus_IZR in Hz.
  assert (Hx : IZR (rheR x) - x <= 1 / 2) by (eapply Rle_trans; [apply Rle_abs|exact H3]).
  destruct H2 as [H2|H2]; [|lra].
  assert (Ex : x = IZR z + 1 / 2) by lra.
  assert (Er : rheR x = (z + 1)%Z).
  { apply Z.le_antisymm; [|lia]. apply le_IZR. rewrite plus_IZR. lra. }
  rewrite Er in H4. rewrite Z.even_add, H2 in H4. cbn in H4.
  assert (false = true); [|discriminate]. apply H4. rewrite plus_IZR, Ex. replace (IZR z + 1 - (IZR z + 1 / 2)) with (1 / 2) by lra.
  apply Rabs_pos_eq. lra.
Qed.

Lemma rheR_nonneg x : 0 <= x -> (0 <= rheR x)%Z.
Proof.
  intros H. destruct (rheR_spec x) as [H3 _]. assert (- (1 / 2) <= IZR (rheR x) - x).
  { rewrite <- Rabs_Ropp in H3. pose proof (Rle_abs (- (IZR (rheR x) - x))). lra. }
  assert (IZR (-1) < IZR (rheR x)) by (cbn; lra). apply lt_IZR in H1. lia.
Qed.

(** Everything strictly below the rounded value is strictly below the value. *)
Lemma below_rheR x j : (j < rheR x)%Z -> IZR j < x.
Proof.
  intros H. destruct (rheR_spec x) as [H3 _]. assert (IZR (j + 1) <= IZR (rheR x)) by (apply IZR_le; lia).
  rewrite plus_IZR in H0. pose proof (Rle_abs (IZR (rheR x) - x)). lra.
Qed.
