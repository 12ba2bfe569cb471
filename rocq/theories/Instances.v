(** Instances of the arithmetic interface: exact reals, exact complex numbers,
    exact rationals (executable), and IEEE binary64 (executable, no [Laws]). *)
From Coq Require Import Reals Lra QArith Qcanon ZArith List Bool Floats Psatz.
From Coquelicot Require Import Complex.
From Verif Require Import Base.
Set Asymmetric Patterns.

(** Left-to-right sums, used by every instance. *)
Section Sums.
  Context {T : Type} (z : T) (plus times : T -> T -> T).
  Fixpoint sum_from (acc : T) (xs : list T) : T :=
    match xs with [] => acc | x :: xs' => sum_from (plus acc x) xs' end.
  Fixpoint dot_from (acc : T) (xs ys : list T) : T :=
    match xs, ys with
    | x :: xs', y :: ys' => dot_from (plus acc (times x y)) xs' ys'
    | _, _ => acc
    end.
End Sums.

(** ** Reals *)
Open Scope R_scope.

(** Truncation toward zero: numpy's float64 -> int64 conversion. *)
Definition Rtrunc (x : R) : R :=
  if Rle_dec 0 x then IZR (Int_part x) else - IZR (Int_part (- x)).

Definition Reqb (x y : R) : bool := if Req_EM_T x y then true else false.
Definition Rltb (x y : R) : bool := if Rlt_dec x y then true else false.
Definition Rleb (x y : R) : bool := if Rle_dec x y then true else false.

Canonical Structure RA : Arith :=
  {| carrier := R; zero := 0; one := 1; add := Rplus; sub := Rminus; mul := Rmult;
     div := Rdiv; opp := Ropp; eqb := Reqb;
     dot := dot_from Rplus Rmult 0; sum := sum_from Rplus 0;
     cast := fun dt x => match dt with DInt => Rtrunc x | _ => x end |}.

Lemma Int_part_IZR z : Int_part (IZR z) = z.
Proof.
  unfold Int_part. rewrite <- (tech_up (IZR z) (z + 1)); [lia| |];
  rewrite plus_IZR; lra.
Qed.

Lemma Rtrunc_IZR z : Rtrunc (IZR z) = IZR z.
Proof.
  unfold Rtrunc. destruct (Rle_dec 0 (IZR z)).
  - rewrite Int_part_IZR. reflexivity.
  - rewrite <- (opp_IZR z), Int_part_IZR, <- opp_IZR. f_equal. lia.
Qed.

Lemma Rtrunc_is_IZR x : exists z, Rtrunc x = IZR z.
Proof.
  unfold Rtrunc. destruct (Rle_dec 0 x); [eexists; reflexivity|].
  eexists. rewrite <- opp_IZR. reflexivity.
Qed.

Lemma Rtrunc_fix x : Rtrunc x = x -> exists z, x = IZR z.
Proof. intros H. destruct (Rtrunc_is_IZR x) as [z Hz]. exists z. congruence. Qed.

Section GenSums.
  Variable A : Arith.
  Hypothesis Rth : @ring_theory A zero one add mul sub opp eq.
  Add Ring Ar : Rth.
  Lemma bigsum_cons_gen n (f : nat -> A) :
    bigsum (S n) f = add (f O) (bigsum n (fun i => f (S i))).
  Proof.
    induction n as [|n IH]; [cbn; ring|].
    change (bigsum (S (S n)) f) with (add (bigsum (S n) f) (f (S n))).
    rewrite IH. cbn [bigsum]. ring.
  Qed.
  Lemma sum_from_bigsum (xs : list A) acc :
    sum_from add acc xs = add acc (bigsum (length xs) (fun i => nth i xs zero)).
  Proof.
    revert acc; induction xs as [|x xs IH]; intros acc.
    - cbn. ring.
    - cbn [sum_from length]. rewrite IH, bigsum_cons_gen. cbn [nth]. ring.
  Qed.
  Lemma dot_from_bigsum (xs ys : list A) acc :
    length xs = length ys ->
    dot_from add mul acc xs ys =
    add acc (bigsum (length xs) (fun i => mul (nth i xs zero) (nth i ys zero))).
  Proof.
    revert ys acc; induction xs as [|x xs IH]; intros [|y ys] acc H; cbn [length] in H; try discriminate.
    - cbn. ring.
    - cbn [dot_from length]. rewrite IH by congruence. rewrite bigsum_cons_gen. cbn [nth]. ring.
  Qed.
End GenSums.

Lemma RA_ring : @ring_theory RA zero one add mul sub opp eq.
Proof. exact RTheory. Qed.

Lemma Reqb_iff x y : Reqb x y = true <-> x = y.
Proof. unfold Reqb. destruct (Req_EM_T x y); split; congruence. Qed.
Lemma Rltb_iff x y : Rltb x y = true <-> x < y.
Proof. unfold Rltb. destruct (Rlt_dec x y); split; congruence. Qed.
Lemma Rleb_iff x y : Rleb x y = true <-> x <= y.
Proof. unfold Rleb. destruct (Rle_dec x y); split; congruence. Qed.

Lemma RA_laws : Laws RA.
Proof.
  split.
  - exact RA_ring.
  - cbn. intros x y H. field. exact H.
  - cbn. exact Reqb_iff.
  - intros xs ys H. pose proof (dot_from_bigsum RA RA_ring xs ys 0 H) as E.
    etransitivity; [exact E|]. cbn. ring.
  - intros xs. pose proof (sum_from_bigsum RA RA_ring xs 0) as E.
    etransitivity; [exact E|]. cbn. ring.
  - reflexivity.
  - intros [] x; unfold fits; cbn; try reflexivity.
    destruct (Rtrunc_is_IZR x) as [z ->]. apply Rtrunc_IZR.
  - intros []; unfold fits; cbn; try reflexivity. exact (Rtrunc_IZR 0).
  - intros [] x y; unfold fits; cbn; try reflexivity.
    intros Hx Hy. apply Rtrunc_fix in Hx, Hy. destruct Hx as [a ->], Hy as [b ->].
    rewrite <- plus_IZR. apply Rtrunc_IZR.
  - intros [] x y; unfold fits; cbn; try reflexivity.
    intros Hx Hy. apply Rtrunc_fix in Hx, Hy. destruct Hx as [a ->], Hy as [b ->].
    rewrite <- mult_IZR. apply Rtrunc_IZR.
  - intros [] [] x; unfold fits; cbn; auto.
Qed.

(** ** Complex numbers *)
Definition Ceqb (x y : C) : bool := if Ceq_dec x y then true else false.

Canonical Structure CA : Arith :=
  {| carrier := C; zero := RtoC 0; one := RtoC 1; add := Cplus; sub := Cminus; mul := Cmult;
     div := Cdiv; opp := Copp; eqb := Ceqb;
     dot := dot_from Cplus Cmult (RtoC 0); sum := sum_from Cplus (RtoC 0);
     cast := fun dt x => match dt with
                         | DInt => RtoC (Rtrunc (Re x))
                         | DFloat => RtoC (Re x)
                         | DComplex => x end |}.

Lemma CA_ring : @ring_theory CA zero one add mul sub opp eq.
Proof. exact C_ring_theory. Qed.

Lemma Ceqb_iff x y : Ceqb x y = true <-> x = y.
Proof. unfold Ceqb. destruct (Ceq_dec x y); split; congruence. Qed.

Lemma RtoC_fits_eq r (x : C) : RtoC r = x -> x = RtoC (Re x).
Proof. intros <-. reflexivity. Qed.

Lemma CA_laws : Laws CA.
Proof.
  split.
  - exact CA_ring.
  - cbn. intros x y H. field. exact H.
  - cbn. exact Ceqb_iff.
  - intros xs ys H. pose proof (dot_from_bigsum CA CA_ring xs ys (RtoC 0) H) as E.
    etransitivity; [exact E|]. cbn. ring.
  - intros xs. pose proof (sum_from_bigsum CA CA_ring xs (RtoC 0)) as E.
    etransitivity; [exact E|]. cbn. ring.
  - reflexivity.
  - intros [] x; unfold fits; cbn; try reflexivity.
    destruct (Rtrunc_is_IZR (Re x)) as [z ->]. unfold RtoC; cbn. rewrite Rtrunc_IZR. reflexivity.
  - intros []; unfold fits; cbn; try reflexivity. f_equal. exact (Rtrunc_IZR 0).
  - intros [] [x1 x2] [y1 y2]; unfold fits, Re; cbn; intros Hx Hy; try reflexivity.
    + inversion Hx; inversion Hy; subst.
      destruct (Rtrunc_is_IZR x1) as [a Ha], (Rtrunc_is_IZR y1) as [b Hb].
      rewrite H0, H2 in *. subst x1 y1. unfold Cplus; cbn. rewrite <- plus_IZR, Rtrunc_IZR.
      unfold RtoC. f_equal. ring.
    + inversion Hx; inversion Hy; subst. unfold Cplus, RtoC; cbn. f_equal. ring.
  - intros [] [x1 x2] [y1 y2]; unfold fits, Re; cbn; intros Hx Hy; try reflexivity.
    + inversion Hx; inversion Hy; subst.
      destruct (Rtrunc_is_IZR x1) as [a Ha], (Rtrunc_is_IZR y1) as [b Hb].
      rewrite H0, H2 in *. subst x1 y1. unfold Cmult; cbn.
      replace (IZR a * IZR b - 0 * 0) with (IZR (a * b)) by (rewrite mult_IZR; ring).
      rewrite Rtrunc_IZR. unfold RtoC. f_equal. ring.
    + inversion Hx; inversion Hy; subst. unfold Cmult, RtoC; cbn. f_equal; ring.
  - intros [] [] x; unfold fits; cbn; auto.
    all: intros H; symmetry; exact (RtoC_fits_eq _ _ H).
Qed.

(** ** Rationals: executable exact arithmetic, used in the examples. *)
Definition Qctrunc (x : Qc) : Qc :=
  Q2Qc (inject_Z (Z.quot (Qnum x) (Zpos (Qden x)))).
Definition Qceqb (x y : Qc) : bool := if Qc_eq_dec x y then true else false.

Canonical Structure QA : Arith :=
  {| carrier := Qc; zero := Q2Qc 0; one := Q2Qc 1; add := Qcplus; sub := Qcminus; mul := Qcmult;
     div := Qcdiv; opp := Qcopp; eqb := Qceqb;
     dot := dot_from Qcplus Qcmult (Q2Qc 0); sum := sum_from Qcplus (Q2Qc 0);
     cast := fun dt x => match dt with DInt => Qctrunc x | _ => x end |}.

Definition Qc_of_Z (z : Z) : Qc := Q2Qc (inject_Z z).

Lemma Qctrunc_is_Z x : exists z, Qctrunc x = Qc_of_Z z.
Proof. eexists. reflexivity. Qed.

Lemma Qctrunc_Z z : Qctrunc (Qc_of_Z z) = Qc_of_Z z.
Proof.
  unfold Qctrunc, Qc_of_Z. f_equal. f_equal.
  assert (E : this (Q2Qc (inject_Z z)) = inject_Z z).
  { apply Qred_identity. cbn. apply Z.gcd_1_r. }
  rewrite E. cbn. apply Z.quot_1_r.
Qed.

Lemma Qc_of_Z_add a b : Qcplus (Qc_of_Z a) (Qc_of_Z b) = Qc_of_Z (a + b).
Proof.
  apply Qc_is_canon. unfold Qcplus, Qc_of_Z, Q2Qc; cbn [this]. rewrite !Qred_correct.
  rewrite inject_Z_plus. reflexivity.
Qed.
Lemma Qc_of_Z_mul a b : Qcmult (Qc_of_Z a) (Qc_of_Z b) = Qc_of_Z (a * b).
Proof.
  apply Qc_is_canon. unfold Qcmult, Qc_of_Z, Q2Qc; cbn [this]. rewrite !Qred_correct.
  rewrite inject_Z_mult. reflexivity.
Qed.

Lemma QA_ring : @ring_theory QA zero one add mul sub opp eq.
Proof. exact Qcrt. Qed.

Lemma Qceqb_iff x y : Qceqb x y = true <-> x = y.
Proof. unfold Qceqb. destruct (Qc_eq_dec x y); split; congruence. Qed.

Lemma QA_laws : Laws QA.
Proof.
  split.
  - exact QA_ring.
  - cbn. intros x y H. field. exact H.
  - cbn. exact Qceqb_iff.
  - intros xs ys H. pose proof (dot_from_bigsum QA QA_ring xs ys (Q2Qc 0) H) as E.
    etransitivity; [exact E|]. apply Qcplus_0_l.
  - intros xs. pose proof (sum_from_bigsum QA QA_ring xs (Q2Qc 0)) as E.
    etransitivity; [exact E|]. apply Qcplus_0_l.
  - reflexivity.
  - intros [] x; unfold fits; cbn; try reflexivity. apply Qctrunc_Z.
  - intros []; unfold fits; cbn; reflexivity.
  - intros [] x y; unfold fits; cbn; try reflexivity. intros <- <-.
    destruct (Qctrunc_is_Z x) as [a ->], (Qctrunc_is_Z y) as [b ->].
    rewrite Qc_of_Z_add. apply Qctrunc_Z.
  - intros [] x y; unfold fits; cbn; try reflexivity. intros <- <-.
    destruct (Qctrunc_is_Z x) as [a ->], (Qctrunc_is_Z y) as [b ->].
    rewrite Qc_of_Z_mul. apply Qctrunc_Z.
  - intros [] [] x; unfold fits; cbn; auto.
Qed.

(** Literals, and the fractions behind a list (equality of [Qc] values would
    compare canonicity proofs). *)
Definition q (n : Z) (d : positive) : Qc := Q2Qc (Qmake n d).
Definition qs (l : list Qc) : list Q := map this l.
Definition rqs (r : res (list Qc)) : res (list Q) := rmap qs r.

(** ** IEEE binary64.  The summation order is a choice; theorems about floats
    are stated for every [Arith] and do not depend on it. *)
Definition float_of_Z (z : Z) : float :=
  SF2Prim (SpecFloat.binary_normalize 53 1024 z 0 false).
Definition ftrunc (f : float) : float :=
  match Prim2SF f with
  | S754_finite s m e =>
      if (0 <=? e)%Z then f
      else let q := Z.shiftr (Zpos m) (- e) in
           float_of_Z (if s then - q else q)
  | _ => f
  end.

Canonical Structure FA : Arith :=
  {| carrier := float; zero := 0%float; one := 1%float;
     add := PrimFloat.add; sub := PrimFloat.sub; mul := PrimFloat.mul;
     div := PrimFloat.div; opp := PrimFloat.opp; eqb := PrimFloat.eqb;
     dot := dot_from PrimFloat.add PrimFloat.mul 0%float;
     sum := sum_from PrimFloat.add 0%float;
     cast := fun dt x => match dt with DInt => ftrunc x | _ => x end |}.

(** Result of a float computation at the plain type (for the examples). *)
Definition fls (r : res (list float)) : res (list float) := r.

(** ** Ordered real arithmetic, for magnitude comparisons and range checks.
    [oltinf x] is [x < numpy.inf]. *)
Record OArith : Type := mkOArith {
  oa :> Arith;
  #[canonical=no] oabs : oa -> oa;
  #[canonical=no] oltb : oa -> oa -> bool;
  #[canonical=no] oleb : oa -> oa -> bool;
  #[canonical=no] oltinf : oa -> bool
}.
Arguments oabs {_} _. Arguments oltb {_} _ _. Arguments oleb {_} _ _. Arguments oltinf {_} _.

Canonical Structure RO : OArith :=
  {| oa := RA; oabs := Rabs; oltb := Rltb; oleb := Rleb; oltinf := fun _ => true |}.
Canonical Structure FO : OArith :=
  {| oa := FA; oabs := PrimFloat.abs; oltb := PrimFloat.ltb; oleb := PrimFloat.leb;
     oltinf := fun x => PrimFloat.ltb x PrimFloat.infinity |}.
Definition Qcltb (x y : Qc) : bool := match (this x ?= this y)%Q with Lt => true | _ => false end.
Definition Qcabs_ (x : Qc) : Qc := if Qcltb x (Q2Qc 0) then Qcopp x else x.
Canonical Structure QO : OArith :=
  {| oa := QA; oabs := Qcabs_; oltb := Qcltb; oleb := fun x y => negb (Qcltb y x);
     oltinf := fun _ => true |}.

(** Unit complex number of angle [t]: numpy.exp(1j * t). *)
Definition cis (t : R) : C := (cos t, sin t).

Lemma cis_0 : cis 0 = RtoC 1.
Proof. unfold cis, RtoC. rewrite cos_0, sin_0. reflexivity. Qed.
Lemma cis_add a b : cis (a + b) = Cmult (cis a) (cis b).
Proof. unfold cis, Cmult; cbn. rewrite cos_plus, sin_plus. f_equal; ring. Qed.
Lemma cis_conj a : Cconj (cis a) = cis (- a).
Proof. unfold cis, Cconj; cbn. rewrite cos_neg, sin_neg. reflexivity. Qed.
Lemma Cmod_cis a : Cmod (cis a) = 1.
Proof.
  unfold Cmod, cis; cbn [fst snd].
  replace (cos a ^ 2 + sin a ^ 2) with 1.
  - exact sqrt_1.
  - pose proof (sin2_cos2 a) as H. unfold Rsqr in H. lra.
Qed.
Lemma cis_neq_0 a : cis a <> RtoC 0.
Proof. intros H. pose proof (Cmod_cis a) as E. rewrite H, Cmod_0 in E. lra. Qed.
Lemma cis_conj_mul a : Cmult (cis a) (Cconj (cis a)) = RtoC 1.
Proof. rewrite cis_conj, <- cis_add. replace (a + - a) with 0 by ring. apply cis_0. Qed.
Lemma cis_2PI_INR t k : cis (t + 2 * INR k * PI) = cis t.
Proof. unfold cis. rewrite cos_period, sin_period. reflexivity. Qed.
Lemma cis_2PI_IZR t k : cis (t + 2 * IZR k * PI) = cis t.
Proof.
  destruct (Z_le_gt_dec 0 k) as [H|H].
  - rewrite <- (Z2Nat.id k) by exact H. rewrite <- INR_IZR_INZ. apply cis_2PI_INR.
  - rewrite <- (cis_2PI_INR (t + 2 * IZR k * PI) (Z.to_nat (- k))).
    rewrite INR_IZR_INZ, Z2Nat.id by lia. rewrite opp_IZR. f_equal. ring.
Qed.
