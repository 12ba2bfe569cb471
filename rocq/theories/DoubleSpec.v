(** IEEE doubles as numbers, and dot products evaluated in any order. *)
From Flocq Require Import Core BinarySingleNaN PrimFloat.
From Coq Require Import List ZArith Reals Floats Permutation.
From Verif Require Import Base Instances.
Import ListNotations.
Open Scope R_scope.

(** The real number of a double (0 for infinities and NaN). *)
Definition val (x : float) : R := B2R (Prim2B x).
Definition finite (x : float) : Prop := PrimFloat.is_finite x = true.
Definition nonnumber (x : float) : Prop := PrimFloat.is_nan x = true.
(** Unit roundoff 2^-53, half the smallest positive double, the overflow threshold. *)
Definition uro : R := / 2 * bpow radix2 (-52).
Definition eta0 : R := / 2 * bpow radix2 (-1074).
Definition huge : R := bpow radix2 1024.
(** Rounding to the nearest double, ties to even, without overflow. *)
Definition nearest (x : R) : R := round radix2 (FLT_exp (-1074) 53) ZnearestE x.

(** [w] is x*y+z rounded once. *)
Definition fused (x y z w : float) : Prop :=
  (finite x -> finite y -> finite z -> Rabs (nearest (val x * val y + val z)) < huge ->
   finite w /\ val w = nearest (val x * val y + val z)) /\
  (nonnumber x \/ nonnumber y \/ nonnumber z \/ (~ finite x /\ val y = 0 /\ finite y) \/ (~ finite y /\ val x = 0 /\ finite x) -> nonnumber w).

(** [v] is the sum of the products of the pairs, added up in some order and grouping,
    each product rounded by itself or fused into the next sum.  This is what BLAS and
    numpy leave open about numpy.dot. *)
Inductive dots : list (float * float) -> float -> Prop :=
| dots_nil : dots [] 0%float
| dots_mul x y : dots [(x, y)] (x * y)%float
| dots_fma x y l v w : dots l v -> fused x y v w -> dots ((x, y) :: l) w
| dots_add l m v w : dots l v -> dots m w -> dots (l ++ m) (v + w)%float
| dots_perm l m v : Permutation l m -> dots l v -> dots m v.

(** Doubles with such a dot product. *)
Definition FAd (d : list float -> list float -> float) : Arith :=
  {| carrier := float; zero := 0%float; one := 1%float;
     add := PrimFloat.add; sub := PrimFloat.sub; mul := PrimFloat.mul;
     div := PrimFloat.div; opp := PrimFloat.opp; eqb := PrimFloat.eqb;
     dot := d; sum := sum_from PrimFloat.add 0%float;
     cast := fun dt x => match dt with DInt => ftrunc x | _ => x end |}.
Definition any_order (d : list float -> list float -> float) : Prop :=
  forall l m, length l = length m -> dots (combine l m) (d l m).
