(** Specifications for the IIR properties. *)
From Coq Require Import List Arith ZArith.
From Verif Require Import Base FirSpec.
Import ListNotations.

(** sum_{i>=1} a[i]*y[n-i] + sum_{i>=0} b[i]*x[n-i], with [y] and [x] zero before time 0. *)
Definition difference_rhs {A : Arith} (a b y x : list A) (n : nat) : A :=
  add (bigsum (length a - 1) (fun i => mul (nth (S i) a zero) (sig [] y (Z.of_nat n - 1 - Z.of_nat i))))
      (bigsum (length b) (fun i => mul (nth i b zero) (sig [] x (Z.of_nat n - Z.of_nat i)))).

Definition satisfies_difference {A : Arith} (a b y x : list A) : Prop :=
  length y = length x /\
  forall n, n < length x -> nth n y zero = difference_rhs a b y x n.

(** Sum of all elements. *)
Definition total {A : Arith} (l : list A) : A := bigsum (length l) (fun i => nth i l zero).
