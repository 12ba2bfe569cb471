(** Signals and coefficient lists as power series, and their product. *)
From Coq Require Import List Arith.
From Verif Require Import Base.
Import ListNotations.

(** sum_{i <= n} p[i] u[n-i] *)
Definition cauchy {A : Arith} (p u : nat -> A) (n : nat) : A := bigsum (S n) (fun i => mul (p i) (u (n - i))).
(** a list as a sequence *)
Definition coef {A : Arith} (l : list A) (n : nat) : A := nth n l zero.
(** 1 - a[1] z^-1 - a[2] z^-2 - ... *)
Definition den {A : Arith} (a : list A) (n : nat) : A := match n with 0 => one | S _ => opp (nth n a zero) end.

(** The product of two coefficient lists as polynomials *)
Definition poly_mul {A : Arith} (p q : list A) : list A :=
  map (cauchy (coef p) (coef q)) (seq 0 (length p + length q - 1)).
(** The list of [den a], and the feedback coefficients with a given [den] *)
Definition den_list {A : Arith} (a : list A) : list A := map (den a) (seq 0 (length a)).
Definition feedback {A : Arith} (d : list A) : list A :=
  map (fun n => match n with 0 => zero | S _ => opp (nth n d zero) end) (seq 0 (length d)).
