(** Specifications for the FIR properties, independent of the model. *)
From Coq Require Import List Arith ZArith Bool Reals.
From Coquelicot Require Import Complex.
From Verif Require Import Base Instances.
Import ListNotations.

(** The signal at integer time [k]: [x] from time 0 on, the history before it
    ([hist] has the most recent sample first). Zero outside both. *)
Definition sig {A : Arith} (hist x : list A) (k : Z) : A :=
  if (k <? 0)%Z then nth (Z.to_nat (- k - 1)) hist zero
  else nth (Z.to_nat k) x zero.

(** sum_{i < len b} b[i] * x[n-i] *)
Definition convolution {A : Arith} (b hist x : list A) (n : nat) : A :=
  bigsum (length b) (fun i => mul (nth i b zero) (sig hist x (Z.of_nat n - Z.of_nat i))).

(** p*x + q*u, element by element. *)
Definition lin {A : Arith} (p q : A) (x u : list A) : list A :=
  map (fun xu => add (mul p (fst xu)) (mul q (snd xu))) (combine x u).

(** [f] is an array of numbers of its dtype. *)
Definition arr_ok {A : Arith} (a : arr A) : Prop := Forall (fits (adt a)) (els a).

(** The transfer function of coefficients [b] at frequency [f] (Nyquist = 1). *)
Definition transfer (b : list C) (f : R) : C :=
  @bigsum CA (length b) (fun i => Cmult (nth i b (RtoC 0)) (cis (- (PI * f) * INR i))).

(** ** The design search, seen from outside. *)
Section SearchSpec.
  Open Scope R_scope.
  Context {V : Type}.
  (** [cand scale] is the design evaluated at [scale]; [err] its error. *)
  Variable cand : R -> option V.
  Variable err : V -> R.
  Variables (eps rate : R).

  Definition cand_err (scale : R) : R :=
    match cand scale with Some v => err v | None => 0 end.
  (** The k-th scale tried. *)
  Fixpoint scale_at (k : nat) : R :=
    match k with
    | O => 1
    | S j => Rmax (scale_at j + rate * cand_err (scale_at j)) eps
    end.
  (** Error magnitude of the k-th candidate. *)
  Definition mag_at (k : nat) : R := Rabs (cand_err (scale_at k)).

  (** [v] is the first best of the [n] candidates tried, and [n] is where the
      search must stop: at the limit or at the first candidate within [tol]. *)
  Definition best_of (limit : nat) (tol : R) (n i : nat) (v : V) : Prop :=
    (i < n <= limit)%nat /\
    cand (scale_at i) = Some v /\
    (forall j, (j < n)%nat -> mag_at i <= mag_at j) /\
    (forall j, (j < i)%nat -> mag_at i < mag_at j) /\
    (n = limit \/ mag_at (n - 1) < tol) /\
    (forall j, (S j < n)%nat -> tol <= mag_at j).
End SearchSpec.
