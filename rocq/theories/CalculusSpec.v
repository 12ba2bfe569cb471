(** Specifications for the integral and derivative filters. *)
From Coq Require Import List Reals ZArith.
Import ListNotations.
Open Scope R_scope.

(** The polynomial c0 + c1 t + c2 t^2 + ... *)
Fixpoint peval (c : list R) (t : R) : R :=
  match c with [] => 0 | c0 :: c' => c0 + t * peval c' t end.

(** [x] are the samples of [p] at times t0, t0+1, t0+2, ... *)
Definition samples_of (p : R -> R) (t0 : R) (x : list R) : Prop :=
  forall k, (k < length x)%nat -> nth k x 0 = p (t0 + INR k).

(** Degree up to which each entry of the derivative table is exact. *)
Definition exact_degree (derivative order : Z) : option nat :=
  match derivative, order with
  | 1, 1 => Some 2%nat | 1, 2 => Some 2%nat | 1, 4 => Some 4%nat
  | 2, 2 => Some 3%nat | 2, 4 => Some 3%nat | 2, 6 => Some 3%nat | 2, 8 => Some 5%nat
  | 3, 4 => Some 4%nat | 3, 6 => Some 4%nat | 3, 8 => Some 4%nat
  | _, _ => None
  end%Z.

