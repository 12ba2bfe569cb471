(** Base: exceptions as values, numpy dtypes, and the arithmetic interface
    shared by the numeric models.

    Nothing in this file models a particular line of /repo; it fixes the
    vocabulary used by all the *Model.v files.  *)
From Coq Require Export List Arith ZArith Lia Bool.
Export ListNotations.
Set Asymmetric Patterns.

(** Python exceptions that the modelled code raises (or lets through). *)
Inductive exn : Type :=
| ValueError | TypeError | IndexError | ZeroDivisionError | LinAlgError
| RuntimeError | UnpicklingError | RequestError | UnicodeError | OtherError.

(** Result of a Python call: a value or an exception. *)
Inductive res (X : Type) : Type :=
| Ok (x : X)
| Err (e : exn).
Arguments Ok {X} x.
Arguments Err {X} e.

Definition bind {X Y} (r : res X) (f : X -> res Y) : res Y :=
  match r with Ok x => f x | Err e => Err e end.
Definition rmap {X Y} (f : X -> Y) (r : res X) : res Y :=
  match r with Ok x => Ok (f x) | Err e => Err e end.
Definition is_ok {X} (r : res X) : bool :=
  match r with Ok _ => true | Err _ => false end.

(** numpy dtypes that matter here: int64, float64, complex128. *)
Inductive dtype : Type := DInt | DFloat | DComplex.

Definition dtype_eqb (d e : dtype) : bool :=
  match d, e with
  | DInt, DInt | DFloat, DFloat | DComplex, DComplex => true
  | _, _ => false
  end.

(** numpy type promotion, e.g. of [numpy.concatenate]. *)
Definition promote (d e : dtype) : dtype :=
  match d, e with
  | DComplex, _ | _, DComplex => DComplex
  | DFloat, _ | _, DFloat => DFloat
  | DInt, DInt => DInt
  end.

(** Arithmetic interface.  [carrier] is the type of array elements.
    [dot] and [sum] are fields of their own because numpy does not specify
    the order in which it adds: a theorem that does not assume [Laws] holds
    for every summation order and every rounding.
    [cast dt x] is the value numpy stores when [x] is assigned to an element
    of an array of dtype [dt] (truncation toward zero for integers, dropping
    the imaginary part for floats). *)
Record Arith : Type := mkArith {
  carrier :> Type;
  #[canonical=no] zero : carrier;
  #[canonical=no] one : carrier;
  #[canonical=no] add : carrier -> carrier -> carrier;
  #[canonical=no] sub : carrier -> carrier -> carrier;
  #[canonical=no] mul : carrier -> carrier -> carrier;
  #[canonical=no] div : carrier -> carrier -> carrier;
  #[canonical=no] opp : carrier -> carrier;
  #[canonical=no] eqb : carrier -> carrier -> bool;
  #[canonical=no] dot : list carrier -> list carrier -> carrier;
  #[canonical=no] sum : list carrier -> carrier;
  #[canonical=no] cast : dtype -> carrier -> carrier
}.
Arguments zero {_}. Arguments one {_}.
Arguments add {_} _ _. Arguments sub {_} _ _.
Arguments mul {_} _ _. Arguments div {_} _ _. Arguments opp {_} _.
Arguments eqb {_} _ _. Arguments dot {_} _ _. Arguments sum {_} _.
Arguments cast {_} _ _.

(** A numpy array of rank one: dtype and elements. *)
Record arr (A : Arith) : Type := mkArr { adt : dtype; els : list A }.
Arguments mkArr {A} adt els.
Arguments adt {A} _. Arguments els {A} _.

(** [numpy.zeros(n)]. *)
Definition zeros (A : Arith) (n : nat) : list A := repeat zero n.
Arguments zeros {A} n.

(** Finite sums, used both by the exact arithmetic laws and by the
    specifications. [bigsum n f] is f 0 + f 1 + ... + f (n-1). *)
Fixpoint bigsum {A : Arith} (n : nat) (f : nat -> A) : A :=
  match n with
  | 0 => zero
  | S m => add (bigsum m f) (f m)
  end.

(** The laws of exact arithmetic.  They hold for the reals, the complex
    numbers and the rationals (Instances.v) and fail for IEEE floats. *)
Definition fits {A : Arith} (dt : dtype) (x : A) : Prop := cast dt x = x.

Record Laws (A : Arith) : Prop := mkLaws {
  law_ring : @ring_theory A zero one add mul sub opp eq;
  law_div : forall x y : A, y <> zero -> mul (div x y) y = x;
  law_eqb : forall x y : A, eqb x y = true <-> x = y;
  law_dot : forall xs ys : list A, length xs = length ys ->
      dot xs ys = bigsum (length xs) (fun i => mul (nth i xs zero) (nth i ys zero));
  law_sum : forall xs : list A, sum xs = bigsum (length xs) (fun i => nth i xs zero);
  law_cast_complex : forall x : A, cast DComplex x = x;
  law_cast_idem : forall dt (x : A), fits dt (cast dt x);
  law_fits_zero : forall dt, fits dt (@zero A);
  law_fits_add : forall dt (x y : A), fits dt x -> fits dt y -> fits dt (add x y);
  law_fits_mul : forall dt (x y : A), fits dt x -> fits dt y -> fits dt (mul x y);
  law_fits_widen : forall d e (x : A), fits d x -> fits (promote d e) x
}.

Arguments law_ring {A} _. Arguments law_div {A} _ x y _.
Arguments law_eqb {A} _ x y. Arguments law_dot {A} _ xs ys _.
Arguments law_sum {A} _ xs. Arguments law_cast_complex {A} _ x.
Arguments law_cast_idem {A} _ dt x. Arguments law_fits_zero {A} _ dt.
Arguments law_fits_add {A} _ dt x y _ _. Arguments law_fits_mul {A} _ dt x y _ _.
Arguments law_fits_widen {A} _ d e x _.

(** [a.dot(b)] for one-dimensional arrays: ValueError on a shape mismatch. *)
Definition np_dot {A : Arith} (xs ys : list A) : res A :=
  if Nat.eqb (length xs) (length ys) then Ok (dot xs ys) else Err ValueError.

(** [s[1:] = s[:-1]]: element 0 stays, the others move up by one. *)
Definition np_shift {X} (s : list X) : list X :=
  match s with [] => [] | h :: _ => h :: removelast s end.

(** [s[0] = v]. *)
Definition np_set0 {X} (s : list X) (v : X) : res (list X) :=
  match s with [] => Err IndexError | _ :: t => Ok (v :: t) end.

(** [if len(s) > 1: s[1:] = s[:-1]]. *)
Definition np_shift_gt1 {X} (s : list X) : list X :=
  if Nat.ltb 1 (length s) then np_shift s else s.

(** A sample-by-sample loop with mutable state: [for x in xs: ...; y.append(..)].
    An exception stops the loop; the state keeps the mutations made so far. *)
Section Run.
  Context {S X Y : Type} (step : S -> X -> S * res Y).
  Fixpoint run (s : S) (xs : list X) : S * res (list Y) :=
    match xs with
    | [] => (s, Ok [])
    | x :: xs' =>
        match step s x with
        | (s1, Err e) => (s1, Err e)
        | (s1, Ok y) =>
            match run s1 xs' with
            | (s2, Ok ys) => (s2, Ok (y :: ys))
            | (s2, Err e) => (s2, Err e)
            end
        end
    end.
End Run.

(** Successive calls of a method on chunks, concatenating the results: the
    way a streaming client uses a stateful filter. *)
Section Chunks.
  Context {S X Y : Type} (call : S -> list X -> S * res (list Y)).
  Fixpoint call_chunks (s : S) (cs : list (list X)) : S * res (list Y) :=
    match cs with
    | [] => (s, Ok [])
    | c :: cs' =>
        match call s c with
        | (s1, Err e) => (s1, Err e)
        | (s1, Ok y) =>
            match call_chunks s1 cs' with
            | (s2, Ok ys) => (s2, Ok (y ++ ys))
            | (s2, Err e) => (s2, Err e)
            end
        end
    end.
End Chunks.

Definition nonempty {X} (l : list X) : bool := negb (Nat.eqb (length l) 0).

(** Elementwise combination of two arrays (numpy broadcasting of equal lengths). *)
Fixpoint map2 {X Y W} (f : X -> Y -> W) (l : list X) (m : list Y) : list W :=
  match l, m with
  | a :: l', b :: m' => f a b :: map2 f l' m'
  | _, _ => []
  end.
