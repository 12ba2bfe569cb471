(** Model of /repo/diamondback/filters/complex_exponential_filter.py. *)
From Coq Require Import List Arith ZArith Bool Reals.
From Coquelicot Require Import Complex.
From Verif Require Import Base Instances CalculusModel.
Import ListNotations.
Set Asymmetric Patterns.

(** An array of frequencies: its real parts, whether its dtype is complex, and whether
    some imaginary part is non-zero (numpy.iscomplex(x).any()). *)
Record fsig (O : OArith) : Type := mkFsig { fre : list O; fcomplex : bool; fimag : bool }.
Arguments mkFsig {O} _ _ _. Arguments fre {O} _. Arguments fcomplex {O} _. Arguments fimag {O} _.

Section CExp.
  Context {O : OArith} {Y : Type}.
  (** numpy.fmod(., 2.0), numpy.sign, and phase |-> numpy.exp(1j * pi * phase). *)
  Variables (fmod2 sgn : O -> O) (expj : O -> Y).

  (** complex_exponential_filter.py:51, 63.  The object is its phase. *)
  Definition phase_bad (p : O) : bool := (oltb p (of_Z (-1)) || oltb (of_Z 1) p)%bool.

  (** complex_exponential_filter.py:55-66, __init__. *)
  Definition cexp_make (p : O) : res O := if phase_bad p then Err ValueError else Ok p.

  (** complex_exponential_filter.py:49-53, the phase setter. *)
  Definition cexp_set_phase (s p : O) : O * res unit :=
    if phase_bad p then (s, Err ValueError) else (p, Ok tt).

  (** complex_exponential_filter.py:86-88: outputs and accumulated phase. *)
  Fixpoint cexp_loop (p : O) (x : list O) : O * list Y :=
    match x with
    | [] => (p, [])
    | v :: x' => let '(p', ys) := cexp_loop (add p v) x' in (p', expj p :: ys)
    end.

  (** complex_exponential_filter.py:89-91. *)
  Definition cexp_wrap (p : O) : O :=
    let p1 := fmod2 p in
    if oltb (of_Z 1) (oabs p1) then sub p1 (mul (sgn p1) (of_Z 2)) else p1.

  (** complex_exponential_filter.py:68-93.  A complex dtype with zero imaginary parts makes
      the phase complex, which numpy.fmod (line 89) rejects with TypeError.
      Simplification: for a complex array the magnitude check reads the real parts. *)
  Definition cexp_filter (s : O) (x : fsig O) : O * res (list Y) :=
    if (fimag x || Nat.eqb (length (fre x)) 0 ||
        existsb (fun v => oltb (of_Z 1) (oabs v)) (fre x))%bool
    then (s, Err ValueError)                                               (* 82-83 *)
    else
      let '(p, ys) := cexp_loop s (fre x) in                               (* 85-88 *)
      if fcomplex x then (s, Err TypeError)                                (* 89 *)
      else match cexp_set_phase s (cexp_wrap p) with                       (* 89-92 *)
           | (s', Ok _) => (s', Ok ys)
           | (s', Err e) => (s', Err e)
           end.
End CExp.

(** ** Exact instance *)
Open Scope R_scope.
(** Exact versions of numpy.fmod(., 2.0), numpy.sign and numpy.exp(1j * pi * .). *)
Definition fmod2R (p : R) : R := p - 2 * Rtrunc (p / 2).
Definition sgnR (p : R) : R := if Rltb 0 p then 1 else if Rltb p 0 then -1 else 0.
Definition expjR (p : R) : C := cis (PI * p).
Definition cexp_filterR : R -> fsig RO -> R * res (list C) := @cexp_filter RO C fmod2R sgnR expjR.
Definition wrapR (p : R) : R := @cexp_wrap RO fmod2R sgnR p.
(** A real-valued frequency signal. *)
Definition real_sig (x : list R) : fsig RO := mkFsig x false false.
