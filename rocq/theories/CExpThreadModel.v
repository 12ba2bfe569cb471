(** diamondback/filters/complex_exponential_filter.py, lines 44-93, as accesses to the object
    (ThreadModel.v): the object is its phase; filter reads it once and stores it once. *)
From Coq Require Import List Arith ZArith Bool.
From Verif Require Import Base Instances CalculusModel CExpModel ThreadModel.
Import ListNotations.
Set Asymmetric Patterns.

Inductive ccall (O : OArith) : Type := CFilter (x : fsig O) | CPhase (p : O).
Arguments CFilter {O} x. Arguments CPhase {O} p.
Section Code.
  Context {O : OArith} {Y : Type}.
  Variables (fmod2 sgn : O -> O) (expj : O -> Y).
  (** the setter, 49-53: [p] is checked, then stored *)
  Definition store_phase (p : O) (y : list Y) : code O (res (list Y)) :=
    if phase_bad p then Ret (Err ValueError) else poke (fun _ => p) (Ret (Ok y)).
  (** filter, 80-93, and the setter (whose answer carries no values) *)
  Definition cexp_code (a : ccall O) : code O (res (list Y)) :=
    match a with
    | CPhase p => store_phase p []
    | CFilter x =>
        if (fimag x || Nat.eqb (length (fre x)) 0 || existsb (fun v => oltb (of_Z 1) (oabs v)) (fre x))%bool
        then Ret (Err ValueError)                                          (* 82-83 *)
        else peek (fun s =>                                                (* 85 *)
          let '(p, ys) := cexp_loop expj s (fre x) in                      (* 86-88 *)
          if fcomplex x then Ret (Err TypeError)                           (* 89 *)
          else store_phase (cexp_wrap fmod2 sgn p) ys)                     (* 89-93 *)
    end.
  (** the call made alone *)
  Definition cexp_call (a : ccall O) (s : O) : O * res (list Y) :=
    match a with
    | CFilter x => cexp_filter fmod2 sgn expj s x
    | CPhase p => let (s', r) := cexp_set_phase s p in (s', rmap (fun _ => []) r)
    end.
End Code.
