(** Model of /repo/diamondback/filters/pid_filter.py.
    Simplification: real signals and gains; the magnitude of complex samples (line 85) is
    not modelled. *)
From Coq Require Import List Arith ZArith Bool.
From Verif Require Import Base Instances FirModel.
Import ListNotations.
Set Asymmetric Patterns.

Section Pid.
  Context {O : OArith}.

  (** A PidFilter: the FirFilter part and the limit, [None] being numpy.inf. *)
  Record pid : Type := mkPid { pfir : fir O; plimit : option O }.

  (** pid_filter.py:51-64, __init__ (59-60 only convert a list). *)
  Definition pid_make (b : arr O) : res pid :=
    if negb (Nat.eqb (length (els b)) 3) then Err ValueError               (* 61-62 *)
    else match fir_make b (mkArr DFloat (zeros (length (els b)))) with     (* 63 *)
         | Err e => Err e
         | Ok f => Ok (mkPid f None)                                       (* 64 *)
         end.

  (** pid_filter.py:45-49, the limit setter. *)
  Definition pid_set_limit (p : pid) (l : option O) : pid * res unit :=
    match l with
    | None => (mkPid (pfir p) None, Ok tt)
    | Some v => if oltb v zero then (p, Err ValueError) else (mkPid (pfir p) (Some v), Ok tt)
    end.

  (** [abs(v) < self.limit]. *)
  Definition below (l : option O) (v : O) : bool :=
    match l with None => oltinf (oabs v) | Some w => oltb (oabs v) w end.

  (** pid_filter.py:84-88, one iteration. *)
  Definition pid_step (dt : dtype) (b : list O) (l : option O) (s : list O) (x : O) : list O * res O :=
    match s with
    | s0 :: s1 :: _ :: t =>
        let s2' := cast dt (sub x s0) in                                   (* 84 *)
        let s1' := if below l (add s1 x) then cast dt (add s1 x) else s1 in (* 85-86 *)
        let s' := cast dt x :: s1' :: s2' :: t in                          (* 87 *)
        (s', rmap (cast dt) (np_dot b s'))                                 (* 88 *)
    | _ => (s, Err IndexError)
    end.

  (** pid_filter.py:66-89. *)
  Definition pid_filter (p : pid) (x : list O) : pid * res (list O) :=
    if Nat.eqb (length x) 0 then (p, Err ValueError)                       (* 80-81 *)
    else match fb (pfir p) with
         | [] => (p, Err IndexError)                                       (* 82 *)
         | _ :: _ =>
             let '(s', y) := run (pid_step (fdt (pfir p)) (fb (pfir p)) (plimit p)) (fs (pfir p)) x in
             (mkPid (with_s (pfir p) s') (plimit p), y)
         end.

  (** reset is inherited (fir_filter.py:266-277). *)
  Definition pid_reset (p : pid) (x : option O) : pid * res unit :=
    let '(f, o) := fir_reset (pfir p) x in (mkPid f (plimit p), o).

  (** The accumulated integral, [self.s[1]]. *)
  Definition pid_integral (p : pid) : O := nth 1 (fs (pfir p)) zero.
End Pid.
Arguments pid O : clear implicits.
