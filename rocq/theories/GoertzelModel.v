(** Model of /repo/diamondback/filters/goertzel_filter.py. *)
From Coq Require Import List Arith ZArith Bool Reals.
From Verif Require Import Base Instances FirModel IirModel CalculusModel.
Import ListNotations.
Set Asymmetric Patterns.
Close Scope R_scope. Open Scope nat_scope.

Section Goertzel.
  Context {A : Arith}.
  (** Functions of the frequency: 2 cos(pi f) and e^{-j pi f} (lines 91-92), and
      numpy.isclose(v, 0.0) (line 87). *)
  Variables (cos2 : R -> A) (exn_ : R -> A) (isclose0 : A -> bool).
  (** int(numpy.ceil(len(x) / len(w))) (line 114), computed in floating point. *)
  Variable cdiv : nat -> nat -> nat.

  (** A GoertzelFilter: the IirFilter part, [self._index], [self._w], [self._frequency]. *)
  Record goertzel : Type := mkGoertzel { giir : iir A; gidx : nat; gw : list A; gfreq : R }.

  Definition freq_bad (f : R) : bool := (Rltb f (-1) || Rltb 1 f)%bool.

  (** goertzel_filter.py:76-96, __init__. *)
  Definition goertzel_make (b : list A) (f : R) : res goertzel :=
    if (Nat.eqb (length b) 0 || forallb isclose0 b)%bool then Err ValueError  (* 87-88 *)
    else if freq_bad f then Err ValueError                                    (* 89-90 *)
    else match iir_make (mkArr DFloat [zero; cos2 f; opp one])                (* 91-93 *)
                        (mkArr DComplex [one; opp (exn_ f); zero]) (mkArr DFloat []) with
         | Err e => Err e
         | Ok i => Ok (mkGoertzel i 0 b f)                                    (* 94-96 *)
         end.

  (** goertzel_filter.py:70-74, the frequency setter. *)
  Definition goertzel_set_frequency (g : goertzel) (f : R) : goertzel * res unit :=
    if freq_bad f then (g, Err ValueError)
    else (mkGoertzel (giir g) (gidx g) (gw g) f, Ok tt).

  (** goertzel_filter.py:117-124, the loop of filter; [jj] outputs are already written to
      an array of [size] elements.  Returns the outputs written from here on. *)
  Fixpoint goertzel_loop (u : A) (size jj : nat) (g : goertzel) (x : list A) : goertzel * res (list A) :=
    match x with
    | [] => (g, Ok [])
    | v :: x' =>
        match nth_error (gw g) (gidx g) with                                  (* 118: self._w[self._index] *)
        | None => (g, Err IndexError)
        | Some w =>
            let '(i, r) := iir_filter (giir g) [mul (mul u w) v] in           (* 118 *)
            match r with
            | Err e => (mkGoertzel i (gidx g) (gw g) (gfreq g), Err e)
            | Ok y =>
                let idx := S (gidx g) in                                      (* 119 *)
                if Nat.leb (length (gw g)) idx then                           (* 120 *)
                  if Nat.leb size jj
                  then (mkGoertzel i idx (gw g) (gfreq g), Err IndexError)    (* 121: y[jj] *)
                  else
                    let i0 := iir_with_s i (map (fun _ => zero) (is_ i)) in   (* 122 *)
                    let '(g', ys) := goertzel_loop u size (S jj)
                         (mkGoertzel i0 0 (gw g) (gfreq g)) x' in             (* 123-124 *)
                    (g', rmap (cons (nth 0 y zero)) ys)
                else goertzel_loop u size jj (mkGoertzel i idx (gw g) (gfreq g)) x'
            end
        end
    end.

  (** goertzel_filter.py:98-127.  [cplx]: isinstance(x[0], complex). *)
  Definition goertzel_filter (g : goertzel) (cplx : bool) (x : list A) : goertzel * res (list A) :=
    if Nat.eqb (length x) 0 then (g, Err ValueError)                          (* 112-113 *)
    else
      let u := div (of_Z (if cplx then 1 else 2)) (of_Z (Z.of_nat (length (gw g)))) in (* 115 *)
      goertzel_loop u (S (cdiv (length x) (length (gw g)))) 0 g x.            (* 114, 116-127 *)

  (** reset is inherited (iir_filter.py:314-327). *)
  Definition goertzel_reset (g : goertzel) (x : option A) : goertzel * res unit :=
    let '(i, o) := iir_reset (giir g) x in (mkGoertzel i (gidx g) (gw g) (gfreq g), o).
End Goertzel.
Arguments goertzel A : clear implicits.
