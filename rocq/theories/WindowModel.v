(** Model of /repo/diamondback/filters/window_filter.py. *)
From Coq Require Import List Arith ZArith Bool String.
From Verif Require Import Base PyString Instances CalculusModel.
Import ListNotations.
Set Asymmetric Patterns.
Open Scope string_scope.

(** window_filter.py:62. *)
Definition window_styles : list string := ["Blackman"; "Hamming"; "Hann"; "Kaiser"].

Section Window.
  Context {O : OArith}.
  (** scipy.signal.get_window(window, n, False) as a function of the window name and n
      (line 85).  Every theorem holds for every such function. *)
  Variable get_window : string -> nat -> list O.

  (** window_filter.py:86-87.  [sum] is Python's sum, numpy division: no exception on zero. *)
  Definition window_normal (n : Z) (b : list O) : list O :=
    map (fun v => mul v (div (of_Z n) (sum (map oabs b)))) b.

  (** window_filter.py:68-88, __init__; the object is its coefficient array. *)
  Definition window_make (style : string) (order : Z) (normal : bool) : res (list O) :=
    let style := py_title style in                                          (* 78 *)
    if negb (mem_str style window_styles) then Err ValueError               (* 79-80 *)
    else if (order <? 0)%Z then Err ValueError                              (* 81-82 *)
    else
      let b := get_window (py_lower style) (Z.to_nat (order + 1)) in        (* 83, 85 *)
      Ok (if normal then window_normal (order + 1) b else b).               (* 86-88 *)

  (** An array argument: one-dimensional, or of another rank with its leading length. *)
  Inductive nd : Type := Vec (x : list O) | Other (rank len : nat).

  (** window_filter.py:90-106.  The object is returned unchanged. *)
  Definition window_filter (b : list O) (x : nd) : list O * res (list O) :=
    match x with
    | Other _ _ => (b, Err ValueError)                                      (* 104-105 *)
    | Vec x => if negb (Nat.eqb (length x) (length b)) then (b, Err ValueError)
               else (b, Ok (map2 mul b x))                                  (* 106 *)
    end.
End Window.
Arguments nd O : clear implicits.
