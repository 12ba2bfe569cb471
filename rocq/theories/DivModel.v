(** Model of diamondback/models/diversity_model.py, class DiversityModel (lines 77-166). *)
From Coq Require Import String List Arith ZArith Bool.
From Verif Require Import Base Instances PyString GaussModel.
Import ListNotations.
Set Asymmetric Patterns.

(** A number or numpy.inf, which is where the search for the smallest distance starts. *)
Inductive ext (A : Type) : Type := Fin (x : A) | Inf.
Arguments Fin {A} x. Arguments Inf {A}.

Definition div_styles : list string := ["Chebyshev"; "Euclidean"; "Geometric"; "Manhattan"]%string.

(** s[k, :] = r; nothing happens out of range. *)
Fixpoint set_row {A} (k : nat) (r : A) (s : list A) : list A :=
  match s, k with
  | [], _ => []
  | _ :: t, O => r :: t
  | a :: t, S k' => a :: set_row k' r t
  end.
(** the pairs (uu, vv) of lines 156-157, in order *)
Definition pairs (cc : nat) : list (nat * nat) :=
  flat_map (fun u => map (pair u) (seq (u + 1) (cc - (u + 1)))) (seq 0 (cc - 1)).

Section Distances.
  Context {O : OArith}.
  Variable powf : O -> O -> O.                    (* x ** y for floats, x >= 0 *)
  Variable ofnat : nat -> O.
  (** lines 80-85.  max and sum are Python's, over the elements in order; numpy.prod is
      taken in order. *)
  Definition gaps (x y : list O) : list O := map2 (fun a b => oabs (sub a b)) x y.
  Definition chebyshev (x y : list O) : O :=
    match gaps x y with
    | [] => zero                                  (* not reached: fit refuses no columns *)
    | d :: l => fold_left (fun m d => if oltb m d then d else m) l d
    end.
  Definition euclidean (x y : list O) : O :=
    powf (fold_left add (map2 (fun a b => mul (sub a b) (sub a b)) x y) zero) (div one (add one one)).
  Definition geometric (x y : list O) : O :=
    powf (fold_left mul (gaps x y) one) (div one (ofnat (length x))).
  Definition manhattan (x y : list O) : O := fold_left add (gaps x y) zero.
  Definition distance_of (style : string) : list O -> list O -> O :=
    if (style =? "Chebyshev")%string then chebyshev
    else if (style =? "Euclidean")%string then euclidean
    else if (style =? "Geometric")%string then geometric
    else manhattan.
End Distances.

Section Diversity.
  Context {O : OArith}.
  Variable big : O.                               (* numpy.finfo(float).max *)
  Variable isclose : O -> O -> bool.              (* numpy.isclose *)

  Record diversity : Type := mkDiv {
    ddist : list O -> list O -> O;                (* self._distance *)
    dvalue : ext O;                               (* self._diversity *)
    dcols : nat;                                  (* self._s.shape[1] *)
    drows : list (list O)                         (* self._s; length is shape[0] *)
  }.

  (** lines 96-113 *)
  Definition div_make (dist : string -> list O -> list O -> O) (style : string) (order : Z) : res diversity :=
    let style := py_title style in
    if negb (mem_str style div_styles) then Err ValueError
    else if (order <? 0)%Z then Err ValueError
    else Ok (mkDiv (dist style) (Fin zero) 0 (repeat [] (Z.to_nat (order + 1)))).
  (** lines 115-119 *)
  Definition div_clear (m : diversity) : diversity :=
    mkDiv (ddist m) (Fin zero) 0 (repeat [] (dcols m)).

  (** d < u, line 159 *)
  Definition below (d : O) (u : ext O) : bool :=
    match u with Fin v => oltb d v | Inf => oltinf d end.
  (** u > v, lines 161 and 163 *)
  Definition above (u v : ext O) : bool :=
    match u, v with
    | Fin a, Fin b => oltb b a
    | Inf, Fin b => oltinf b
    | _, Inf => false
    end.
  (** lines 154-160 *)
  Definition least (dist : list O -> list O -> O) (s : list (list O)) (cc : nat) : ext O :=
    fold_left (fun u p => let d := dist (nth (fst p) s []) (nth (snd p) s []) in if below d u then Fin d else u)
      (pairs cc) Inf.
  (** lines 152-162; None is jj = -1 *)
  Definition best (dist : list O -> list O -> O) (s : list (list O)) (cc : nat) (x : list O) (v : ext O) : ext O * option nat :=
    fold_left (fun a k => let u := least dist (set_row k x s) cc in if above u (fst a) then (u, Some k) else a)
      (seq 0 cc) (v, None).
  (** lines 148-165, one row of x; the first component is cc *)
  Definition div_step (a : nat * diversity) (x : list O) : (nat * diversity) * ext O :=
    let (cc, m) := a in
    let a' := if (cc <? length (drows m))%nat
              then (S cc, mkDiv (ddist m) (dvalue m) (dcols m) (set_row cc x (drows m)))
              else let (v, j) := best (ddist m) (drows m) cc x (dvalue m) in
                   if above v (dvalue m)
                   then (cc, mkDiv (ddist m) v (dcols m)
                               (set_row (match j with Some k => k | None => length (drows m) - 1 end) x (drows m)))
                   else (cc, m) in
    (a', dvalue (snd a')).
  (** the loop of lines 147-165 *)
  Fixpoint div_scan (a : nat * diversity) (rows : list (list O)) : (nat * diversity) * list (ext O) :=
    match rows with
    | [] => (a, [])
    | x :: r => let (a1, y) := div_step a x in let (a2, ys) := div_scan a1 r in (a2, y :: ys)
    end.
  (** lines 141-145 *)
  Fixpoint filled (s : list (list O)) : nat :=
    match s with
    | [] => 0
    | r :: t => if isclose (hd zero r) big then 0 else S (filled t)
    end.
  (** lines 121-166 *)
  Definition div_fit (m : diversity) (x : xarr O) : diversity * res (list (ext O)) :=
    match x with
    | XRank _ => (m, Err ValueError)                                 (* 135-136 *)
    | X2 cols rows =>
        if ((length rows =? 0) || (cols =? 0))%nat%bool then (m, Err ValueError)
        else let m := if (dcols m =? 0)%nat                          (* 137-138 *)
                      then mkDiv (ddist m) (dvalue m) cols (repeat (repeat big cols) (length (drows m)))
                      else m in
             if negb (cols =? dcols m)%nat then (m, Err ValueError)  (* 139-140 *)
             else let (a, y) := div_scan (filled (drows m), m) rows in
                  (snd a, Ok y)
    end.
End Diversity.
Arguments diversity : clear implicits.
