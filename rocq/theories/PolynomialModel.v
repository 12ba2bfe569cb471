(** Model of /repo/diamondback/filters/polynomial_rate_filter.py. *)
From Coq Require Import List Arith ZArith Bool.
From Verif Require Import Base Instances CalculusModel PolyphaseModel.
Import ListNotations.
Set Asymmetric Patterns.

Section Polynomial.
  Context {O : OArith}.
  (** int(numpy.round(.)) and int(.) on a float. *)
  Variable rnd trunc : O -> Z.
  (** numpy.polyfit(u, x, order): coefficients, highest power first. *)
  Variable polyfit : list O -> list O -> Z -> list O.

  Record prate : Type := mkPrate { qrate : O; qorder : Z }.

  (** polynomial_rate_filter.py:76-91, __init__. *)
  Definition prate_make (rate : O) (order : Z) : res prate :=
    if oltb rate zero then Err ValueError                                   (* 85-86 *)
    else if (order <=? 0)%Z then Err ValueError                             (* 87-88 *)
    else Ok (mkPrate rate order).                                           (* 90-91 *)

  (** polynomial_rate_filter.py:60-64 and 70-74, the setters. *)
  Definition prate_set_order (f : prate) (order : Z) : prate * res unit :=
    if (order <=? 0)%Z then (f, Err ValueError) else (mkPrate (qrate f) order, Ok tt).
  Definition prate_set_rate (f : prate) (rate : O) : prate * res unit :=
    if oltb rate zero then (f, Err ValueError) else (mkPrate rate (qorder f), Ok tt).

  (** numpy.interp at one point, for increasing abscissae given with the ordinates: constant
      before the first and after the last point, linear between. *)
  Fixpoint interp_from (x0 y0 : O) (pts : list (O * O)) (v : O) : O :=
    match pts with
    | [] => y0
    | (x1, y1) :: rest =>
        if oltb v x1 then add (mul (div (sub y1 y0) (sub x1 x0)) (sub v x0)) y0
        else interp_from x1 y1 rest v
    end.
  Definition np_interp (pts : list (O * O)) (v : O) : O :=
    match pts with
    | [] => zero
    | (x0, y0) :: rest => if oltb v x0 then y0 else interp_from x0 y0 rest v
    end.

  (** numpy.polyval, Horner's rule. *)
  Definition polyval (b : list O) (t : O) : O := fold_left (fun y c => add (mul y t) c) b zero.

  (** polynomial_rate_filter.py:131-134; [ny] is len(y) - jj. *)
  Fixpoint prate_inner (ny : nat) (b : list O) (v index : O) : nat * O * list O :=
    match ny with
    | 0 => (0, index, [])
    | S ny' =>
        if oltb index one
        then let '(n, i, ys) := prate_inner ny' b v (add index v) in (n, i, polyval b index :: ys)
        else (ny, index, [])
    end.

  (** polynomial_rate_filter.py:128-136; [c] is cc - ii, [xs] is x[ii:]. *)
  Fixpoint prate_outer (u : list O) (order : Z) (c : nat) (xs : list O) (ny : nat) (v index : O) : list O :=
    match c with
    | 0 => []
    | S c' =>
        let '(ny', index', ys) :=
          if oltb index one                                                 (* 129 *)
          then prate_inner ny (polyfit u (firstn 4 xs) order) v index       (* 130-134 *)
          else (ny, index, []) in
        ys ++ prate_outer u order c' (tl xs) ny' v (sub index' one)         (* 135-136 *)
    end.

  (** x[-1], x[-2]. *)
  Definition last1 (x : list O) : O := nth (length x - 1) x zero.
  Definition last2 (x : list O) : O := nth (length x - 2) x zero.

  (** polynomial_rate_filter.py:93-138, on one-dimensional real signals. *)
  Definition prate_filter (f : prate) (x : list O) : res (list O) :=
    if Nat.ltb (length x) 2 then Err ValueError                             (* 107-108 *)
    else
      let cc := length x in
      let jj := rnd (mul (of_nat cc) (qrate f)) in                          (* 110 *)
      if (qorder f =? 1)%Z then
        let x1 := x ++ [sub (mul (of_Z 2) (last1 x)) (last2 x)] in          (* 112 *)
        let n := trunc (add (mul (of_nat (length x1)) (qrate f)) (div one (of_Z 2))) in
        if (n <? 0)%Z then Err ValueError                                   (* linspace *)
        else
          let u := map of_nat (seq 0 (length x1)) in                        (* 113 *)
          let v := map (fun j => div (of_nat j) (qrate f)) (seq 0 (Z.to_nat n)) in (* 114 *)
          let y := map (np_interp (combine u x1)) v in                      (* 115 *)
          Ok (firstn (Z.to_nat (Z.min jj (Z.of_nat (length y)))) y)         (* 137 *)
      else if (jj <? 0)%Z then Err ValueError                               (* 117 *)
      else
        let x1 := [sub (mul (of_Z 2) (nth 0 x zero)) (nth 1 x zero)] ++ x ++
                  [sub (mul (of_Z 2) (last1 x)) (last2 x);
                   sub (mul (of_Z 3) (last1 x)) (mul (of_Z 2) (last2 x))] in (* 118-124 *)
        if eqb (qrate f) zero then Err ZeroDivisionError                    (* 125 *)
        else Ok (prate_outer [of_Z (-1); of_Z 0; of_Z 1; of_Z 2] (qorder f) cc x1
                             (Z.to_nat jj) (div one (qrate f)) zero).       (* 126-137 *)
End Polynomial.
Arguments prate : clear implicits.
