(** Model of /repo/diamondback/filters/polyphase_rate_filter.py. *)
From Coq Require Import List Arith ZArith Bool.
From Verif Require Import Base Instances CalculusModel RankModel.
Import ListNotations.
Set Asymmetric Patterns.

Section Polyphase.
  Context {O : OArith}.
  (** int(numpy.round(.)) on a float. *)
  Variable rnd : O -> Z.
  (** numpy.isclose on two floats. *)
  Variable isclose : O -> O -> bool.

  Definition bank : Type := list (list O).
  Definition of_nat (n : nat) : O := of_Z (Z.of_nat n).

  (** polyphase_rate_filter.py:126-131: the class-wide bank, built by the first
      construction from the FirFilter coefficients [h] (numpy.reshape(h, (rr, cc), "F"):
      row i, column j holds h[i + rr*j]), each row divided by its sum (Python's builtin).
      [rr], [cc] are the dimensions of the existing bank [B], 256 and 15 (line 87). *)
  Definition bank_row (rr cc : nat) (h : list O) (i : nat) : list O :=
    let row := map (fun j => nth (i + rr * j) h zero) (seq 0 cc) in
    map (fun v => div v (fold_left add row zero)) row.
  Definition bank_init (rr cc : nat) (B : bank) (h : list O) : bank :=
    if existsb (existsb (fun v => negb (eqb v zero))) B then B              (* 126 *)
    else map (bank_row rr cc h) (seq 0 rr).                                 (* 127-131 *)

  Record poly : Type := mkPoly { pindex : O; prate : O; ps : list O }.

  Definition prate_bad (rr : nat) (rate : O) : bool := (oltb rate zero || oltb (of_nat rr) rate)%bool.

  (** polyphase_rate_filter.py:113-134, __init__ (the instance part). *)
  Definition poly_make (rr cc : nat) (rate : O) : res poly :=
    if prate_bad rr rate then Err ValueError                                (* 121-122 *)
    else Ok (mkPoly zero rate (zeros cc)).                                  (* 132-134 *)

  (** polyphase_rate_filter.py:97-103, the rate setter. *)
  Definition poly_set_rate (rr : nat) (f : poly) (rate : O) : poly * res unit :=
    if prate_bad rr rate then (f, Err ValueError)
    else (mkPoly (if isclose (prate f) rate then pindex f else zero) rate (ps f), Ok tt).

  (** polyphase_rate_filter.py:163-167, the inner loop, on the samples not yet consumed. *)
  Fixpoint poly_consume (rr : nat) (xs : list O) (index : O) (s : list O)
    : O * list O * res (list O) :=
    match xs with
    | [] => (index, s, Ok [])
    | x :: xs' =>
        if oleb (of_nat rr) index                                           (* 163 *)
        then match np_set0 s x with                                         (* 164 *)
             | Err e => (index, s, Err e)
             | Ok s1 => poly_consume rr xs' (sub index (of_nat rr)) (np_shift s1) (* 165-167 *)
             end
        else (index, s, Ok xs)
    end.

  (** polyphase_rate_filter.py:156-167, the outer loop.  [ny] is len(y) - jj.  [None]: the
      loop needs more than [fuel] iterations. *)
  Fixpoint poly_loop (B : bank) (rate : O) (fuel : nat) (xs : list O) (ny : nat) (index : O) (s : list O)
    : option (O * list O * res (list O)) :=
    match xs, ny with
    | x :: _, S ny' =>
        match fuel with
        | 0 => None
        | S fuel' =>
            if oltb index (of_nat (length B))                               (* 157 *)
            then
              let kk := Z.min (rnd index) (Z.of_nat (length B) - 1) in      (* 158 *)
              let index1 := add index (div (of_nat (length B)) rate) in     (* 159 *)
              match np_set0 s x with                                        (* 160 *)
              | Err e => Some (index1, s, Err e)
              | Ok s1 =>
                  match bind (py_nth B kk) (fun row => np_dot row s1) with  (* 161 *)
                  | Err e => Some (index1, s1, Err e)
                  | Ok y =>
                      match poly_consume (length B) xs index1 s1 with
                      | (i2, s2, Err e) => Some (i2, s2, Err e)
                      | (i2, s2, Ok xs2) =>
                          match poly_loop B rate fuel' xs2 ny' i2 s2 with
                          | None => None
                          | Some (i3, s3, Err e) => Some (i3, s3, Err e)
                          | Some (i3, s3, Ok ys) => Some (i3, s3, Ok (y :: ys))
                          end
                      end
                  end
              end
            else
              match poly_consume (length B) xs index s with
              | (i2, s2, Err e) => Some (i2, s2, Err e)
              | (i2, s2, Ok xs2) => poly_loop B rate fuel' xs2 ny i2 s2
              end
        end
    | _, _ => Some (index, s, Ok [])
    end.

  (** polyphase_rate_filter.py:136-168. *)
  Definition poly_filter (B : bank) (f : poly) (x : list O) : option (poly * res (list O)) :=
    if Nat.eqb (length x) 0 then Some (f, Err ValueError)                   (* 150-151 *)
    else
      let ny := rnd (mul (of_nat (length x)) (prate f)) in                  (* 152 *)
      if (ny <? 0)%Z then Some (f, Err ValueError)
      else match poly_loop B (prate f) (length x + Z.to_nat ny) x (Z.to_nat ny) (pindex f) (ps f) with
           | None => None
           | Some (i, s, y) => Some (mkPoly i (prate f) s, y)               (* 168 *)
           end.

  (** polyphase_rate_filter.py:170-181. *)
  Definition poly_reset (f : poly) (x : option O) : poly * res unit :=
    match x with
    | None => (f, Err ValueError)
    | Some v => (mkPoly (pindex f) (prate f) (map (fun _ => v) (ps f)), Ok tt)
    end.
End Polyphase.
Arguments poly : clear implicits.
Arguments bank : clear implicits.
