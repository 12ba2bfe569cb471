(** diamondback/filters/polynomial_rate_filter.py, lines 56-138, as accesses to the object
    (ThreadModel.v).  filter reads the rate up to four times and the order once, or once more
    for each fit. *)
From Coq Require Import List Arith ZArith Bool.
From Verif Require Import Base Instances CalculusModel PolyphaseModel PolynomialModel ThreadModel.
Import ListNotations.
Set Asymmetric Patterns.

Inductive prcall (O : OArith) : Type := PrFilter (x : list O) | PrRate (r : O) | PrOrder (k : Z).
Arguments PrFilter {O} x. Arguments PrRate {O} r. Arguments PrOrder {O} k.
Section Code.
  Context {O : OArith}.
  Variable rnd trunc : O -> Z.
  Variable polyfit : list O -> list O -> Z -> list O.
  (** numpy.linspace(0, stop, num), num >= 0 *)
  Variable linspace : Z -> nat -> list O.
  Definition prout : Type := res (list O).
  (** lines 128-138, as [prate_outer] *)
  Fixpoint pr_outer (u : list O) (c : nat) (xs : list O) (ny : nat) (v index : O) (out : list O) : code (prate O) prout :=
    match c with
    | 0 => Ret (Ok out)
    | S c' =>
        if oltb index one                                                                  (* 129 *)
        then peek (fun g =>                                                                (* 130 *)
          let '(ny', index', ys) := prate_inner ny (polyfit u (firstn 4 xs) (qorder g)) v index in (* 131-134 *)
          pr_outer u c' (tl xs) ny' v (sub index' one) (out ++ ys))                        (* 135-136 *)
        else pr_outer u c' (tl xs) ny v (sub index one) out
    end.
  Definition pr_code (a : prcall O) : code (prate O) prout :=
    match a with
    | PrRate r => if oltb r zero then Ret (Err ValueError)                                 (* 70-74 *)
                  else poke (fun g => mkPrate r (qorder g)) (Ret (Ok []))
    | PrOrder k => if (k <=? 0)%Z then Ret (Err ValueError)                                (* 60-64 *)
                   else poke (fun g => mkPrate (qrate g) k) (Ret (Ok []))
    | PrFilter x =>
        if Nat.ltb (length x) 2 then Ret (Err ValueError)                                  (* 107-108 *)
        else peek (fun g1 => let jj := rnd (mul (of_nat (length x)) (qrate g1)) in         (* 109-110 *)
        peek (fun g2 =>                                                                    (* 111 *)
        if (qorder g2 =? 1)%Z then
          let x1 := x ++ [sub (mul (of_Z 2) (last1 x)) (last2 x)] in                       (* 112 *)
          let count := fun g : prate O => trunc (add (mul (of_nat (length x1)) (qrate g)) (div one (of_Z 2))) in
          peek (fun g3 => peek (fun g4 =>                                                  (* 114 *)
          if (count g4 <? 0)%Z then Ret (Err ValueError)
          else peek (fun g5 =>
            let v := map (fun t => div t (qrate g5)) (linspace (count g3 - 1) (Z.to_nat (count g4))) in
            let y := map (np_interp (combine (map of_nat (seq 0 (length x1))) x1)) v in    (* 115 *)
            Ret (Ok (firstn (Z.to_nat (Z.min jj (Z.of_nat (length y)))) y)))))             (* 137 *)
        else if (jj <? 0)%Z then Ret (Err ValueError)                                      (* 117 *)
        else
          let x1 := [sub (mul (of_Z 2) (nth 0 x zero)) (nth 1 x zero)] ++ x ++
                    [sub (mul (of_Z 2) (last1 x)) (last2 x);
                     sub (mul (of_Z 3) (last1 x)) (mul (of_Z 2) (last2 x))] in             (* 118-124 *)
          peek (fun g3 => if eqb (qrate g3) zero then Ret (Err ZeroDivisionError)          (* 125 *)
            else pr_outer [of_Z (-1); of_Z 0; of_Z 1; of_Z 2] (length x) x1 (Z.to_nat jj) (div one (qrate g3)) zero [])))
    end.
  (** the call made alone; setters return no samples *)
  Definition pr_do (g : prate O) (a : prcall O) : prate O * prout :=
    let none := fun p : prate O * res unit => (fst p, rmap (fun _ => []) (snd p)) in
    match a with
    | PrFilter x => (g, prate_filter rnd trunc polyfit g x)
    | PrRate r => none (prate_set_rate g r)
    | PrOrder k => none (prate_set_order g k)
    end.
End Code.
Arguments prout O : clear implicits.
