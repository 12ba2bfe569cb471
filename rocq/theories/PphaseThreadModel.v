(** diamondback/filters/polyphase_rate_filter.py, lines 97-103 and 136-181, as accesses to the
    object (ThreadModel.v).  The bank B is complete (C163) and does not change.  A slice
    assignment (lines 165, 181) is one access.  With other threads about, an iteration of the
    outer loop may find nothing to do: [spins] bounds how often that may happen in a call, and
    the answer [None] means that it was not enough. *)
From Coq Require Import List Arith ZArith Bool.
From Verif Require Import Base Instances CalculusModel RankModel PolyphaseModel ThreadModel.
Import ListNotations.
Set Asymmetric Patterns.

Inductive ppcall (O : OArith) : Type := PpFilter (x : list O) | PpReset (v : option O) | PpRate (r : O).
Arguments PpFilter {O} x. Arguments PpReset {O} v. Arguments PpRate {O} r.
Section Code.
  Context {O : OArith}.
  Variable rnd : O -> Z.
  Variable isclose : O -> O -> bool.
  Variable B : bank O.
  Variable spins : nat.
  Definition ppout : Type := option (res (list O)).
  Definition set_index (i : O) (g : poly O) : poly O := mkPoly i (prate g) (ps g).
  (** self.s[0] = x *)
  Definition pp_set0 (x : O) (c : code (poly O) ppout) : code (poly O) ppout :=
    Act (fun g => match np_set0 (ps g) x with Ok s => mkPoly (pindex g) (prate g) s | Err _ => g end)
        (fun g => match np_set0 (ps g) x with Ok _ => c | Err e => Ret (Some (Err e)) end).
  (** lines 163-167; [k] goes on with the samples left *)
  Fixpoint pp_consume (xs : list O) (k : list O -> code (poly O) ppout) : code (poly O) ppout :=
    match xs with
    | [] => k []
    | x :: xs' => peek (fun g => if oleb (of_nat (length B)) (pindex g)                    (* 163 *)
        then pp_set0 x                                                                     (* 164 *)
             (poke (fun g => mkPoly (pindex g) (prate g) (np_shift (ps g)))                (* 165 *)
             (peek (fun g => poke (set_index (sub (pindex g) (of_nat (length B))))         (* 166 *)
             (pp_consume xs' k))))                                                         (* 167 *)
        else k xs)
    end.
  (** lines 156-168; [ny] is len(y) - jj *)
  Fixpoint pp_loop (fuel : nat) (xs : list O) (ny : nat) (out : list O) : code (poly O) ppout :=
    match xs, ny with
    | x :: _, S ny' =>
        match fuel with
        | 0 => Ret None
        | S fuel' => peek (fun g1 => if oltb (pindex g1) (of_nat (length B))               (* 157 *)
            then peek (fun g2 =>                                                           (* 158 *)
              let kk := Z.min (rnd (pindex g2)) (Z.of_nat (length B) - 1) in
              peek (fun g3 => peek (fun g4 =>                                              (* 159 *)
              if eqb (prate g4) zero then Ret (Some (Err ZeroDivisionError)) else
              poke (set_index (add (pindex g3) (div (of_nat (length B)) (prate g4))))
              (pp_set0 x                                                                   (* 160 *)
              (peek (fun g5 => match bind (py_nth B kk) (fun row => np_dot row (ps g5)) with (* 161 *)
                | Err e => Ret (Some (Err e))
                | Ok y => pp_consume xs (fun xs2 => pp_loop fuel' xs2 ny' (out ++ [y]))    (* 162-167 *)
                end))))))
            else pp_consume xs (fun xs2 => pp_loop fuel' xs2 ny out))
        end
    | _, _ => Ret (Some (Ok out))                                                          (* 168 *)
    end.
  Definition pp_code (a : ppcall O) : code (poly O) ppout :=
    match a with
    | PpFilter x => if Nat.eqb (length x) 0 then Ret (Some (Err ValueError))               (* 150-151 *)
        else peek (fun g => let ny := rnd (mul (of_nat (length x)) (prate g)) in           (* 152 *)
          if (ny <? 0)%Z then Ret (Some (Err ValueError))
          else pp_loop (length x + Z.to_nat ny + spins) x (Z.to_nat ny) [])                (* 153-168 *)
    | PpReset None => Ret (Some (Err ValueError))                                          (* 170-181 *)
    | PpReset (Some v) => poke (fun g => fst (poly_reset g (Some v))) (Ret (Some (Ok [])))
    | PpRate r => if prate_bad (length B) r then Ret (Some (Err ValueError))               (* 97-100 *)
        else peek (fun g => let c := poke (fun g => mkPoly (pindex g) r (ps g)) (Ret (Some (Ok []))) in (* 101, 103 *)
          if isclose (prate g) r then c else poke (set_index zero) c)                      (* 102 *)
    end.
End Code.
Arguments ppout O : clear implicits.
