(** diamondback/filters/rank_filter.py, RankFilter as the sequence of its accesses to the
    object (see ThreadModel.v).  Line 88 reads the registers twice, for the order and for the
    values, and then the index. *)
From Coq Require Import List Arith ZArith Bool.
From Verif Require Import Base Instances FirModel RankModel ThreadModel.
Import ListNotations.
Set Asymmetric Patterns.

Section RankCode.
  Context {O : OArith}.
  Variable argsort : list O -> list nat.
  Inductive rank_answer : Type := RSamples (r : res (list O)) | RDone (r : res unit).
  Definition rank_with_s (r : rank O) (s : list O) : rank O := mkRank (with_s (rfir r) s) (rindex r).

  (** rank_filter.py:86-91 *)
  Fixpoint rank_loop (dtx : dtype) (x y : list O) : code (rank O) rank_answer :=
    match x with
    | [] => Ret (RSamples (Ok y))
    | v :: x' =>
        let put (r : rank O) := np_set0 (fs (rfir r)) (cast (fdt (rfir r)) v) in
        Act (fun r => match put r with Ok s => rank_with_s r s | Err _ => r end)                     (* 87 *)
          (fun r => match put r with
            | Err e => Ret (RSamples (Err e))
            | Ok _ => peek (fun r => let p := argsort (map oabs (fs (rfir r))) in                    (* 88 *)
                peek (fun r => match np_take (fs (rfir r)) p with
                  | Err e => Ret (RSamples (Err e))
                  | Ok w => peek (fun r => match py_nth w (rindex r) with
                      | Err e => Ret (RSamples (Err e))
                      | Ok u => poke (fun r => rank_with_s r (np_shift_gt1 (fs (rfir r))))           (* 89-90 *)
                                  (rank_loop dtx x' (y ++ [cast dtx u]))
                      end)
                  end))
            end)
    end.
  (** rank_filter.py:69-91, fir_filter.py:266-277 (one access) and rank_filter.py:49-53 *)
  Definition rank_code (c : rank_op O) : code (rank O) rank_answer :=
    match c with
    | RFilter dtx x => if Nat.eqb (length x) 0 then Ret (RSamples (Err ValueError)) else rank_loop dtx x []
    | RReset v => Act (fun r => fst (rank_reset r v)) (fun r => Ret (RDone (snd (rank_reset r v))))
    | RIndex i => peek (fun r =>
        if ((i <? 0) || (Z.of_nat (length (fs (rfir r))) - 1 <? i))%Z%bool then Ret (RDone (Err ValueError))
        else poke (fun r => mkRank (rfir r) i) (Ret (RDone (Ok tt))))
    end.
  (** the same calls without interruption *)
  Definition rank_do (r : rank O) (c : rank_op O) : rank O * rank_answer :=
    match c with
    | RFilter dtx x => let (r', y) := rank_filter argsort r dtx x in (r', RSamples y)
    | RReset v => let (r', y) := rank_reset r v in (r', RDone y)
    | RIndex i => let (r', y) := rank_set_index r i in (r', RDone y)
    end.
End RankCode.
Arguments rank_answer O : clear implicits.
