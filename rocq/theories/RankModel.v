(** Model of /repo/diamondback/filters/rank_filter.py. *)
From Coq Require Import List Arith ZArith Bool Permutation.
From Verif Require Import Base Instances FirModel.
Import ListNotations.
Set Asymmetric Patterns.

(** Python sequence indexing, negative indices count from the end. *)
Definition py_nth {X} (l : list X) (i : Z) : res X :=
  let j := if (i <? 0)%Z then (i + Z.of_nat (length l))%Z else i in
  if ((0 <=? j) && (j <? Z.of_nat (length l)))%Z%bool
  then match nth_error l (Z.to_nat j) with Some v => Ok v | None => Err IndexError end
  else Err IndexError.

(** numpy fancy indexing [l[p]]. *)
Fixpoint np_take {X} (l : list X) (p : list nat) : res (list X) :=
  match p with
  | [] => Ok []
  | i :: p' =>
      match nth_error l i with
      | None => Err IndexError
      | Some v => match np_take l p' with Ok vs => Ok (v :: vs) | Err e => Err e end
      end
  end.

(** Contract of numpy.argsort: a permutation of the indices along which no element is
    below an earlier one.  The sort kind (stability, place of NaNs) is unspecified. *)
Definition is_argsort {O : OArith} (sort : list O -> list nat) : Prop :=
  forall l, Permutation (sort l) (seq 0 (length l)) /\
    forall i j, i < j < length l ->
      oltb (nth (nth j (sort l) 0) l zero) (nth (nth i (sort l) 0) l zero) = false.

Section Rank.
  Context {O : OArith}.
  Variable argsort : list O -> list nat.

  (** A RankFilter: the FirFilter part (b is never read by filter) and the index. *)
  Record rank : Type := mkRank { rfir : fir O; rindex : Z }.

  (** rank_filter.py:55-67, __init__. *)
  Definition rank_make (index order : Z) : res rank :=
    if ((index <? 0) || (order <? index))%Z%bool then Err ValueError       (* 64-65 *)
    else
      let n := Z.to_nat (order + 1) in
      match fir_make (mkArr DFloat (repeat (div one (sum (repeat one n))) n)) (mkArr DFloat []) with (* 66 *)
      | Err e => Err e
      | Ok f => Ok (mkRank f index)                                        (* 67 *)
      end.

  (** rank_filter.py:49-53, the index setter. *)
  Definition rank_set_index (r : rank) (index : Z) : rank * res unit :=
    if ((index <? 0) || (Z.of_nat (length (fs (rfir r))) - 1 <? index))%Z%bool then (r, Err ValueError)
    else (mkRank (rfir r) index, Ok tt).

  (** rank_filter.py:87-90, one iteration.  [dtx] is type(x[0]), the dtype of y. *)
  Definition rank_step (dt dtx : dtype) (index : Z) (s : list O) (x : O) : list O * res O :=
    match np_set0 s (cast dt x) with                                       (* 87 *)
    | Err e => (s, Err e)
    | Ok s1 =>
        match np_take s1 (argsort (map oabs s1)) with                      (* 88 *)
        | Err e => (s1, Err e)
        | Ok w =>
            match py_nth w index with
            | Err e => (s1, Err e)
            | Ok v => (np_shift_gt1 s1, Ok (cast dtx v))                   (* 89-90 *)
            end
        end
    end.

  (** rank_filter.py:69-91. *)
  Definition rank_filter (r : rank) (dtx : dtype) (x : list O) : rank * res (list O) :=
    if Nat.eqb (length x) 0 then (r, Err ValueError)
    else let '(s', y) := run (rank_step (fdt (rfir r)) dtx (rindex r)) (fs (rfir r)) x in
         (mkRank (with_s (rfir r) s') (rindex r), y).

  (** reset is inherited (fir_filter.py:266-277). *)
  Definition rank_reset (r : rank) (x : option O) : rank * res unit :=
    let '(f, o) := fir_reset (rfir r) x in (mkRank f (rindex r), o).

  Inductive rank_op : Type := RFilter (dtx : dtype) (x : list O) | RReset (x : option O) | RIndex (i : Z).
  Definition rank_exec (r : rank) (o : rank_op) : rank :=
    match o with
    | RFilter dtx x => fst (rank_filter r dtx x)
    | RReset x => fst (rank_reset r x)
    | RIndex i => fst (rank_set_index r i)
    end.
End Rank.
Arguments rank O : clear implicits.
Arguments rank_op O : clear implicits.
