(** diamondback/models/gaussian_mixture_model.py, lines 36-152, as accesses to the object
    (ThreadModel.v).  fit reads the three settings again for each class; predict reads the
    list of classes again for each sample and class.  As in ThreadModel.v,
    self._model.append(model) is one access. *)
From Coq Require Import List Arith ZArith Bool.
From Verif Require Import Base Instances RankModel GaussModel GmmModel ThreadModel.
Import ListNotations.
Set Asymmetric Patterns.

Inductive mcall (O : OArith) : Type := MFit (x : xarr O) (y : yarr) | MPredict (x : xarr O) | MIndex (i : Z) | MRegularize (r : O).
Arguments MFit {O} x y. Arguments MPredict {O} x. Arguments MIndex {O} i. Arguments MRegularize {O} r.
Inductive manswer : Type := MFitted (r : res unit) | MPredicted (r : res (list (list nat))) | MSet (r : res unit).
Section Code.
  Context {O : OArith}.
  Variable sk_fit : Z -> Z -> O -> list (list O) -> res (list (component O)).
  Variable expf : O -> O.
  Variable argsort : list O -> list nat.
  Definition with_classes (m : list (list (component O))) (g : gmm O) : gmm O := mkGmm m (morder g) (mindex g) (mregularize g) (mshape g).
  Definition with_shape (n : nat) (g : gmm O) : gmm O := mkGmm (mmodel g) (morder g) (mindex g) (mregularize g) (Some n).
  (** lines 105-114 *)
  Fixpoint mfit_classes (x : list (list O)) (y : list Z) (cs : list Z) : code (gmm O) manswer :=
    match cs with
    | [] => Ret (MFitted (Ok tt))
    | c :: cs' => peek (fun g1 => peek (fun g2 => peek (fun g3 =>                              (* 109, 110, 111 *)
        match sk_fit (morder g1) (mindex g2) (mregularize g3) (select c x y) with              (* 113 *)
        | Err e => Ret (MFitted (Err e))
        | Ok k => poke (fun g => with_classes (mmodel g ++ [k]) g) (mfit_classes x y cs')      (* 114 *)
        end)))
    end.
  (** lines 86-114 *)
  Definition mfit_code (x : xarr O) (y : yarr) : code (gmm O) manswer :=
    match x with
    | XRank _ => Ret (MFitted (Err ValueError))
    | X2 cols rows =>
        if ((length rows =? 0) || (cols =? 0))%nat%bool then Ret (MFitted (Err ValueError))
        else match ylen y with
             | None => Ret (MFitted (Err TypeError))
             | Some n =>
                 if negb (n =? length rows)%nat then Ret (MFitted (Err ValueError))
                 else match y with
                      | YOther _ | YScalar => Ret (MFitted (Err TypeError))
                      | YIntHigh _ => poke (with_classes []) (poke (with_shape cols) (Ret (MFitted (Err TypeError))))
                      | YInt l => poke (with_classes [])                                       (* 103 *)
                                  (poke (with_shape cols) (mfit_classes rows l (sorted_set l)))  (* 104-114 *)
                      end
             end
    end.
  (** lines 143-151 for one sample: the classes [is] still to do, k the number of columns of v *)
  Fixpoint mrow_code (k : nat) (x : list O) (is : list nat) (row : list O) (next : list O -> code (gmm O) manswer) : code (gmm O) manswer :=
    match is with
    | [] => next row
    | i :: is' => peek (fun g => match nth_error (mmodel g) i with
        | None => Ret (MPredicted (Err IndexError))                                            (* 144 *)
        | Some m => peek (fun g =>                                                             (* 145 *)
            if Nat.ltb i k then mrow_code k x is' (row ++ [gmm_score expf (morder g) m x]) next
            else Ret (MPredicted (Err IndexError)))                                            (* 151 *)
        end)
    end.
  Fixpoint mrows_code (k : nat) (rows : list (list O)) (out : list (list nat)) : code (gmm O) manswer :=
    match rows with
    | [] => Ret (MPredicted (Ok out))                                                          (* 152 *)
    | x :: rows' => peek (fun g => mrow_code k x (seq 0 (length (mmodel g))) []                (* 143 *)
        (fun row => mrows_code k rows' (out ++ [rev (argsort (row ++ repeat zero (k - length row)))])))
    end.
  (** lines 116-152; every class appended is trained, so hasattr is true *)
  Definition mpredict_code (x : xarr O) : code (gmm O) manswer :=
    peek (fun g => if (length (mmodel g) =? 0)%nat then Ret (MPredicted (Err ValueError))     (* 133-134 *)
      else match x with
           | XRank _ => Ret (MPredicted (Err ValueError))                                      (* 135-136 *)
           | X2 cols rows =>
               if ((length rows =? 0) || (cols =? 0))%nat%bool then Ret (MPredicted (Err ValueError))
               else peek (fun g => match mshape g with
                    | None => Ret (MPredicted (Err ValueError))                                (* 137-138 *)
                    | Some c => if (c =? cols)%nat then
                        peek (fun g => if (length (mmodel g) =? 0)%nat then Ret (MPredicted (Err RuntimeError))    (* 139-140 *)
                          else peek (fun g => if (length (mmodel g) =? 0)%nat then Ret (MPredicted (Err IndexError))  (* 139 *)
                            else peek (fun g => mrows_code (length (mmodel g)) rows [])))      (* 141 *)
                        else Ret (MPredicted (Err ValueError))
                    end)
           end).
  (** the setters, lines 40-44 and 54-58 *)
  Definition gmm_code (a : mcall O) : code (gmm O) manswer :=
    match a with
    | MFit x y => mfit_code x y
    | MPredict x => mpredict_code x
    | MIndex i => if (i <=? 0)%Z then Ret (MSet (Err ValueError))
                  else poke (fun g => mkGmm (mmodel g) (morder g) i (mregularize g) (mshape g)) (Ret (MSet (Ok tt)))
    | MRegularize r => if oltb r zero then Ret (MSet (Err ValueError))
                       else poke (fun g => mkGmm (mmodel g) (morder g) (mindex g) r (mshape g)) (Ret (MSet (Ok tt)))
    end.
  (** the call made alone *)
  Definition gmm_do (g : gmm O) (a : mcall O) : gmm O * manswer :=
    match a with
    | MFit x y => let (g', r) := gmm_fit sk_fit g x y in (g', MFitted r)
    | MPredict x => let (g', r) := gmm_predict expf argsort g x in (g', MPredicted r)
    | MIndex i => let (g', r) := gmm_set_index g i in (g', MSet r)
    | MRegularize r => let (g', e) := gmm_set_regularize g r in (g', MSet e)
    end.
End Code.
