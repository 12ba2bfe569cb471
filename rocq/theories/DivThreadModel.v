(** diamondback/models/diversity_model.py, DiversityModel.fit (lines 121-166) as the sequence of
    its accesses to the model, for threads that share one (see ThreadModel.v for what an access
    is).  Simplification: `self.s[k, :] = r` is one access, although Python first looks up
    `self.s` and then stores into it.  `clear` is not a call here. *)
From Coq Require Import List Arith ZArith Bool.
From Verif Require Import Base Instances GaussModel DivModel ThreadModel.
Import ListNotations.
Set Asymmetric Patterns.

Section DivCode.
  Context {O : OArith}.
  Variable big : O.                               (* numpy.finfo(float).max *)
  Variable isclose : O -> O -> bool.              (* numpy.isclose *)
  Let result : Type := res (list (ext O)).

  (** s[k, :] = x[ii, :], lines 149, 155 and 164: what numpy makes of a row index and of a row of [cols]
      numbers for an array of another width *)
  Definition row_error (cols k : nat) (m : diversity O) : option exn :=
    if (k <? length (drows m))%nat
    then if ((cols =? dcols m) || (cols =? 1))%nat%bool then None else Some ValueError
    else Some IndexError.
  Definition row_for (cols : nat) (x : list O) (m : diversity O) : list O :=
    if (cols =? dcols m)%nat then x else repeat (hd zero x) (dcols m).
  Definition put (cols k : nat) (x : list O) (m : diversity O) : diversity O :=
    match row_error cols k m with
    | None => mkDiv (ddist m) (dvalue m) (dcols m) (set_row k (row_for cols x m) (drows m))
    | Some _ => m
    end.

  (** lines 142-145 *)
  Fixpoint count_code (n ii : nat) (k : nat -> code (diversity O) result) : code (diversity O) result :=
    match n with
    | 0 => k ii
    | S n' => peek (fun m => match nth_error (drows m) ii with
        | None => Ret (Err IndexError)
        | Some r => if (dcols m =? 0)%nat then Ret (Err IndexError)
                    else if isclose (hd zero r) big then k ii else count_code n' (S ii) k
        end)
    end.
  (** lines 153-162: every kk takes a copy of self.s *)
  Fixpoint search_code (cols cc : nat) (x : list O) (kks : list nat) (v : ext O) (j : option nat)
      (k : ext O -> option nat -> code (diversity O) result) : code (diversity O) result :=
    match kks with
    | [] => k v j
    | kk :: t => peek (fun m => match row_error cols kk m with
        | Some e => Ret (Err e)
        | None => if (length (drows m) <? cc)%nat then Ret (Err IndexError)
                  else let u := least (ddist m) (set_row kk (row_for cols x m) (drows m)) cc in
                       if above u v then search_code cols cc x t u (Some kk) k else search_code cols cc x t v j k
        end)
    end.
  (** lines 147-166 *)
  Fixpoint fit_loop (cols cc : nat) (rows : list (list O)) (y : list (ext O)) : code (diversity O) result :=
    match rows with
    | [] => Ret (Ok y)
    | x :: r =>
        let report cc := peek (fun m => fit_loop cols cc r (y ++ [dvalue m])) in            (* 165 *)
        peek (fun m => if (cc <? length (drows m))%nat                                       (* 148 *)
          then Act (put cols cc x)                                                           (* 149 *)
                 (fun m => match row_error cols cc m with Some e => Ret (Err e) | None => report (S cc) end)
          else peek (fun m => search_code cols cc x (seq 0 cc) (dvalue m) None (fun v j =>   (* 152 *)
                 peek (fun m => if above v (dvalue m)                                        (* 163 *)
                   then poke (fun m => mkDiv (ddist m) v (dcols m) (drows m))                (* 164 *)
                          (let kk m := match j with Some k => k | None => length (drows m) - 1 end in
                           Act (fun m => put cols (kk m) x m)
                             (fun m => match row_error cols (kk m) m with Some e => Ret (Err e) | None => report cc end))
                   else report cc))))
    end.
  (** lines 133-166 *)
  Definition fit_code (x : xarr O) : code (diversity O) result :=
    match x with
    | XRank _ => Ret (Err ValueError)
    | X2 cols rows =>
        if ((length rows =? 0) || (cols =? 0))%nat%bool then Ret (Err ValueError)
        else let rest : code (diversity O) result :=
               peek (fun m => if negb (cols =? dcols m)%nat then Ret (Err ValueError)        (* 139 *)
                 else peek (fun m => count_code (length (drows m)) 0 (fun cc => fit_loop cols cc rows []))) in
             peek (fun m => if (dcols m =? 0)%nat                                            (* 137 *)
               then peek (fun m => poke (fun m' => mkDiv (ddist m') (dvalue m') cols         (* 138 *)
                                                    (repeat (repeat big cols) (length (drows m)))) rest)
               else rest)
    end.
End DivCode.
