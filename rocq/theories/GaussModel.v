(** Model of diamondback/models/gaussian_model.py, class GaussianModel (lines 32-119).
    Element arithmetic is any [OArith].  Labels are integers of any width. *)
From Coq Require Import List Arith ZArith Bool.
From Verif Require Import Base Instances RankModel.
Import ListNotations.
Set Asymmetric Patterns.

(** The argument x: an array of rank two with the given number of columns, or an array
    of another rank (line 74 and 107 look at nothing else of it). *)
Inductive xarr (A : Type) : Type :=
| X2 (cols : nat) (rows : list (list A))
| XRank (ndim : nat).
Arguments X2 {A} cols rows. Arguments XRank {A} ndim.

(** The argument y: integers of rank one; integers of higher rank; another dtype;
    rank zero (no len). *)
Inductive yarr : Type :=
| YInt (labels : list Z)
| YIntHigh (len : nat)
| YOther (len : nat)
| YScalar.

(** sorted(set(y)) *)
Fixpoint insert_label (a : Z) (l : list Z) : list Z :=
  match l with
  | [] => [a]
  | b :: r => if (a <? b)%Z then a :: l else if (a =? b)%Z then l else b :: insert_label a r
  end.
Definition sorted_set (y : list Z) : list Z := fold_right insert_label [] y.

(** x[numpy.where(y == c)[0]] *)
Definition select {A} (c : Z) (x : list (list A)) (y : list Z) : list (list A) :=
  map fst (filter (fun p => (snd p =? c)%Z) (combine x y)).

Section Gauss.
  Context {O : OArith}.
  (** numpy.linalg.inv: None stands for LinAlgError *)
  Variable inv : list (list O) -> option (list (list O)).
  (** numpy.argsort of one row *)
  Variable argsort : list O -> list nat.

  Definition count (n : nat) : O := sum (repeat one n).
  Definition column (z : list (list O)) (j : nat) : list O := map (fun r => nth j r zero) z.
  (** z.mean(0) *)
  Definition mean0 (cols : nat) (z : list (list O)) : list O :=
    map (fun j => div (sum (column z j)) (count (length z))) (seq 0 cols).
  (** z - u *)
  Definition centre (z : list (list O)) (u : list O) : list (list O) := map (fun r => map2 sub r u) z.
  (** (d.T @ d) / z.shape[1] + r, line 86 *)
  Definition covariance (cols : nat) (regularize : O) (z : list (list O)) (u : list O) : list (list O) :=
    let d := centre z u in
    map (fun i => map (fun j =>
      add (div (dot (column d i) (column d j)) (count cols))
          (mul regularize (if (i =? j)%nat then one else zero))) (seq 0 cols)) (seq 0 cols).

  Record gauss : Type := mkGauss {
    gmodel : list (list (list O) * list O);   (* covariancei, mean of each class *)
    gregularize : O;
    gshape : option nat                       (* () or (count,) *)
  }.

  (** __init__, lines 49-61, and the regularize setter, lines 39-43 *)
  Definition gauss_make (regularize : O) : res gauss :=
    if oltb regularize zero then Err ValueError else Ok (mkGauss [] regularize None).
  Definition gauss_set_regularize (g : gauss) (regularize : O) : gauss * res unit :=
    if oltb regularize zero then (g, Err ValueError)
    else (mkGauss (gmodel g) regularize (gshape g), Ok tt).

  (** the loop of fit, lines 83-87; appends to the model until inv fails *)
  Fixpoint fit_loop (cols : nat) (x : list (list O)) (y : list Z) (regularize : O) (cs : list Z)
           (m : list (list (list O) * list O)) : list (list (list O) * list O) * res unit :=
    match cs with
    | [] => (m, Ok tt)
    | c :: cs' =>
        let z := select c x y in                                     (* 84 *)
        let u := mean0 cols z in                                     (* 85 *)
        match inv (covariance cols regularize z u) with              (* 86 *)
        | None => (m, Err LinAlgError)
        | Some i => fit_loop cols x y regularize cs' (m ++ [(i, u)]) (* 87 *)
        end
    end.

  Definition ylen (y : yarr) : option nat :=
    match y with YInt l => Some (length l) | YIntHigh n => Some n | YOther n => Some n | YScalar => None end.

  (** lines 63-87 *)
  Definition gauss_fit (g : gauss) (x : xarr O) (y : yarr) : gauss * res unit :=
    match x with
    | XRank _ => (g, Err ValueError)                                 (* 74-75 *)
    | X2 cols rows =>
        if ((length rows =? 0) || (cols =? 0))%nat%bool then (g, Err ValueError)
        else match ylen y with
             | None => (g, Err TypeError)                            (* len() of unsized object *)
             | Some n =>
                 if negb (n =? length rows)%nat then (g, Err ValueError)        (* 76-77 *)
                 else match y with
                      | YOther _ | YScalar => (g, Err TypeError)     (* 78-79 *)
                      | YIntHigh _ => (mkGauss [] (gregularize g) (Some cols), Err TypeError)
                                                                     (* 80-83: unhashable rows *)
                      | YInt l =>
                          let (m, e) := fit_loop cols rows l (gregularize g) (sorted_set l) [] in
                          (mkGauss m (gregularize g) (Some cols), e)
                      end
             end
    end.

  (** max(d @ i @ d.T, 0.0), line 118; Python max keeps its first argument unless the
      second is larger *)
  Definition mahalanobis (p : list (list O) * list O) (x : list O) : O :=
    let d := map2 sub x (snd p) in
    let t := map (fun j => dot d (column (fst p) j)) (seq 0 (length d)) in
    let v := dot t d in
    if oltb v zero then zero else v.
  Definition predict_row (m : list (list (list O) * list O)) (x : list O) : list nat :=
    argsort (map (fun p => mahalanobis p x) m).                      (* 115-119 *)

  (** lines 89-119 *)
  Definition gauss_predict (g : gauss) (x : xarr O) : gauss * res (list (list nat)) :=
    (g,
     if (length (gmodel g) =? 0)%nat then Err ValueError             (* 105-106 *)
     else match x with
          | XRank _ => Err ValueError                                (* 107-108 *)
          | X2 cols rows =>
              if ((length rows =? 0) || (cols =? 0))%nat%bool then Err ValueError
              else match gshape g with
                   | Some c => if (c =? cols)%nat then Ok (map (predict_row (gmodel g)) rows)
                               else Err ValueError                   (* 109-110 *)
                   | None => Err ValueError
                   end
          end).
End Gauss.
Arguments gauss : clear implicits.

(** Rows of an array of rank two all have its number of columns. *)
Definition xwf {A} (x : xarr A) : Prop :=
  match x with X2 cols rows => Forall (fun r => length r = cols) rows | XRank n => n <> 2 end.
