(** Model of diamondback/models/gaussian_mixture_model.py, class GaussianMixtureModel
    (lines 33-152).  The estimator sklearn.mixture.GaussianMixture is a parameter. *)
From Coq Require Import List Arith ZArith Bool.
From Verif Require Import Base Instances RankModel GaussModel.
Import ListNotations.
Set Asymmetric Patterns.

Section Gmm.
  Context {O : OArith}.
  (** One mixture component: precisions_[kk], means_[kk], weights_[kk]. *)
  Definition component : Type := (list (list O) * list O * O)%type.
  (** GaussianMixture(n_components, max_iter, reg_covar).fit(z), lines 107-113: the
      components it learns, or the exception it raises. *)
  Variable sk_fit : Z -> Z -> O -> list (list O) -> res (list component).
  Variable expf : O -> O.                     (* numpy.exp *)
  Variable argsort : list O -> list nat.

  Record gmm : Type := mkGmm {
    mmodel : list (list component);
    morder : Z;
    mindex : Z;
    mregularize : O;
    mshape : option nat
  }.

  (** lines 64-84 *)
  Definition gmm_make (order index : Z) (regularize : O) : res gmm :=
    if (order <=? 0)%Z then Err ValueError
    else if (index <=? 0)%Z then Err ValueError
    else if oltb regularize zero then Err ValueError
    else Ok (mkGmm [] order index regularize None).
  (** lines 40-44 *)
  Definition gmm_set_index (g : gmm) (index : Z) : gmm * res unit :=
    if (index <=? 0)%Z then (g, Err ValueError)
    else (mkGmm (mmodel g) (morder g) index (mregularize g) (mshape g), Ok tt).
  (** lines 54-58 *)
  Definition gmm_set_regularize (g : gmm) (regularize : O) : gmm * res unit :=
    if oltb regularize zero then (g, Err ValueError)
    else (mkGmm (mmodel g) (morder g) (mindex g) regularize (mshape g), Ok tt).

  (** the loop of fit, lines 105-114 *)
  Fixpoint gmm_loop (fit : list (list O) -> res (list component)) (x : list (list O)) (y : list Z) (cs : list Z)
           (m : list (list component)) : list (list component) * res unit :=
    match cs with
    | [] => (m, Ok tt)
    | c :: cs' => match fit (select c x y) with
                  | Err e => (m, Err e)
                  | Ok k => gmm_loop fit x y cs' (m ++ [k])
                  end
    end.
  (** lines 86-114 *)
  Definition gmm_fit (g : gmm) (x : xarr O) (y : yarr) : gmm * res unit :=
    match x with
    | XRank _ => (g, Err ValueError)                                 (* 97-98 *)
    | X2 cols rows =>
        if ((length rows =? 0) || (cols =? 0))%nat%bool then (g, Err ValueError)
        else match ylen y with
             | None => (g, Err TypeError)
             | Some n =>
                 if negb (n =? length rows)%nat then (g, Err ValueError)        (* 99-100 *)
                 else match y with
                      | YOther _ | YScalar => (g, Err TypeError)     (* 101-102 *)
                      | YIntHigh _ => (mkGmm [] (morder g) (mindex g) (mregularize g) (Some cols), Err TypeError)
                      | YInt l =>                                    (* 103-114 *)
                          let (m, e) := gmm_loop (sk_fit (morder g) (mindex g) (mregularize g)) rows l (sorted_set l) [] in
                          (mkGmm m (morder g) (mindex g) (mregularize g) (Some cols), e)
                      end
             end
    end.

  (** lines 145-151: the inner loop over the first [order] components *)
  Definition gmm_score (order : Z) (k : list component) (x : list O) : O :=
    fold_left (fun acc c =>
      add acc (mul (snd c) (expf (mul (opp (div one (add one one))) (mahalanobis (fst c) x)))))
      (firstn (Z.to_nat order) k) zero.
  Definition gmm_row (g : gmm) (x : list O) : list nat :=
    rev (argsort (map (fun k => gmm_score (morder g) k x) (mmodel g))).   (* 142-152 *)
  (** lines 116-152 *)
  Definition gmm_predict (g : gmm) (x : xarr O) : gmm * res (list (list nat)) :=
    (g,
     if (length (mmodel g) =? 0)%nat then Err ValueError             (* 133-134 *)
     else match x with
          | XRank _ => Err ValueError                                (* 135-136 *)
          | X2 cols rows =>
              if ((length rows =? 0) || (cols =? 0))%nat%bool then Err ValueError
              else match mshape g with
                   | Some c => if (c =? cols)%nat then Ok (map (gmm_row g) rows)
                               else Err ValueError                   (* 137-138 *)
                   | None => Err ValueError
                   end
          end).
End Gmm.
Arguments gmm : clear implicits. Arguments component : clear implicits.
