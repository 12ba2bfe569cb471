(** ComplexTransform.transform (transforms/complex_transform.py:71-108) in IEEE doubles with
    both values of neutral.  GAIN (line 68) is a parameter, as are the parameters of
    CTransDoubleModel.v.  A real vector counts as complex with imaginary part 0. *)
From Coq Require Import List Arith Bool Floats.
From Verif Require Import Base AdaptDoubleModel CTransDoubleModel.
Import ListNotations.
Set Asymmetric Patterns.

Section Line.
  Variable d : list float -> list float -> float.
  Variable root3 : float.
  Variable inv : list (list float).
  Variable gain : cf.

  Definition ctL_transform (x : ndF) (neutral : bool) : res ndF :=
    match x with
    | VecF v =>
        let v := if neutral then v else map (fun a => cdivF a gain) v in         (* 96-98 *)
        ctF_transform d root3 inv (VecF v)                                       (* 87-88, 99-102 *)
    | MatF cols m =>
        match ctF_transform d root3 inv (MatF cols m) with                       (* 87-94, 104-105 *)
        | Ok (VecF y) => Ok (VecF (if neutral then y else map (fun a => cmulF a gain) y))  (* 106-107 *)
        | r => r
        end
    end.
End Line.
