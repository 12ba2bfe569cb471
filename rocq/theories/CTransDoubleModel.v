(** ComplexTransform (transforms/complex_transform.py:62-108) in IEEE doubles.

    Real phases and complex samples given as pairs.  numpy.matmul multiplies and adds in an
    unspecified order ([d], see DoubleSpec.v); 3.0 ** 0.5 and numpy.linalg.inv(COEFFICIENT)
    are parameters.  Only neutral=True: without it lines 98 and 107 divide and multiply
    by GAIN.  A real vector counts as complex with imaginary part 0, as v.imag returns. *)
From Coq Require Import List Arith Bool Floats.
From Verif Require Import Base.
Import ListNotations.
Set Asymmetric Patterns.
Local Open Scope float_scope.

Section CT.
  Variable d : list float -> list float -> float.
  Variable root3 : float.
  Variable inv : list (list float).

  (** lines 65-67 *)
  Definition coefF : list (list float) :=
    map (map (PrimFloat.mul (2 / 3))) [[1; -0.5; -0.5]; [0; 0.5 * root3; -0.5 * root3]; [1; 1; 1]].

  Inductive ndF : Type := VecF (x : list (float * float)) | MatF (cols : nat) (x : list (list float)).

  (** lines 99-102, one column *)
  Definition phasesF (a : float * float) : list float := map (fun row => d row [fst a; snd a; 0]) inv.
  (** lines 104-105, one column: (v0 + 0j) + (0 + 1j) * (v1 + 0j) *)
  Definition joinF (col : list float) : float * float :=
    let v0 := d (nth 0 coefF []) col in
    let v1 := d (nth 1 coefF []) col in
    (v0 + (0 * v1 - 1 * 0), 0 + (0 * 0 + 1 * v1)).

  (** lines 71-108 with neutral=True *)
  Definition ctF_transform (x : ndF) : res ndF :=
    match x with
    | VecF v =>
        if (length v =? 0)%nat then Err ValueError                           (* 87-88 *)
        else Ok (MatF (length v) (map (fun k => map (fun a => nth k (phasesF a) 0) v) (seq 0 (length inv))))
    | MatF cols m =>
        let rows := length m in
        if (rows =? 0)%nat then Err ValueError                               (* 87-88 *)
        else if negb ((rows =? 1) || (rows =? 3))%nat || (cols =? 0)%nat then Err ValueError  (* 93-94 *)
        else if (rows =? 1)%nat then Err ValueError                          (* 99-102 *)
        else Ok (VecF (map (fun j => joinF (map (fun r => nth j r 0) m)) (seq 0 cols)))
    end.
End CT.
