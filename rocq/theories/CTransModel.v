(** Model of diamondback/transforms/complex_transform.py, class ComplexTransform
    (lines 62-108).  Exact arithmetic; elements are complex numbers (a real array has
    elements with zero imaginary part).  numpy.linalg.inv is the exact inverse. *)
From Coq Require Import List Arith ZArith Bool Reals.
From Coquelicot Require Import Complex.
From Verif Require Import Base Instances PolyC.
Import ListNotations.
Set Asymmetric Patterns.
Open Scope R_scope.

(** An array argument by its number of dimensions: none, one, two (the number of
    columns and the rows), or more (with its first dimension).  A sequence that is
    not an ndarray is converted by numpy.array first (line 86); one that is ragged
    makes that call raise a ValueError ([Ragged]). *)
Inductive ndarr : Type :=
| Scalar
| Vec (x : list C)
| Mat (cols : nat) (x : list (list C))
| Higher (first : nat)
| Ragged.

(** lines 65-67 *)
Definition COEFFICIENT : list (list R) :=
  map (map (Rmult (2 / 3)))
    [[1; - (1 / 2); - (1 / 2)]; [0; 1 / 2 * sqrt 3; - (1 / 2) * sqrt 3]; [1; 1; 1]].
(** line 68 *)
Definition GAIN : C := Cmult (RtoC (sqrt (1 / 3))) (cis (- PI / 6)).

(** numpy.matmul of a real matrix and a matrix with [cols] columns *)
Definition matmul (m : list (list R)) (cols : nat) (x : list (list C)) : list (list C) :=
  map (fun row => map (fun j => csum (map2 (fun a r => Cmult (RtoC a) (nth j r (RtoC 0))) row x)) (seq 0 cols)) m.

(** numpy.linalg.inv of a 3 x 3 matrix: the adjugate over the determinant *)
Definition at2 (m : list (list R)) (i j : nat) : R := nth j (nth i m []) 0.
Definition cof (m : list (list R)) (i j : nat) : R :=
  let i1 := ((i + 1) mod 3)%nat in let i2 := ((i + 2) mod 3)%nat in
  let j1 := ((j + 1) mod 3)%nat in let j2 := ((j + 2) mod 3)%nat in
  at2 m i1 j1 * at2 m i2 j2 - at2 m i1 j2 * at2 m i2 j1.
Definition det3 (m : list (list R)) : R :=
  at2 m 0 0 * cof m 0 0 + at2 m 0 1 * cof m 0 1 + at2 m 0 2 * cof m 0 2.
Definition inv3 (m : list (list R)) : list (list R) :=
  map (fun i => map (fun j => cof m j i / det3 m) (seq 0 3)) (seq 0 3).

(** transform, lines 71-108.  numpy.array of blocks of shapes (1, N), (1, N), (N,)
    (lines 100-103, a matrix with one row) raises a ValueError. *)
Definition ct_transform (x : ndarr) (neutral : bool) : res ndarr :=
  match x with
  | Ragged => Err ValueError                                              (* 86 *)
  | Scalar => Err TypeError                                               (* 87: len of a 0-d array *)
  | Higher _ => Err ValueError                                            (* 87-88 *)
  | Vec v =>
      if (length v =? 0)%nat then Err ValueError                          (* 87-88 *)
      else
        let v := if neutral then v else map (fun a => Cdiv a GAIN) v in   (* 96-98 *)
        let cols := length v in
        Ok (Mat cols (matmul (inv3 COEFFICIENT) cols
              [map (fun a => RtoC (fst a)) v; map (fun a => RtoC (snd a)) v; repeat (RtoC 0) cols]))  (* 99-102 *)
  | Mat cols m =>
      let rows := length m in
      if (rows =? 0)%nat then Err ValueError                              (* 87-88 *)
      else if negb ((rows =? 1) || (rows =? 3))%nat || (cols =? 0)%nat then Err ValueError   (* 93-94 *)
      else if (rows =? 1)%nat then Err ValueError                         (* 99-102 *)
      else
        let v := matmul COEFFICIENT cols m in                             (* 104 *)
        let y := map2 (fun a b => Cplus a (Cmult Ci b)) (nth 0 v []) (nth 1 v []) in  (* 105 *)
        Ok (Vec (if neutral then y else map (fun a => Cmult a GAIN) y))   (* 106-107 *)
  end.
