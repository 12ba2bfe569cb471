(** ZTransform.transform (z_transform.py:68-131) called with two views of one float array:
    u = w[iu:iu+nu] and v = w[iv:iv+nv].  Lines 104 and 105 divide in place, so the division of
    v can change u.  Contiguous views only; the arithmetic is that of ZModel.v. *)
From Coq Require Import List Arith ZArith Bool Reals.
From Coquelicot Require Import Complex.
From Verif Require Import Base Instances PolyC ZModel.
Import ListNotations.
Set Asymmetric Patterns.
Open Scope R_scope.

(** w[i:i+n], and the array after an assignment of the values l to w[i:i+len(l)]. *)
Definition slice (w : list R) (i n : nat) : list R := firstn n (skipn i w).
Definition put (w : list R) (i : nat) (l : list R) : list R := firstn i w ++ l ++ skipn (i + length l) w.

Section Z.
  Variable roots : list R -> list C.
  Variable residue : list R -> list R -> list C * list C.

  (** The array w after the call, and the result. *)
  Definition z_views (w : list R) (iu nu iv nv : nat) (frequency : R) (bilinear : bool)
      : list R * res (list R * option (list R)) :=
    let u := mkZ true DFloat (slice w iu nu) in
    let v := mkZ true DFloat (slice w iv nv) in
    if zempty u then (w, Err ValueError)                                  (* 92-93 *)
    else if zempty v then (w, Err ValueError)                             (* 96-97 *)
    else if Rleb frequency 0 then (w, Err ValueError)                     (* 98-99 *)
    else
      let d := last (strip0 (zels u)) 0 in                                (* 100-103 *)
      (* 104: in w itself unless a zero was deleted *)
      let vs := map (fun x => x / d) (strip0 (zels v)) in
      let w1 := if shared v then put w iv vs else w in
      (* 105: u is read again *)
      let us := if shared u then slice w1 iu nu else strip0 (zels u) in
      let us := map (fun x => x / last us 0) us in
      let w2 := if shared u then put w1 iu us else w1 in
      let vs := if shared v then slice w2 iv nv else vs in
      let t := 1 / (PI * frequency) in                                    (* 106 *)
      (w2, rmap z_normal (if bilinear then z_bilinear roots t us vs else z_impulse residue t us vs)).
End Z.
