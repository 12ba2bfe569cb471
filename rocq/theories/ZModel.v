(** Model of diamondback/transforms/z_transform.py, class ZTransform (lines 62-131),
    and of the design part of diamondback/filters/iir_filter.py.

    Exact arithmetic: reals and complex numbers.  Two external routines are
    parameters, so that every theorem holds whatever they return or under a
    stated contract: [roots] is numpy.roots (called at lines 108 and 110) and
    [residue] is the pair (r, p) of scipy.signal.residue (line 116).
    Not modelled: complex u or v; u and v sharing memory (ZViewModel.v); u[-1] = 0 and a
    bilinear pole or zero equal to 2t (numpy produces inf/nan there). *)
From Coq Require Import String List Arith ZArith Bool Reals.
From Coquelicot Require Import Complex.
From Verif Require Import Base PyString Instances FirModel PolyC.
Import ListNotations.
Set Asymmetric Patterns.
Open Scope R_scope.

(** An array-like argument: an ndarray or some other sequence, with its dtype. *)
Record zarg : Type := mkZ { zarr : bool; zdt : dtype; zels : list R }.
Definition with_els (u : zarg) (l : list R) : zarg := mkZ (zarr u) (zdt u) l.

(** not x *)
Definition isz (x : R) : bool := Reqb x 0.
(** lines 92 and 96: (not len(u)) or (not u.any()) *)
Definition zempty (u : zarg) : bool := (Nat.eqb (length (zels u)) 0 || forallb isz (zels u))%bool.
(** lines 100-103: while not u[0]: u = numpy.delete(u, 0) *)
Fixpoint strip0 (l : list R) : list R :=
  match l with [] => [] | x :: r => if isz x then strip0 r else l end.
(** The variable u still is the caller's object: an ndarray with nothing deleted. *)
Definition shared (u : zarg) : bool :=
  (zarr u && negb (match zels u with [] => false | x :: _ => isz x end))%bool.
(** /= on an integer array raises a TypeError (casting rule 'same_kind'). *)
Definition is_int (u : zarg) : bool := match zdt u with DInt => true | _ => false end.

Definition rsuml (l : list R) : R := fold_left Rplus l 0.

Section Z.
  Variable roots : list R -> list C.
  Variable residue : list R -> list R -> list C * list C.

  (** lines 109, 111 *)
  Definition bil (t : R) (p : C) : C :=
    Cdiv (Cplus (RtoC 1) (Cdiv p (RtoC (2 * t)))) (Cminus (RtoC 1) (Cdiv p (RtoC (2 * t)))).
  (** numpy.exp of a complex number *)
  Definition cexp (z : C) : C := Cmult (RtoC (exp (fst z))) (cis (snd z)).
  (** line 119: exp(p / t) *)
  Definition imp (t : R) (p : C) : C := cexp (Cdiv p (RtoC t)).

  (** numpy.poly(x).real is a float, not an array, for an empty x (line 114), and
      line 127 then raises a TypeError. *)
  Definition z_bilinear (t : R) (u v : list R) : res (list R * list R) :=
    let p := map (bil t) (roots u) in                                     (* 108-109 *)
    let z := map (bil t) (roots v) in                                     (* 110-111 *)
    let z := z ++ repeat (RtoC 0) (length p - length z) in                (* 112-113 *)
    if (Nat.eqb (length p) 0) then Err TypeError
    else Ok (map fst (cpoly p), map fst (cpoly z)).                       (* 114 *)

  (** lines 120-123: the product of the factors other than ii *)
  Definition others (t : R) (n : nat) (p : list C) (ii : nat) : list C :=
    fold_left (fun q jj => if Nat.eqb jj ii then q
                           else convC q [RtoC 1; Copp (imp t (nth jj p (RtoC 0)))])
      (seq 0 n) [RtoC 1].
  (** line 124: b += r[ii] * q; the first time b is the scalar 0j, which broadcasts *)
  Definition b_add (b : option (list C)) (x : list C) : option (list C) :=
    match b with
    | None => Some (map (Cplus (RtoC 0)) x)
    | Some b => Some (map2 Cplus b x)
    end.
  (** lines 116-126.  len(r) = len(p) for scipy's residue; the loops run over r. *)
  Definition z_impulse (t : R) (u v : list R) : res (list R * list R) :=
    let '(r, p) := residue v u in
    let a := fold_left (fun a ii => convC a [RtoC 1; Copp (imp t (nth ii p (RtoC 0)))])
               (seq 0 (length r)) [RtoC 1] in
    let b := fold_left (fun b ii => b_add b (map (Cmult (nth ii r (RtoC 0))) (others t (length r) p ii)))
               (seq 0 (length r)) None in
    match b with
    | None => Err TypeError                                               (* 125: len(0j) *)
    | Some b => let b := b ++ repeat (RtoC 0) (length a - length b) in    (* 125-126 *)
                Ok (map fst a, map fst b)                                 (* 127 *)
    end.

  (** lines 128-131.  The numerator is [None] when sum(b) = 0 (inf or nan in numpy). *)
  Definition z_normal (ab : list R * list R) : list R * option (list R) :=
    let '(a, b) := ab in
    let a := match a with
             | [] => []
             | a0 :: _ => 0 :: tl (map (fun x => x / - a0) a)
             end in
    let d := rsuml b in
    (a, if isz d then None else Some (map (fun x => x * ((1 - rsuml a) / d)) b)).

  (** ZTransform.transform, lines 68-131.  Returns the caller's u and v after the
      call, and the result. *)
  Definition z_transform (u v : zarg) (frequency : R) (bilinear : bool)
      : zarg * zarg * res (list R * option (list R)) :=
    if zempty u then (u, v, Err ValueError)                               (* 92-93 *)
    else if zempty v then (u, v, Err ValueError)                          (* 96-97 *)
    else if Rleb frequency 0 then (u, v, Err ValueError)                  (* 98-99 *)
    else
      let us := strip0 (zels u) in
      let vs := strip0 (zels v) in
      let d := last us 0 in
      if is_int v then (u, v, Err TypeError)                              (* 104 *)
      else
        let vs := map (fun x => x / d) vs in
        let v' := if shared v then with_els v vs else v in
        if is_int u then (u, v', Err TypeError)                           (* 105 *)
        else
          let us := map (fun x => x / d) us in
          let u' := if shared u then with_els u us else u in
          let t := 1 / (PI * frequency) in                                (* 106 *)
          (u', v', rmap z_normal (if bilinear then z_bilinear t us vs else z_impulse t us vs)).
End Z.

(** ** iir_filter.py: IirFilter._evaluate (207-254) and the design part of
    IirFilter.__init__ (160-191). *)
Definition iir_STYLE : list string := ["Bessel"; "Butterworth"; "Chebyshev"]%string. (* 109 *)

(** Element-wise addition of arrays of equal length. *)
Definition vadd (x y : list R) : list R := map2 Rplus x y.

(** 227-229: the loop ii = 2..order on (u, a), [n] turns left *)
Fixpoint bessel_loop (n : nat) (ii : R) (u a : list R) : list R :=
  match n with
  | O => a
  | S m => let x := vadd (u ++ [0; 0]) (0 :: map (Rmult (2 * ii - 1)) a) in
           bessel_loop m (ii + 1) a x
  end.
Definition bessel (order : nat) : list R := bessel_loop (order - 1) 2 [1] [1; 1].

(** 230-244 *)
Definition butter_factor (order ii : nat) : list R :=
  [1; -2 * cos ((2 * INR ii + INR order - 1) / (2 * INR order) * PI); 1].
Definition butterworth (order : nat) : list R :=
  let a := fold_left (fun a ii => convR a (butter_factor order ii)) (seq 1 (order / 2)) [1] in
  if Nat.odd order then convR a [1; 1] else a.

(** math.asinh *)
Definition asinh (x : R) : R := ln (x + sqrt (x * x + 1)).
(** 245-249; [x] ranges over 1, 3, ..., 2 order - 1 *)
Definition cheby_v (order : nat) : R :=
  asinh (1 / sqrt (Rpower 10 (1 / 10 * (125 / 1000)) - 1)) / INR order.
Definition cheby_pole (order k : nat) : C :=
  let th := PI * INR (2 * k + 1) / (2 * INR order) in
  Cmult (Cmult (Cplus (RtoC (- sinh (cheby_v order) * sin th)) (Cmult Ci (RtoC (cosh (cheby_v order) * cos th)))) (RtoC 2)) (RtoC PI).
Definition chebyshev (order : nat) : list R :=
  map fst (cpoly (map (cheby_pole order) (seq 0 order))).

Definition prototype (style : string) (order : nat) : list R :=
  if String.eqb style "Bessel" then bessel order
  else if String.eqb style "Butterworth" then butterworth order
  else chebyshev order.

Section IirDesign.
  Variable roots : list R -> list C.
  Variable residue : list R -> list R -> list C * list C.
  Variable eps : R.

  (** _evaluate, 207-254.  numpy.poly(-ones(order)) is cpoly of real roots. *)
  Definition iir_evaluate (style : string) (frequency : R) (order : nat) : res (list R * list R) :=
    let bilinear := negb (String.eqb style "Bessel") in
    let a := prototype style order in
    let a := map (fun x => x / last a 0) a in                             (* 250 *)
    let '(_, _, r) := z_transform roots residue (mkZ true DFloat a) (mkZ false DFloat [1]) frequency bilinear in
    rmap (fun ab : list R * option (list R) =>
            let a := fst ab in
            let b := map fst (cpoly (repeat (Copp (RtoC 1)) order)) in    (* 252 *)
            (a, map (fun x => x * ((1 - rsuml a) / rsuml b)) b)) r.       (* 253 *)

  (** 176-179 *)
  Definition iir_err (frequency : R) (count : nat) (uv : list R * list R) : R :=
    let '(u, v) := uv in
    let x := cis (PI * frequency) in
    / sqrt 2 - (Cmod (Cdiv (polyval v x) (polyval (1 :: map Ropp (tl u)) x))) ^ count.

  Definition iir_rate (order count : Z) : R :=
    3 / 100 * (1 - 1 / 2 * (if ((8 <? order) || ((6 <? order) && (1 <? count)))%Z%bool then 1 else 0)).

  (** 160-191.  An exception inside _evaluate is reported as a ValueError; under
      the contracts of [roots] and [residue] there is none. *)
  Definition iir_design (style : string) (frequency : R) (order count : Z) (complement : bool)
      (gain : R) : res (list R * list R) :=
    let style := py_title style in
    if negb (mem_str style iir_STYLE) then Err ValueError
    else if (Rleb frequency 0 || Rleb 1 frequency)%bool then Err ValueError
    else if (order <=? 0)%Z then Err ValueError
    else if (count <=? 0)%Z then Err ValueError
    else
      let frequency := if complement then 1 - frequency else frequency in
      let cand := fun scale => match iir_evaluate style (scale * frequency) (Z.to_nat order) with
                               | Ok uv => Some uv | Err _ => None end in
      match @fir_search RO (list R * list R) cand (iir_err frequency (Z.to_nat count)) eps (10000 * eps)
              (iir_rate order count) 500 1 None with
      | Err e => Err e
      | Ok None => Err IndexError                                          (* a[0] of [] *)
      | Ok (Some ((a, b), _)) =>
          let '(a, b) :=
            if complement
            then let a1 := alternate a in                                  (* 186 *)
                 let b1 := alternate b in                                  (* 187 *)
                 let d := rsuml (alternate b1) / rsuml (alternate (1 :: map Ropp (tl a1))) in
                 (a1, map (fun c => c / d) b1)                             (* 188-190 *)
            else (a, b) in
          Ok (a, map (fun c => c * gain) b)                                (* 191 *)
      end.
End IirDesign.
