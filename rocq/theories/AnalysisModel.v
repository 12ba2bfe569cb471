(** Model of the analysis methods: FirFilter.delay and FirFilter.roots
    (diamondback/filters/fir_filter.py:213-240 and 304-318), IirFilter.response,
    IirFilter.delay and IirFilter.roots (diamondback/filters/iir_filter.py:256-286 and
    329-373).  Exact arithmetic over the complex numbers. *)
From Coq Require Import List Arith ZArith Bool Reals.
From Coquelicot Require Import Complex.
From Verif Require Import Base Instances FirModel IirModel PolyC.
Import ListNotations.
Set Asymmetric Patterns.
Open Scope R_scope.

(** numpy.concatenate(([1.0], -self.a[1:])), iir_filter.py:278, 350, 370 *)
Definition denominator (a : list C) : list C := RtoC 1 :: map Copp (tl a).

(** The sample points of freqz and group_delay with whole = True: e^{-j 2 pi k / L}. *)
Definition unit_points (L : nat) : list C :=
  map (fun k => cis (- (2 * PI * INR k / INR L))) (seq 0 L).

(** scipy.signal.freqz(b, a, L, True)[1], by its documentation. *)
Definition freqz_ratio (b a : list C) (L : nat) : list C :=
  map (fun z => Cdiv (pe b z) (pe a z)) (unit_points L).

(** iir_filter.py:343-354 *)
Definition iir_response (f : iir CA) (length count : Z) : res (list C * list R) :=
  if (length <=? 0)%Z then Err ValueError
  else if (count <=? 0)%Z then Err ValueError
  else
    let L := Z.to_nat length in
    Ok (map (fun v => Cpow v (Z.to_nat count)) (rotate_half (freqz_ratio (ib f) (denominator (ia f)) L)),
        linspace (-1) (1 - 2 / INR L) L).

Section Delay.
  (** scipy.signal.group_delay replaces the values where its denominator is (close to)
      zero by 0; which values count as close differs between versions of scipy. *)
  Variable singular : C -> bool.

  (** c * numpy.arange(c.size) *)
  Definition ramp (c : list C) : list C :=
    map (fun p => Cmult (fst p) (RtoC (INR (snd p)))) (combine c (seq 0 (length c))).

  (** scipy.signal.group_delay((b, a), L, True)[1]:
      c = convolve(b, conjugate(a[::-1])); real(polyval(ramp c) / polyval(c)) - a.size + 1 *)
  Definition group_delay (b a : list C) (L : nat) : list R :=
    let c := convC b (map Cconj (rev a)) in
    map (fun z => if singular (pe c z) then 0
                  else fst (Cdiv (pe (ramp c) z) (pe c z)) - INR (length a) + 1) (unit_points L).

  (** fir_filter.py:237 *)
  Definition extrapolate (y : list R) : list R :=
    match y with
    | _ :: y1 :: y2 :: _ => (y1 * 2 - y2) :: tl y
    | _ => y
    end.

  (** fir_filter.py:227-240 *)
  Definition fir_delay (f : fir CA) (length count : Z) : res (list R * list R) :=
    if (length <=? 0)%Z then Err ValueError
    else if (count <=? 0)%Z then Err ValueError
    else
      let L := Z.to_nat length in
      let y := map (fun v => v * IZR count) (rotate_half (group_delay (fb f) [RtoC 1] L)) in
      Ok (if (2 <? length)%Z then extrapolate y else y, linspace (-1) (1 - 2 / INR L) L).

  (** min(abs(y)) and max(abs(y)) of a non-empty array *)
  Definition least (y : list R) : R := match y with [] => 0 | v :: r => fold_left (fun m v => Rmin m (Rabs v)) r (Rabs v) end.
  Definition most (y : list R) : R := match y with [] => 0 | v :: r => fold_left (fun m v => Rmax m (Rabs v)) r (Rabs v) end.
  (** numpy.sign *)
  Definition sign (v : R) : R := if Rltb 0 v then 1 else if Rltb v 0 then -1 else 0.

  (** iir_filter.py:282-283 (284-285): one end of six values *)
  Definition level_end (y : list R) : list R :=
    if Rltb (least y * 10) (most y) then map (fun v => sign v * least y) y else y.

  (** iir_filter.py:281-285 *)
  Definition level_ends (y : list R) : list R :=
    let y := level_end (firstn 6 y) ++ skipn 6 y in
    firstn (length y - 6) y ++ level_end (skipn (length y - 6) y).

  (** iir_filter.py:270-286 *)
  Definition iir_delay (f : iir CA) (length count : Z) : res (list R * list R) :=
    if (length <=? 0)%Z then Err ValueError
    else if (count <=? 0)%Z then Err ValueError
    else
      let L := Z.to_nat length in
      let y := map (fun v => v * IZR count) (rotate_half (group_delay (ib f) (denominator (ia f)) L)) in
      Ok (if (6 <? length)%Z then level_ends y else y, linspace (-1) (1 - 2 / INR L) L).
End Delay.

Section Roots.
  Variable roots : list C -> list C.              (* numpy.roots *)
  Variable argsort : list R -> list nat.          (* numpy.argsort *)

  (** numpy.tile(l, count): an empty array stays empty, otherwise a negative count is a
      ValueError. *)
  Definition tile (l : list C) (count : Z) : res (list C) :=
    match l with
    | [] => Ok []
    | _ => if (count <? 0)%Z then Err ValueError else Ok (concat (repeat l (Z.to_nat count)))
    end.

  (** z[numpy.argsort(abs(z))] *)
  Definition by_magnitude (z : list C) : list C :=
    map (fun i => nth i z (RtoC 0)) (argsort (map Cmod z)).

  (** fir_filter.py:304-318 *)
  Definition fir_roots (f : fir CA) (count : Z) : res (list C * list C) :=
    match tile (roots (fb f)) count with
    | Err e => Err e
    | Ok z =>
        let n := (count * (Z.of_nat (length (fb f)) - 1))%Z in
        if (n <? 0)%Z then Err ValueError
        else Ok (repeat (RtoC 0) (Z.to_nat n), by_magnitude z)
    end.

  (** iir_filter.py:356-373 *)
  Definition iir_roots (f : iir CA) (count : Z) : res (list C * list C) :=
    match tile (roots (denominator (ia f))) count with
    | Err e => Err e
    | Ok p =>
        match tile (roots (ib f)) count with
        | Err e => Err e
        | Ok z => Ok (by_magnitude p, by_magnitude z)
        end
    end.
End Roots.
