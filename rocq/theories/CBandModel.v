(** Model of /repo/diamondback/filters/complex_bandpass_filter.py and
    /repo/diamondback/filters/complex_frequency_filter.py, in exact complex arithmetic. *)
From Coq Require Import List Arith ZArith Bool Reals.
From Coquelicot Require Import Complex.
From Verif Require Import Base Instances FirModel CExpModel.
Import ListNotations.
Set Asymmetric Patterns.
Open Scope R_scope.

Definition rate_bad (r : R) : bool := (Rltb r 0 || Rltb 1 r)%bool.
Definition frequency_bad (f : R) : bool := (Rltb f (-1) || Rltb 1 f)%bool.
(** numpy.isclose(x, 0.0): |x| <= 1e-8. *)
Definition near0 (z : C) : bool := Rleb (Cmod z) (1 / 100000000).
(** numpy.iscomplex: a non-zero imaginary part. *)
Definition has_imag (z : C) : bool := negb (Reqb (snd z) 0).

Section Adaptive.
  (** scipy.signal.hilbert, the analytic signal of a real signal. *)
  Variable hilbert : list C -> list C.

  (** complex_bandpass_filter.py:120-121, complex_frequency_filter.py:123-124. *)
  Definition analytic (d : list C) : list C := if existsb has_imag d then d else hilbert d.

  (** ** ComplexBandpassFilter: the FirFilter part (b and s of one element), the internal
      ComplexExponentialFilter (its phase), the frequency and the rate. *)
  Record cband : Type := mkCband { bfir : fir CA; bphase : R; bfreq : R; brate : R }.

  (** numpy.finfo(float).eps = 2^-52. *)
  Definition eps : R := / 2 ^ 52.

  (** complex_bandpass_filter.py:80-96, __init__. *)
  Definition cband_make (f r : R) : res cband :=
    if frequency_bad f then Err ValueError                                  (* 89-90 *)
    else if rate_bad r then Err ValueError                                  (* 91-92 *)
    else match @fir_make CA (mkArr DComplex [RtoC eps]) (mkArr DComplex (zeros 1)) with (* 93 *)
         | Err e => Err e
         | Ok fir => match @cexp_make RO 0 with                             (* 94 *)
                     | Err e => Err e
                     | Ok p => Ok (mkCband fir p f r)                       (* 95-96 *)
                     end
         end.

  (** complex_bandpass_filter.py:64-68 and 74-78, the setters. *)
  Definition cband_set_frequency (g : cband) (f : R) : cband * res unit :=
    if frequency_bad f then (g, Err ValueError) else (mkCband (bfir g) (bphase g) f (brate g), Ok tt).
  Definition cband_set_rate (g : cband) (r : R) : cband * res unit :=
    if rate_bad r then (g, Err ValueError) else (mkCband (bfir g) (bphase g) (bfreq g) r, Ok tt).

  (** complex_bandpass_filter.py:128-132: coefficient after the loop and the triples
      (y, e, b). *)
  Fixpoint cband_loop (r : R) (b : C) (xs ds : list C) : C * list (C * C * C) :=
    match xs, ds with
    | x :: xs', d :: ds' =>
        let y := Cmult x b in                                               (* 129 *)
        let e := Cminus d y in                                              (* 130 *)
        let b' := Cplus b (Cmult (Cmult (RtoC r) e) (Cconj x)) in           (* 132 *)
        let '(b2, out) := cband_loop r b' xs' ds' in
        (b2, (y, e, b) :: out)
    | _, _ => (b, [])
    end.

  (** complex_bandpass_filter.py:98-133. *)
  Definition cband_filter (g : cband) (d : list C) : cband * res (list (C * C * C)) :=
    if Nat.eqb (length d) 0 then (g, Err ValueError)                        (* 118-119 *)
    else
      let d' := analytic d in                                               (* 120-121 *)
      match cexp_filterR (bphase g) (real_sig (repeat (1 * bfreq g)%R (length d'))) with (* 122 *)
      | (p, Err e) => (mkCband (bfir g) p (bfreq g) (brate g), Err e)
      | (p, Ok x) =>
          match fb (bfir g) with
          | b :: t =>
              let '(b2, out) := cband_loop (brate g) b x d' in
              (mkCband (mkFir (fdt (bfir g)) (b2 :: t) (fs (bfir g))) p (bfreq g) (brate g), Ok out)
          | [] => (mkCband (bfir g) p (bfreq g) (brate g), Err IndexError)
          end
      end.

  (** reset is inherited (fir_filter.py:266-277). *)
  Definition cband_reset (g : cband) (x : option C) : cband * res unit :=
    let '(f, o) := @fir_reset CA (bfir g) x in (mkCband f (bphase g) (bfreq g) (brate g), o).

  (** ** ComplexFrequencyFilter *)
  Record cfreq : Type := mkCfreq { ffir : fir CA; ffreq : R; frate : R }.

  (** complex_frequency_filter.py:84-99, __init__. *)
  Definition cfreq_make (f r : R) : res cfreq :=
    if frequency_bad f then Err ValueError                                  (* 93-94 *)
    else if rate_bad r then Err ValueError                                  (* 95-96 *)
    else match @fir_make CA (mkArr DComplex [RtoC 1]) (mkArr DComplex [RtoC 1]) with (* 97 *)
         | Err e => Err e
         | Ok fir => Ok (mkCfreq fir f r)                                   (* 98-99 *)
         end.

  (** complex_frequency_filter.py:67-72, the frequency setter. *)
  Definition cfreq_set_frequency (g : cfreq) (f : R) : cfreq * res unit :=
    if frequency_bad f then (g, Err ValueError)
    else match fb (ffir g) with
         | _ :: t => (mkCfreq (mkFir (fdt (ffir g)) (expjR f :: t) (fs (ffir g))) f (frate g), Ok tt)
         | [] => (g, Err IndexError)
         end.
  (** complex_frequency_filter.py:78-82, the rate setter. *)
  Definition cfreq_set_rate (g : cfreq) (r : R) : cfreq * res unit :=
    if rate_bad r then (g, Err ValueError) else (mkCfreq (ffir g) (ffreq g) r, Ok tt).

  (** complex_frequency_filter.py:125-127: division by the magnitude, by one near zero. *)
  Definition normalise (d : C) : C := Cdiv d (RtoC (if near0 (RtoC (Cmod d)) then 1 else Cmod d)).

  (** numpy.angle on exact numbers (no signed zeros), in (-pi, pi]. *)
  Definition angle (z : C) : R :=
    let x := fst z in let y := snd z in
    if Rltb 0 x then atan (y / x)
    else if Rltb x 0 then (if Rleb 0 y then atan (y / x) + PI else atan (y / x) - PI)
    else if Rltb 0 y then PI / 2 else if Rltb y 0 then - (PI / 2) else 0.

  (** complex_frequency_filter.py:133-138: final coefficient and state, triples (y, e, b). *)
  Fixpoint cfreq_loop (r : R) (b s : C) (xs : list C) : C * C * list (R * C * C) :=
    match xs with
    | [] => (b, s, [])
    | x :: xs' =>
        let y := angle b / PI in                                            (* 134 *)
        let e := Cminus x (Cmult b s) in                                    (* 135 *)
        let b' := Cplus b (Cmult (Cmult (RtoC r) e) (Cconj s)) in           (* 137 *)
        let '(b2, s2, out) := cfreq_loop r b' x xs' in                      (* 138 *)
        (b2, s2, (y, e, b) :: out)
    end.

  (** complex_frequency_filter.py:101-139. *)
  Definition cfreq_filter (g : cfreq) (d : list C) : cfreq * res (list (R * C * C)) :=
    if Nat.eqb (length d) 0 then (g, Err ValueError)                        (* 121-122 *)
    else
      let x := map normalise (analytic d) in                                (* 123-127 *)
      match fb (ffir g), fs (ffir g) with
      | b :: bt, s :: st =>
          let '(b2, s2, out) := cfreq_loop (frate g) b s x in
          (mkCfreq (mkFir (fdt (ffir g)) (b2 :: bt) (s2 :: st)) (ffreq g) (frate g), Ok out)
      | _, _ => (g, Err IndexError)
      end.

  (** complex_frequency_filter.py:141-155. *)
  Definition cfreq_reset (g : cfreq) (x : option C) : cfreq * res unit :=
    match x with
    | None => (g, Err ValueError)                                           (* 150-151 *)
    | Some v =>
        match fs (ffir g) with
        | _ :: t =>
            let s0 := if near0 v then RtoC 1 else Cdiv v (RtoC (Cmod v)) in (* 152-155 *)
            (mkCfreq (mkFir (fdt (ffir g)) (fb (ffir g)) (s0 :: t)) (ffreq g) (frate g), Ok tt)
        | [] => (g, Err IndexError)
        end
    end.
End Adaptive.
