(** ComplexBandpassFilter (filters/complex_bandpass_filter.py) and ComplexFrequencyFilter
    (filters/complex_frequency_filter.py) on IEEE doubles, with complex numbers as pairs of
    doubles.  The coefficient and the state have the one element that the constructors give
    them.  hilbert, abs, isclose(., 0.0), angle, exp(1j pi .), fmod and sign are parameters. *)
From Coq Require Import List Arith Bool Floats.
From Verif Require Import Base Instances CExpModel.
Import ListNotations.
Set Asymmetric Patterns.
Local Open Scope float_scope.

Definition cf : Type := float * float.
(** numpy's complex sum, difference, product and conjugate. *)
Definition caddF (x y : cf) : cf := (fst x + fst y, snd x + snd y).
Definition csubF (x y : cf) : cf := (fst x - fst y, snd x - snd y).
Definition cmulF (x y : cf) : cf := (fst x * fst y - snd x * snd y, fst x * snd y + snd x * fst y).
Definition cconjF (x : cf) : cf := (fst x, - snd x).
(** A real operand of a complex operation gets the imaginary part 0. *)
Definition creal (v : float) : cf := (v, 0).
(** numpy's complex division (Smith's algorithm). *)
Definition cdivF (x y : cf) : cf :=
  let '(a, b) := x in
  let '(c, e) := y in
  if abs e <=? abs c then
    if (abs c =? 0) && (abs e =? 0) then (a / abs c, b / abs c)
    else let r := e / c in let s := 1 / (c + e * r) in ((a + b * r) * s, (b - a * r) * s)
  else let r := c / e in let s := 1 / (e + c * r) in ((a * r + b) * s, (b * r - a) * s).

(** frequency and rate checks: complex_bandpass_filter.py:66, 76, 89-92;
    complex_frequency_filter.py:69, 80, 93-96.  NaN passes. *)
Definition freq_badF (f : float) : bool := (f <? -1) || (1 <? f).
Definition rate_badF (r : float) : bool := (r <? 0) || (1 <? r).
(** numpy.iscomplex(d).any() *)
Definition any_complexF (d : list cf) : bool := existsb (fun v => negb (snd v =? 0)) d.

Section Adapt.
  Variable hilbert : list cf -> list cf.
  Variables (fmod2 sgn : float -> float) (expj : float -> cf).
  Variables (cabs : cf -> float) (close0 : cf -> bool) (ang : cf -> float).

  (** complex_bandpass_filter.py:120-121, complex_frequency_filter.py:123-124 *)
  Definition analyticF (d : list cf) : list cf := if any_complexF d then d else hilbert d.

  (** ** ComplexBandpassFilter: self.b[0], the phase of self._filter, frequency, rate *)
  Record bandF : Type := mkBandF { bb : cf; bph : float; bfr : float; brt : float }.
  (** complex_bandpass_filter.py:80-96 *)
  Definition bandF_make (f r : float) : res bandF :=
    if freq_badF f then Err ValueError else if rate_badF r then Err ValueError
    else Ok (mkBandF (0x1p-52, 0) 0 f r).
  (** complex_bandpass_filter.py:64-68, 74-78 *)
  Definition bandF_set_frequency (g : bandF) (f : float) : bandF * res unit :=
    if freq_badF f then (g, Err ValueError) else (mkBandF (bb g) (bph g) f (brt g), Ok tt).
  Definition bandF_set_rate (g : bandF) (r : float) : bandF * res unit :=
    if rate_badF r then (g, Err ValueError) else (mkBandF (bb g) (bph g) (bfr g) r, Ok tt).
  (** fir_filter.py:93-95, the inherited setter of b, with an array of one element. *)
  Definition bandF_set_b (g : bandF) (b : cf) : bandF := mkBandF b (bph g) (bfr g) (brt g).
  (** complex_bandpass_filter.py:128-132 *)
  Fixpoint bandF_loop (r : float) (b : cf) (xs ds : list cf) : cf * list (cf * cf * cf) :=
    match xs, ds with
    | x :: xs', d :: ds' =>
        let y := cmulF x b in                                               (* 129 *)
        let e := csubF d y in                                               (* 130 *)
        let b' := caddF b (cmulF (cmulF (creal r) e) (cconjF x)) in         (* 132 *)
        let '(b2, out) := bandF_loop r b' xs' ds' in
        (b2, (y, e, b) :: out)
    | _, _ => (b, [])
    end.
  (** complex_bandpass_filter.py:98-133 *)
  Definition bandF_filter (g : bandF) (d : list cf) : bandF * res (list (cf * cf * cf)) :=
    if (length d =? 0)%nat then (g, Err ValueError)                         (* 118-119 *)
    else
      let d' := analyticF d in                                              (* 120-121 *)
      match @cexp_filter FO cf fmod2 sgn expj (bph g) (@mkFsig FO (repeat (1 * bfr g) (length d')) false false) with (* 122 *)
      | (p, Err e) => (mkBandF (bb g) p (bfr g) (brt g), Err e)
      | (p, Ok x) => let '(b2, out) := bandF_loop (brt g) (bb g) x d' in (mkBandF b2 p (bfr g) (brt g), Ok out)
      end.
  (** fir_filter.py:266-277, inherited: it writes self.s, which filter never reads. *)
  Definition bandF_reset (g : bandF) (x : cf) : bandF * res unit := (g, Ok tt).

  (** ** ComplexFrequencyFilter: self.b[0], self.s[0], frequency, rate *)
  Record freqF : Type := mkFreqF { qb : cf; qs_ : cf; qf : float; qr : float }.
  (** complex_frequency_filter.py:84-99: b[0] is 1 whatever the frequency. *)
  Definition freqF_make (f r : float) : res freqF :=
    if freq_badF f then Err ValueError else if rate_badF r then Err ValueError
    else Ok (mkFreqF (1, 0) (1, 0) f r).
  (** complex_frequency_filter.py:67-72, 78-82 *)
  Definition freqF_set_frequency (g : freqF) (f : float) : freqF * res unit :=
    if freq_badF f then (g, Err ValueError) else (mkFreqF (expj f) (qs_ g) f (qr g), Ok tt).
  Definition freqF_set_rate (g : freqF) (r : float) : freqF * res unit :=
    if rate_badF r then (g, Err ValueError) else (mkFreqF (qb g) (qs_ g) (qf g) r, Ok tt).
  (** complex_frequency_filter.py:125-127 *)
  Definition normaliseF (d : cf) : cf := let m := cabs d in cdivF d (creal (if close0 (creal m) then 1 else m)).
  (** complex_frequency_filter.py:133-138; [ang] includes the division by pi. *)
  Fixpoint freqF_loop (r : float) (b s : cf) (xs : list cf) : cf * cf * list (float * cf * cf) :=
    match xs with
    | [] => (b, s, [])
    | x :: xs' =>
        let e := csubF x (cmulF b s) in                                     (* 135 *)
        let b' := caddF b (cmulF (cmulF (creal r) e) (cconjF s)) in         (* 137 *)
        let '(b2, s2, out) := freqF_loop r b' x xs' in                      (* 138 *)
        (b2, s2, (ang b, e, b) :: out)
    end.
  (** complex_frequency_filter.py:101-139 *)
  Definition freqF_filter (g : freqF) (d : list cf) : freqF * res (list (float * cf * cf)) :=
    if (length d =? 0)%nat then (g, Err ValueError)                         (* 121-122 *)
    else let '(b2, s2, out) := freqF_loop (qr g) (qb g) (qs_ g) (map normaliseF (analyticF d)) in
         (mkFreqF b2 s2 (qf g) (qr g), Ok out).
  (** complex_frequency_filter.py:141-155, for a scalar x *)
  Definition freqF_reset (g : freqF) (x : cf) : freqF * res unit :=
    let s0 := if close0 x then (1, 0) else cdivF x (creal (cabs x)) in      (* 152-155 *)
    (mkFreqF (qb g) s0 (qf g) (qr g), Ok tt).
End Adapt.
