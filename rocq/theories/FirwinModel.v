(** scipy.signal.firwin as FirFilter calls it (fir_filter.py:171-186): a windowed sinc,
    scaled to unit sum.  This is external code; the definitions follow scipy's documented
    formulae (pass_zero = True, scale = True, fs = 2.0, symmetric windows) in exact
    arithmetic. *)
From Coq Require Import String List Arith ZArith Bool Reals.
From Verif Require Import Base PyString Instances FirModel.
Import ListNotations.
Open Scope R_scope.

(** numpy.sinc *)
Definition sinc (x : R) : R := if Reqb x 0 then 1 else sin (PI * x) / (PI * x).

(** scipy.signal.windows.general_cosine(M, a, sym=True) for M > 1 points. *)
Definition cosine_sum (a : list R) (M i : nat) : R :=
  let fac := - PI + INR i * (2 * PI / INR (M - 1)) in
  fold_right Rplus 0 (map (fun p => snd p * cos (INR (fst p) * fac)) (combine (seq 0 (length a)) a)).

Section Firwin.
  (** numpy.i0: nothing is assumed about it here. *)
  Variable i0 : R -> R.

  (** scipy.signal.windows.kaiser(M, 7.0, sym=True); fir_filter.py:171 fixes beta. *)
  Definition kaiser (M i : nat) : R :=
    let alpha := INR (M - 1) / 2 in
    i0 (7 * sqrt (1 - ((INR i - alpha) / alpha) ^ 2)) / i0 7.

  (** get_window(window, M, fftbins=False), point i; a single point is 1. *)
  Definition window_point (window : string) (M i : nat) : R :=
    if (M <=? 1)%nat then 1
    else if String.eqb window "kaiser" then kaiser M i
    else if String.eqb window "hann" then cosine_sum [5 / 10; 5 / 10] M i
    else if String.eqb window "hamming" then cosine_sum [54 / 100; 46 / 100] M i
    else cosine_sum [42 / 100; 50 / 100; 8 / 100] M i.

  (** firwin: windowed sinc around (numtaps - 1) / 2 ... *)
  Definition tap (numtaps : nat) (cutoff : R) (window : string) (i : nat) : R :=
    cutoff * sinc (cutoff * (INR i - INR (numtaps - 1) / 2)) * window_point window numtaps i.

  (** ... divided by its sum.  A cutoff outside (0, 1) raises ValueError; a zero sum gives
      NaN taps, which fir_filter.py:187-188 turns into ValueError.  Both are [None].
      Simplified: taps that are not all zero but sum to exactly zero would give infinities. *)
  Definition firwin (numtaps : nat) (cutoff : R) (window : string) : option (list R) :=
    if (Rleb cutoff 0 || Rleb 1 cutoff)%bool then None
    else
      let h := map (tap numtaps cutoff window) (seq 0 numtaps) in
      let s := fold_right Rplus 0 h in
      if Reqb s 0 then None else Some (map (fun v => v / s) h).

  (** fir_filter.py:160-199 with this firwin. *)
  Definition fir_designed (eps : R) (style : string) (frequency : R) (order count : Z)
      (complement : bool) (gain : R) : res (list R) :=
    fir_design firwin eps style frequency order count complement gain.
End Firwin.
