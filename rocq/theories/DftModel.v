(** Models of diamondback/transforms/psd_transform.py, class PsdTransform (lines 65-107),
    and diamondback/transforms/fourier_transform.py, class FourierTransform (lines 54-100).
    Exact arithmetic over the complex numbers, one-dimensional arguments (a list or an
    ndarray makes no difference).  numpy.fft.fft and ifft are their defining sums. *)
From Coq Require Import List Arith ZArith Bool Reals.
From Coquelicot Require Import Complex.
From Verif Require Import Base Instances FirModel.
Import ListNotations.
Set Asymmetric Patterns.
Open Scope R_scope.

(** Sum of f 0, ..., f (n - 1). *)
Fixpoint csumn (n : nat) (f : nat -> C) : C :=
  match n with O => RtoC 0 | S m => Cplus (csumn m f) (f m) end.

(** numpy.fft.fft: sum of x[n] e^{-2 pi j k n / N} *)
Definition fft (x : list C) : list C :=
  let N := length x in
  map (fun k => csumn N (fun n => Cmult (nth n x (RtoC 0)) (cis (- (2 * PI * INR k * INR n / INR N))))) (seq 0 N).
(** numpy.fft.ifft: the mean of x[k] e^{+2 pi j k n / N} *)
Definition ifft (x : list C) : list C :=
  let N := length x in
  map (fun n => Cdiv (csumn N (fun k => Cmult (nth k x (RtoC 0)) (cis (2 * PI * INR k * INR n / INR N)))) (RtoC (INR N))) (seq 0 N).

(** numpy.isclose(z, 0.0): |z| <= atol = 1e-8 *)
Definition close0 (z : C) : bool := Rleb (Cmod z) (/ 100000000).

Section Psd.
  (** range(0, stop, step), step > 0 *)
  Definition range0 (stop step : nat) : list nat :=
    filter (fun i => Nat.ltb i stop) (map (fun i => i * step)%nat (seq 0 stop)).
  (** line 102: abs(fft(x[ii : ii + len(b)] * b)[: len(b) // 2] / len(b)) ** 2 *)
  Definition psd_frame (x b : list C) (ii : nat) : list R :=
    let N := length b in
    map (fun z => (Cmod (Cdiv z (RtoC (INR N)))) ^ 2)
      (firstn (N / 2) (fft (map2 Cmult (firstn N (skipn ii x)) b))).
  (** numpy.sum of the rows along axis 0 *)
  Definition psd_sum (cols : nat) (y : list (list R)) : list R :=
    map (fun k => fold_left (fun acc row => acc + nth k row 0) y 0) (seq 0 cols).

  Inductive psd_out : Type :=
  | Spectrogram (y : list (list R))
  | Mean (y : list R)
  | MeanNan.                           (* numpy.sum([], axis=0) / 0: a scalar nan *)

  (** lines 68-107 *)
  Definition psd_transform (x b : list C) (index : Z) (spectrogram : bool) : res (psd_out * list R) :=
    let N := length b in
    if (length x =? 0)%nat then Err ValueError                            (* 93-94 *)
    else if forallb close0 b then Err ValueError                          (* 97-98; true of [] *)
    else if (length x <? N)%nat then Err ValueError                       (* 99-100 *)
    else if (index =? 0)%Z then Err ValueError                            (* 103: range step 0 *)
    else
      let y := if (0 <? index)%Z
               then map (psd_frame x b) (range0 (length x - N + 1) (Z.to_nat index)) else [] in  (* 101-104 *)
      let f := linspace 0 (1 - 2 / INR N) (N / 2) in                      (* 105-107 *)
      if spectrogram then (if (length y =? 0)%nat then Err ValueError     (* numpy.stack([]) *)
                           else Ok (Spectrogram y, f))
      else if (length y =? 0)%nat then Ok (MeanNan, f)
      else Ok (Mean (map (fun s => s / INR (length y)) (psd_sum (N / 2) y)), f).
End Psd.

Section Fourier.
  (** v[0], v[-1] = v[1], v[-2] (line 91), for at least two elements *)
  Definition set_at (i : nat) (a : C) (v : list C) : list C :=
    firstn i v ++ match skipn i v with [] => [] | _ :: r => a :: r end.
  Definition mend_ends (v : list C) : list C :=
    let N := length v in
    set_at (N - 1) (nth (N - 2) v (RtoC 0)) (set_at 0 (nth 1 v (RtoC 0)) v).

  (** lines 58-100.  Division by an element of v that is zero gives inf or nan in
      numpy; here 0: the theorems exclude it. *)
  Definition fourier (x b : list C) (inverse : bool) : res (list C * list R) :=
    if (length x =? 0)%nat then Err ValueError                            (* 81-82 *)
    else if ((length x <? length b)%nat || forallb close0 b)%bool then Err ValueError  (* 85-86 *)
    else
      let u := firstn (length b) x in                                     (* 87 *)
      let v := b in                                                       (* 88 *)
      let N := length u in
      if inverse then
        let v := if (close0 (nth 0 v (RtoC 0)) || close0 (nth (length v - 1) v (RtoC 0)))%bool
                 then mend_ends v else v in                               (* 90-91 *)
        let y := rotate_half u in                                         (* 92 *)
        Ok (map2 Cdiv (map (fun z => Cmult z (RtoC (INR N))) (ifft y)) v,
            linspace 0 (INR N - 1) N)                                     (* 93 *)
      else
        let y := map (fun z => Cdiv z (RtoC (INR N))) (fft (map2 Cmult v u)) in  (* 96 *)
        Ok (rotate_half y, linspace (-1) (1 - 2 / INR N) N).              (* 97-99 *)
End Fourier.
