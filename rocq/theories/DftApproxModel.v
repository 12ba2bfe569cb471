(** diamondback/transforms/psd_transform.py, lines 65-107, and fourier_transform.py, lines
    54-100, for any implementation of numpy.fft.fft and ifft: DftModel.v with the two
    functions as parameters. *)
From Coq Require Import List Arith ZArith Bool Reals.
From Coquelicot Require Import Complex.
From Verif Require Import Base Instances FirModel DftModel.
Import ListNotations.
Set Asymmetric Patterns.
Open Scope R_scope.

Section With.
  Variables F I : list C -> list C.               (* fft, ifft *)
  (** psd_transform.py:102 *)
  Definition psd_frame_with (x b : list C) (ii : nat) : list R :=
    let N := length b in
    map (fun z => (Cmod (Cdiv z (RtoC (INR N)))) ^ 2)
      (firstn (N / 2) (F (map2 Cmult (firstn N (skipn ii x)) b))).
  (** psd_transform.py:68-107 *)
  Definition psd_with (x b : list C) (index : Z) (spectrogram : bool) : res (psd_out * list R) :=
    let N := length b in
    if (length x =? 0)%nat then Err ValueError                            (* 93-94 *)
    else if forallb close0 b then Err ValueError                          (* 97-98 *)
    else if (length x <? N)%nat then Err ValueError                       (* 99-100 *)
    else if (index =? 0)%Z then Err ValueError                            (* 103 *)
    else
      let y := if (0 <? index)%Z
               then map (psd_frame_with x b) (range0 (length x - N + 1) (Z.to_nat index)) else [] in  (* 101-104 *)
      let f := linspace 0 (1 - 2 / INR N) (N / 2) in                      (* 105-107 *)
      if spectrogram then (if (length y =? 0)%nat then Err ValueError
                           else Ok (Spectrogram y, f))
      else if (length y =? 0)%nat then Ok (MeanNan, f)
      else Ok (Mean (map (fun s => s / INR (length y)) (psd_sum (N / 2) y)), f).
  (** fourier_transform.py:58-100 *)
  Definition fourier_with (x b : list C) (inverse : bool) : res (list C * list R) :=
    if (length x =? 0)%nat then Err ValueError                            (* 81-82 *)
    else if ((length x <? length b)%nat || forallb close0 b)%bool then Err ValueError  (* 85-86 *)
    else
      let u := firstn (length b) x in                                     (* 87 *)
      let v := b in                                                       (* 88 *)
      let N := length u in
      if inverse then
        let v := if (close0 (nth 0 v (RtoC 0)) || close0 (nth (length v - 1) v (RtoC 0)))%bool
                 then mend_ends v else v in                               (* 90-91 *)
        let y := rotate_half u in                                         (* 92 *)
        Ok (map2 Cdiv (map (fun z => Cmult z (RtoC (INR N))) (I y)) v,
            linspace 0 (INR N - 1) N)                                     (* 93 *)
      else
        let y := map (fun z => Cdiv z (RtoC (INR N))) (F (map2 Cmult v u)) in  (* 96 *)
        Ok (rotate_half y, linspace (-1) (1 - 2 / INR N) N).              (* 97-99 *)
End With.
