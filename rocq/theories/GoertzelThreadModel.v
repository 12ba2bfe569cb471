(** diamondback/filters/goertzel_filter.py, GoertzelFilter as the sequence of its accesses to
    the object (see ThreadModel.v). *)
From Coq Require Import List Arith ZArith Bool Reals.
From Verif Require Import Base Instances FirModel IirModel CalculusModel GoertzelModel ThreadModel.
Import ListNotations.
Set Asymmetric Patterns.
Close Scope R_scope. Open Scope nat_scope.

Section GoertzelCode.
  Context {O : OArith}.
  Variable cdiv : nat -> nat -> nat.              (* line 114, as in GoertzelModel.v *)
  Inductive gz_call : Type := GFilter (cplx : bool) (x : list O) | GReset (v : option O) | GFrequency (f : R).
  Definition with_iir (g : goertzel O) (i : iir O) : goertzel O := mkGoertzel i (gidx g) (gw g) (gfreq g).
  Definition with_idx (g : goertzel O) (n : nat) : goertzel O := mkGoertzel (giir g) n (gw g) (gfreq g).
  (** an access to the IirFilter part, then [k] with what its method returns *)
  Fixpoint on_giir {Y Z} (c : code (iir O) Y) (k : Y -> code (goertzel O) Z) : code (goertzel O) Z :=
    match c with
    | Ret y => k y
    | Act f n => Act (fun g => with_iir g (f (giir g))) (fun g => on_giir (n (giir g)) k)
    end.
  (** goertzel_filter.py:117-124; [y] are the outputs so far, for an array of [size] elements *)
  Fixpoint gz_loop (u : O) (size : nat) (x y : list O) : code (goertzel O) (res (list O)) :=
    match x with
    | [] => Ret (Ok y)
    | v :: x' =>
        peek (fun g => match nth_error (gw g) (gidx g) with                          (* 118 *)
          | None => Ret (Err IndexError)
          | Some w => on_giir (iir_code [mul (mul u w) v]) (fun r => match r with
              | Err e => Ret (Err e)
              | Ok z => peek (fun g => poke (fun g' => with_idx g' (S (gidx g)))     (* 119: read, then write *)
                  (peek (fun g => if Nat.leb (length (gw g)) (gidx g) then           (* 120 *)
                      if Nat.leb size (length y) then Ret (Err IndexError)           (* 121 *)
                      else poke (fun g => with_iir g (iir_with_s (giir g) (map (fun _ => zero) (is_ (giir g)))))  (* 122 *)
                             (poke (fun g => with_idx g 0)                           (* 123 *)
                                (gz_loop u size x' (y ++ [nth 0 z zero])))
                    else gz_loop u size x' y)))
              end)
          end)
    end.
  (** goertzel_filter.py:98-127, iir_filter.py:314-327 (one access) and goertzel_filter.py:70-74;
      self._w is never replaced, so reading its length once is enough *)
  Definition gz_code (c : gz_call) : code (goertzel O) (res (list O)) :=
    match c with
    | GFilter cplx x =>
        if Nat.eqb (length x) 0 then Ret (Err ValueError)
        else peek (fun g =>
          let u := div (of_Z (if cplx then 1 else 2)) (of_Z (Z.of_nat (length (gw g)))) in
          gz_loop u (S (cdiv (length x) (length (gw g)))) x [])
    | GReset v => Act (fun g => fst (goertzel_reset g v))
                      (fun g => Ret (match snd (goertzel_reset g v) with Ok _ => Ok [] | Err e => Err e end))
    | GFrequency f => if freq_bad f then Ret (Err ValueError)
                      else poke (fun g => mkGoertzel (giir g) (gidx g) (gw g) f) (Ret (Ok []))
    end.
  (** the same calls without interruption *)
  Definition gz_do (g : goertzel O) (c : gz_call) : goertzel O * res (list O) :=
    match c with
    | GFilter cplx x => goertzel_filter cdiv g cplx x
    | GReset v => let (g', r) := goertzel_reset g v in (g', match r with Ok _ => Ok [] | Err e => Err e end)
    | GFrequency f => let (g', r) := goertzel_set_frequency g f in (g', match r with Ok _ => Ok [] | Err e => Err e end)
    end.
End GoertzelCode.
Arguments gz_call O : clear implicits.
