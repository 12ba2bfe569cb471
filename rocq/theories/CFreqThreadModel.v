(** diamondback/filters/complex_frequency_filter.py, lines 67-155, as accesses to the object
    (ThreadModel.v), in exact complex arithmetic.  The augmented assignment of line 137 reads
    the coefficient first, then the rate and the state, then stores. *)
From Coq Require Import List Arith ZArith Bool Reals.
From Coquelicot Require Import Complex.
From Verif Require Import Base Instances FirModel CExpModel CBandModel ThreadModel.
Import ListNotations.
Set Asymmetric Patterns.

Definition fout : Type := res (list (R * C * C)).
Inductive fqcall : Type := FqFilter (d : list C) | FqReset (x : option C) | FqFrequency (f : R) | FqRate (r : R).
Definition read_b (k : C -> code cfreq fout) : code cfreq fout :=
  peek (fun g => match fb (ffir g) with b :: _ => k b | [] => Ret (Err IndexError) end).
Definition read_s (k : C -> code cfreq fout) : code cfreq fout :=
  peek (fun g => match fs (ffir g) with s :: _ => k s | [] => Ret (Err IndexError) end).
Definition write_b (v : C) (c : code cfreq fout) : code cfreq fout :=
  Act (fun g => match fb (ffir g) with _ :: t => mkCfreq (mkFir (fdt (ffir g)) (v :: t) (fs (ffir g))) (ffreq g) (frate g) | [] => g end)
      (fun g => match fb (ffir g) with _ :: _ => c | [] => Ret (Err IndexError) end).
Definition write_s (v : C) (c : code cfreq fout) : code cfreq fout :=
  Act (fun g => match fs (ffir g) with _ :: t => mkCfreq (mkFir (fdt (ffir g)) (fb (ffir g)) (v :: t)) (ffreq g) (frate g) | [] => g end)
      (fun g => match fs (ffir g) with _ :: _ => c | [] => Ret (Err IndexError) end).
(** lines 133-139 *)
Fixpoint fq_loop (xs : list C) (out : list (R * C * C)) : code cfreq fout :=
  match xs with
  | [] => Ret (Ok out)                                                                (* 139 *)
  | x :: xs' =>
      read_b (fun b1 =>                                                               (* 134 *)
      read_b (fun b2 => read_s (fun s1 =>                                             (* 135 *)
      read_b (fun b3 =>                                                               (* 136 *)
      read_b (fun b4 => peek (fun g => read_s (fun s2 =>                              (* 137 *)
      write_b (Cplus b4 (Cmult (Cmult (RtoC (frate g)) (Cminus x (Cmult b2 s1))) (Cconj s2)))
      (write_s x                                                                      (* 138 *)
      (fq_loop xs' (out ++ [((angle b1 / PI)%R, Cminus x (Cmult b2 s1), b3)]))))))))))
  end.
Section Code.
  Variable hilbert : list C -> list C.
  Definition fq_code (a : fqcall) : code cfreq fout :=
    match a with
    | FqFilter d => if Nat.eqb (length d) 0 then Ret (Err ValueError)                 (* 121-122 *)
                    else fq_loop (map normalise (analytic hilbert d)) []              (* 123-139 *)
    | FqReset x => match x with                                                       (* 141-155 *)
                   | None => Ret (Err ValueError)
                   | Some v => write_s (if near0 v then RtoC 1 else Cdiv v (RtoC (Cmod v))) (Ret (Ok []))
                   end
    | FqFrequency f => if frequency_bad f then Ret (Err ValueError)                   (* 67-72 *)
                       else write_b (expjR f) (poke (fun g => mkCfreq (ffir g) f (frate g)) (Ret (Ok [])))
    | FqRate r => if rate_bad r then Ret (Err ValueError)                             (* 78-82 *)
                  else poke (fun g => mkCfreq (ffir g) (ffreq g) r) (Ret (Ok []))
    end.
  (** the call made alone; setters and reset return no triples *)
  Definition fq_do (g : cfreq) (a : fqcall) : cfreq * fout :=
    let none := fun p : cfreq * res unit => (fst p, rmap (fun _ => []) (snd p)) in
    match a with
    | FqFilter d => cfreq_filter hilbert g d
    | FqReset x => none (cfreq_reset g x)
    | FqFrequency f => none (cfreq_set_frequency g f)
    | FqRate r => none (cfreq_set_rate g r)
    end.
End Code.
