(** diamondback/filters/complex_bandpass_filter.py, lines 64-133, as accesses to the object
    (ThreadModel.v), in exact complex arithmetic.  The object includes its internal
    ComplexExponentialFilter, a phase that line 122 reads once and stores once.  The augmented
    assignment of line 132 reads the coefficient first, then the rate, then stores. *)
From Coq Require Import List Arith ZArith Bool Reals.
From Coquelicot Require Import Complex.
From Verif Require Import Base Instances CalculusModel FirModel CExpModel CBandModel ThreadModel.
Import ListNotations.
Set Asymmetric Patterns.

Definition bout : Type := res (list (C * C * C)).
Inductive bpcall : Type := BpFilter (d : list C) | BpReset (x : option C) | BpFrequency (f : R) | BpRate (r : R).
Definition bread (k : C -> code cband bout) : code cband bout :=
  peek (fun g => match fb (bfir g) with b :: _ => k b | [] => Ret (Err IndexError) end).
Definition bwrite (v : C) (c : code cband bout) : code cband bout :=
  Act (fun g => match fb (bfir g) with _ :: t => mkCband (mkFir (fdt (bfir g)) (v :: t) (fs (bfir g))) (bphase g) (bfreq g) (brate g) | [] => g end)
      (fun g => match fb (bfir g) with _ :: _ => c | [] => Ret (Err IndexError) end).
(** lines 128-133; the lists are of the same length *)
Fixpoint bp_loop (xs ds : list C) (out : list (C * C * C)) : code cband bout :=
  match xs, ds with
  | x :: xs', d :: ds' =>
      bread (fun b1 =>                                                                (* 129-130 *)
      bread (fun b2 =>                                                                (* 131 *)
      bread (fun b3 => peek (fun g =>                                                 (* 132 *)
      bwrite (Cplus b3 (Cmult (Cmult (RtoC (brate g)) (Cminus d (Cmult x b1))) (Cconj x)))
      (bp_loop xs' ds' (out ++ [(Cmult x b1, Cminus d (Cmult x b1), b2)]))))))
  | _, _ => Ret (Ok out)                                                              (* 133 *)
  end.
(** line 122, complex_exponential_filter.py:80-93: the frequencies [x] are checked, the phase
    is read, the next phase is checked and stored *)
Definition tone_code (x : list R) (k : list C -> code cband bout) : code cband bout :=
  if (fimag (real_sig x) || Nat.eqb (length (fre (real_sig x))) 0 || existsb (fun v => @oltb RO (of_Z 1) (oabs v)) (fre (real_sig x)))%bool
  then Ret (Err ValueError)
  else peek (fun g => let '(p, xs) := @cexp_loop RO C expjR (bphase g) x in
    if @phase_bad RO (wrapR p) then Ret (Err ValueError)
    else poke (fun g => mkCband (bfir g) (wrapR p) (bfreq g) (brate g)) (k xs)).
Section Code.
  Variable hilbert : list C -> list C.
  Definition bp_code (a : bpcall) : code cband bout :=
    match a with
    | BpFilter d => if Nat.eqb (length d) 0 then Ret (Err ValueError)                 (* 118-119 *)
                    else peek (fun g => tone_code (repeat (1 * bfreq g)%R (length (analytic hilbert d))) (fun xs =>
                           bp_loop xs (analytic hilbert d) []))                       (* 120-133 *)
    | BpReset x => match x with                                                       (* fir_filter.py:266-277 *)
                   | None => Ret (Err ValueError)
                   | Some v => poke (fun g => fst (cband_reset g (Some v))) (Ret (Ok []))
                   end
    | BpFrequency f => if frequency_bad f then Ret (Err ValueError)                   (* 64-68 *)
                       else poke (fun g => mkCband (bfir g) (bphase g) f (brate g)) (Ret (Ok []))
    | BpRate r => if rate_bad r then Ret (Err ValueError)                             (* 74-78 *)
                  else poke (fun g => mkCband (bfir g) (bphase g) (bfreq g) r) (Ret (Ok []))
    end.
  (** the call made alone; setters and reset return no triples *)
  Definition bp_do (g : cband) (a : bpcall) : cband * bout :=
    let none := fun p : cband * res unit => (fst p, rmap (fun _ => []) (snd p)) in
    match a with
    | BpFilter d => cband_filter hilbert g d
    | BpReset x => none (cband_reset g x)
    | BpFrequency f => none (cband_set_frequency g f)
    | BpRate r => none (cband_set_rate g r)
    end.
End Code.
