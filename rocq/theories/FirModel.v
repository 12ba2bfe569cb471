(** Model of /repo/diamondback/filters/fir_filter.py. *)
From Coq Require Import List Arith ZArith Bool String Reals.
From Coquelicot Require Import Complex.
From Verif Require Import Base PyString Instances.
Import ListNotations.
Set Asymmetric Patterns.

(** A FirFilter instance: [self._b], [self._s] and their common dtype
    (fir_filter.py:211 converts the state to type(b[0])).
    Simplification: the raw property setters b and s (112-114, 120-122), which
    let a caller install arbitrary arrays, are not operations of the model. *)
Record fir (A : Arith) : Type := mkFir { fdt : dtype; fb : list A; fs : list A }.
Arguments mkFir {A} _ _ _. Arguments fdt {A} _. Arguments fb {A} _. Arguments fs {A} _.

Section Run.
  Context {A : Arith}.

  (** fir_filter.py:200-211, the part of __init__ after the coefficients are
      known.  [b] and [s] are already arrays (lines 200-201 and 204-205 only
      convert lists; an empty list becomes a float array). *)
  Definition fir_make (b s : arr A) : res (fir A) :=
    if Nat.eqb (length (els b)) 0 then Err ValueError                       (* 202-203 *)
    else
      let b1 := if Nat.ltb (length (els b)) (length (els s))               (* 206-207 *)
                then mkArr (promote (adt b) DFloat)
                           (els b ++ zeros (length (els s) - length (els b)))
                else b in
      let s1 := if Nat.ltb (length (els s)) (length (els b1))              (* 208-209 *)
                then els s ++ zeros (length (els b1) - length (els s))
                else els s in
      Ok (mkFir (adt b1) (els b1) (map (cast (adt b1)) s1)).               (* 211 *)

  (** fir_filter.py:260-263, one iteration of the loop of filter. *)
  Definition fir_step (dt : dtype) (b : list A) (s : list A) (x : A) : list A * res A :=
    let s1 := np_shift_gt1 s in                                            (* 260-261 *)
    match np_set0 s1 (cast dt x) with                                      (* 262 *)
    | Err e => (s1, Err e)
    | Ok s2 => (s2, rmap (cast dt) (np_dot b s2))                          (* 263 *)
    end.

  Definition with_s (f : fir A) (s : list A) : fir A := mkFir (fdt f) (fb f) s.

  (** fir_filter.py:242-264. *)
  Definition fir_filter (f : fir A) (x : list A) : fir A * res (list A) :=
    if Nat.eqb (length x) 0 then (f, Err ValueError)                       (* 256-257 *)
    else match fb f with
         | [] => (f, Err IndexError)                                       (* 258: self.b[0] *)
         | _ :: _ =>
             let '(s', r) := run (fir_step (fdt f) (fb f)) (fs f) x in
             (with_s f s', r)
         end.

  (** fir_filter.py:266-277.  [None] stands for an argument that is not a scalar.
      Simplification: a Python complex assigned to a float state raises TypeError in
      numpy; here the imaginary part is dropped as for numpy scalars. *)
  Definition fir_reset (f : fir A) (x : option A) : fir A * res unit :=
    match x with
    | None => (f, Err ValueError)
    | Some v => (with_s f (map (fun _ => cast (fdt f) v) (fs f)), Ok tt)
    end.

  (** Any sequence of public calls on an instance. *)
  Inductive fir_op : Type := OFilter (x : list A) | OReset (x : option A).
  Definition fir_exec (f : fir A) (o : fir_op) : fir A :=
    match o with
    | OFilter x => fst (fir_filter f x)
    | OReset x => fst (fir_reset f x)
    end.
End Run.
Arguments fir_op A : clear implicits.

(** ** Design by constraints, fir_filter.py:160-199. *)
Definition fir_STYLE : list string := ["Blackman"; "Hamming"; "Hann"; "Kaiser"]%string. (* 106 *)

Section Search.
  Context {O : OArith} {V : Type}.
  (** The same loop is used by iir_filter.py:175-185 with pairs (a, b) as candidates.
      [cand scale]: the candidate of one iteration (178-186), [None] when it
      contains a NaN (187-188); [err v]: line 190. *)
  Variable cand : O -> option V.
  Variable err : V -> O.
  Variables (eps tol rate : O).

  Definition omax (x y : O) : O := if oltb x y then y else x.

  (** fir_filter.py:175-195.  [best = None] models b = [] with error = inf. *)
  Fixpoint fir_search (fuel : nat) (scale : O) (best : option (V * O)) : res (option (V * O)) :=
    match fuel with
    | 0 => Ok best
    | S k =>
        match cand scale with
        | None => Err ValueError
        | Some v =>
            let e := err v in
            let accept := match best with
                          | None => oltinf (oabs e)
                          | Some (_, error) => oltb (oabs e) error
                          end in
            let next := omax (add scale (mul rate e)) eps in
            if accept
            then if oltb (oabs e) tol then Ok (Some (v, oabs e))           (* 193-194 *)
                 else fir_search k next (Some (v, oabs e))
            else fir_search k next best
        end
    end.
End Search.

Section Design.
  Open Scope R_scope.
  (** scipy.signal.firwin(numtaps, cutoff, window) with the fixed keyword
      arguments of lines 178-186; [None] when a coefficient is NaN. *)
  Variable firwin : nat -> R -> string -> option (list R).
  Variable eps : R.

  (** numpy.polyval *)
  Definition polyval (v : list R) (x : C) : C :=
    fold_left (fun acc c => Cplus (Cmult acc x) (RtoC c)) v (RtoC 0).

  (** fir_filter.py:189-190. *)
  Definition fir_err (frequency : R) (count : nat) (v : list R) : R :=
    / sqrt 2 - (Cmod (polyval v (cis (PI * frequency)))) ^ count.

  (** (-1.0) ** x *)
  Definition sgn (n : nat) : R := (-1) ^ n.
  Definition alternate (v : list R) : list R :=
    map (fun p => fst p * sgn (snd p)) (combine v (seq 0 (length v))).

  (** fir_filter.py:160-199.  order and count are Python ints, [Z]. *)
  Definition fir_design (style : string) (frequency : R) (order count : Z) (complement : bool)
      (gain : R) : res (list R) :=
    let style := py_title style in
    if negb (mem_str style fir_STYLE) then Err ValueError
    else if (Rleb frequency 0 || Rleb 1 frequency)%bool then Err ValueError
    else if (order <=? 0)%Z then Err ValueError
    else if (count <=? 0)%Z then Err ValueError
    else
      let frequency := if complement then 1 - frequency else frequency in
      let window := py_lower style in
      let cand := fun scale => firwin (Z.to_nat order + 1)%nat (Rmin (scale * frequency) (1 - eps)) window in
      match @fir_search RO (list R) cand (fir_err frequency (Z.to_nat count)) eps (10000 * eps) (3 / 100) 500 1 None with
      | Err e => Err e
      | Ok None => Err TypeError                       (* 199: [] *= float *)
      | Ok (Some (b, _)) =>
          let b := if complement
                   then let b1 := alternate b in       (* 197 *)
                        let d := @Base.sum RA (alternate b1) in
                        map (fun c => c / d) b1        (* 198 *)
                   else b in
          Ok (map (fun c => c * gain) b)               (* 199 *)
      end.
End Design.

(** ** Frequency response, fir_filter.py:279-302. *)
Section Response.
  Open Scope R_scope.

  (** numpy.linspace(start, stop, num). *)
  Definition linspace (start stop : R) (num : nat) : list R :=
    map (fun k => start + INR k * ((stop - start) / INR (num - 1))) (seq 0 num).

  (** scipy.signal.freqz(b, [1.0, 0.0], L, True)[1]: the transfer function at
      e^{j 2 pi k / L}, k = 0..L-1 (documented contract of freqz with whole=True). *)
  Definition freqz (b : list C) (L : nat) : list C :=
    map (fun k => @bigsum CA (length b)
                    (fun i => Cmult (nth i b (RtoC 0)) (cis (- (2 * PI * INR k / INR L) * INR i))))
        (seq 0 L).

  (** numpy.concatenate((y[len(y) // 2 :], y[: len(y) // 2])). *)
  Definition rotate_half {X} (y : list X) : list X :=
    skipn (length y / 2) y ++ firstn (length y / 2) y.

  Fixpoint Cpow (x : C) (n : nat) : C :=
    match n with O => RtoC 1 | S m => Cmult x (Cpow x m) end.

  (** fir_filter.py:293-302. *)
  Definition fir_response (f : fir CA) (length count : Z) : res (list C * list R) :=
    if (length <=? 0)%Z then Err ValueError
    else if (count <=? 0)%Z then Err ValueError
    else
      let L := Z.to_nat length in
      Ok (map (fun v => Cpow v (Z.to_nat count)) (rotate_half (freqz (fb f) L)),
          linspace (-1) (1 - 2 / INR L) L).
End Response.
