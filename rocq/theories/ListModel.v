(** FirFilter and IirFilter whose attributes a, b, s have been assigned Python lists.

    The setters (fir_filter.py:112-114, 120-122; iir_filter.py:115-117) are annotated
    [list | numpy.ndarray] and store whatever they get.  A list of numbers differs from an
    array: it has no method dot, no common element type, item assignment stores the number
    unchanged, and a scalar cannot be assigned to a slice.

    Simplifications: list elements are Python or numpy int, float or complex numbers (tagged
    by their type); sharing of the objects is HeapModel.v; a list assigned to [a] is treated
    only where [self.a.dot] is evaluated (iir_filter.py:306), that is for more than one
    register. *)
From Coq Require Import List Arith ZArith Bool.
From Verif Require Import Base FirModel IirModel.
Import ListNotations.
Set Asymmetric Patterns.

Section Lists.
  Context {A : Arith}.
  Inductive vec : Type := VA (v : arr A) | VL (l : list (dtype * A)).

  (** The numbers, as numpy.array(v) would hold them. *)
  Definition vels (v : vec) : list A := match v with VA v => els v | VL l => map snd l end.
  Definition vlen (v : vec) : nat := length (vels v).
  (** type(v[0]) as a dtype; [None]: v[0] raises IndexError. *)
  Definition type0 (v : vec) : option dtype :=
    match v with
    | VA v => match els v with [] => None | _ :: _ => Some (adt v) end
    | VL [] => None
    | VL ((t, _) :: _) => Some t
    end.
  (** if len(v) > 1: v[1:] = v[:-1] *)
  Definition vshift (v : vec) : vec :=
    match v with VA v => VA (mkArr (adt v) (np_shift_gt1 (els v))) | VL l => VL (np_shift_gt1 l) end.
  (** v[0] = x for a number x of type t: an array converts it, a list keeps it. *)
  Definition vset0 (v : vec) (t : dtype) (x : A) : res vec :=
    match v with
    | VA v => rmap (fun l => VA (mkArr (adt v) l)) (np_set0 (els v) (cast (adt v) x))
    | VL l => rmap VL (np_set0 l (t, x))
    end.

  (** fir_filter.py:260-263. *)
  Definition vfir_step (b : vec) (t0 t : dtype) (s : vec) (x : A) : vec * res A :=
    let s1 := vshift s in                                                   (* 260-261 *)
    match vset0 s1 t x with                                                 (* 262 *)
    | Err e => (s1, Err e)
    | Ok s2 => (s2, match b with
                    | VL _ => Err OtherError                                (* 263: AttributeError *)
                    | VA b => rmap (cast t0) (np_dot (els b) (vels s2))     (* 263 *)
                    end)
    end.
  (** fir_filter.py:242-264; the new state and the output. *)
  Definition vfir_filter (b s : vec) (x : arr A) : vec * res (arr A) :=
    if Nat.eqb (length (els x)) 0 then (s, Err ValueError)                  (* 256-257 *)
    else match type0 b with
         | None => (s, Err IndexError)                                      (* 258 *)
         | Some t0 => let '(s', r) := run (vfir_step b t0 (adt x)) s (els x) in (s', rmap (mkArr t0) r)
         end.
  (** fir_filter.py:266-277: self.s[:] = x. *)
  Definition vfir_reset (s : vec) (x : option A) : vec * res unit :=
    match x, s with
    | None, _ => (s, Err ValueError)
    | Some v, VA a => (VA (mkArr (adt a) (map (fun _ => cast (adt a) v) (els a))), Ok tt)
    | Some _, VL _ => (s, Err TypeError)
    end.

  (** iir_filter.py:304-310. *)
  Definition viir_step (a b : vec) (t0 t : dtype) (s : vec) (x : A) : vec * res A :=
    let pre : vec * res unit :=
      if Nat.ltb 1 (vlen s)
      then match a with
           | VL _ => (s, Err OtherError)                                    (* 306: AttributeError *)
           | VA a =>
               match np_dot (els a) (vels s) with
               | Err e => (s, Err e)
               | Ok v => match vset0 s (promote (adt a) t) (add (hd zero (vels s)) v) with
                         | Err e => (s, Err e)
                         | Ok s1 => (vshift s1, Ok tt)                      (* 306-307 *)
                         end
               end
           end
      else (s, Ok tt) in
    match pre with
    | (s1, Err e) => (s1, Err e)
    | (s1, Ok _) =>
        match vset0 s1 t x with                                             (* 308 *)
        | Err e => (s1, Err e)
        | Ok s2 =>
            (s2, match vels b with
                 | [] => Err IndexError
                 | b0 :: _ =>
                     match bcast (fun ai bi => add (mul ai b0) bi) (vels a) (vels b) with (* 309 *)
                     | Err e => Err e
                     | Ok c => rmap (cast t0) (np_dot c (vels s2))          (* 310 *)
                     end
                 end)
        end
    end.
  (** iir_filter.py:288-312. *)
  Definition viir_filter (a b s : vec) (x : arr A) : vec * res (arr A) :=
    if Nat.eqb (length (els x)) 0 then (s, Err ValueError)
    else match type0 b with
         | None => (s, Err IndexError)
         | Some t0 => let '(s', r) := run (viir_step a b t0 (adt x)) s (els x) in (s', rmap (mkArr t0) r)
         end.
  (** iir_filter.py:314-327, with an array a.  Line 326 assigns a scalar to a slice. *)
  Definition viir_reset (a : arr A) (b s : vec) (x : option A) (t : dtype) : vec * res unit :=
    match x with
    | None => (s, Err ValueError)
    | Some v =>
        let pre : vec * res unit :=
          if Nat.ltb 1 (vlen s)
          then match vels b with
               | [] => (s, Err IndexError)
               | b0 :: b' =>
                   match bcast (fun ai bi => add (mul ai b0) bi) (tl (els a)) b' with
                   | Err e => (s, Err e)
                   | Ok c =>
                       match s with
                       | VL _ => (s, Err TypeError)
                       | VA w => let level := cast (adt w) (div (mul v (sub one b0)) (sum c)) in
                                 (VA (mkArr (adt w) (hd zero (els w) :: map (fun _ => level) (tl (els w)))), Ok tt)
                       end
                   end
               end
          else (s, Ok tt) in
        match pre with
        | (s1, Err e) => (s1, Err e)
        | (s1, Ok _) => match vset0 s1 t v with Err e => (s1, Err e) | Ok s2 => (s2, Ok tt) end
        end
    end.
End Lists.
Arguments vec A : clear implicits.
