(** Model of /repo/diamondback/filters/iir_filter.py (run time part). *)
From Coq Require Import List Arith ZArith Bool.
From Verif Require Import Base FirModel.
Import ListNotations.
Set Asymmetric Patterns.

(** An IirFilter instance: [self._a], [self._b], [self._s]; [idt] is the dtype of
    b and s.  Simplification: raw property setters a, b, s are not operations. *)
Record iir (A : Arith) : Type := mkIir { idt : dtype; ia : list A; ib : list A; is_ : list A }.
Arguments mkIir {A} _ _ _ _. Arguments idt {A} _. Arguments ia {A} _. Arguments ib {A} _. Arguments is_ {A} _.

(** numpy broadcasting of a binary operation on one-dimensional arrays. *)
Definition bcast {X Y Z} (f : X -> Y -> Z) (xs : list X) (ys : list Y) : res (list Z) :=
  if Nat.eqb (length xs) (length ys) then Ok (map (fun p => f (fst p) (snd p)) (combine xs ys))
  else match xs, ys with
       | [x], _ => Ok (map (f x) ys)
       | _, [y] => Ok (map (fun x => f x y) xs)
       | _, _ => Err ValueError
       end.

Section Iir.
  Context {A : Arith}.

  Definition pad (xs : list A) (n : nat) : list A := xs ++ zeros (n - length xs).

  (** iir_filter.py:192-205, __init__ once a and b are known (explicit arguments or
      design).  Lines 192-193 convert lists to arrays. *)
  Definition iir_make (a b s : arr A) : res (iir A) :=
    if match els a with a0 :: _ => negb (eqb a0 zero) | [] => false end   (* 194-195 *)
    then Err ValueError
    else
      let n := max (length (els a)) (length (els b)) in
      let a1 := mkArr (if Nat.ltb (length (els a)) (length (els b)) then promote (adt a) DFloat else adt a)
                      (pad (els a) n) in                                    (* 196-197 *)
      let b1 := mkArr (if Nat.ltb (length (els b)) (length (els a)) then promote (adt b) DFloat else adt b)
                      (pad (els b) n) in                                    (* 198-199 *)
      match els a1 with
      | [] => Err IndexError                                               (* 200: a[0] *)
      | a0 :: _ =>
          let dt := if (dtype_eqb (adt a1) DComplex || dtype_eqb (adt b1) DComplex)%bool
                    then DComplex else adt b1 in                            (* 200-201 *)
          if negb (eqb a0 zero) then Err ValueError                         (* 202-203 *)
          else match fir_make (mkArr dt (els b1)) s with                    (* 204 *)
               | Err e => Err e
               | Ok f => Ok (mkIir (fdt f) (els a1) (fb f) (fs f))          (* 205 *)
               end
      end.

  (** iir_filter.py:305-311, one iteration of the loop of filter. *)
  Definition iir_step (dt : dtype) (a b s : list A) (x : A) : list A * res A :=
    let pre :=
      if Nat.ltb 1 (length s)
      then match np_dot a s with
           | Err e => Err e
           | Ok v => match s with
                     | [] => Err IndexError
                     | s0 :: t => Ok (np_shift (cast dt (add s0 v) :: t))   (* 306-307 *)
                     end
           end
      else Ok s in
    match pre with
    | Err e => (s, Err e)
    | Ok s1 =>
        match np_set0 s1 (cast dt x) with                                   (* 308 *)
        | Err e => (s1, Err e)
        | Ok s2 =>
            match b with
            | [] => (s2, Err IndexError)
            | b0 :: _ =>
                (s2, match bcast (fun ai bi => add (mul ai b0) bi) a b with (* 309 *)
                     | Err e => Err e
                     | Ok c => rmap (cast dt) (np_dot c s2)                 (* 310 *)
                     end)
            end
        end
    end.

  Definition iir_with_s (f : iir A) (s : list A) : iir A := mkIir (idt f) (ia f) (ib f) s.

  (** iir_filter.py:288-312. *)
  Definition iir_filter (f : iir A) (x : list A) : iir A * res (list A) :=
    if Nat.eqb (length x) 0 then (f, Err ValueError)
    else match ib f with
         | [] => (f, Err IndexError)
         | _ :: _ =>
             let '(s', r) := run (iir_step (idt f) (ia f) (ib f)) (is_ f) x in
             (iir_with_s f s', r)
         end.

  (** iir_filter.py:314-327.  [None] is a non-scalar argument. *)
  Definition iir_reset (f : iir A) (x : option A) : iir A * res unit :=
    match x with
    | None => (f, Err ValueError)                                           (* 323-324 *)
    | Some v =>
        match is_ f, ib f with
        | s0 :: ((_ :: _) as t), b0 :: b' =>                               (* 325 *)
            match bcast (fun ai bi => add (mul ai b0) bi) (tl (ia f)) b' with
            | Err e => (f, Err e)
            | Ok c =>
                let level := cast (idt f) (div (mul v (sub one b0)) (sum c)) in (* 326 *)
                (iir_with_s f (cast (idt f) v :: map (fun _ => level) t), Ok tt)
            end
        | _ :: _ :: _, [] => (f, Err IndexError)
        | s0 :: [], _ => (iir_with_s f [cast (idt f) v], Ok tt)             (* 327 *)
        | [], _ => (f, Err IndexError)
        end
    end.

  Inductive iir_op : Type := IFilter (x : list A) | IReset (x : option A).
  Definition iir_exec (f : iir A) (o : iir_op) : iir A :=
    match o with
    | IFilter x => fst (iir_filter f x)
    | IReset x => fst (iir_reset f x)
    end.
End Iir.
Arguments iir_op A : clear implicits.
