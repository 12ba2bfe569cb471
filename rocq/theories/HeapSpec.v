(** Value semantics of the operations of HeapModel.v: every filter and every handle has its
    own contents, as if each assignment copied.  This is the semantics one reads off the
    documentation, and the one the other models use. *)
From Coq Require Import List Arith ZArith Bool.
From Verif Require Import Base FirModel IirModel HeapModel.
Import ListNotations.
Set Asymmetric Patterns.

Section Values.
  Context {A : Arith}.

  (** A filter is its coefficients and its state. *)
  Record vobj : Type := mkV { va : option (arr A); vb : arr A; vs : arr A }.
  Record vworld : Type := mkVW { varrs : list (arr A); vobjs : list vobj }.

  (** One sample.  State and coefficients may have different dtypes. *)
  Definition v_step (o : vobj) (s : list A) (x : A) : list A * res A :=
    let ds := adt (vs o) in
    let pre :=
      match va o with
      | None => Ok (np_shift_gt1 s)
      | Some a =>
          if Nat.ltb 1 (length s)
          then rmap (fun v => np_shift (cast ds (add (hd zero s) v) :: tl s)) (np_dot (els a) s)
          else Ok s
      end in
    match pre with
    | Err e => (s, Err e)
    | Ok s1 =>
        match np_set0 s1 (cast ds x) with
        | Err e => (s1, Err e)
        | Ok s2 =>
            (s2,
             match va o with
             | None => rmap (cast (adt (vb o))) (np_dot (els (vb o)) s2)
             | Some a =>
                 match els (vb o) with
                 | [] => Err IndexError
                 | b0 :: _ =>
                     match bcast (fun ai bi => add (mul ai b0) bi) (els a) (els (vb o)) with
                     | Err e => Err e
                     | Ok c => rmap (cast (adt (vb o))) (np_dot c s2)
                     end
                 end
             end)
        end
    end.

  Definition v_with_s (o : vobj) (s : list A) : vobj := mkV (va o) (vb o) (mkArr (adt (vs o)) s).

  Definition v_filter (o : vobj) (x : list A) : vobj * res (arr A) :=
    if Nat.eqb (length x) 0 then (o, Err ValueError)
    else match els (vb o) with
         | [] => (o, Err IndexError)
         | _ :: _ => let '(s', r) := run (v_step o) (els (vs o)) x in
                     (v_with_s o s', rmap (mkArr (adt (vb o))) r)
         end.

  Definition v_reset (o : vobj) (x : option A) : vobj * res unit :=
    match x with
    | None => (o, Err ValueError)
    | Some v =>
        let dt := adt (vs o) in
        let s := els (vs o) in
        match va o with
        | None => (v_with_s o (map (fun _ => cast dt v) s), Ok tt)
        | Some a =>
            if Nat.ltb 1 (length s)
            then match els (vb o) with
                 | [] => (o, Err IndexError)
                 | b0 :: b' =>
                     match bcast (fun ai bi => add (mul ai b0) bi) (tl (els a)) b' with
                     | Err e => (o, Err e)
                     | Ok c =>
                         let level := cast dt (div (mul v (sub one b0)) (sum c)) in
                         (v_with_s o (cast dt v :: map (fun _ => level) (tl s)), Ok tt)
                     end
                 end
            else match s with
                 | [] => (o, Err IndexError)
                 | _ :: t => (v_with_s o (cast dt v :: t), Ok tt)
                 end
        end
    end.

  Definition v_get (o : vobj) (fl : field) : option (arr A) :=
    match fl with FA_ => va o | FB_ => Some (vb o) | FS_ => Some (vs o) end.
  Definition v_set (o : vobj) (fl : field) (v : arr A) : option vobj :=
    match fl with
    | FA_ => match va o with None => None | Some _ => Some (mkV (Some v) (vb o) (vs o)) end
    | FB_ => Some (mkV (va o) v (vs o))
    | FS_ => Some (mkV (va o) (vb o) v)
    end.

  Definition v_of_fir (f : fir A) : vobj := mkV None (mkArr (fdt f) (fb f)) (mkArr (fdt f) (fs f)).
  Definition v_of_iir (da : dtype) (f : iir A) : vobj :=
    mkV (Some (mkArr da (ia f))) (mkArr (idt f) (ib f)) (mkArr (idt f) (is_ f)).

  Definition vstep (w : vworld) (c : op A) : vworld * out A :=
    let arg h := nth_error (varrs w) h in
    match c with
    | Alloc v => (mkVW (varrs w ++ [v]) (vobjs w), ODone)
    | Write h i v =>
        match arg h with
        | None => (w, OName)
        | Some a =>
            if Nat.ltb i (length (els a))
            then (mkVW (upd h (mkArr (adt a) (upd i (cast (adt a) v) (els a))) (varrs w)) (vobjs w), ODone)
            else (w, OFail IndexError)
        end
    | Read h => match arg h with None => (w, OName) | Some a => (w, OArr a) end
    | NewFir b s =>
        match arg b, arg s with
        | Some b, Some s =>
            match fir_make b s with
            | Err e => (w, OFail e)
            | Ok f => (mkVW (varrs w) (vobjs w ++ [v_of_fir f]), ODone)
            end
        | _, _ => (w, OName)
        end
    | NewIir a b s =>
        match arg a, arg b, arg s with
        | Some a, Some b, Some s =>
            match iir_make a b s with
            | Err e => (w, OFail e)
            | Ok f => (mkVW (varrs w) (vobjs w ++ [v_of_iir (a_dtype a b) f]), ODone)
            end
        | _, _, _ => (w, OName)
        end
    | Set_ k fl h =>
        match nth_error (vobjs w) k, arg h with
        | Some o, Some v =>
            match v_set o fl v with
            | None => (w, OName)
            | Some o' => (mkVW (varrs w) (upd k o' (vobjs w)), ODone)
            end
        | _, _ => (w, OName)
        end
    | Get_ k fl =>
        match nth_error (vobjs w) k with
        | None => (w, OName)
        | Some o => match v_get o fl with
                    | None => (w, OName)
                    | Some v => (mkVW (varrs w ++ [v]) (vobjs w), ODone)
                    end
        end
    | Filter k h =>
        match nth_error (vobjs w) k, arg h with
        | Some o, Some x =>
            match v_filter o (els x) with
            | (o', Err e) => (mkVW (varrs w) (upd k o' (vobjs w)), OFail e)
            | (o', Ok y) => (mkVW (varrs w ++ [y]) (upd k o' (vobjs w)), OArr y)
            end
        | _, _ => (w, OName)
        end
    | Reset k x =>
        match nth_error (vobjs w) k with
        | None => (w, OName)
        | Some o => match v_reset o x with
                    | (o', Err e) => (mkVW (varrs w) (upd k o' (vobjs w)), OFail e)
                    | (o', Ok _) => (mkVW (varrs w) (upd k o' (vobjs w)), ODone)
                    end
        end
    end.

  Fixpoint vexec (w : vworld) (p : list (op A)) : vworld * list (out A) :=
    match p with
    | [] => (w, [])
    | c :: p' => let (w1, y) := vstep w c in
                 let (w2, ys) := vexec w1 p' in (w2, y :: ys)
    end.
  Definition voutputs (p : list (op A)) : list (out A) := snd (vexec (mkVW [] []) p).

  (** The contents of an object. *)
  Definition val (H : list (arr A)) (o : obj) : vobj :=
    mkV (option_map (get H) (oa o)) (get H (ob o)) (get H (os o)).
  (** Its state array exists and is neither one of its coefficient arrays nor array px. *)
  Definition apart (H : list (arr A)) (o : obj) (px : nat) : Prop :=
    os o < length H /\ ob o <> os o /\ px <> os o /\ (forall pa, oa o = Some pa -> pa <> os o).
  Definition with_b (o : vobj) (b : arr A) : vobj := mkV (va o) b (vs o).
  Definition with_a (o : vobj) (a : arr A) : vobj := mkV (Some a) (vb o) (vs o).
  (** Coefficients and state of one length. *)
  Definition aligned (o : vobj) : Prop :=
    els (vb o) <> [] /\ length (els (vs o)) = length (els (vb o)) /\
    forall a, va o = Some a -> length (els a) = length (els (vb o)).

  (** Programs that keep no second reference: they never fetch f.a, f.b or f.s, and never
      touch an array again once it was assigned to one of them. *)
  Definition uses (c : op A) : list nat :=
    match c with
    | Alloc _ | Get_ _ _ | Reset _ _ => []
    | Write h _ _ | Read h | Filter _ h | Set_ _ _ h => [h]
    | NewFir b s => [b; s]
    | NewIir a b s => [a; b; s]
    end.
  Definition gives (c : op A) : list nat := match c with Set_ _ _ h => [h] | _ => [] end.
  Definition fetches (c : op A) : bool := match c with Get_ _ _ => true | _ => false end.
  Fixpoint tidy (gone : list nat) (p : list (op A)) : Prop :=
    match p with
    | [] => True
    | c :: p' => fetches c = false /\ (forall h, In h (uses c) -> ~ In h gone) /\ tidy (gives c ++ gone) p'
    end.
End Values.
Arguments vobj A : clear implicits. Arguments vworld A : clear implicits.
