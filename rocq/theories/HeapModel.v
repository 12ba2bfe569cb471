(** FirFilter and IirFilter objects as Python has them: objects holding references to
    arrays, in a heap shared with the caller.  The other models give every filter its own
    copy of its coefficients and state; here the copies and the shared references are
    explicit, and the property getters and setters of a, b and s are operations
    (fir_filter.py:108-122, iir_filter.py:111-117).

    Simplifications: the arrays given to constructors, setters and filter are numpy arrays
    (a list given to a constructor or to filter is copied by lines 200-205 and 255-256; a
    list given to a setter has no method dot and is left out); no two arrays overlap partly
    (numpy views are left out). *)
From Coq Require Import List Arith ZArith Bool.
From Verif Require Import Base Instances FirModel IirModel RankModel PolyphaseModel.
Import ListNotations.
Set Asymmetric Patterns.

(** l[n] = x; nothing happens out of range. *)
Fixpoint upd {X} (n : nat) (x : X) (l : list X) : list X :=
  match l, n with
  | [], _ => []
  | _ :: t, O => x :: t
  | a :: t, S n' => a :: upd n' x t
  end.

Section Heap.
  Context {A : Arith}.

  (** An object: [self._a] (IirFilter only), [self._b], [self._s] are references. *)
  Record obj : Type := mkObj { oa : option nat; ob : nat; os : nat }.
  (** The heap of arrays, the filter objects, and the references the caller holds. *)
  Record world : Type := mkWorld { heap : list (arr A); objs : list obj; hands : list nat }.

  Inductive field : Type := FA_ | FB_ | FS_.

  (** What a caller can do.  Filters are numbered in the order of their creation, arrays
      (handles) in the order in which the caller got hold of them. *)
  Inductive op : Type :=
  | Alloc (v : arr A)                   (* h = numpy.array(..) *)
  | Write (h i : nat) (v : A)           (* h[i] = v *)
  | Read (h : nat)                      (* look at the contents *)
  | NewFir (b s : nat)                  (* FirFilter(b = b, s = s) *)
  | NewIir (a b s : nat)                (* IirFilter(a = a, b = b, s = s) *)
  | Set_ (k : nat) (fl : field) (h : nat)   (* f.a = h, f.b = h, f.s = h *)
  | Get_ (k : nat) (fl : field)         (* h = f.a, f.b, f.s *)
  | Filter (k h : nat)                  (* y = f.filter(h) *)
  | Reset (k : nat) (x : option A).     (* f.reset(x) *)

  (** What the caller sees. *)
  Inductive out : Type :=
  | ODone
  | OArr (v : arr A)
  | OFail (e : exn)
  | OName.                              (* no such handle, filter or attribute *)

  (** ** Heap access *)
  Definition nil_arr : arr A := mkArr DFloat [].
  Definition get (H : list (arr A)) (p : nat) : arr A := nth p H nil_arr.
  Definition put (H : list (arr A)) (p : nat) (l : list A) : list (arr A) :=
    upd p (mkArr (adt (get H p)) l) H.

  (** fir_filter.py:260-263 on references: every line reads and writes the heap. *)
  Definition fir_iter (H : list (arr A)) (o : obj) (px i : nat) : list (arr A) * res A :=
    let H1 := put H (os o) (np_shift_gt1 (els (get H (os o)))) in              (* 260-261 *)
    match nth_error (els (get H1 px)) i with                                    (* 262: x[ii] *)
    | None => (H1, Err IndexError)
    | Some x =>
        match np_set0 (els (get H1 (os o))) (cast (adt (get H1 (os o))) x) with  (* 262 *)
        | Err e => (H1, Err e)
        | Ok s2 => let H2 := put H1 (os o) s2 in
                   (H2, np_dot (els (get H2 (ob o))) (els (get H2 (os o))))     (* 263 *)
        end
    end.

  (** iir_filter.py:305-311 on references; [pa] is self._a. *)
  Definition iir_iter (H : list (arr A)) (pa : nat) (o : obj) (px i : nat) : list (arr A) * res A :=
    let s := els (get H (os o)) in
    let pre :=
      if Nat.ltb 1 (length s)
      then match np_dot (els (get H pa)) s with                                  (* 306 *)
           | Err e => (H, Err e)
           | Ok v => match np_set0 s (cast (adt (get H (os o))) (add (hd zero s) v)) with
                     | Err e => (H, Err e)
                     | Ok s1 => let H1 := put H (os o) s1 in                     (* 306 *)
                                (put H1 (os o) (np_shift (els (get H1 (os o)))), Ok tt) (* 307 *)
                     end
           end
      else (H, Ok tt) in
    match pre with
    | (H1, Err e) => (H1, Err e)
    | (H1, Ok _) =>
        match nth_error (els (get H1 px)) i with                                 (* 308: x[ii] *)
        | None => (H1, Err IndexError)
        | Some x =>
            match np_set0 (els (get H1 (os o))) (cast (adt (get H1 (os o))) x) with
            | Err e => (H1, Err e)
            | Ok s2 =>
                let H2 := put H1 (os o) s2 in                                    (* 308 *)
                match els (get H2 (ob o)) with
                | [] => (H2, Err IndexError)
                | b0 :: _ =>
                    (H2, match bcast (fun ai bi => add (mul ai b0) bi)
                                 (els (get H2 pa)) (els (get H2 (ob o))) with    (* 309 *)
                         | Err e => Err e
                         | Ok c => np_dot c (els (get H2 (os o)))                (* 310 *)
                         end)
                end
            end
        end
    end.

  Definition iter (H : list (arr A)) (o : obj) (px i : nat) : list (arr A) * res A :=
    match oa o with None => fir_iter H o px i | Some pa => iir_iter H pa o px i end.

  (** The loop [for ii in range(0, len(x))]; [n] iterations from index [i].  The array y is
      fresh, so its elements can be collected on the side; [dty] is its dtype. *)
  Fixpoint iters (H : list (arr A)) (o : obj) (px : nat) (dty : dtype) (n i : nat)
    : list (arr A) * res (list A) :=
    match n with
    | O => (H, Ok [])
    | S n' =>
        match iter H o px i with
        | (H1, Err e) => (H1, Err e)
        | (H1, Ok y) =>
            match iters H1 o px dty n' (S i) with
            | (H2, Err e) => (H2, Err e)
            | (H2, Ok ys) => (H2, Ok (cast dty y :: ys))
            end
        end
    end.

  (** fir_filter.py:242-264, iir_filter.py:288-312. *)
  Definition h_filter (H : list (arr A)) (o : obj) (px : nat) : list (arr A) * res (arr A) :=
    if Nat.eqb (length (els (get H px))) 0 then (H, Err ValueError)
    else match els (get H (ob o)) with
         | [] => (H, Err IndexError)                                             (* self.b[0] *)
         | _ :: _ =>
             let dty := adt (get H (ob o)) in
             let '(H', r) := iters H o px dty (length (els (get H px))) 0 in
             (H', rmap (mkArr dty) r)
         end.

  (** fir_filter.py:266-277, iir_filter.py:314-327. *)
  Definition h_reset (H : list (arr A)) (o : obj) (x : option A) : list (arr A) * res unit :=
    match x with
    | None => (H, Err ValueError)
    | Some v =>
        let dt := adt (get H (os o)) in
        let s := els (get H (os o)) in
        match oa o with
        | None => (put H (os o) (map (fun _ => cast dt v) s), Ok tt)
        | Some pa =>
            let pre :=
              if Nat.ltb 1 (length s)
              then match els (get H (ob o)) with
                   | [] => (H, Err IndexError)
                   | b0 :: b' =>
                       match bcast (fun ai bi => add (mul ai b0) bi) (tl (els (get H pa))) b' with
                       | Err e => (H, Err e)
                       | Ok c =>
                           let level := cast dt (div (mul v (sub one b0)) (sum c)) in
                           (put H (os o) (hd zero s :: map (fun _ => level) (tl s)), Ok tt)
                       end
                   end
              else (H, Ok tt) in
            match pre with
            | (H1, Err e) => (H1, Err e)
            | (H1, Ok _) =>
                match np_set0 (els (get H1 (os o))) (cast dt v) with
                | Err e => (H1, Err e)
                | Ok s2 => (put H1 (os o) s2, Ok tt)
                end
            end
        end
    end.

  (** The dtype of self._a, iir_filter.py:196-201, 205. *)
  Definition a_dtype (a b : arr A) : dtype :=
    let da := if Nat.ltb (length (els a)) (length (els b)) then promote (adt a) DFloat else adt a in
    let db := if Nat.ltb (length (els b)) (length (els a)) then promote (adt b) DFloat else adt b in
    if (dtype_eqb da DComplex || dtype_eqb db DComplex)%bool then DComplex else da.

  (** One operation of the caller. *)
  Definition alloc (w : world) (v : arr A) : world :=
    mkWorld (heap w ++ [v]) (objs w) (hands w ++ [length (heap w)]).

  Definition obj_get (o : obj) (fl : field) : option nat :=
    match fl with FA_ => oa o | FB_ => Some (ob o) | FS_ => Some (os o) end.
  Definition obj_set (o : obj) (fl : field) (p : nat) : option obj :=
    match fl with
    | FA_ => match oa o with None => None | Some _ => Some (mkObj (Some p) (ob o) (os o)) end
    | FB_ => Some (mkObj (oa o) p (os o))
    | FS_ => Some (mkObj (oa o) (ob o) p)
    end.

  Definition step (w : world) (c : op) : world * out :=
    let H := heap w in
    let arg h := nth_error (hands w) h in
    match c with
    | Alloc v => (alloc w v, ODone)
    | Write h i v =>
        match arg h with
        | None => (w, OName)
        | Some p =>
            if Nat.ltb i (length (els (get H p)))
            then (mkWorld (put H p (upd i (cast (adt (get H p)) v) (els (get H p)))) (objs w) (hands w), ODone)
            else (w, OFail IndexError)
        end
    | Read h =>
        match arg h with
        | None => (w, OName)
        | Some p => (w, OArr (get H p))
        end
    | NewFir b s =>
        match arg b, arg s with
        | Some pb, Some ps =>
            match fir_make (get H pb) (get H ps) with
            | Err e => (w, OFail e)
            | Ok f =>                                     (* 211: two fresh arrays *)
                (mkWorld (H ++ [mkArr (fdt f) (fb f); mkArr (fdt f) (fs f)])
                   (objs w ++ [mkObj None (length H) (S (length H))]) (hands w), ODone)
            end
        | _, _ => (w, OName)
        end
    | NewIir a b s =>
        match arg a, arg b, arg s with
        | Some pa, Some pb, Some ps =>
            match iir_make (get H pa) (get H pb) (get H ps) with
            | Err e => (w, OFail e)
            | Ok f =>                                     (* 204-205: three fresh arrays *)
                (mkWorld (H ++ [mkArr (idt f) (ib f); mkArr (idt f) (is_ f); mkArr (a_dtype (get H pa) (get H pb)) (ia f)])
                   (objs w ++ [mkObj (Some (S (S (length H)))) (length H) (S (length H))]) (hands w), ODone)
            end
        | _, _, _ => (w, OName)
        end
    | Set_ k fl h =>
        match nth_error (objs w) k, arg h with
        | Some o, Some p =>
            match obj_set o fl p with
            | None => (w, OName)
            | Some o' => (mkWorld H (upd k o' (objs w)) (hands w), ODone)
            end
        | _, _ => (w, OName)
        end
    | Get_ k fl =>
        match nth_error (objs w) k with
        | None => (w, OName)
        | Some o => match obj_get o fl with
                    | None => (w, OName)
                    | Some p => (mkWorld H (objs w) (hands w ++ [p]), ODone)
                    end
        end
    | Filter k h =>
        match nth_error (objs w) k, arg h with
        | Some o, Some px =>
            match h_filter H o px with
            | (H', Err e) => (mkWorld H' (objs w) (hands w), OFail e)
            | (H', Ok y) => (alloc (mkWorld H' (objs w) (hands w)) y, OArr y)
            end
        | _, _ => (w, OName)
        end
    | Reset k x =>
        match nth_error (objs w) k with
        | None => (w, OName)
        | Some o => match h_reset H o x with
                    | (H', Err e) => (mkWorld H' (objs w) (hands w), OFail e)
                    | (H', Ok _) => (mkWorld H' (objs w) (hands w), ODone)
                    end
        end
    end.

  Fixpoint exec (w : world) (p : list op) : world * list out :=
    match p with
    | [] => (w, [])
    | c :: p' => let (w1, y) := step w c in
                 let (w2, ys) := exec w1 p' in (w2, y :: ys)
    end.
  (** A run starts with nothing. *)
  Definition outputs (p : list op) : list out := snd (exec (mkWorld [] [] []) p).
End Heap.
Arguments world A : clear implicits. Arguments op A : clear implicits. Arguments out A : clear implicits.

(** The s setters inherited by RankFilter (fir_filter.py:120-122; the dtype of the new array
    is taken to be that of the old one) and of PolyphaseRateFilter
    (polyphase_rate_filter.py:109-111): the array is stored as it is. *)
Definition rank_set_s {O : OArith} (r : rank O) (s : list O) : rank O :=
  mkRank (with_s (rfir r) s) (rindex r).
Definition poly_set_s {O : OArith} (f : poly O) (s : list O) : poly O :=
  mkPoly (pindex f) (prate f) s.
