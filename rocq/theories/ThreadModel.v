(** Calls of filter and model objects made by several threads.

    A method is the sequence of its accesses to the object; a thread may be preempted between
    any two of them.  Python runs each numpy operation on the object's arrays, each list
    operation and each attribute access without interruption (global interpreter lock), so
    each is one access; what a call computes in its own variables is not visible to others.
    None of these classes takes a lock. *)
From Coq Require Import List Arith ZArith Bool.
From Verif Require Import Base Instances FirModel IirModel PidModel GaussModel.
Import ListNotations.
Set Asymmetric Patterns.

(** What is left of a call on an object of type W: return, or access the object - change it
    by [f] and go on with what [k] makes of the value before the change. *)
Inductive code (W Y : Type) : Type :=
| Ret (y : Y)
| Act (f : W -> W) (k : W -> code W Y).
Arguments Ret {W Y} y. Arguments Act {W Y} f k.
Definition peek {W Y} (k : W -> code W Y) : code W Y := Act (fun w => w) k.
Definition poke {W Y} (f : W -> W) (c : code W Y) : code W Y := Act f (fun _ => c).

(** The call made without interruption. *)
Fixpoint complete {W Y} (c : code W Y) (w : W) : W * Y :=
  match c with Ret y => (w, y) | Act f k => complete (k w) (f w) end.

(** ** Threads *)
Section Threads.
  Context {W C Y : Type}.
  Variable code_of : C -> code W Y.
  Record thread : Type := mkThread {
    todo : list (nat * C);                 (* calls not yet made: object, call *)
    now : option (nat * code W Y);         (* the call being made: object, what is left of it *)
    results : list Y
  }.
  Record config : Type := mkConfig { store : nat -> W; threads : nat -> thread }.
  Definition upd {X} (f : nat -> X) (i : nat) (v : X) : nat -> X := fun j => if Nat.eqb j i then v else f j.
  (** One step of thread i *)
  Inductive step (i : nat) (c : config) : config -> Prop :=
  | TBegin o a t r : threads c i = mkThread ((o, a) :: t) None r ->
      step i c (mkConfig (store c) (upd (threads c) i (mkThread t (Some (o, code_of a)) r)))
  | TAct o f k t r : threads c i = mkThread t (Some (o, Act f k)) r ->
      step i c (mkConfig (upd (store c) o (f (store c o))) (upd (threads c) i (mkThread t (Some (o, k (store c o))) r)))
  | TReturn o y t r : threads c i = mkThread t (Some (o, Ret y)) r ->
      step i c (mkConfig (store c) (upd (threads c) i (mkThread t None (r ++ [y])))).
  Inductive steps (c : config) : config -> Prop :=
  | TNil : steps c c
  | TCons i c1 c2 : steps c c1 -> step i c1 c2 -> steps c c2.
  Definition start (st : nat -> W) (program : nat -> list (nat * C)) : config :=
    mkConfig st (fun i => mkThread (program i) None []).
  Definition finished (t : thread) : Prop := todo t = [] /\ now t = None.
End Threads.
Arguments thread : clear implicits. Arguments config : clear implicits.

(** ** Filters *)
Section Filters.
  Context {O : OArith}.

  (** fir_filter.py:259-264 *)
  Fixpoint fir_loop (x y : list O) : code (fir O) (res (list O)) :=
    match x with
    | [] => Ret (Ok y)                                                     (* 264 *)
    | v :: x' =>
        poke (fun f => with_s f (np_shift_gt1 (fs f)))                     (* 260-261 *)
        (Act (fun f => match np_set0 (fs f) (cast (fdt f) v) with Ok s => with_s f s | Err _ => f end)  (* 262 *)
             (fun f => match np_set0 (fs f) (cast (fdt f) v) with
                       | Err e => Ret (Err e)
                       | Ok _ => peek (fun f => match rmap (cast (fdt f)) (np_dot (fb f) (fs f)) with   (* 263 *)
                                                | Err e => Ret (Err e)
                                                | Ok u => fir_loop x' (y ++ [u])
                                                end)
                       end))
    end.
  (** fir_filter.py:242-264 *)
  Definition fir_code (x : list O) : code (fir O) (res (list O)) :=
    if Nat.eqb (length x) 0 then Ret (Err ValueError)
    else peek (fun f => match fb f with [] => Ret (Err IndexError) | _ :: _ => fir_loop x [] end).      (* 258 *)

  (** iir_filter.py:304-311; line 306 reads s[0], takes the product, then stores the sum *)
  Definition iir_set0 (v : O) (f : iir O) : iir O :=
    match np_set0 (is_ f) (cast (idt f) v) with Ok s => iir_with_s f s | Err _ => f end.
  Fixpoint iir_loop (x y : list O) : code (iir O) (res (list O)) :=
    match x with
    | [] => Ret (Ok y)
    | v :: x' =>
        let tail : code (iir O) (res (list O)) :=
          Act (iir_set0 v)                                                 (* 308 *)
            (fun f => match np_set0 (is_ f) (cast (idt f) v) with
              | Err e => Ret (Err e)
              | Ok _ => peek (fun f => match ib f with
                  | [] => Ret (Err IndexError)
                  | b0 :: _ =>
                      match bcast (fun ai bi => add (mul ai b0) bi) (ia f) (ib f) with       (* 309 *)
                      | Err e => Ret (Err e)
                      | Ok c => peek (fun f => match rmap (cast (idt f)) (np_dot c (is_ f)) with       (* 310 *)
                                               | Err e => Ret (Err e)
                                               | Ok u => iir_loop x' (y ++ [u])
                                               end)
                      end
                  end)
              end) in
        peek (fun f => if Nat.ltb 1 (length (is_ f))                       (* 305 *)
          then peek (fun f => match is_ f with
            | [] => Ret (Err IndexError)
            | s0 :: _ => peek (fun f => match np_dot (ia f) (is_ f) with
                | Err e => Ret (Err e)
                | Ok d => poke (iir_set0 (add s0 d))                       (* 306 *)
                    (poke (fun f => iir_with_s f (np_shift (is_ f))) tail) (* 307 *)
                end)
            end)
          else tail)
    end.
  (** iir_filter.py:288-312 *)
  Definition iir_code (x : list O) : code (iir O) (res (list O)) :=
    if Nat.eqb (length x) 0 then Ret (Err ValueError)
    else peek (fun f => match ib f with [] => Ret (Err IndexError) | _ :: _ => iir_loop x [] end).

  (** pid_filter.py:83-89; line 86 reads s[1], then stores the sum *)
  Definition pid_set (n : nat) (v : O) (p : pid O) : pid O :=
    mkPid (with_s (pfir p) (firstn n (fs (pfir p)) ++ cast (fdt (pfir p)) v :: skipn (S n) (fs (pfir p)))) (plimit p).
  Fixpoint pid_loop (x y : list O) : code (pid O) (res (list O)) :=
    match x with
    | [] => Ret (Ok y)
    | v :: x' =>
        let tail : code (pid O) (res (list O)) :=
          poke (pid_set 0 v)                                               (* 87 *)
            (peek (fun p => match rmap (cast (fdt (pfir p))) (np_dot (fb (pfir p)) (fs (pfir p))) with  (* 88 *)
                            | Err e => Ret (Err e)
                            | Ok u => pid_loop x' (y ++ [u])
                            end)) in
        peek (fun p => match fs (pfir p) with
          | s0 :: _ :: _ :: _ =>
              poke (pid_set 2 (sub v s0))                                  (* 84 *)
                (peek (fun p => if below (plimit p) (add (nth 1 (fs (pfir p)) zero) v)                  (* 85 *)
                   then peek (fun p => poke (pid_set 1 (add (nth 1 (fs (pfir p)) zero) v)) tail)        (* 86 *)
                   else tail))
          | _ => Ret (Err IndexError)
          end)
    end.
  (** pid_filter.py:66-89 *)
  Definition pid_code (x : list O) : code (pid O) (res (list O)) :=
    if Nat.eqb (length x) 0 then Ret (Err ValueError)
    else peek (fun p => match fb (pfir p) with [] => Ret (Err IndexError) | _ :: _ => pid_loop x [] end).

  (** fir_filter.py:266-277 and iir_filter.py:314-327: one access.  Simplification for the
      second, whose lines 326 and 327 are several. *)
  Definition reset_code {W} (reset : W -> option O -> W * res unit) (v : option O) : code W (res (list O)) :=
    Act (fun f => fst (reset f v)) (fun f => Ret (match snd (reset f v) with Ok _ => Ok [] | Err e => Err e end)).

  (** Objects of the three classes and their calls *)
  Inductive filt : Type := FFir (f : fir O) | FIir (f : iir O) | FPid (p : pid O).
  Inductive fcall : Type := Filter (x : list O) | Reset (v : option O).
  Fixpoint on_fir {Y} (c : code (fir O) Y) (w : code filt Y) : code filt Y :=
    match c with Ret y => Ret y | Act f k => Act (fun v => match v with FFir g => FFir (f g) | _ => v end)
                                               (fun v => match v with FFir g => on_fir (k g) w | _ => w end) end.
  Fixpoint on_iir {Y} (c : code (iir O) Y) (w : code filt Y) : code filt Y :=
    match c with Ret y => Ret y | Act f k => Act (fun v => match v with FIir g => FIir (f g) | _ => v end)
                                               (fun v => match v with FIir g => on_iir (k g) w | _ => w end) end.
  Fixpoint on_pid {Y} (c : code (pid O) Y) (w : code filt Y) : code filt Y :=
    match c with Ret y => Ret y | Act f k => Act (fun v => match v with FPid g => FPid (f g) | _ => v end)
                                               (fun v => match v with FPid g => on_pid (k g) w | _ => w end) end.
  (** Python looks the method up in the object's class. *)
  Definition filt_code (c : fcall) : code filt (res (list O)) :=
    let no := Ret (Err TypeError) in
    peek (fun w => match w with
                   | FFir _ => on_fir (match c with Filter x => fir_code x | Reset v => reset_code fir_reset v end) no
                   | FIir _ => on_iir (match c with Filter x => iir_code x | Reset v => reset_code iir_reset v end) no
                   | FPid _ => on_pid (match c with Filter x => pid_code x | Reset v => reset_code pid_reset v end) no
                   end).
End Filters.
Arguments filt O : clear implicits. Arguments fcall O : clear implicits.

(** ** GaussianModel *)
Section Gaussian.
  Context {O : OArith}.
  Variable inv : list (list O) -> option (list (list O)).
  Variable argsort : list O -> list nat.
  Inductive gcall : Type := Fit (x : xarr O) (y : yarr) | Predict (x : xarr O).
  Inductive ganswer : Type := Fitted (r : res unit) | Predicted (r : res (list (list nat))).
  Definition set_model (m : list (list (list O) * list O)) (g : gauss O) : gauss O := mkGauss m (gregularize g) (gshape g).
  Definition set_shape (n : nat) (g : gauss O) : gauss O := mkGauss (gmodel g) (gregularize g) (Some n).
  (** gaussian_model.py:83-87 *)
  Fixpoint fit_classes (cols : nat) (x : list (list O)) (y : list Z) (r : O) (cs : list Z) : code (gauss O) ganswer :=
    match cs with
    | [] => Ret (Fitted (Ok tt))
    | c :: cs' =>
        let z := select c x y in let u := mean0 cols z in
        match inv (covariance cols r z u) with
        | None => Ret (Fitted (Err LinAlgError))
        | Some i => poke (fun g => set_model (gmodel g ++ [(i, u)]) g) (fit_classes cols x y r cs')     (* 87 *)
        end
    end.
  (** gaussian_model.py:63-87 *)
  Definition fit_code (x : xarr O) (y : yarr) : code (gauss O) ganswer :=
    match x with
    | XRank _ => Ret (Fitted (Err ValueError))
    | X2 cols rows =>
        if ((length rows =? 0) || (cols =? 0))%nat%bool then Ret (Fitted (Err ValueError))
        else match ylen y with
             | None => Ret (Fitted (Err TypeError))
             | Some n =>
                 if negb (n =? length rows)%nat then Ret (Fitted (Err ValueError))
                 else match y with
                      | YOther _ | YScalar => Ret (Fitted (Err TypeError))
                      | YIntHigh _ => poke (set_model []) (poke (set_shape cols) (Ret (Fitted (Err TypeError))))
                      | YInt l => poke (set_model [])                                        (* 80 *)
                                  (poke (set_shape cols)                                     (* 81 *)
                                  (peek (fun g => fit_classes cols rows l (gregularize g) (sorted_set l))))  (* 82-87 *)
                      end
             end
    end.
  (** gaussian_model.py:115-118, the row of one sample: the classes [is] still to do, k the
      number of columns of v *)
  Fixpoint row_code (k : nat) (x : list O) (is : list nat) (row : list O) (next : list O -> code (gauss O) ganswer) : code (gauss O) ganswer :=
    match is with
    | [] => next row
    | i :: is' => peek (fun g => match nth_error (gmodel g) i with
        | None => Ret (Predicted (Err IndexError))                                           (* 116 *)
        | Some p => if Nat.ltb i k then row_code k x is' (row ++ [mahalanobis p x]) next
                    else Ret (Predicted (Err IndexError))                                    (* 118 *)
        end)
    end.
  Fixpoint rows_code (k : nat) (rows : list (list O)) (out : list (list nat)) : code (gauss O) ganswer :=
    match rows with
    | [] => Ret (Predicted (Ok out))
    | x :: rows' => peek (fun g => row_code k x (seq 0 (length (gmodel g))) []                (* 115 *)
        (fun row => rows_code k rows' (out ++ [argsort (row ++ repeat zero (k - length row))])))
    end.
  (** gaussian_model.py:89-119; v starts as zeros, and a row has only the classes seen at 115 *)
  Definition predict_code (x : xarr O) : code (gauss O) ganswer :=
    peek (fun g => if (length (gmodel g) =? 0)%nat then Ret (Predicted (Err ValueError))     (* 105-106 *)
      else match x with
           | XRank _ => Ret (Predicted (Err ValueError))
           | X2 cols rows =>
               if ((length rows =? 0) || (cols =? 0))%nat%bool then Ret (Predicted (Err ValueError))
               else peek (fun g => match gshape g with
                    | None => Ret (Predicted (Err ValueError))                               (* 109-110 *)
                    | Some c => if (c =? cols)%nat then
                        peek (fun g => if (length (gmodel g) =? 0)%nat then Ret (Predicted (Err RuntimeError))  (* 111-112 *)
                                       else peek (fun g => rows_code (length (gmodel g)) rows []))             (* 113 *)
                        else Ret (Predicted (Err ValueError))
                    end)
           end).
  Definition gauss_code (c : gcall) : code (gauss O) ganswer :=
    match c with Fit x y => fit_code x y | Predict x => predict_code x end.
End Gaussian.
Arguments gcall O : clear implicits.
