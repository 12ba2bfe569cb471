(** Several PolyphaseRateFilter objects and their one class-wide bank
    (filters/polyphase_rate_filter.py:87-91, 121-134). *)
From Coq Require Import List Arith ZArith Bool.
From Verif Require Import Base Instances CalculusModel RankModel PolyphaseModel.
Import ListNotations.
Set Asymmetric Patterns.

Section Shared.
  Context {O : OArith}.
  Variable rnd : O -> Z.
  Variable isclose : O -> O -> bool.
  (** The dimensions of PolyphaseRateFilter.B (line 87) and the FirFilter design (line 127). *)
  Variables (rr cc : nat) (h : list O).

  (** The class attribute B and the caller's variables, each bound to one object. *)
  Record pworld : Type := mkPworld { wbank : bank O; wobj : nat -> option (poly O) }.
  Definition bind_name (e : nat -> option (poly O)) (k : nat) (f : poly O) : nat -> option (poly O) :=
    fun j => if Nat.eqb j k then Some f else e j.

  (** [PPoke k i j v]: k.b[i, j] = v, with indices that are not negative; [PLook k]: k.b. *)
  Inductive pop : Type :=
  | PNew (k : nat) (rate : O) | PFilter (k : nat) (x : list O) | PReset (k : nat) (x : option O)
  | PRate (k : nat) (rate : O) | PPoke (k i j : nat) (v : O) | PLook (k : nat).
  Inductive pobs : Type := ODone | OFail (e : exn) | OOut (y : list O) | OBank (B : bank O).
  Definition obs_of (r : res unit) : pobs := match r with Ok _ => ODone | Err e => OFail e end.
  Fixpoint set_nth {X : Type} (i : nat) (v : X) (l : list X) : list X :=
    match l, i with
    | [], _ => []
    | _ :: t, 0 => v :: t
    | a :: t, S i' => a :: set_nth i' v t
    end.
  Definition poke (i j : nat) (v : O) (B : bank O) : bank O := set_nth i (set_nth j v (nth i B [])) B.

  (** A name that is not bound raises NameError, here OtherError. *)
  Definition pexec (w : pworld) (o : pop) : pworld * pobs :=
    match o with
    | PNew k rate =>
        match poly_make rr cc rate with                                     (* 121-122, 132-134 *)
        | Err e => (w, OFail e)
        | Ok f => (mkPworld (bank_init rr cc (wbank w) h) (bind_name (wobj w) k f), ODone)  (* 124-131 *)
        end
    | PFilter k x =>
        match wobj w k with
        | None => (w, OFail OtherError)
        | Some f => match poly_filter rnd (wbank w) f x with                (* 154: the class attribute *)
                    | None => (w, OFail OtherError)                         (* an endless loop: not for ordered numbers, C48 *)
                    | Some (f', r) => (mkPworld (wbank w) (bind_name (wobj w) k f'), match r with Ok y => OOut y | Err e => OFail e end)
                    end
        end
    | PReset k x =>
        match wobj w k with
        | None => (w, OFail OtherError)
        | Some f => let '(f', r) := poly_reset f x in (mkPworld (wbank w) (bind_name (wobj w) k f'), obs_of r)
        end
    | PRate k rate =>
        match wobj w k with
        | None => (w, OFail OtherError)
        | Some f => let '(f', r) := poly_set_rate isclose rr f rate in (mkPworld (wbank w) (bind_name (wobj w) k f'), obs_of r)
        end
    | PPoke k i j v =>
        match wobj w k with
        | None => (w, OFail OtherError)
        | Some _ => if (Nat.ltb i (length (wbank w)) && Nat.ltb j (length (nth i (wbank w) [])))%bool
                    then (mkPworld (poke i j v (wbank w)) (wobj w), ODone)  (* 89-91: the array itself *)
                    else (w, OFail IndexError)
        end
    | PLook k => match wobj w k with None => (w, OFail OtherError) | Some _ => (w, OBank (wbank w)) end (* 89-91 *)
    end.
  Definition pname (o : pop) : nat :=
    match o with PNew k _ | PFilter k _ | PReset k _ | PRate k _ | PPoke k _ _ _ | PLook k => k end.
  (** A program: what each operation showed, with the name it used. *)
  Fixpoint prun (w : pworld) (p : list pop) : pworld * list (nat * pobs) :=
    match p with
    | [] => (w, [])
    | o :: p' => let '(w1, r) := pexec w o in let '(w2, rs) := prun w1 p' in (w2, (pname o, r) :: rs)
    end.
  (** The module just imported: line 87, no objects. *)
  Definition fresh_world (B : bank O) : pworld := mkPworld B (fun _ => None).
End Shared.
Arguments pop O : clear implicits.
Arguments pobs O : clear implicits.
Arguments pworld O : clear implicits.
