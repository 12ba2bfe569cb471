(** PolyphaseRateFilter built and used by several threads: all instances share the class
    attribute B, which the first constructor fills (polyphase_rate_filter.py:87, 124-131, 153).

    Steps as in ThreadModel.v.  The world of these threads holds the arrays that B has been or
    may become, the name B is bound to, and the instances.  An array that a constructor is
    still preparing is named after its thread and the number of arrays that thread has
    published; a thread prepares one at a time, so the name is fresh.  Each thread has one
    variable for an instance of its own (instances are not shared between threads: for that
    see C158). *)
From Coq Require Import List Arith ZArith Bool.
From Verif Require Import Base Instances PolyphaseModel ThreadModel.
Import ListNotations.
Set Asymmetric Patterns.

Section PolyThreads.
  Context {O : OArith}.
  Variable rnd : O -> Z.
  Variable isclose : O -> O -> bool.
  (** Dimensions of the class attribute B (line 87) and the coefficients of
      FirFilter("Hann", 0.85 / rr, cc * rr - 1) (line 128). *)
  Variables (rr cc : nat) (h : list O).

  Inductive name : Type := Root | Made (thread number : nat).
  Definition name_eqb (a b : name) : bool :=
    match a, b with Root, Root => true | Made i n, Made j m => (Nat.eqb i j && Nat.eqb n m)%bool | _, _ => false end.
  Record world : Type := mkWorld {
    bound : name;                       (* PolyphaseRateFilter.B *)
    array : name -> bank O;
    published : nat -> nat;             (* by thread *)
    inst : nat -> option (poly O)       (* by thread *)
  }.
  Definition set_array (a : name) (v : bank O) (w : world) : world :=
    mkWorld (bound w) (fun b => if name_eqb b a then v else array w b) (published w) (inst w).
  Definition set_inst (i : nat) (p : poly O) (w : world) : world :=
    mkWorld (bound w) (array w) (published w) (upd (inst w) i (Some p)).
  (** line 131 *)
  Definition publish (i : nat) (w : world) : world :=
    mkWorld (Made i (published w i)) (array w) (upd (published w) i (S (published w i))) (inst w).

  Inductive pcall : Type := PMake (rate : O) | PFilter (x : list O) | PRate (rate : O) | PReset (v : option O).
  Inductive panswer : Type := PDone (r : res unit) | PSamples (r : option (res (list O))).

  (** numpy.reshape(b, (rr, cc), "F"), line 128 *)
  Definition raw_row (i : nat) : list O := map (fun j => nth (i + rr * j) h zero) (seq 0 cc).
  (** line 130 *)
  Definition normal_row (row : list O) : list O := map (fun v => div v (fold_left add row zero)) row.
  Definition any (B : bank O) : bool := existsb (existsb (fun v => negb (eqb v zero))) B.

  (** lines 132-134 *)
  Definition finish_code (i : nat) (rate : O) : code world panswer :=
    poke (set_inst i (mkPoly zero rate (zeros cc))) (Ret (PDone (Ok tt))).
  (** lines 129-131: the rows still to do *)
  Fixpoint norm_code (i : nat) (rate : O) (rows : list nat) : code world panswer :=
    match rows with
    | [] => poke (publish i) (finish_code i rate)                                          (* 131 *)
    | k :: rows' =>
        poke (fun w => let a := Made i (published w i) in
                       set_array a (firstn k (array w a) ++ normal_row (nth k (array w a) []) :: skipn (S k) (array w a)) w)
             (norm_code i rate rows')                                                      (* 129-130 *)
    end.
  (** lines 113-134 *)
  Definition pmake_code (i : nat) (rate : O) : code world panswer :=
    if prate_bad rr rate then Ret (PDone (Err ValueError))                                 (* 121-122 *)
    else peek (fun w => let a := bound w in                                                (* 124 *)
         peek (fun w => if any (array w a) then finish_code i rate                         (* 126 *)
                        else poke (fun w => set_array (Made i (published w i)) (map raw_row (seq 0 rr)) w)
                                  (norm_code i rate (seq 0 rr)))).                         (* 127-131 *)

  (** A call of a name that is not bound to an instance (NameError). *)
  Definition unbound (c : pcall) : panswer := match c with PFilter _ => PSamples (Some (Err OtherError)) | _ => PDone (Err OtherError) end.
  (** lines 136-168: B is read once, at line 153.  Simplification: the loop is one access,
      since the instance belongs to the thread. *)
  Definition pfilter_code (i : nat) (x : list O) : code world panswer :=
    peek (fun w => match inst w i with
      | None => Ret (unbound (PFilter x))
      | Some _ => peek (fun w => let a := bound w in                                       (* 153 *)
          Act (fun w => match inst w i with
                        | Some p => match poly_filter rnd (array w a) p x with Some (p', _) => set_inst i p' w | None => w end
                        | None => w end)
              (fun w => match inst w i with
                        | Some p => Ret (PSamples (option_map snd (poly_filter rnd (array w a) p x)))
                        | None => Ret (unbound (PFilter x)) end))
      end).
  Definition pmeth_code (i : nat) (c : pcall) (f : poly O -> poly O * res unit) : code world panswer :=
    Act (fun w => match inst w i with Some p => set_inst i (fst (f p)) w | None => w end)
        (fun w => Ret (match inst w i with Some p => PDone (snd (f p)) | None => unbound c end)).
  Definition pcode (c : nat * pcall) : code world panswer :=
    match snd c with
    | PMake rate => pmake_code (fst c) rate
    | PFilter x => pfilter_code (fst c) x
    | PRate rate => pmeth_code (fst c) (snd c) (fun p => poly_set_rate isclose rr p rate)  (* 97-103 *)
    | PReset v => pmeth_code (fst c) (snd c) (fun p => poly_reset p v)                     (* 170-181 *)
    end.
  (** At import: B is numpy.zeros((rr, cc)) (line 87). *)
  Definition initial : world :=
    mkWorld Root (fun _ => repeat (zeros cc) rr) (fun _ => 0) (fun _ => None).
End PolyThreads.
Arguments world O : clear implicits. Arguments pcall O : clear implicits. Arguments panswer O : clear implicits.
