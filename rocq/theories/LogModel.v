(** Model of diamondback/commons/log.py, class Log (lines 88-159), and of the part of loguru
    it uses.  loguru is not part of the repository; the model of it follows its
    documentation: handlers have ids counted from 0 and never reused, add of an object
    whose write is not callable raises TypeError, remove of an unknown id raises
    ValueError, level(name) raises ValueError for an unknown name and a level number
    once given never changes, log hands a record to every handler whose level is not above
    it, errors inside a sink are caught by loguru. *)
From Coq Require Import String List Arith ZArith Bool DecimalString.
From Verif Require Import Base PyString.
Import ListNotations.
Set Asymmetric Patterns.
Local Open Scope string_scope.

(** A Python object offered as stream: identity, bool(), hasattr "write", and whether that
    attribute is callable. *)
Record stream : Type := mkStream { s_id : nat; s_truthy : bool; s_write : bool; s_callable : bool }.
(** Who called logger.add: used in statements only, no function looks at it. *)
Inductive creator := ByLoguru | ByLog | ByOther.
Record handler : Type := mkHandler { h_id : nat; h_stream : stream; h_level : nat; h_creator : creator }.
Definition level_t : Type := (string * nat)%type.
Record logger : Type := mkLogger {
  l_handlers : list handler;
  l_next : nat;
  l_levels : list level_t;
  l_enabled : bool                                 (* logger.enable/disable of this package *)
}.
(** One line delivered by a handler: its id, its stream, level name, message. *)
Definition line : Type := (nat * stream * string * string)%type.
Record world : Type := mkWorld {
  w_logger : logger;
  w_identity : nat;                                (* Log._identity *)
  w_level : level_t;                               (* Log._level *)
  w_stdout : stream;                               (* sys.stdout *)
  w_lines : list line                              (* everything delivered so far *)
}.

(** The levels of loguru. *)
Definition default_levels : list level_t :=
  [("TRACE", 5); ("DEBUG", 10); ("INFO", 20); ("SUCCESS", 25); ("WARNING", 30); ("ERROR", 40); ("CRITICAL", 50)].
(** Importing loguru, then the class body of Log, lines 95-97.  With LOGURU_AUTOINIT=False
    there is no default handler and the ids start at 0. *)
Definition initial (autoinit : bool) (stderr stdout : stream) : world :=
  mkWorld (mkLogger (if autoinit then [mkHandler 0 stderr 10 ByLoguru] else []) (if autoinit then 1 else 0) default_levels true)
          0 ("INFO", 20) stdout [].

(** *** loguru *)
Fixpoint find_level (n : string) (l : list level_t) : option level_t :=
  match l with [] => None | p :: r => if (n =? fst p)%string then Some p else find_level n r end.
Definition has_handler (i : nat) (l : list handler) : bool := existsb (fun h => (h_id h =? i)%nat) l.
Definition set_logger (w : world) (g : logger) : world := mkWorld g (w_identity w) (w_level w) (w_stdout w) (w_lines w).
(** logger.remove(i) *)
Definition lg_remove (w : world) (i : nat) : world * res unit :=
  let g := w_logger w in
  if has_handler i (l_handlers g)
  then (set_logger w (mkLogger (filter (fun h => negb (h_id h =? i)%nat) (l_handlers g)) (l_next g) (l_levels g) (l_enabled g)), Ok tt)
  else (w, Err ValueError).
(** logger.add(s, level=v) *)
Definition lg_add (w : world) (c : creator) (s : stream) (v : nat) : world * res nat :=
  let g := w_logger w in
  if s_write s && s_callable s
  then (set_logger w (mkLogger (l_handlers g ++ [mkHandler (l_next g) s v c]) (S (l_next g)) (l_levels g) (l_enabled g)), Ok (l_next g))
  else (w, Err TypeError).
(** logger.level(n) *)
Definition lg_level (w : world) (n : string) : res level_t :=
  match find_level n (l_levels (w_logger w)) with Some v => Ok v | None => Err ValueError end.
(** logger.log(v, text) *)
Definition lg_log (w : world) (v : level_t) (text : string) : world :=
  let g := w_logger w in
  if l_enabled g
  then mkWorld g (w_identity w) (w_level w) (w_stdout w)
         (w_lines w ++ map (fun h => (h_id h, h_stream h, fst v, text)) (filter (fun h => (h_level h <=? snd v)%nat) (l_handlers g)))
  else w.

(** *** Log *)
(** The level argument: a string or an object without upper. *)
Inductive level_arg := LStr (s : string) | LOther.
Definition frame : Type := (string * nat)%type.   (* file name and line *)
(** The entry: text, or an exception with the name of its type, its str() and its own
    __traceback__.  The frames of [entry_text] are those of sys.exc_info() at the call. *)
Inductive entry := EText (s : string) | EException (name text : string) (traceback : list frame).
Definition decimal (n : nat) : string := NilEmpty.string_of_uint (Nat.to_uint n).
Fixpoint frames_text (l : list frame) : string :=
  match l with [] => "" | (f, n) :: r => " @ File = " ++ f ++ " Line = " ++ decimal n ++ frames_text r end.
(** lines 153-158 *)
Definition entry_text (e : entry) (frames : list frame) : string :=
  match e with
  | EText s => s
  | EException n t _ => "Exception = " ++ n ++ " " ++ t ++ frames_text frames
  end.
(** logger.level(level.upper()) inside try, lines 109-112 and 148-151 *)
Definition look_up (w : world) (l : level_arg) : res level_t :=
  match l with
  | LOther => Err ValueError
  | LStr s => match lg_level w (py_upper s) with Ok v => Ok v | Err _ => Err ValueError end
  end.
Definition set_level (w : world) (v : level_t) : world := mkWorld (w_logger w) (w_identity w) v (w_stdout w) (w_lines w).
Definition set_identity (w : world) (i : nat) : world := mkWorld (w_logger w) i (w_level w) (w_stdout w) (w_lines w).
(** lines 99-112 *)
Definition log_level (w : world) (l : level_arg) : world * res unit :=
  match look_up w l with
  | Ok v => (set_level w v, Ok tt)
  | Err e => (w, Err e)
  end.
(** lines 114-132 *)
Definition log_stream (w : world) (s : stream) : world * res unit :=
  if negb (s_truthy s) || negb (s_write s) then (w, Err ValueError)
  else let (w1, _) := lg_remove w (w_identity w) in          (* ValueError suppressed *)
       match lg_add w1 ByLog s 0 with
       | (w2, Ok i) => (set_identity w2 i, Ok tt)
       | (w2, Err e) => (w2, Err e)
       end.
(** lines 134-159; the lock is in [write_code] below *)
Definition log_write (w : world) (l : level_arg) (e : entry) (frames : list frame) : world * res unit :=
  let (w1, r) := if (w_identity w =? 0)%nat then log_stream w (w_stdout w) else (w, Ok tt) in
  match r with
  | Err x => (w1, Err x)
  | Ok _ => match look_up w1 l with
            | Err x => (w1, Err x)
            | Ok v => if (snd (w_level w1) <=? snd v)%nat
                      then (lg_log w1 v (entry_text e frames), Ok tt)
                      else (w1, Ok tt)
            end
  end.

(** Everything that can happen to Log and loguru. *)
Inductive op : Type :=
| Level (l : level_arg)
| Stream (s : stream)
| Write (l : level_arg) (e : entry) (frames : list frame)
| ExtAdd (s : stream) (v : nat)                    (* logger.add *)
| ExtRemove (i : nat)                              (* logger.remove(i) *)
| ExtRemoveAll                                     (* logger.remove() *)
| ExtLevel (n : string) (v : nat)                  (* logger.level(n, no=v) *)
| ExtEnable (b : bool)                             (* logger.enable/disable *)
| ExtLog (v : level_t) (text : string)             (* logger.log by other code *)
| ExtStdout (s : stream).                          (* sys.stdout = s *)
Definition do_op (w : world) (o : op) : world * res unit :=
  let g := w_logger w in
  match o with
  | Level l => log_level w l
  | Stream s => log_stream w s
  | Write l e f => log_write w l e f
  | ExtAdd s v => let (w1, r) := lg_add w ByOther s v in (w1, rmap (fun _ => tt) r)
  | ExtRemove i => lg_remove w i
  | ExtRemoveAll => (set_logger w (mkLogger [] (l_next g) (l_levels g) (l_enabled g)), Ok tt)
  | ExtLevel n v => match find_level n (l_levels g) with
                    | Some _ => (w, Err ValueError)
                    | None => (set_logger w (mkLogger (l_handlers g) (l_next g) (l_levels g ++ [(n, v)]) (l_enabled g)), Ok tt)
                    end
  | ExtEnable b => (set_logger w (mkLogger (l_handlers g) (l_next g) (l_levels g) b), Ok tt)
  | ExtLog v t => (lg_log w v t, Ok tt)
  | ExtStdout s => (mkWorld g (w_identity w) (w_level w) s (w_lines w), Ok tt)
  end.
Fixpoint do_ops (w : world) (os : list op) : world :=
  match os with [] => w | o :: r => do_ops (fst (do_op w o)) r end.

(** *** The same methods as sequences of single steps, with the lock.
    [Step f] is one atomic access to the shared state. *)
Inductive code : Type :=
| Done (r : res unit)
| Step (f : world -> world * code)
| Acquire (k : code)
| Release (k : code).
(** with Log._rlock: ..., leaving by return or raise *)
Definition leave (r : res unit) : code := Release (Done r).
Definition level_code (l : level_arg) : code :=                          (* 108-112 *)
  Acquire (Step (fun w => (w, match look_up w l with
                              | Ok v => Step (fun w => (set_level w v, leave (Ok tt)))
                              | Err e => leave (Err e)
                              end))).
Definition stream_steps (s : stream) (k : res unit -> code) : code :=    (* 123-132 *)
  Acquire
    (if negb (s_truthy s) || negb (s_write s) then Release (k (Err ValueError))
     else Step (fun w => (w, let i := w_identity w in
          Step (fun w => (fst (lg_remove w i),
          Step (fun w => let (w2, r) := lg_add w ByLog s 0 in
                         (w2, match r with
                              | Ok i => Step (fun w => (set_identity w i, Release (k (Ok tt))))
                              | Err e => Release (k (Err e))
                              end))))))).
Definition stream_code (s : stream) : code := stream_steps s Done.
Definition write_code (l : level_arg) (e : entry) (frames : list frame) : code :=    (* 145-159 *)
  let body := Step (fun w => (w, match look_up w l with
                | Err x => leave (Err x)
                | Ok v => Step (fun w => (w,
                    if (snd (w_level w) <=? snd v)%nat
                    then Step (fun w => (lg_log w v (entry_text e frames), leave (Ok tt)))
                    else leave (Ok tt)))
                end)) in
  Acquire (Step (fun w => (w,
    if (w_identity w =? 0)%nat
    then Step (fun w => (w, stream_steps (w_stdout w) (fun r => match r with Ok _ => body | Err x => leave (Err x) end)))
    else body))).
