(** Model of diamondback/commons/serial.py, class Serial (lines 65-137).
    base64 is in Base85.v.  pickle, gzip and hashlib are parameters; text encodings are
    pairs of functions, of which the usual ones are given below.  A text is a list of code
    points, a byte string a list of numbers below 256. *)
From Coq Require Import String List Arith NArith ZArith Bool.
From Verif Require Import Base Base85.
Import ListNotations.
Set Asymmetric Patterns.
Local Open Scope N_scope.

Definition text : Type := list N.
Definition bytes : Type := list N.

(** *** Text encodings of Python *)
Record codec : Type := mkCodec { enc : text -> res bytes; dec : bytes -> res text }.
(** "ascii" and "latin-1" *)
Definition below (n : N) (l : list N) : res (list N) := if forallb (fun c => c <? n) l then Ok l else Err UnicodeError.
Definition ascii_codec : codec := mkCodec (below 128) (below 128).
Definition latin1_codec : codec := mkCodec (below 256) (fun b => Ok b).
(** "utf-8" *)
Definition utf8_char (c : N) : res bytes :=
  if c <? 128 then Ok [c]
  else if c <? 2048 then Ok [192 + c / 64; 128 + c mod 64]
  else if (55296 <=? c) && (c <? 57344) then Err UnicodeError                  (* surrogates *)
  else if c <? 65536 then Ok [224 + c / 4096; 128 + c / 64 mod 64; 128 + c mod 64]
  else if c <? 1114112 then Ok [240 + c / 262144; 128 + c / 4096 mod 64; 128 + c / 64 mod 64; 128 + c mod 64]
  else Err UnicodeError.
Fixpoint utf8_enc (t : text) : res bytes :=
  match t with [] => Ok [] | c :: r => bind (utf8_char c) (fun x => bind (utf8_enc r) (fun y => Ok (x ++ y))) end.
Definition cont (b : N) : bool := (128 <=? b) && (b <? 192).
Fixpoint utf8_dec (b : bytes) : res text :=
  match b with
  | [] => Ok []
  | b0 :: r0 =>
      if b0 <? 128 then bind (utf8_dec r0) (fun y => Ok (b0 :: y))
      else if b0 <? 194 then Err UnicodeError
      else match r0 with
      | [] => Err UnicodeError
      | b1 :: r1 =>
          if negb (cont b1) then Err UnicodeError
          else if b0 <? 224 then bind (utf8_dec r1) (fun y => Ok ((b0 - 192) * 64 + (b1 - 128) :: y))
          else match r1 with
          | [] => Err UnicodeError
          | b2 :: r2 =>
              if negb (cont b2) then Err UnicodeError
              else if b0 <? 240 then
                let c := (b0 - 224) * 4096 + (b1 - 128) * 64 + (b2 - 128) in
                if (c <? 2048) || ((55296 <=? c) && (c <? 57344)) then Err UnicodeError
                else bind (utf8_dec r2) (fun y => Ok (c :: y))
              else match r2 with
              | [] => Err UnicodeError
              | b3 :: r3 =>
                  if negb (cont b3) then Err UnicodeError
                  else
                    let c := (b0 - 240) * 262144 + (b1 - 128) * 4096 + (b2 - 128) * 64 + (b3 - 128) in
                    if (b0 <? 245) && (65536 <=? c) && (c <? 1114112) then bind (utf8_dec r3) (fun y => Ok (c :: y)) else Err UnicodeError
              end
          end
      end
  end.
Definition utf8_codec : codec := mkCodec utf8_enc utf8_dec.
(** "utf-16": the byte order mark and the byte order of the machine *)
Definition unit_bytes (big : bool) (u : N) : bytes := if big then [u / 256; u mod 256] else [u mod 256; u / 256].
Definition utf16_char (big : bool) (c : N) : res bytes :=
  if (55296 <=? c) && (c <? 57344) then Err UnicodeError
  else if c <? 65536 then Ok (unit_bytes big c)
  else if c <? 1114112 then Ok (unit_bytes big (55296 + (c - 65536) / 1024) ++ unit_bytes big (56320 + (c - 65536) mod 1024))
  else Err UnicodeError.
Fixpoint utf16_chars (big : bool) (t : text) : res bytes :=
  match t with [] => Ok [] | c :: r => bind (utf16_char big c) (fun x => bind (utf16_chars big r) (fun y => Ok (x ++ y))) end.
Definition utf16_enc (big : bool) (t : text) : res bytes :=
  bind (utf16_chars big t) (fun y => Ok ((if big then [254; 255] else [255; 254]) ++ y)).
Definition unit_of (big : bool) (x y : N) : N := if big then x * 256 + y else y * 256 + x.
Fixpoint utf16_units (big : bool) (b : bytes) : res text :=
  match b with
  | [] => Ok []
  | [_] => Err UnicodeError
  | x :: y :: r =>
      let u := unit_of big x y in
      if (u <? 55296) || (57344 <=? u) then bind (utf16_units big r) (fun t => Ok (u :: t))
      else if 56320 <=? u then Err UnicodeError
      else match r with
           | x' :: y' :: r' =>
               let v := unit_of big x' y' in
               if (56320 <=? v) && (v <? 57344) then bind (utf16_units big r') (fun t => Ok (65536 + (u - 55296) * 1024 + (v - 56320) :: t)) else Err UnicodeError
           | _ => Err UnicodeError
           end
  end.
Definition utf16_dec (big : bool) (b : bytes) : res text :=
  match b with
  | x :: y :: r => if (x =? 255) && (y =? 254) then utf16_units false r
                   else if (x =? 254) && (y =? 255) then utf16_units true r
                   else utf16_units big b
  | _ => utf16_units big b
  end.
Definition utf16_codec (big : bool) : codec := mkCodec (utf16_enc big) (utf16_dec big).
Definition std_codecs (big : bool) (name : string) : option codec :=
  if (name =? "utf-8")%string then Some utf8_codec
  else if (name =? "ascii")%string then Some ascii_codec
  else if (name =? "latin-1")%string then Some latin1_codec
  else if (name =? "utf-16")%string then Some (utf16_codec big)
  else None.

Section Serial.
  Variable O : Type.                               (* objects *)
  Variable dump : O -> res bytes.                  (* pickle.dump into a buffer *)
  Variable load : bytes -> res O.                  (* pickle.load from a buffer *)
  Variable gz : N -> bytes -> bytes.               (* gzip.compress at a time *)
  Variable gunzip : bytes -> res bytes.            (* gzip.decompress *)
  Variable sha3 : bytes -> text.                   (* hashlib.sha3_256(..).hexdigest() *)
  Variable codec_of : string -> option codec.      (* unknown names raise LookupError *)

  (** bytes(x, encoding), str(b, encoding) *)
  Definition to_bytes (x : text) (encoding : string) : res bytes :=
    match codec_of encoding with Some c => enc c x | None => Err OtherError end.
  Definition to_text (b : bytes) (encoding : string) : res text :=
    match codec_of encoding with Some c => dec c b | None => Err OtherError end.
  Definition is_empty {X} (l : list X) : bool := match l with [] => true | _ => false end.
  (** lines 68-86 *)
  Definition serial_code (x : text) (encoding : string) : res text :=
    if is_empty x then Err ValueError
    else if (encoding =? "")%string then Err ValueError
    else bind (to_bytes x encoding) (fun b => Ok (sha3 b)).
  (** lines 88-114 *)
  Definition serial_decode (x : text) (encoding : string) : res O :=
    if is_empty x then Err ValueError
    else if (encoding =? "")%string then Err ValueError
    else bind (to_bytes x encoding) (fun b =>
         bind (b85decode b) (fun u =>
         match bind (gunzip u) load with
         | Ok y => Ok y
         | Err _ => load u
         end)).
  (** lines 116-137 *)
  Definition serial_encode (now : N) (x : O) (compress : bool) (encoding : string) : res text :=
    if (encoding =? "")%string then Err ValueError
    else bind (dump x) (fun p => to_text (b85encode (if compress then gz now p else p)) encoding).
End Serial.
