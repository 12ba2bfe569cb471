(** Model of diamondback/commons/rest_client.py, class RestClient (lines 46-146).
    requests is not part of the repository: [net] answers a request, given everything that
    happened before, by a response or an exception; it is any function at all.
    Texts other than the method are lists of code points; the method is an ASCII string
    (no other character becomes part of one of the seven names under title()). *)
From Coq Require Import String List Arith ZArith NArith Bool.
From Verif Require Import Base PyString.
Import ListNotations.
Set Asymmetric Patterns.

Definition text : Type := list N.
Definition slash : N := 47%N.
(** str.strip("/") *)
Fixpoint lstrip_slash (s : text) : text :=
  match s with c :: r => if (c =? slash)%N then lstrip_slash r else s | [] => [] end.
Definition strip_slash (s : text) : text := rev (lstrip_slash (rev (lstrip_slash s))).
(** RestClient.METHOD, line 49 *)
Definition METHOD : list string := ["Delete"; "Get"; "Head"; "Options"; "Patch"; "Post"; "Put"]%string.

Section Rest.
  Variable obj : Type.                 (* any Python object *)
  Variable truthy : obj -> bool.       (* bool(x) *)
  Variable none empty_dict timeout0 : obj.

  Record request : Type := mkRequest {
    q_method : string; q_url : option text; q_params : obj; q_data : obj; q_headers : obj; q_auth : obj;
    q_json : obj; q_proxies : obj; q_timeout : obj }.
  Record response : Type := mkResponse { r_id : nat; r_status : nat; r_body : obj }.
  Inductive event := Sent (q : request) | Closed (r : response).
  Variable net : list event -> request -> res response.

  Record client : Type := mkClient { c_proxy : obj; c_timeout : obj; c_url : option text }.
  (** lines 86-92; the text is http://127.0.0.1:8080 *)
  Definition default_url : text := [104; 116; 116; 112; 58; 47; 47; 49; 50; 55; 46; 48; 46; 48; 46; 49; 58; 56; 48; 56; 48]%N.
  Definition new_client : client := mkClient empty_dict timeout0 (Some default_url).
  Definition set_proxy (c : client) (p : obj) : client := mkClient p (c_timeout c) (c_url c).       (* 64-66 *)
  Definition set_timeout (c : client) (t : obj) : client := mkClient (c_proxy c) t (c_url c).       (* 72-74 *)
  (** lines 80-84; None and "" are kept *)
  Definition set_url (c : client) (u : option text) : client :=
    mkClient (c_proxy c) (c_timeout c) (match u with Some (x :: s) => Some (strip_slash (x :: s)) | _ => u end).
  (** raise_for_status of requests *)
  Definition bad_status (r : response) : bool := (400 <=? r_status r)%nat && (r_status r <? 600)%nat.
  (** lines 51-58 *)
  Definition live (c : client) (h : list event) : client * list event * bool :=
    let q := mkRequest "head" (c_url c) none none none none none (c_proxy c) (c_timeout c) in
    (c, h ++ [Sent q], is_ok (net h q)).
  (** lines 94-146; with closes the response on every way out *)
  Definition rest_request (c : client) (h : list event) (method : string) (api : text) (auth header item data json : obj)
    : client * list event * res response :=
    let method := py_title method in
    if negb (mem_str method METHOD) then (c, h, Err ValueError)
    else if truthy data && truthy json then (c, h, Err ValueError)
    else
      let api := strip_slash api in
      let url := match api, c_url c with
                 | [], u => Ok u
                 | _ :: _, Some u => Ok (Some (u ++ slash :: api))
                 | _ :: _, None => Err TypeError
                 end in
      match url with
      | Err e => (c, h, Err e)
      | Ok url =>
          let q := mkRequest method url item data header auth json (c_proxy c) (c_timeout c) in
          match net h q with
          | Err e => (c, h ++ [Sent q], Err e)
          | Ok r => (c, h ++ [Sent q; Closed r], if bad_status r then Err RequestError else Ok r)
          end
      end.

  (** A history of use. *)
  Inductive rest_op :=
  | SetProxy (p : obj) | SetTimeout (t : obj) | SetUrl (u : option text) | Live
  | Request (method : string) (api : text) (auth header item data json : obj).
  Definition rest_do (s : client * list event) (o : rest_op) : client * list event :=
    let (c, h) := s in
    match o with
    | SetProxy p => (set_proxy c p, h)
    | SetTimeout t => (set_timeout c t, h)
    | SetUrl u => (set_url c u, h)
    | Live => fst (live c h)
    | Request m a au he it da js => fst (rest_request c h m a au he it da js)
    end.
  Definition rest_run (s : client * list event) (os : list rest_op) : client * list event := fold_left rest_do os s.
End Rest.
