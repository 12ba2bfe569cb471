(** diamondback/commons/rest_client.py, lines 51-146, as accesses to the object (ThreadModel.v).
    The object is the client together with what it has sent and closed; the network answers by
    that history ([net], any function at all).  Each of the three settings is read by itself. *)
From Coq Require Import String List Arith ZArith NArith Bool.
From Verif Require Import Base PyString RestModel ThreadModel.
Import ListNotations.
Set Asymmetric Patterns.

(** what a call answers: nothing, live, a response *)
Inductive outcome (obj : Type) : Type := ODone | OLive (b : bool) | OResponse (r : res (response obj)).
Arguments ODone {obj}. Arguments OLive {obj} b. Arguments OResponse {obj} r.
Section Code.
  Variable obj : Type.
  Variable truthy : obj -> bool.
  Variable none : obj.
  Variable net : list (event obj) -> request obj -> res (response obj).
  Definition world : Type := (client obj * list (event obj))%type.
  (** requests.request: the request leaves, the answer comes back *)
  Definition send_code (q : request obj) (k : res (response obj) -> code world (outcome obj)) : code world (outcome obj) :=
    Act (fun w : world => (fst w, snd w ++ [Sent obj q])) (fun w => k (net (snd w) q)).
  Definition rest_code (a : rest_op obj) : code world (outcome obj) :=
    match a with
    | SetProxy p => poke (fun w : world => (set_proxy obj (fst w) p, snd w)) (Ret ODone)              (* 64-66 *)
    | SetTimeout t => poke (fun w : world => (set_timeout obj (fst w) t, snd w)) (Ret ODone)          (* 72-74 *)
    | SetUrl u => poke (fun w : world => (set_url obj (fst w) u, snd w)) (Ret ODone)                  (* 80-84 *)
    | Live =>                                                                                         (* 51-58 *)
        peek (fun w1 : world => peek (fun w2 : world => peek (fun w3 : world =>
          send_code (mkRequest obj "head" (c_url obj (fst w1)) none none none none none (c_proxy obj (fst w2)) (c_timeout obj (fst w3)))
            (fun r => Ret (OLive (is_ok r))))))
    | Request method api auth header item data json =>                                                (* 94-146 *)
        let method := py_title method in
        if negb (mem_str method METHOD) then Ret (OResponse (Err ValueError))                         (* 125-127 *)
        else if truthy data && truthy json then Ret (OResponse (Err ValueError))                      (* 128-129 *)
        else
          let api := strip_slash api in
          peek (fun w1 : world =>                                                                     (* 131 *)
            match api, c_url obj (fst w1) with
            | _ :: _, None => Ret (OResponse (Err TypeError))                                         (* 132-133 *)
            | _, u =>
                let url := match api, u with _ :: _, Some b => Some (b ++ slash :: api) | _, _ => u end in
                peek (fun w2 : world => peek (fun w3 : world =>                                       (* 134-144 *)
                  send_code (mkRequest obj method url item data header auth json (c_proxy obj (fst w2)) (c_timeout obj (fst w3)))
                    (fun r => match r with
                              | Err e => Ret (OResponse (Err e))
                              | Ok r => poke (fun w : world => (fst w, snd w ++ [Closed obj r]))      (* 144-146 *)
                                          (Ret (OResponse (if bad_status obj r then Err RequestError else Ok r)))
                              end)))
            end)
    end.
  (** the call made alone *)
  Definition rest_call (w : world) (a : rest_op obj) : world * outcome obj :=
    match a with
    | Live => let '(c, h, b) := live obj none net (fst w) (snd w) in ((c, h), OLive b)
    | Request m api au he it da js => let '(c, h, r) := rest_request obj truthy net (fst w) (snd w) m api au he it da js in ((c, h), OResponse r)
    | _ => (rest_do obj truthy none net w a, ODone)
    end.
End Code.
