(** Property C202: RestClient objects shared by several threads. *)
From Coq Require Import String List Arith ZArith NArith Bool Lia.
From Verif Require Import Base BaseLemmas PyString RestModel RestProps ThreadModel ThreadProps DivThreadProps PidThreadProps RestThreadModel.
Import ListNotations.
Set Asymmetric Patterns.
Local Open Scope nat_scope.

(** ** Specification *)
Section Spec.
  Variable obj : Type.
  Variable truthy : obj -> bool.
  Variable none : obj.
  Variable net : list (event obj) -> request obj -> res (response obj).
  Variable program : nat -> list (nat * rest_op obj).
  Variable o : nat.
  Variable w0 : world obj.                        (* the client before the threads start *)
  (** what the settings may be: as at the start, or as some thread sets them *)
  Definition url_known (u : option text) : Prop := u = c_url obj (fst w0) \/
    exists j v, In (o, SetUrl obj v) (program j) /\ match v with Some s => exists t, trimmed s t /\ u = Some t | None => u = None end.
  Definition proxy_known (p : obj) : Prop := p = c_proxy obj (fst w0) \/ exists j, In (o, SetProxy obj p) (program j).
  Definition timeout_known (t : obj) : Prop := t = c_timeout obj (fst w0) \/ exists j, In (o, SetTimeout obj t) (program j).
  Definition sendable (m : string) (da js : obj) : Prop := allowed m /\ ~ (truthy da = true /\ truthy js = true).
  (** the request a call may send *)
  Definition request_of (a : rest_op obj) (q : request obj) : Prop :=
    proxy_known (q_proxies obj q) /\ timeout_known (q_timeout obj q) /\
    match a with
    | Live => py_lower (q_method obj q) = "head"%string /\ url_known (q_url obj q) /\ q_params obj q = none /\ q_data obj q = none /\ q_headers obj q = none /\ q_auth obj q = none /\ q_json obj q = none
    | Request m api au he it da js => sendable m da js /\ py_lower (q_method obj q) = py_lower m /\
        q_params obj q = it /\ q_data obj q = da /\ q_headers obj q = he /\ q_auth obj q = au /\ q_json obj q = js /\
        exists t, trimmed api t /\ ((t = [] /\ url_known (q_url obj q)) \/ exists b, url_known (Some b) /\ q_url obj q = Some (joined b t))
    | _ => False
    end.
  (** what a call answers, given all that was sent and closed by then *)
  Definition answered (a : rest_op obj) (y : outcome obj) (h : list (event obj)) : Prop :=
    match a with
    | Live => exists q g, request_of a q /\ In (Sent obj q) h /\ (y = OLive true /\ (exists r, net g q = Ok r) \/ y = OLive false /\ exists e, net g q = Err e)
    | Request m api au he it da js =>
        (~ sendable m da js /\ y = OResponse (Err ValueError)) \/
        (sendable m da js /\ url_known None /\ ~ trimmed api [] /\ y = OResponse (Err TypeError)) \/
        (exists q g, request_of a q /\ In (Sent obj q) h /\
           match net g q with
           | Err e => y = OResponse (Err e)
           | Ok r => In (Closed obj r) h /\ (400 <= r_status obj r < 600 -> y = OResponse (Err RequestError)) /\ (~ (400 <= r_status obj r < 600) -> y = OResponse (Ok r))
           end)
    | _ => y = ODone
    end.
  Definition event_ok (e : event obj) : Prop :=
    match e with
    | Sent q => exists j a, In (o, a) (program j) /\ request_of a q
    | Closed r => exists g q, net g q = Ok r /\ exists j a, In (o, a) (program j) /\ request_of a q
    end.
End Spec.

(** C202.  Without interruption the accesses are the calls of C102 to C104 and C121. *)
Theorem C202_uninterrupted obj truthy none net (a : rest_op obj) w :
  complete (rest_code obj truthy none net a) w = rest_call obj truthy none net w a.
Proof.
  destruct w as [c h]. destruct a as [p|t|u| |m api au he it da js]; try reflexivity. cbn [rest_code rest_call]. unfold rest_request. cbn [fst snd].
  destruct (negb _); [reflexivity|]. destruct (truthy da && truthy js); [reflexivity|]. cbn [peek complete fst snd].
  destruct (strip_slash api) as [|x s]; destruct (c_url obj c) as [u|]; cbn [peek complete send_code fst snd]; try reflexivity; (destruct (net h _) as [r|e]; [|reflexivity]); cbn [poke complete fst snd]; rewrite <- app_assoc; reflexivity.
Qed.
Print Assumptions C202_uninterrupted.

Section Shared.
  Variable obj : Type.
  Variable truthy : obj -> bool.
  Variable none : obj.
  Variable net : list (event obj) -> request obj -> res (response obj).
  Variable program : nat -> list (nat * rest_op obj).
  Variable o : nat.
  Variable w0 : world obj.
  Let U := url_known obj program o w0.
  Let P := proxy_known obj program o w0.
  Let T := timeout_known obj program o w0.
  Let E := event_ok obj truthy none net program o w0.
  Definition good (w : world obj) : Prop := U (c_url obj (fst w)) /\ P (c_proxy obj (fst w)) /\ T (c_timeout obj (fst w)) /\ exists t, snd w = snd w0 ++ t /\ Forall E t.
  Definition RR (w w' : world obj) : Prop := (good w -> good w') /\ exists t, snd w' = snd w ++ t.
  Definition QR (a : rest_op obj) (y : outcome obj) (w : world obj) : Prop := answered obj truthy none net program o w0 a y (snd w).
  Lemma RR_refl w : RR w w. Proof. split; [auto|]. exists []. rewrite app_nil_r. reflexivity. Qed.
  Lemma RR_trans a b c : RR a b -> RR b c -> RR a c.
  Proof. intros [H1 (t1 & E1)] [H2 (t2 & E2)]. split; [auto|]. exists (t1 ++ t2). rewrite E2, E1, app_assoc. reflexivity. Qed.
  Lemma QR_stable a y : stable RR (QR a y).
  Proof.
    intros w w' Q [_ (t & Et)]. unfold QR in *. rewrite Et. clear Et. destruct a as [p|p|u| |m api au he it da js]; cbn [answered] in *; try exact Q.
    - destruct Q as (q & g & A & B & C). exists q, g. split; [exact A|]. split; [apply in_or_app; left; exact B|exact C].
    - destruct Q as [Q|[Q|(q & g & A & B & C)]]; [left; exact Q|right; left; exact Q|right; right]. exists q, g. split; [exact A|]. split; [apply in_or_app; left; exact B|].
      destruct (net g q) as [r|e]; [|exact C]. destruct C as [C D]. split; [apply in_or_app; left; exact C|exact D].
  Qed.
  Definition goodwith (e : list (event obj)) (w : world obj) : Prop := good w /\ forall x, In x e -> In x (snd w).
  Lemma gw_stable e : stable RR (goodwith e).
  Proof. intros w w' [G I] [H (t & Et)]. split; [auto|]. intros x Hx. rewrite Et. apply in_or_app. left. auto. Qed.
  Lemma good_set c h c' : good (c, h) -> U (c_url obj c') -> P (c_proxy obj c') -> T (c_timeout obj c') -> RR (c, h) (c', h).
  Proof. intros (_ & _ & _ & H) A B D. split; [intros _; repeat split; assumption|]. exists []. cbn. rewrite app_nil_r. reflexivity. Qed.
  Lemma good_event w e : E e -> RR w (fst w, snd w ++ [e]).
  Proof.
    intros He. split; [|exists [e]; reflexivity]. intros (A & B & D & t & Et & Ft). split; [exact A|]. split; [exact B|]. split; [exact D|].
    exists (t ++ [e]). cbn [snd]. rewrite Et, app_assoc. split; [reflexivity|]. apply Forall_app. split; [exact Ft|]. constructor; [exact He|constructor].
  Qed.
  (** an access that only reads *)
  Lemma keeps_peek a k : (forall w, good w -> keeps RR QR a good (k w)) -> keeps RR QR a good (peek k).
  Proof. intros H w Hw. split; [apply RR_refl|]. exists good. split; [intros x y G [A _]; auto|]. split; [exact Hw|]. exact (H w Hw). Qed.
  Lemma keeps_send a j q k : In (o, a) (program j) -> request_of obj truthy none program o w0 a q ->
    (forall g, keeps RR QR a (goodwith [Sent obj q]) (k (net g q))) -> keeps RR QR a good (send_code obj net q k).
  Proof.
    intros I Rq H w Hw. assert (G : RR w (fst w, snd w ++ [Sent obj q])) by (apply good_event; exists j, a; auto). split; [exact G|].
    exists (goodwith [Sent obj q]). split; [apply gw_stable|]. split; [|apply H]. split; [apply G; exact Hw|]. intros x [<-|[]]. apply in_or_app. right. left. reflexivity.
  Qed.
  Lemma status_spec (r : response obj) : (400 <= r_status obj r < 600 -> (if bad_status obj r then Err RequestError else Ok r) = Err RequestError) /\ (~ (400 <= r_status obj r < 600) -> (if bad_status obj r then Err RequestError else Ok r) = Ok r).
  Proof. unfold bad_status. destruct (Nat.leb_spec 400 (r_status obj r)); destruct (Nat.ltb_spec (r_status obj r) 600); cbn; split; intros; try reflexivity; lia. Qed.
  Lemma sendable_iff m da js : sendable obj truthy m da js <-> mem_str (py_title m) METHOD = true /\ truthy da && truthy js = false.
  Proof.
    unfold sendable. rewrite <- mem_method. split; intros [A B]; (split; [exact A|]).
    - destruct (truthy da), (truthy js); auto. destruct B; auto.
    - intros [H1 H2]. rewrite H1, H2 in B. discriminate.
  Qed.
  Lemma call_keeps j a : In (o, a) (program j) -> keeps RR QR a good (rest_code obj truthy none net a).
  Proof.
    intros I. destruct a as [p|p|u| |m api au he it da js]; cbn [rest_code].
    - intros [c h] Hw. assert (G := Hw). destruct Hw as (A & B & D & _). split; [apply good_set; [exact G|exact A|right; exists j; exact I|exact D]|]. exists (fun _ => True). split; [intros ? ? _ _; exact Logic.I|]. split; [exact Logic.I|]. intros w' _. reflexivity.
    - intros [c h] Hw. assert (G := Hw). destruct Hw as (A & B & D & _). split; [apply good_set; [exact G|exact A|exact B|right; exists j; exact I]|]. exists (fun _ => True). split; [intros ? ? _ _; exact Logic.I|]. split; [exact Logic.I|]. intros w' _. reflexivity.
    - intros [c h] Hw. assert (G := Hw). destruct Hw as (A & B & D & _). split.
      + apply good_set; [exact G| |exact B|exact D]. right. exists j, u. split; [exact I|]. cbn [set_url c_url]. destruct u as [[|x s]|]; [|exists (strip_slash (x :: s)); split; [apply trimmed_strip|reflexivity]|reflexivity].
        exists []. split; [|reflexivity]. exact (trimmed_strip []).
      + exists (fun _ => True). split; [intros ? ? _ _; exact Logic.I|]. split; [exact Logic.I|]. intros w' _. reflexivity.
    - apply keeps_peek. intros w1 G1. apply keeps_peek. intros w2 G2. apply keeps_peek. intros w3 G3.
      match goal with |- keeps _ _ _ _ (send_code _ _ ?q _) => assert (Rq : request_of obj truthy none program o w0 (Live obj) q) end.
      { split; [apply G2|]. split; [apply G3|]. split; [reflexivity|]. split; [apply G1|]. repeat split. }
      apply (keeps_send _ j); [exact I|exact Rq|]. intros g w [_ Hw]. eexists; exists g. split; [exact Rq|]. split; [apply Hw; left; reflexivity|].
      destruct (net g _) as [r|e]; [left|right]; (split; [reflexivity|]); eauto.
    - destruct (mem_str (py_title m) METHOD) eqn:M; cbn [negb]; [|intros w _; left; split; [|reflexivity]; intros S; apply sendable_iff in S; destruct S; congruence].
      destruct (truthy da && truthy js) eqn:D; [intros w _; left; split; [|reflexivity]; intros S; apply sendable_iff in S; destruct S; congruence|].
      assert (Sd : sendable obj truthy m da js) by (apply sendable_iff; auto). assert (Tr := trimmed_strip api).
      apply keeps_peek. intros w1 G1.
      assert (K : forall url, (exists t, trimmed api t /\ ((t = [] /\ U url) \/ exists b, U (Some b) /\ url = Some (joined b t))) ->
        keeps RR QR (Request obj m api au he it da js) good (peek (fun w2 : world obj => peek (fun w3 : world obj =>
          send_code obj net (mkRequest obj (py_title m) url it da he au js (c_proxy obj (fst w2)) (c_timeout obj (fst w3)))
            (fun r => match r with Err e => Ret (OResponse (Err e)) | Ok r => poke (fun w : world obj => (fst w, snd w ++ [Closed obj r])) (Ret (OResponse (if bad_status obj r then Err RequestError else Ok r))) end))))).
      { intros url Hu. apply keeps_peek. intros w2 G2. apply keeps_peek. intros w3 G3.
        match goal with |- keeps _ _ _ _ (send_code _ _ ?q _) => set (q0 := q) end.
        assert (Rq : request_of obj truthy none program o w0 (Request obj m api au he it da js) q0).
        { split; [apply G2|]. split; [apply G3|]. split; [exact Sd|]. split; [apply lower_title_go|]. do 5 (split; [reflexivity|]). exact Hu. }
        apply (keeps_send _ j); [exact I|exact Rq|]. intros g. destruct (net g q0) as [r|e] eqn:En.
        - intros w Hw. assert (G : RR w (fst w, snd w ++ [Closed obj r])) by (apply good_event; exists g, q0; split; [exact En|]; eauto). split; [exact G|].
          exists (goodwith [Sent obj q0; Closed obj r]). split; [apply gw_stable|]. split.
          + split; [apply G; apply Hw|]. intros x [<-|[<-|[]]]; apply in_or_app; [left; apply Hw; left; reflexivity|right; left; reflexivity].
          + intros w' [_ Hw']. right. right. exists q0, g. split; [exact Rq|]. split; [apply Hw'; left; reflexivity|]. rewrite En. split; [apply Hw'; right; left; reflexivity|].
            destruct (status_spec r) as [S1 S2]. split; intros Hs; f_equal; auto.
        - intros w Hw. right. right. exists q0, g. split; [exact Rq|]. split; [apply Hw; left; reflexivity|]. rewrite En. reflexivity. }
      destruct (strip_slash api) as [|x s] eqn:Es.
      + apply K. exists []. split; [exact Tr|]. left. split; [reflexivity|]. destruct (c_url obj (fst w1)) eqn:Eu; rewrite <- Eu; apply G1.
      + destruct (c_url obj (fst w1)) as [b|] eqn:Eu.
        * apply K. exists (x :: s). split; [exact Tr|]. right. exists b. split; [rewrite <- Eu; apply G1|reflexivity].
        * intros w _. right. left. split; [exact Sd|]. split; [rewrite <- Eu; apply G1|]. split; [|reflexivity]. intros T0. discriminate (trimmed_unique _ _ _ T0 Tr).
  Qed.
End Shared.

(** C202.  Under any schedule, all a shared RestClient sends is, call by call, the request asked
    for, with a URL, a proxy and a timeout that were each set at some time, and each call
    answers accordingly: refused, nothing to send to, or what the network answered, the
    response being closed by then.  What was sent before is never touched. *)
Theorem C202_shared_client obj truthy none net (st : nat -> world obj) program c o :
  steps (rest_code obj truthy none net) (start st program) c ->
  url_known obj program o (st o) (c_url obj (fst (store c o))) /\ proxy_known obj program o (st o) (c_proxy obj (fst (store c o))) /\ timeout_known obj program o (st o) (c_timeout obj (fst (store c o))) /\
  (exists t, snd (store c o) = snd (st o) ++ t /\ Forall (event_ok obj truthy none net program o (st o)) t) /\
  forall i, finished (threads c i) ->
    Forall2 (fun p y => fst p = o -> answered obj truthy none net program o (st o) (snd p) y (snd (store c o))) (program i) (results (threads c i)).
Proof.
  intros S. set (R := RR obj truthy none net program o (st o)). set (Q := QR obj truthy none net program o (st o)).
  assert (G0 : good obj truthy none net program o (st o) (st o)).
  { split; [left; reflexivity|]. split; [left; reflexivity|]. split; [left; reflexivity|]. exists []. rewrite app_nil_r. split; [reflexivity|constructor]. }
  assert (K : forall j a, In (o, a) (program j) -> keeps R Q a (R (st o)) (rest_code obj truthy none net a)).
  { intros j a I. assert (G := call_keeps obj truthy none net program o (st o) j a I). fold R Q in G. destruct (rest_code obj truthy none net a) as [y|f k]; intros w [Hw _]; apply G; apply Hw; exact G0. }
  assert (Rr : forall w, R w w) by apply RR_refl. assert (Rt : forall a b d, R a b -> R b d -> R a d) by (intros a b d; apply RR_trans).
  assert (Qs : forall a y, stable R (Q a y)) by (intros a y; apply QR_stable).
  destruct (shared_kept (rest_code obj truthy none net) program st o R Rr Rt Q Qs K c S) as [[H _] _]. destruct (H G0) as (A & B & D & F).
  split; [exact A|]. split; [exact B|]. split; [exact D|]. split; [exact F|].
  intros i Fi. exact (finished_results (rest_code obj truthy none net) program st o R Q c i Rr Rt Qs K S Fi).
Qed.
Print Assumptions C202_shared_client.

(** C202.  If no thread changes the settings, everything is sent with those of the start. *)
Theorem C202_fixed_settings obj truthy none net (st : nat -> world obj) program c o :
  (forall j a, In (o, a) (program j) -> match a with Live | Request _ _ _ _ _ _ _ => True | _ => False end) ->
  steps (rest_code obj truthy none net) (start st program) c ->
  fst (store c o) = fst (st o) /\
  forall q, In (Sent obj q) (skipn (length (snd (st o))) (snd (store c o))) ->
    q_proxies obj q = c_proxy obj (fst (st o)) /\ q_timeout obj q = c_timeout obj (fst (st o)) /\
    exists t, q_url obj q = match t, c_url obj (fst (st o)) with _ :: _, Some b => Some (joined b t) | _, u => u end.
Proof.
  intros H S. destruct (C202_shared_client obj truthy none net st program c o S) as (A & B & D & (t & Et & Ft) & _).
  assert (U : forall u, url_known obj program o (st o) u -> u = c_url obj (fst (st o))) by (intros u [E|(j & v & I & _)]; [exact E|destruct (H _ _ I)]).
  assert (P : forall u, proxy_known obj program o (st o) u -> u = c_proxy obj (fst (st o))) by (intros u [E|(j & I)]; [exact E|destruct (H _ _ I)]).
  assert (T : forall u, timeout_known obj program o (st o) u -> u = c_timeout obj (fst (st o))) by (intros u [E|(j & I)]; [exact E|destruct (H _ _ I)]).
  split.
  - apply U in A. apply P in B. apply T in D. destruct (fst (store c o)), (fst (st o)). cbn in A, B, D. congruence.
  - intros q I. rewrite Et, skipn_app, skipn_all, Nat.sub_diag in I. cbn in I. rewrite Forall_forall in Ft. destruct (Ft _ I) as (j & a & Ia & Rq & Rt & Ra).
    split; [apply P; exact Rq|]. split; [apply T; exact Rt|]. specialize (H _ _ Ia). destruct a as [p|p|u| |m api au he it da js]; try contradiction.
    + exists []. destruct Ra as (_ & Hu & _). rewrite (U _ Hu). reflexivity.
    + destruct Ra as (_ & _ & _ & _ & _ & _ & _ & s & Ts & [[-> Hu]|(b & Hb & Hq)]); [exists []; rewrite (U _ Hu); reflexivity|].
      exists s. rewrite <- (U _ Hb), Hq. destruct s; reflexivity.
Qed.
Print Assumptions C202_fixed_settings.

(** C202.  It is false that a request is sent with settings the client had together: while one
    thread requests and another sets first the URL and then the proxy, the request may go to the
    first URL through the second proxy, which no order of the three calls allows. *)
Theorem C202_consistent_settings_refuted obj truthy none net (p1 p2 t1 : obj) u1 u2 b2 h m api au he it da js s :
  sendable obj truthy m da js -> trimmed u2 b2 -> trimmed api s -> u1 <> b2 -> p1 <> p2 ->
  let rq := Request obj m api au he it da js in
  let w0 : world obj := (mkClient obj p1 t1 (Some u1), h) in
  let mixed := fun q => q_url obj q = Some (joined u1 s) /\ q_proxies obj q = p2 in
  (exists c, steps (rest_code obj truthy none net) (start (fun _ => w0) (fun i => match i with 0 => [(0, rq)] | 1 => [(0, SetUrl obj (Some u2)); (0, SetProxy obj p2)] | _ => [] end)) c /\
    (forall i, finished (threads c i)) /\ exists q rest, snd (store c 0) = h ++ Sent obj q :: rest /\ mixed q) /\
  (forall l, In l [[rq; SetUrl obj (Some u2); SetProxy obj p2]; [SetUrl obj (Some u2); rq; SetProxy obj p2]; [SetUrl obj (Some u2); SetProxy obj p2; rq]] ->
    forall q, In (Sent obj q) (skipn (length h) (snd (rest_run obj truthy none net w0 l))) -> ~ mixed q).
Proof.
  intros Sd T2 Ts Nu Np. cbv zeta. apply sendable_iff in Sd. destruct Sd as [M D].
  assert (Es : strip_slash api = s) by exact (trimmed_unique _ _ _ (trimmed_strip api) Ts).
  assert (E2 : forall c, set_url obj c (Some u2) = mkClient obj (c_proxy obj c) (c_timeout obj c) (Some b2)).
  { intros c. rewrite <- (trimmed_unique _ _ _ (trimmed_strip u2) T2). destruct u2; reflexivity. }
  set (rq := Request obj m api au he it da js). set (w0 := (mkClient obj p1 t1 (Some u1), h) : world obj).
  assert (Ju : forall b, match s, Some b with _ :: _, Some b => Some (b ++ slash :: s) | _, u => u end = Some (joined b s)) by (intros b; destruct s; reflexivity).
  split.
  - set (cd := rest_code obj truthy none net). set (program := fun i : nat => match i with 0 => _ | 1 => _ | _ => _ end).
    set (qq := mkRequest obj (py_title m) (Some (joined u1 s)) it da he au js p2 t1).
    set (k2 := fun w2 : world obj => peek (fun w3 : world obj => send_code obj net (mkRequest obj (py_title m) (Some (joined u1 s)) it da he au js (c_proxy obj (fst w2)) (c_timeout obj (fst w3)))
      (fun r => match r with Err e => Ret (OResponse (Err e)) | Ok r => poke (fun w : world obj => (fst w, snd w ++ [Closed obj r])) (Ret (OResponse (if bad_status obj r then Err RequestError else Ok r))) end))).
    assert (Go1 : go 1 (cd rq) w0 = (peek k2, w0)).
    { unfold cd, rest_code, rq. rewrite M, D, Es. cbn [negb]. unfold peek at 1. cbn [go]. subst w0. cbn [fst c_url]. destruct s; reflexivity. }
    set (w2 := (mkClient obj p2 t1 (Some b2), h) : world obj).
    set (w3 := (mkClient obj p2 t1 (Some b2), h ++ [Sent obj qq]) : world obj).
    assert (Go2 : exists y rest, go 4 (peek k2) w2 = (Ret y, (mkClient obj p2 t1 (Some b2), h ++ Sent obj qq :: rest) : world obj)).
    { unfold k2, send_code, peek, poke. cbn [go]. subst w2. cbn [fst snd c_proxy c_timeout]. fold qq. destruct (net h qq) as [r|e]; cbn [go fst snd]; [eexists; exists [Closed obj r]|eexists; exists []]; [rewrite <- app_assoc|]; reflexivity. }
    destruct Go2 as (y & rest & Go2).
    set (c0 := start (fun _ : nat => w0) program). assert (N : 1 <> 0) by discriminate. assert (N' : 0 <> 1) by discriminate.
    assert (A0 : threads c0 0 = mkThread [(0, rq)] None []) by reflexivity. assert (B0 : threads c0 1 = mkThread [(0, SetUrl obj (Some u2)); (0, SetProxy obj p2)] None []) by reflexivity.
    destruct (begins cd c0 0 _ _ _ A0) as (c1 & S1 & A1 & U1 & V1). destruct (acts cd 1 c1 0 _ _ _ A1) as (c2 & S2 & A2 & U2 & V2). rewrite U1 in A2, U2. change (store c0 0) with w0 in A2, U2. rewrite Go1 in A2, U2. cbn [fst snd] in A2, U2.
    assert (B2 := eq_trans (V2 1 N) (eq_trans (V1 1 N) B0)). destruct (begins cd c2 1 _ _ _ B2) as (c3 & S3 & B3 & U3 & V3). rewrite U2 in U3.
    destruct (acts cd 1 c3 1 _ _ _ B3) as (c4 & S4 & B4 & U4 & V4). rewrite U3 in B4, U4. unfold cd, rest_code in B4, U4. cbn [go poke fst snd] in B4, U4. rewrite E2 in U4. fold cd in B4.
    destruct (returns cd c4 1 _ _ _ B4) as (c5 & S5 & B5 & U5 & V5). rewrite U4 in U5.
    destruct (begins cd c5 1 _ _ _ B5) as (c6 & S6 & B6 & U6 & V6). rewrite U5 in U6.
    destruct (acts cd 1 c6 1 _ _ _ B6) as (c7 & S7 & B7 & U7 & V7). rewrite U6 in B7, U7. unfold cd, rest_code in B7, U7. cbn [go poke fst snd] in B7, U7. fold cd in B7.
    destruct (returns cd c7 1 _ _ _ B7) as (c8 & S8 & B8 & U8 & V8). rewrite U7 in U8.
    assert (A8 := eq_trans (V8 0 N') (eq_trans (V7 0 N') (eq_trans (V6 0 N') (eq_trans (V5 0 N') (eq_trans (V4 0 N') (eq_trans (V3 0 N') A2)))))).
    destruct (acts cd 4 c8 0 _ _ _ A8) as (c9 & S9 & A9 & U9 & V9). assert (W8 : store c8 0 = w2) by (rewrite U8; reflexivity). rewrite W8 in A9, U9. rewrite Go2 in A9, U9. cbn [fst snd] in A9, U9.
    destruct (returns cd c9 0 _ _ _ A9) as (c10 & S10 & A10 & U10 & V10).
    exists c10. split; [do 10 (eapply steps_trans; [|eassumption]); apply TNil|]. split.
    + assert (B10 := eq_trans (V10 1 N) (eq_trans (V9 1 N) B8)). intros [|[|i]]; [rewrite A10; split; reflexivity|rewrite B10; split; reflexivity|].
      assert (Z : threads c10 (S (S i)) = threads c0 (S (S i))) by (rewrite V10, V9, V8, V7, V6, V5, V4, V3, V2, V1 by discriminate; reflexivity). rewrite Z. split; reflexivity.
    + exists qq, rest. rewrite U10, U9. split; [reflexivity|]. split; reflexivity.
  - intros l I q Iq [Q1 Q2].
    assert (One : forall c h' q, In (Sent obj q) (skipn (length h) (snd (fst (rest_request obj truthy net c h' m api au he it da js)))) -> h' = h -> c_url obj c <> None -> q_proxies obj q = c_proxy obj c /\ forall b, c_url obj c = Some b -> q_url obj q = Some (joined b s)).
    { intros c h' q' Hi -> Hc. unfold rest_request in Hi. rewrite M, D, Es in Hi. cbn [negb] in Hi. destruct (c_url obj c) as [b|]; [|contradiction].
      assert (X : (match s, Some b with [], u => Ok u | _ :: _, Some u => Ok (Some (u ++ slash :: s)) | _ :: _, None => Err TypeError end : res (option text)) = Ok (Some (joined b s))) by (destruct s; reflexivity). rewrite X in Hi. clear X.
      assert (Eq : q' = mkRequest obj (py_title m) (Some (joined b s)) it da he au js (c_proxy obj c) (c_timeout obj c)).
      { destruct (net h _) as [r|e]; cbn [fst snd] in Hi; rewrite skipn_app, skipn_all, Nat.sub_diag in Hi; cbn in Hi; [destruct Hi as [Hi|[Hi|[]]]|destruct Hi as [Hi|[]]]; congruence. }
      subst q'. split; [reflexivity|]. intros b' Eb. injection Eb as <-. reflexivity. }
    assert (Cl : forall c h', fst (fst (rest_request obj truthy net c h' m api au he it da js)) = c) by (intros; apply rq_client).
    assert (Jn : Some (joined b2 s) <> Some (joined u1 s)).
    { intros E. injection E as E. unfold joined in E. destruct s; [congruence|]. apply app_inv_tail in E. congruence. }
    destruct I as [<-|[<-|[<-|[]]]]; unfold rest_run in Iq; cbn [fold_left] in Iq; unfold w0, rq in Iq; cbn [rest_do] in Iq.
    + destruct (rest_request obj truthy net (mkClient obj p1 t1 (Some u1)) h m api au he it da js) as [[c' h'] y] eqn:E. cbn [fst snd] in Iq.
      assert (O := One (mkClient obj p1 t1 (Some u1)) h q). rewrite E in O. destruct (O Iq eq_refl ltac:(discriminate)) as [O1 _]. cbn in O1. congruence.
    + rewrite E2 in Iq. cbn [c_proxy c_timeout] in Iq. destruct (rest_request obj truthy net (mkClient obj p1 t1 (Some b2)) h m api au he it da js) as [[c' h'] y] eqn:E. cbn [fst snd] in Iq.
      assert (O := One (mkClient obj p1 t1 (Some b2)) h q). rewrite E in O. destruct (O Iq eq_refl ltac:(discriminate)) as [O1 _]. cbn in O1. congruence.
    + rewrite E2 in Iq. unfold set_proxy in Iq. cbn [c_proxy c_timeout c_url] in Iq. destruct (One _ _ _ Iq eq_refl ltac:(discriminate)) as [_ O2]. rewrite (O2 b2 eq_refl) in Q1. contradiction.
Qed.
Print Assumptions C202_consistent_settings_refuted.

(** get on "x" at "a" while another thread moves to "/b/" behind another proxy: objects are numbers, 0 is falsy *)
Example C202_example : sendable nat tr "get" 0 3 /\ ~ sendable nat tr "get" 2 3 /\ ~ sendable nat tr "trace" 0 0 /\ trimmed [slash; 98; slash]%N [98]%N /\ trimmed [120]%N [120]%N /\ [97]%N <> [98]%N /\
  map snd [fst (complete (rest_code nat tr 0 net1 (Request nat "get" [120]%N 0 0 0 0 3)) (mkClient nat 7 5 (Some [97]%N), []))] =
  [[Sent nat (mkRequest nat "Get" (Some [97; 47; 120]%N) 0 0 0 0 3 7 5); Closed nat (mkResponse nat 0 404 7)]].
Proof.
  assert (A : allowed "get") by (exists "get"%string; cbn; auto 10).
  split; [split; [exact A|intros [H _]; discriminate]|]. split; [intros [_ H]; apply H; split; reflexivity|]. split.
  { intros [(n & H & E) _]. cbn in H. vm_compute in E. intuition (subst; discriminate). }
  split; [split; [exists 1, 1; reflexivity|]; split; [discriminate|]; intros [|a [|b r]]; discriminate|].
  split; [split; [exists 0, 0; reflexivity|]; split; [discriminate|]; intros [|a [|b r]]; discriminate|].
  split; [discriminate|]. vm_compute. reflexivity.
Qed.
