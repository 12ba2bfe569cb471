(** Properties C102 to C104 and C121: RestClient. *)
From Coq Require Import String List Arith ZArith NArith Bool Lia.
From Verif Require Import Base BaseLemmas PyString RestModel.
Import ListNotations.
Set Asymmetric Patterns.
Local Open Scope nat_scope.

(** *** Specification *)
Definition slashes (n : nat) : text := repeat slash n.
(** t is s without its leading and trailing slashes. *)
Definition trimmed (s t : text) : Prop :=
  (exists a b, s = slashes a ++ t ++ slashes b) /\ (forall r, t <> slash :: r) /\ (forall r, t <> r ++ [slash]).
Definition joined (base path : text) : text := match path with [] => base | _ => base ++ [slash] ++ path end.
Definition allowed (m : string) : Prop :=
  exists n, In n ["delete"; "get"; "head"; "options"; "patch"; "post"; "put"]%string /\ py_lower m = n.
(** The URL last set. *)
Definition url_set {obj} (os : list (rest_op obj)) : option text :=
  fold_left (fun u o => match o with SetUrl v => v | _ => u end) os (Some default_url).

(** *** Auxiliary facts *)
Lemma lstrip_spec s : exists a, s = slashes a ++ lstrip_slash s /\ forall r, lstrip_slash s <> slash :: r.
Proof.
  induction s as [|c s (a & E & N)]; [exists 0; split; [reflexivity|discriminate]|]. cbn. destruct (N.eqb_spec c slash) as [->|H].
  - exists (S a). split; [cbn; f_equal; exact E|exact N].
  - exists 0. split; [reflexivity|]. intros r F. injection F as F _. contradiction.
Qed.
Lemma rev_slashes a : rev (slashes a) = slashes a.
Proof. unfold slashes. induction a as [|a IH]; [reflexivity|]. cbn. rewrite IH. clear. induction a as [|a IH]; [reflexivity|]. cbn. f_equal. exact IH. Qed.
Lemma trimmed_strip s : trimmed s (strip_slash s).
Proof.
  unfold strip_slash. destruct (lstrip_spec s) as (a & E & N). set (u := lstrip_slash s) in *. destruct (lstrip_spec (rev u)) as (b & F & M). set (v := lstrip_slash (rev u)) in *.
  assert (U : u = rev v ++ slashes b) by (rewrite <- (rev_involutive u), F, rev_app_distr, rev_slashes; reflexivity).
  split; [exists a, b; rewrite <- U; exact E|]. split.
  - intros r H. apply (N (r ++ slashes b)). rewrite U, H. reflexivity.
  - intros r H. apply (M (rev r)). rewrite <- (rev_involutive v), H, rev_app_distr. reflexivity.
Qed.
Lemma slashes_cancel a c (t u : text) : (forall r, t <> slash :: r) -> (forall r, u <> slash :: r) -> slashes a ++ t = slashes c ++ u -> t = u.
Proof.
  intros T U. revert c. induction a as [|a IH]; intros [|c] H; cbn in H.
  - exact H.
  - destruct (T _ H).
  - symmetry in H. destruct (U _ H).
  - injection H as H. apply (IH c). exact H.
Qed.
(** Trimming is a function. *)
Lemma trimmed_unique s t u : trimmed s t -> trimmed s u -> t = u.
Proof.
  intros ((a & b & E) & T1 & T2) ((c & d & F) & U1 & U2). rewrite E in F. clear E s.
  destruct t as [|x t].
  { destruct u as [|y u]; [reflexivity|]. exfalso. assert (Y : In y (slashes a ++ [] ++ slashes b)) by (rewrite F; apply in_or_app; right; left; reflexivity).
    apply (U1 u). f_equal. apply in_app_or in Y. destruct Y as [Y|Y]; cbn in Y; apply repeat_spec in Y; exact Y. }
  destruct u as [|y u].
  { exfalso. assert (Y : In x (slashes c ++ [] ++ slashes d)) by (rewrite <- F; apply in_or_app; right; left; reflexivity).
    apply (T1 t). f_equal. apply in_app_or in Y. destruct Y as [Y|Y]; cbn in Y; apply repeat_spec in Y; exact Y. }
  assert (F2 : (x :: t) ++ slashes b = (y :: u) ++ slashes d).
  { apply (slashes_cancel a c); [..|exact F]; intros r H; injection H as -> _; [apply (T1 t)|apply (U1 u)]; reflexivity. }
  apply (f_equal (@rev N)) in F2. rewrite !rev_app_distr, !rev_slashes in F2. apply slashes_cancel in F2.
  - apply (f_equal (@rev N)) in F2. rewrite !rev_involutive in F2. exact F2.
  - intros r H. apply (T2 (rev r)). rewrite <- (rev_involutive (x :: t)), H. reflexivity.
  - intros r H. apply (U2 (rev r)). rewrite <- (rev_involutive (y :: u)), H. reflexivity.
Qed.
Lemma trimmed_pad a b s t : trimmed s t -> trimmed (slashes a ++ s ++ slashes b) t.
Proof.
  intros ((c & d & ->) & T1 & T2). split; [|auto]. exists (a + c), (d + b). unfold slashes. rewrite !repeat_app, <- !app_assoc. reflexivity.
Qed.
Lemma mem_method m : mem_str (py_title m) METHOD = true <-> allowed m.
Proof.
  rewrite mem_str_iff. unfold allowed. split.
  - intros H. exists (py_lower m). split; [|reflexivity].
    assert (L : py_lower m = py_lower (py_title m)) by (symmetry; apply lower_title_go). rewrite L. apply (in_map py_lower) in H. exact H.
  - intros (n & H & E). assert (T : py_title m = py_title n) by (apply py_title_eq_iff; rewrite E; clear E; cbn in H; intuition (subst; reflexivity)). rewrite T. apply (in_map py_title) in H. exact H.
Qed.

Section P.
  Variable obj : Type.
  Variable truthy : obj -> bool.
  Variable none empty_dict timeout0 : obj.
  Variable net : list (event obj) -> request obj -> res (response obj).
  Let run_ops := rest_run obj truthy none net (new_client obj empty_dict timeout0, []).
  Let rq := rest_request obj truthy net.

  Lemma rq_client c h m a au he it da js : fst (fst (rest_request obj truthy net c h m a au he it da js)) = c.
  Proof. unfold rest_request. destruct (negb _); [reflexivity|]. destruct (truthy da && truthy js); [reflexivity|]. destruct (match strip_slash a with [] => _ | _ => _ end) as [u|e]; [|reflexivity]. destruct (net h _); reflexivity. Qed.
  Lemma url_kept os : c_url obj (fst (run_ops os)) = match url_set os with Some u => Some (strip_slash u) | None => None end.
  Proof.
    unfold run_ops, url_set, rest_run. induction os as [|o os IH] using rev_ind.
    - vm_compute. reflexivity.
    - rewrite !fold_left_app. cbn [fold_left]. destruct (fold_left _ os _) as [c h] eqn:E1 in *. cbn [fst] in IH. destruct o as [p|t|u| |m a au he it da js]; cbn [rest_do]; try exact IH.
      + cbn. destruct u as [[|x u]|]; reflexivity.
      + rewrite rq_client. exact IH.
  Qed.

  (** C102. *)
  Theorem C102_rest_url os method api auth header item data json base b t q :
    let s := run_ops os in
    url_set os = Some base -> trimmed base b -> trimmed api t ->
    In (Sent obj q) (skipn (length (snd s)) (snd (fst (rq (fst s) (snd s) method api auth header item data json)))) ->
    q_url obj q = Some (joined b t).
  Proof.
    cbn zeta. intros U B T. pose proof (url_kept os) as K. rewrite U in K. rewrite (trimmed_unique _ _ _ (trimmed_strip base) B) in K.
    destruct (run_ops os) as [c h]. cbn [fst snd] in *. destruct (c_url obj c) as [u|] eqn:EU; [|discriminate]. cbn in K. injection K as ->.
    pose proof (trimmed_unique _ _ _ (trimmed_strip api) T) as A.
    unfold rq, rest_request. rewrite EU, A.
    destruct (negb _); [cbn; rewrite skipn_all; intros []|]. destruct (truthy data && truthy json); [cbn; rewrite skipn_all; intros []|].
    destruct t as [|x t]; (destruct (net h _) as [r|e]); cbn [fst snd]; rewrite skipn_app, skipn_all, Nat.sub_diag; cbn; intros [H|H]; try (injection H as <-; reflexivity); try (destruct H as [H|[]]; discriminate); destruct H.
  Qed.
  (** Slashes at either end of either text never matter. *)
  Theorem C102_rest_slashes c h u a1 b1 method api a2 b2 auth header item data json :
    rq (set_url obj c (Some (slashes a1 ++ u ++ slashes b1))) h method (slashes a2 ++ api ++ slashes b2) auth header item data json =
    rq (set_url obj c (Some u)) h method api auth header item data json.
  Proof.
    assert (S : forall v, set_url obj c (Some v) = mkClient obj (c_proxy obj c) (c_timeout obj c) (Some (strip_slash v))) by (intros [|x v]; reflexivity).
    rewrite !S. rewrite (trimmed_unique _ _ _ (trimmed_strip (slashes a1 ++ u ++ slashes b1)) (trimmed_pad a1 b1 u _ (trimmed_strip u))).
    unfold rq, rest_request. rewrite (trimmed_unique _ _ _ (trimmed_strip (slashes a2 ++ api ++ slashes b2)) (trimmed_pad a2 b2 api _ (trimmed_strip api))). reflexivity.
  Qed.
  (** C103. *)
  Theorem C103_rest_method c h method api auth header item data json :
    let r := rq c h method api auth header item data json in
    c_url obj c <> None ->
    fst (fst r) = c /\
    ((~ allowed method \/ (truthy data = true /\ truthy json = true)) -> snd (fst r) = h /\ snd r = Err ValueError) /\
    (allowed method -> ~ (truthy data = true /\ truthy json = true) ->
       exists q rest, snd (fst r) = h ++ Sent obj q :: rest /\ (forall q', ~ In (Sent obj q') rest) /\
         py_lower (q_method obj q) = py_lower method /\ q_params obj q = item /\ q_data obj q = data /\ q_headers obj q = header /\
         q_auth obj q = auth /\ q_json obj q = json /\ q_proxies obj q = c_proxy obj c /\ q_timeout obj q = c_timeout obj c /\
         (forall r', snd r = Ok r' -> net h q = Ok r')).
  Proof.
    cbn zeta. intros U. unfold rq, rest_request. destruct (c_url obj c) as [u|]; [|contradiction]. destruct (mem_str (py_title method) METHOD) eqn:M; cbn [negb].
    - assert (A : allowed method) by (apply mem_method; exact M). destruct (truthy data && truthy json) eqn:D; cbn [fst snd].
      + split; [reflexivity|]. split; [auto|]. intros _ N. apply andb_true_iff in D. contradiction.
      + assert (N : ~ (truthy data = true /\ truthy json = true)) by (intros N; apply andb_true_iff in N; congruence).
        assert (L : py_lower (py_title method) = py_lower method) by apply lower_title_go.
        destruct (strip_slash api) as [|x t]; (destruct (net h _) as [r|e] eqn:E); cbn [fst snd]; (split; [reflexivity|]); (split; [intros [H|H]; contradiction|]); intros _ _; eexists; eexists; (split; [reflexivity|]); (split; [intros q' H; cbn in H; intuition discriminate|]); (repeat (split; [exact L || reflexivity|])); cbn; intros r'; try discriminate; (destruct (bad_status obj r); [discriminate|intros H; injection H as <-; exact E]).
    - assert (A : ~ allowed method) by (intros A; apply mem_method in A; congruence). split; [reflexivity|]. split; [auto|]. intros B. contradiction.
  Qed.
  (** C104. *)
  Theorem C104_rest_live c h : let r := live obj none net c h in
    fst (fst r) = c /\ exists q, snd (fst r) = h ++ [Sent obj q] /\ py_lower (q_method obj q) = "head"%string /\ q_url obj q = c_url obj c /\
      (snd r = true <-> exists x, net h q = Ok x).
  Proof.
    cbn zeta. split; [reflexivity|]. eexists. split; [reflexivity|]. split; [reflexivity|]. split; [reflexivity|]. cbn. split.
    - destruct (net h _) as [x|e]; [eauto|discriminate].
    - intros [x ->]. reflexivity.
  Qed.
  (** live does not look at the status: a server that answers everything with an error is
      live. *)
  Theorem C104_rest_live_status c h : (forall g q, exists x, net g q = Ok x /\ bad_status obj x = true) -> snd (live obj none net c h) = true.
  Proof. intros H. unfold live. cbn. destruct (H h (mkRequest obj "head" (c_url obj c) none none none none none (c_proxy obj c) (c_timeout obj c))) as (x & -> & _). reflexivity. Qed.
  (** C121.  The outcome of a request that is sent. *)
  Theorem C121_rest_outcome c h method api auth header item data json q rest :
    let r := rq c h method api auth header item data json in
    snd (fst r) = h ++ Sent obj q :: rest ->
    match net h q with
    | Err e => snd r = Err e /\ rest = []
    | Ok x => rest = [Closed obj x] /\ snd r = if (400 <=? r_status obj x) && (r_status obj x <? 600) then Err RequestError else Ok x
    end.
  Proof.
    cbn zeta. unfold rq, rest_request. assert (N : forall e, h <> h ++ Sent obj q :: e) by (intros e E; apply (f_equal (@length _)) in E; rewrite app_length in E; cbn in E; lia).
    destruct (negb _); [intros E; destruct (N _ E)|]. destruct (truthy data && truthy json); [intros E; destruct (N _ E)|].
    destruct (strip_slash api) as [|y a2], (c_url obj c) as [u|]; cbn [fst snd]; try (intros E; destruct (N _ E)); (destruct (net h _) as [x|e] eqn:EN); cbn [fst snd]; intros E; apply app_inv_head in E; injection E as <- <-; rewrite EN; auto.
  Qed.
  (** No request on a client without URL, unless the path is empty. *)
  Theorem C121_rest_no_url c h method api auth header item data json t : c_url obj c = None -> allowed method -> truthy data && truthy json = false -> trimmed api t -> t <> [] ->
    rq c h method api auth header item data json = (c, h, Err TypeError).
  Proof.
    intros U M D T NT. unfold rq, rest_request. apply mem_method in M. rewrite M, D, U. cbn [negb]. rewrite (trimmed_unique _ _ _ (trimmed_strip api) T). destruct t as [|x t]; [contradiction|]. reflexivity.
  Qed.
End P.
Print Assumptions C102_rest_url.
Print Assumptions C102_rest_slashes.
Print Assumptions C103_rest_method.
Print Assumptions C104_rest_live.
Print Assumptions C104_rest_live_status.
Print Assumptions C121_rest_outcome.
Print Assumptions C121_rest_no_url.

(** A network: objects are numbers, 0 is falsy; URL of even length answers 200, odd 404. *)
Definition net1 (h : list (event nat)) (q : request nat) : res (response nat) :=
  match q_url nat q with
  | Some u => Ok (mkResponse nat (length h) (if Nat.even (length u) then 200 else 404) 7)
  | None => Err RequestError
  end.
Definition tr (x : nat) : bool := negb (x =? 0).
Definition ops1 : list (rest_op nat) := [SetUrl nat (Some [slash; 97; 98; slash; slash]%N); SetProxy nat 3].
(** "//ab//" and "/x/y/": the request goes to ab/x/y, 6 characters. *)
Example C102_example : let s := rest_run nat tr 0 net1 (new_client nat 0 5, []) ops1 in
  let r := rest_request nat tr net1 (fst s) (snd s) "pOst" [slash; 120; slash; 121; slash]%N 0 0 0 0 4 in
  url_set ops1 = Some [slash; 97; 98; slash; slash]%N /\ trimmed [slash; 97; 98; slash; slash]%N [97; 98]%N /\ trimmed [slash; 120; slash; 121; slash]%N [120; slash; 121]%N /\
  joined [97; 98]%N [120; slash; 121]%N = [97; 98; 47; 120; 47; 121]%N /\ allowed "pOst" /\ ~ allowed "Trace" /\ c_url nat (fst s) <> None /\
  map (fun e => match e with Sent q => (q_method nat q, q_url nat q) | Closed _ => (""%string, None) end) (snd (fst r)) = [("Post"%string, Some [97; 98; 47; 120; 47; 121]%N); (""%string, None)] /\
  snd r = Ok (mkResponse nat 0 200 7) /\
  snd (rest_request nat tr net1 (fst s) (snd s) "get" []%N 0 0 0 2 4) = Err ValueError.
Proof.
  cbn zeta. split; [reflexivity|]. split; [|split; [|split; [reflexivity|split; [|split]]]].
  - split; [exists 1, 2; reflexivity|]. split; [discriminate|]. intros [|a [|b [|c r]]]; discriminate.
  - split; [exists 1, 1; reflexivity|]. split; [discriminate|]. intros [|a [|b [|c [|d r]]]]; discriminate.
  - exists "post"%string. cbn. auto 10.
  - intros (n & H & E). cbn in H. vm_compute in E. intuition (subst; discriminate).
  - split; [discriminate|]. repeat split; vm_compute; reflexivity.
Qed.
Definition net404 (h : list (event nat)) (q : request nat) : res (response nat) := Ok (mkResponse nat (length h) 404 7).
Example C104_example : (forall g q, exists x, net404 g q = Ok x /\ bad_status nat x = true) /\
  snd (rest_request nat tr net404 (new_client nat 0 5) [] "GET" [97%N] 0 0 0 0 0) = Err RequestError.
Proof. split; [intros g q; eexists; split; reflexivity|vm_compute; reflexivity]. Qed.
Example C121_example : c_url nat (set_url nat (new_client nat 0 5) None) = None /\ trimmed [97%N] [97%N].
Proof. split; [reflexivity|]. split; [exists 0, 0; reflexivity|]. split; [discriminate|]. intros [|a [|b r]]; discriminate. Qed.
