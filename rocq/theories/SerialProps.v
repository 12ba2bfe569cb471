(** Properties C105 to C109 and C122 to C124: Serial. *)
From Coq Require Import String List Arith NArith ZArith Bool Lia.
From Verif Require Import Base BaseLemmas Base85 SerialModel.
Import ListNotations.
Set Asymmetric Patterns.
Local Open Scope N_scope.

(** *** Specification *)
(** The alphabet, as text. *)
Definition alphabet_text : string := "0123456789ABCDEFGHIJKLMNOPQRSTUVWXYZabcdefghijklmnopqrstuvwxyz!#$%&()*+-;<=>?@^_`{|}~".
Definition in_alphabet (c : N) : Prop := exists i a, String.get i alphabet_text = Some a /\ Ascii.N_of_ascii a = c.
(** The number of a character: its place in the alphabet. *)
Definition place (c d : N) : Prop := exists a, String.get (N.to_nat d) alphabet_text = Some a /\ Ascii.N_of_ascii a = c.
(** The k-th group of five characters, '~' after the end, read as a number to base 85. *)
Definition group_value (s : list N) (k : nat) (v : N) : Prop :=
  exists d0 d1 d2 d3 d4, place (nth (5 * k) s 126) d0 /\ place (nth (5 * k + 1) s 126) d1 /\ place (nth (5 * k + 2) s 126) d2 /\
    place (nth (5 * k + 3) s 126) d3 /\ place (nth (5 * k + 4) s 126) d4 /\
    v = d0 * 85 ^ 4 + d1 * 85 ^ 3 + d2 * 85 ^ 2 + d3 * 85 + d4.
Definition well_formed (s : list N) : Prop :=
  (forall c, In c s -> in_alphabet c) /\ forall k v, (5 * k < length s)%nat -> group_value s k v -> v < 2 ^ 32.
(** An encoding that maps ASCII to itself, both ways. *)
Definition ascii_compatible (c : codec) : Prop := forall l, Forall (fun b => b < 128) l -> enc c l = Ok l /\ dec c l = Ok l.
(** ... and never produces a character of the alphabet from another one. *)
Definition faithful (c : codec) : Prop := forall s b x, enc c s = Ok b -> In x s -> ~ in_alphabet x -> exists y, In y b /\ ~ in_alphabet y.
Definition value_error (e : exn) : Prop := e = ValueError \/ e = UnicodeError.    (* UnicodeError is a ValueError *)

(** *** Auxiliary facts *)
Lemma alphabet_is : map Ascii.N_of_ascii (list_ascii_of_string alphabet_text) = alphabet.
Proof. vm_compute. reflexivity. Qed.
Lemma get_nth s i a : String.get i s = Some a <-> nth_error (list_ascii_of_string s) i = Some a.
Proof. revert i. induction s as [|b s IH]; intros [|i]; cbn; try (split; congruence). apply IH. Qed.
Lemma in_alphabet_iff c : in_alphabet c <-> In c alphabet.
Proof.
  unfold in_alphabet. rewrite <- alphabet_is. rewrite in_map_iff. split.
  - intros (i & a & H & E). exists a. split; [exact E|]. apply get_nth in H. apply nth_error_In in H. exact H.
  - intros (a & E & H). apply In_nth_error in H. destruct H as [i H]. exists i, a. split; [apply get_nth; exact H|exact E].
Qed.
Lemma place_iff c d : place c d <-> d < 85 /\ char_of d = c.
Proof.
  unfold place, char_of. rewrite <- alphabet_is. split.
  - intros (a & H & E). apply get_nth in H. assert (L : (N.to_nat d < 85)%nat) by (change 85%nat with (length (list_ascii_of_string alphabet_text)); apply nth_error_Some; congruence).
    split; [lia|]. rewrite <- E. change 0 with (Ascii.N_of_ascii Ascii.zero). rewrite map_nth. f_equal. apply nth_error_nth. exact H.
  - intros [L E]. destruct (nth_error (list_ascii_of_string alphabet_text) (N.to_nat d)) as [a|] eqn:H.
    + exists a. split; [apply get_nth; exact H|]. rewrite <- E. change 0 with (Ascii.N_of_ascii Ascii.zero). rewrite map_nth. f_equal. symmetry. apply nth_error_nth. exact H.
    + apply nth_error_None in H. change (length (list_ascii_of_string alphabet_text)) with 85%nat in H. lia.
Qed.
Lemma alphabet_ascii c : In c alphabet -> c < 128.
Proof.
  intros H. assert (A : forallb (fun c => c <? 128) alphabet = true) by (vm_compute; reflexivity). rewrite forallb_forall in A. apply N.ltb_lt, A, H.
Qed.
Lemma place_digit c d : place c d -> digit_of c = Some d.
Proof. intros H. apply place_iff in H. destruct H as [L <-]. apply digit_char, L. Qed.
Lemma digit_place c : In c alphabet -> exists d, place c d /\ digit_of c = Some d.
Proof.
  intros H. destruct (digit_of c) as [d|] eqn:E; [|apply digit_none in E; contradiction]. exists d. split; [|reflexivity]. apply place_iff. apply digit_some in E. exact E.
Qed.

(** C105. *)
Theorem C105_base85_round_trip b : Forall (fun x => x < 256) b -> b85decode (b85encode b) = Ok b.
Proof. exact (b85_round_trip b). Qed.
Print Assumptions C105_base85_round_trip.
(** Different byte strings give different texts. *)
Theorem C105_base85_injective a b : Forall (fun x => x < 256) a -> Forall (fun x => x < 256) b -> b85encode a = b85encode b -> a = b.
Proof. intros A B E. apply b85_round_trip in A. apply b85_round_trip in B. rewrite E in A. congruence. Qed.
Print Assumptions C105_base85_injective.
Example C105_example : let b := [128; 4; 149; 0; 255; 255; 255; 255; 1; 2; 3] in
  Forall (fun x => x < 256) b /\ b85encode b = [102; 67; 81; 66; 81; 124; 78; 115; 67; 48; 48; 82; 106; 85].
Proof. split; [repeat (apply Forall_cons; [lia|]); apply Forall_nil|vm_compute; reflexivity]. Qed.

(** C107. *)
Theorem C107_base85_text b : Forall (fun x => x < 256) b ->
  (forall c, In c (b85encode b) -> in_alphabet c /\ c < 128) /\
  length (b85encode b) = (5 * (length b / 4) + if (length b mod 4 =? 0)%nat then 0 else length b mod 4 + 1)%nat /\
  (b <> [] -> b85encode b <> []).
Proof.
  intros F. split; [|split].
  - intros c H. pose proof (b85_chars b F) as G. rewrite Forall_forall in G. specialize (G c H). split; [apply in_alphabet_iff; exact G|apply alphabet_ascii, G].
  - rewrite b85_length. destruct (length b mod 4)%nat as [|r]; cbn [Nat.eqb]; lia.
  - intros N E. pose proof (b85_round_trip b F) as R. rewrite E in R. injection R as R. congruence.
Qed.
Print Assumptions C107_base85_text.

(** C108.  Base-85 text is accepted exactly when it is well formed. *)
Lemma hunk_ok g0 g1 g2 g3 g4 d0 d1 d2 d3 d4 : place g0 d0 -> place g1 d1 -> place g2 d2 -> place g3 d3 -> place g4 d4 ->
  decode_hunk [g0; g1; g2; g3; g4] = let v := d0 * 85 ^ 4 + d1 * 85 ^ 3 + d2 * 85 ^ 2 + d3 * 85 + d4 in if v <? 4294967296 then Ok (bytes_of v) else Err ValueError.
Proof.
  intros P0 P1 P2 P3 P4. apply place_digit in P0, P1, P2, P3, P4. unfold decode_hunk. cbn [fold_left]. unfold step85. rewrite P0, P1, P2, P3, P4.
  replace (((((0 * 85 + d0) * 85 + d1) * 85 + d2) * 85 + d3) * 85 + d4) with (d0 * 85 ^ 4 + d1 * 85 ^ 3 + d2 * 85 ^ 2 + d3 * 85 + d4) by (change (85 ^ 4) with 52200625; change (85 ^ 3) with 614125; change (85 ^ 2) with 7225; lia). reflexivity.
Qed.
Lemma tilde_in : In 126 alphabet. Proof. vm_compute. tauto. Qed.
Lemma hunks_accept n l : length l = (5 * n)%nat -> (forall c, In c l -> In c alphabet) ->
  (exists x, decode_hunks l = Ok x) /\ (forall k v, (5 * k < length l)%nat -> group_value l k v -> v < 2 ^ 32) \/
  decode_hunks l = Err ValueError /\ exists k v, (5 * k < length l)%nat /\ group_value l k v /\ 2 ^ 32 <= v.
Proof.
  revert l. induction n as [|n IH]; intros l L A.
  - destruct l; [|cbn in L; lia]. left. split; [exists []; reflexivity|]. cbn. intros; lia.
  - destruct l as [|c0 [|c1 [|c2 [|c3 [|c4 r]]]]]; cbn [length] in L; try lia.
    destruct (digit_place c0) as (d0 & P0 & _); [apply A; cbn; auto|]. destruct (digit_place c1) as (d1 & P1 & _); [apply A; cbn; auto|]. destruct (digit_place c2) as (d2 & P2 & _); [apply A; cbn; auto|].
    destruct (digit_place c3) as (d3 & P3 & _); [apply A; cbn; auto|]. destruct (digit_place c4) as (d4 & P4 & _); [apply A; cbn; auto 10|].
    cbn [decode_hunks]. rewrite (hunk_ok _ _ _ _ _ _ _ _ _ _ P0 P1 P2 P3 P4). cbn zeta. set (v0 := d0 * 85 ^ 4 + d1 * 85 ^ 3 + d2 * 85 ^ 2 + d3 * 85 + d4).
    assert (G0 : group_value (c0 :: c1 :: c2 :: c3 :: c4 :: r) 0 v0) by (exists d0, d1, d2, d3, d4; cbn; auto 10).
    assert (U : forall v, group_value (c0 :: c1 :: c2 :: c3 :: c4 :: r) 0 v -> v = v0).
    { intros v (e0 & e1 & e2 & e3 & e4 & Q0 & Q1 & Q2 & Q3 & Q4 & ->). cbn in Q0, Q1, Q2, Q3, Q4. apply place_digit in P0, P1, P2, P3, P4, Q0, Q1, Q2, Q3, Q4. unfold v0. congruence. }
    assert (SH : forall k v, group_value (c0 :: c1 :: c2 :: c3 :: c4 :: r) (S k) v <-> group_value r k v).
    { intros k v. unfold group_value. replace (5 * S k)%nat with (S (S (S (S (S (5 * k)))))) by lia. cbn [Nat.add nth]. reflexivity. }
    destruct (N.ltb_spec v0 4294967296) as [LT|GE]; cbn [bind].
    + destruct (IH r ltac:(lia) ltac:(intros c H; apply A; cbn; auto 10)) as [[(x & E) B]|(E & k & v & K1 & K2 & K3)]; rewrite E; cbn [bind].
      * left. split; [eauto|]. intros [|k] v K G; [apply U in G; subst v; exact LT|]. apply SH in G. apply (B k); [cbn in K; lia|exact G].
      * right. split; [reflexivity|]. exists (S k), v. split; [cbn; lia|]. split; [apply SH; exact K2|exact K3].
    + right. split; [reflexivity|]. exists 0%nat, v0. split; [cbn; lia|]. split; [exact G0|]. exact GE.
Qed.
Lemma padded_groups s p k v : group_value (s ++ repeat 126 p) k v <-> group_value s k v.
Proof.
  assert (E : forall i, nth i (s ++ repeat 126 p) 126 = nth i s 126).
  { intros i. destruct (Nat.lt_ge_cases i (length s)) as [H|H]; [apply app_nth1; exact H|]. rewrite app_nth2 by exact H. rewrite (nth_overflow s) by exact H. apply nth_repeat. }
  unfold group_value. rewrite !E. reflexivity.
Qed.
Theorem C108_base85_accepts s : (well_formed s <-> is_ok (b85decode s) = true) /\ (~ well_formed s -> b85decode s = Err ValueError).
Proof.
  destruct (forallb (fun c => match digit_of c with Some _ => true | None => false end) s) eqn:A.
  - assert (AL : forall c, In c s -> In c alphabet).
    { intros c H. rewrite forallb_forall in A. specialize (A c H). destruct (digit_of c) as [d|] eqn:E; [|discriminate]. apply digit_some in E. destruct E as [E1 <-]. apply char_in, E1. }
    unfold b85decode. set (p := ((5 - length s mod 5) mod 5)%nat). destruct (padded5 s) as (n & L & _). fold p in L.
    assert (BND : forall k, (5 * k < length (s ++ repeat 126%N p))%nat <-> (5 * k < length s)%nat).
    { intros k. rewrite L. split; [|intros H; rewrite app_length in L; lia]. intros H. rewrite app_length, repeat_length in L. assert (p < 5)%nat by (unfold p; apply Nat.mod_upper_bound; lia). lia. }
    destruct (hunks_accept n _ L) as [[(x & E) B]|(E & k & v & K1 & K2 & K3)].
    + intros c H. apply in_app_or in H. destruct H as [H|H]; [apply AL, H|]. apply repeat_spec in H. subst c. exact tilde_in.
    + rewrite E. cbn. assert (W : well_formed s). { split; [intros c H; apply in_alphabet_iff, AL, H|]. intros k v K G. apply (B k); [apply BND; exact K|apply padded_groups; exact G]. } tauto.
    + rewrite E. cbn. assert (W : ~ well_formed s). { intros [_ W]. apply BND in K1. specialize (W k v K1 (proj1 (padded_groups s p k v) K2)). lia. } split; [split; [contradiction|discriminate]|auto].
  - assert (B : exists c, In c s /\ ~ In c alphabet).
    { clear -A. induction s as [|c s IH]; [discriminate|]. cbn [forallb] in A. destruct (digit_of c) as [d|] eqn:E; [destruct (IH A) as (x & H1 & H2); exists x; cbn; auto|]. exists c. split; [left; reflexivity|apply digit_none; exact E]. }
    destruct B as (c & H & N). rewrite (b85_bad c s H N). cbn. assert (W : ~ well_formed s) by (intros [W _]; apply N, in_alphabet_iff, W, H). split; [split; [contradiction|discriminate]|auto].
Qed.
Print Assumptions C108_base85_accepts.

(** *** The encodings *)
Lemma below_all n l : Forall (fun b => b < n) l -> below n l = Ok l.
Proof. intros F. unfold below. replace (forallb (fun c => c <? n) l) with true; [reflexivity|]. symmetry. apply forallb_forall. intros x H. rewrite Forall_forall in F. apply N.ltb_lt, F, H. Qed.
Lemma utf8_enc_ascii l : Forall (fun b => b < 128) l -> utf8_enc l = Ok l.
Proof.
  induction l as [|c l IH]; intros F; [reflexivity|]. inversion F as [|? ? F1 F2]; subst. cbn [utf8_enc]. unfold utf8_char. replace (c <? 128) with true by (symmetry; apply N.ltb_lt; exact F1). cbn [bind]. rewrite IH by exact F2. reflexivity.
Qed.
Lemma utf8_dec_ascii l : Forall (fun b => b < 128) l -> utf8_dec l = Ok l.
Proof.
  induction l as [|c l IH]; intros F; [reflexivity|]. inversion F as [|? ? F1 F2]; subst. cbn [utf8_dec]. replace (c <? 128) with true by (symmetry; apply N.ltb_lt; exact F1). rewrite IH by exact F2. reflexivity.
Qed.
Lemma big_not_in y : 128 <= y -> ~ in_alphabet y.
Proof. intros H A. apply in_alphabet_iff, alphabet_ascii in A. lia. Qed.
Lemma below_faithful n s b x : below n s = Ok b -> In x s -> ~ in_alphabet x -> exists y, In y b /\ ~ in_alphabet y.
Proof. unfold below. destruct (forallb _ s); [|discriminate]. intros H. injection H as <-. eauto. Qed.
Lemma ok_inj {X} (a b : X) : Ok a = Ok b -> a = b.
Proof. congruence. Qed.
Lemma utf8_faithful s b x : utf8_enc s = Ok b -> In x s -> ~ in_alphabet x -> exists y, In y b /\ ~ in_alphabet y.
Proof.
  revert b. induction s as [|c s IH]; intros b E H N; [destruct H|]. cbn [utf8_enc] in E. destruct (utf8_char c) as [u|] eqn:EU; [|discriminate]. cbn [bind] in E. destruct (utf8_enc s) as [v|]; [|discriminate]. injection E as <-. destruct H as [->|H].
  - assert (K : exists y, In y u /\ ~ in_alphabet y).
    { unfold utf8_char in EU. destruct (N.ltb_spec x 128) as [L|L].
      - injection EU as <-. exists x. split; [left; reflexivity|exact N].
      - destruct (x <? 2048); [apply ok_inj in EU; subst u; eexists; split; [left; reflexivity|apply big_not_in; etransitivity; [|apply N.le_add_r]; lia]|]. destruct (_ && _)%bool; [discriminate|].
        destruct (x <? 65536); [apply ok_inj in EU; subst u; eexists; split; [left; reflexivity|apply big_not_in; etransitivity; [|apply N.le_add_r]; lia]|].
        destruct (x <? 1114112); [apply ok_inj in EU; subst u; eexists; split; [left; reflexivity|apply big_not_in; etransitivity; [|apply N.le_add_r]; lia]|discriminate]. }
    destruct K as (y & H1 & H2). exists y. split; [apply in_or_app; left; exact H1|exact H2].
  - destruct (IH v eq_refl H N) as (y & H1 & H2). exists y. split; [apply in_or_app; right; exact H1|exact H2].
Qed.
(** utf-8, ascii and latin-1 qualify. *)
Theorem C109_ascii_compatible big name : In name ["utf-8"; "ascii"; "latin-1"]%string ->
  exists c, std_codecs big name = Some c /\ ascii_compatible c /\ faithful c.
Proof.
  intros [<-|[<-|[<-|[]]]]; eexists; (split; [reflexivity|]); split.
  - intros l F. split; [apply utf8_enc_ascii|apply utf8_dec_ascii]; exact F.
  - exact utf8_faithful.
  - intros l F. split; apply below_all, F.
  - intros s b x. apply below_faithful.
  - intros l F. split; [|reflexivity]. apply below_all. eapply Forall_impl; [|exact F]. cbn. lia.
  - intros s b x. apply below_faithful.
Qed.
Print Assumptions C109_ascii_compatible.

Section P.
  Variable O : Type.
  Variable dump : O -> res bytes.
  Variable load : bytes -> res O.
  Variable gz : N -> bytes -> bytes.
  Variable gunzip : bytes -> res bytes.
  Variable sha3 : bytes -> text.
  Variable codec_of : string -> option codec.
  Let encode := serial_encode O dump gz codec_of.
  Let decode := serial_decode O load gunzip codec_of.
  Let code := serial_code sha3 codec_of.

  (** What is asked of pickle and gzip: a pickle is a byte string that starts with the
      PROTO opcode 0x80 and loads back; gzip data are bytes that start with the magic
      1f 8b and unpack to what was packed; gzip refuses other non-empty data. *)
  Definition pickle_ok (x : O) (p : bytes) : Prop := dump x = Ok p /\ load p = Ok x /\ Forall (fun b => b < 256) p /\ exists r, p = 128 :: r.
  Definition gzip_ok : Prop :=
    (forall t p, Forall (fun b => b < 256) p -> gunzip (gz t p) = Ok p /\ Forall (fun b => b < 256) (gz t p) /\ exists r, gz t p = 31 :: 139 :: r) /\
    (forall b r, is_ok (gunzip (b :: r)) = true -> b = 31).

  Lemma ascii_text c b : ascii_compatible c -> Forall (fun b => b < 256) b -> enc c (b85encode b) = Ok (b85encode b) /\ dec c (b85encode b) = Ok (b85encode b).
  Proof.
    intros A F. apply A. apply Forall_forall. intros x H. pose proof (b85_chars b F) as G. rewrite Forall_forall in G. apply alphabet_ascii, G, H.
  Qed.
  Lemma nonempty_text b : Forall (fun b => b < 256) b -> b <> [] -> is_empty (b85encode b) = false.
  Proof. intros F N. destruct (C107_base85_text b F) as (_ & _ & H). specialize (H N). destruct (b85encode b); [congruence|reflexivity]. Qed.

  (** C106. *)
  Theorem C106_serial_round_trip now x p compress encoding c :
    pickle_ok x p -> gzip_ok -> codec_of encoding = Some c -> ascii_compatible c -> encoding <> ""%string ->
    exists s, encode now x compress encoding = Ok s /\ decode s encoding = Ok x.
  Proof.
    intros (P1 & P2 & P3 & r & P4) [G1 G2] C A NE. set (u := if compress then gz now p else p).
    assert (U : Forall (fun b => b < 256) u /\ u <> []).
    { unfold u. destruct compress; [destruct (G1 now p P3) as (_ & Z & q & E); split; [exact Z|rewrite E; discriminate]|split; [exact P3|rewrite P4; discriminate]]. }
    destruct U as [U1 U2]. destruct (ascii_text c u A U1) as [T1 T2]. exists (b85encode u). apply String.eqb_neq in NE. split.
    - unfold encode, serial_encode. rewrite NE, P1. cbn [bind]. fold u. unfold to_text. rewrite C. exact T2.
    - unfold decode, serial_decode. rewrite (nonempty_text u U1 U2), NE. unfold to_bytes. rewrite C, T1. cbn [bind]. rewrite (b85_round_trip u U1). cbn [bind]. unfold u. destruct compress.
      + destruct (G1 now p P3) as (Z & _). rewrite Z. cbn [bind]. rewrite P2. reflexivity.
      + rewrite P4. destruct (gunzip (128 :: r)) as [y|e] eqn:E; [specialize (G2 128 r); rewrite E in G2; specialize (G2 eq_refl); discriminate|]. cbn [bind]. rewrite <- P4. exact P2.
  Qed.
  (** Errors of pickle come out of encode unchanged; decode never needs the flag. *)
  Theorem C106_serial_errors now x compress encoding e : dump x = Err e -> encoding <> ""%string -> encode now x compress encoding = Err e.
  Proof. intros D NE. unfold encode, serial_encode. apply String.eqb_neq in NE. rewrite NE, D. reflexivity. Qed.
  (** C107. *)
  Theorem C107_serial_text now x p compress encoding c : pickle_ok x p -> gzip_ok -> codec_of encoding = Some c -> ascii_compatible c -> encoding <> ""%string ->
    exists s, encode now x compress encoding = Ok s /\ s <> [] /\ (forall y, In y s -> in_alphabet y) /\ exists h, code s encoding = Ok h.
  Proof.
    intros (P1 & P2 & P3 & r & P4) [G1 G2] C A NE. set (u := if compress then gz now p else p).
    assert (U : Forall (fun b => b < 256) u /\ u <> []).
    { unfold u. destruct compress; [destruct (G1 now p P3) as (_ & Z & q & E); split; [exact Z|rewrite E; discriminate]|split; [exact P3|rewrite P4; discriminate]]. }
    destruct U as [U1 U2]. destruct (ascii_text c u A U1) as [T1 T2]. exists (b85encode u). apply String.eqb_neq in NE. destruct (C107_base85_text u U1) as (X1 & _ & X3). split; [|split; [|split]].
    - unfold encode, serial_encode. rewrite NE, P1. cbn [bind]. fold u. unfold to_text. rewrite C. exact T2.
    - apply X3, U2.
    - intros y H. apply X1, H.
    - unfold code, serial_code. rewrite (nonempty_text u U1 U2), NE. unfold to_bytes. rewrite C, T1. cbn. eauto.
  Qed.
  (** C108. *)
  Theorem C108_serial_decode_rejects s encoding c : codec_of encoding = Some c -> faithful c -> ascii_compatible c -> (forall t e, enc c t = Err e -> e = UnicodeError) ->
    s = [] \/ ~ well_formed s -> exists e, decode s encoding = Err e /\ value_error e.
  Proof.
    intros C F A UE H. unfold decode, serial_decode. destruct s as [|x s]; [exists ValueError; split; [reflexivity|left; reflexivity]|]. destruct H as [H|H]; [discriminate|]. cbn [is_empty].
    destruct (encoding =? "")%string; [exists ValueError; split; [reflexivity|left; reflexivity]|]. unfold to_bytes. rewrite C.
    destruct (enc c (x :: s)) as [b|e] eqn:E; [|exists e; split; [reflexivity|right; apply (UE _ _ E)]]. cbn [bind]. exists ValueError. split; [|left; reflexivity].
    destruct (forallb (fun c => match digit_of c with Some _ => true | None => false end) (x :: s)) eqn:AL.
    - assert (L : Forall (fun c => c < 128) (x :: s)).
      { apply Forall_forall. intros y Hy. rewrite forallb_forall in AL. specialize (AL y Hy). destruct (digit_of y) as [d|] eqn:D; [|discriminate]. apply digit_some in D. destruct D as [D1 <-]. apply alphabet_ascii, char_in, D1. }
      destruct (A _ L) as [A1 _]. rewrite A1 in E. injection E as <-. rewrite (proj2 (C108_base85_accepts (x :: s)) H). reflexivity.
    - assert (B : exists y, In y (x :: s) /\ ~ in_alphabet y).
      { clear -AL. induction (x :: s) as [|z l IH]; [discriminate|]. cbn [forallb] in AL. destruct (digit_of z) as [d|] eqn:D; [destruct (IH AL) as (y & H1 & H2); exists y; cbn; auto|]. exists z. split; [left; reflexivity|]. rewrite in_alphabet_iff. apply digit_none. exact D. }
      destruct B as (y & H1 & H2). destruct (F _ _ _ E H1 H2) as (z & Z1 & Z2). rewrite (b85_bad z b Z1); [reflexivity|]. rewrite <- in_alphabet_iff. exact Z2.
  Qed.
  Theorem C108_serial_arguments s encoding now x compress : 
    (s = [] -> decode s encoding = Err ValueError /\ code s encoding = Err ValueError) /\
    (encoding = ""%string -> decode s encoding = Err ValueError /\ code s encoding = Err ValueError /\ encode now x compress encoding = Err ValueError).
  Proof.
    unfold decode, code, encode, serial_decode, serial_code, serial_encode. split.
    - intros ->. auto.
    - intros ->. destruct s; auto.
  Qed.
  (** C109.  With utf-16 every non-empty text is refused, and encode itself fails on an
      odd number of characters. *)
  Theorem C109_utf16_decode big s e : codec_of "utf-16"%string = Some (utf16_codec big) -> e = decode s "utf-16" ->
    exists x, e = Err x /\ value_error x.
  Proof.
    intros C ->. unfold decode, serial_decode. destruct s as [|y s]; [exists ValueError; split; [reflexivity|left; reflexivity]|]. cbn [is_empty String.eqb]. unfold to_bytes. rewrite C. cbn [enc utf16_codec]. unfold utf16_enc.
    assert (UE : forall t x, utf16_chars big t = Err x -> x = UnicodeError).
    { induction t as [|c t IH]; intros x H; [discriminate|]. cbn [utf16_chars] in H. destruct (utf16_char big c) as [u|x'] eqn:EC.
      - cbn [bind] in H. destruct (utf16_chars big t) as [v|x']; [discriminate|]. injection H as <-. apply IH. reflexivity.
      - injection H as <-. unfold utf16_char in EC. destruct (_ && _)%bool; [congruence|]. destruct (c <? 65536); [discriminate|]. destruct (c <? 1114112); [discriminate|congruence]. }
    destruct (utf16_chars big (y :: s)) as [b|x] eqn:E; cbn [bind].
    - exists ValueError. split; [|left; reflexivity]. rewrite (b85_bad 255); [reflexivity| |].
      + destruct big; cbn; auto.
      + intros H. apply alphabet_ascii in H. lia.
    - exists x. split; [reflexivity|right; apply (UE _ _ E)].
  Qed.
  Theorem C109_utf16_encode big now x p (compress : bool) : codec_of "utf-16"%string = Some (utf16_codec big) -> pickle_ok x p -> gzip_ok ->
    let u := if compress then gz now p else p in
    (encode now x compress "utf-16" = Err UnicodeError <-> Nat.odd (length (b85encode u)) = true) /\
    (Nat.odd (length (b85encode u)) = false -> exists s, encode now x compress "utf-16" = Ok s /\ (2 * length s = length (b85encode u))%nat).
  Proof.
    intros C (P1 & P2 & P3 & r & P4) [G1 G2] u.
    assert (U1 : Forall (fun b => b < 256) u) by (unfold u; destruct compress; [apply (G1 now p P3)|exact P3]).
    unfold encode, serial_encode. cbn [String.eqb]. rewrite P1. cbn [bind]. fold u. unfold to_text. rewrite C. cbn [dec utf16_codec].
    assert (D : utf16_dec big (b85encode u) = utf16_units big (b85encode u)).
    { pose proof (b85_chars u U1) as F. destruct (b85encode u) as [|x0 [|x1 l]]; [reflexivity|reflexivity|]. inversion F as [|? ? F0 F1]; subst. apply alphabet_ascii in F0. unfold utf16_dec.
      replace (x0 =? 255) with false by (symmetry; apply N.eqb_neq; lia). replace (x0 =? 254) with false by (symmetry; apply N.eqb_neq; lia). reflexivity. }
    match goal with |- context [utf16_dec big ?z] => change (utf16_dec big z) with (utf16_dec big (b85encode u)) end. rewrite D. clear D. pose proof (b85_chars u U1) as F.
    assert (K : forall n l, (length l <= n)%nat -> Forall (fun c => In c alphabet) l ->
      (Nat.odd (length l) = true -> utf16_units big l = Err UnicodeError) /\ (Nat.odd (length l) = false -> exists s, utf16_units big l = Ok s /\ (2 * length s = length l)%nat)).
    { induction n as [|n IH]; intros l L FL.
      - destruct l; [|cbn in L; lia]. split; [discriminate|]. intros _. exists []. auto.
      - destruct l as [|x0 [|x1 l]]; [split; [discriminate|]; intros _; exists []; auto|split; [reflexivity|discriminate]|].
        inversion FL as [|? ? F0 FL1]; subst. inversion FL1 as [|? ? F1 FL2]; subst. apply alphabet_ascii in F0. apply alphabet_ascii in F1.
        cbn [utf16_units]. replace (unit_of big x0 x1 <? 55296) with true by (symmetry; apply N.ltb_lt; unfold unit_of; destruct big; lia). cbn [orb].
        change (Nat.odd (length (x0 :: x1 :: l))) with (Nat.odd (length l)). destruct (IH l ltac:(cbn in L; lia) FL2) as [I1 I2]. split.
        + intros H. rewrite (I1 H). reflexivity.
        + intros H. destruct (I2 H) as (s & E & LS). rewrite E. cbn [bind]. eexists. split; [reflexivity|]. cbn. lia. }
    destruct (K _ _ (Nat.le_refl _) F) as [K1 K2]. split; [|exact K2]. split; [|exact K1]. intros E. destruct (Nat.odd (length (b85encode u))); [reflexivity|]. destruct (K2 eq_refl) as (s & E2 & _). congruence.
  Qed.
  (** C123.  When the packed data unpack but do not load, the error reported is the one of
      loading the packed bytes themselves. *)
  Theorem C123_serial_masked_error s encoding b u p e : s <> [] -> encoding <> ""%string -> to_bytes codec_of s encoding = Ok b -> b85decode b = Ok u ->
    gunzip u = Ok p -> load p = Err e -> decode s encoding = load u.
  Proof.
    intros NS NE E1 E2 E3 E4. unfold decode, serial_decode. destruct s as [|x s]; [congruence|]. cbn [is_empty]. apply String.eqb_neq in NE. rewrite NE, E1. cbn [bind]. rewrite E2. cbn [bind]. rewrite E3. cbn [bind]. rewrite E4. reflexivity.
  Qed.
  (** C124.  Two texts are equal exactly when the payloads are, so texts with compression
      differ whenever gzip embeds a different time. *)
  Theorem C124_serial_same_text n1 n2 x1 x2 p1 p2 (k1 k2 : bool) encoding c : pickle_ok x1 p1 -> pickle_ok x2 p2 -> gzip_ok -> codec_of encoding = Some c -> ascii_compatible c -> encoding <> ""%string ->
    let u1 := if k1 then gz n1 p1 else p1 in let u2 := if k2 then gz n2 p2 else p2 in
    (encode n1 x1 k1 encoding = encode n2 x2 k2 encoding <-> u1 = u2) /\ (k1 <> k2 -> encode n1 x1 k1 encoding <> encode n2 x2 k2 encoding).
  Proof.
    intros (P1 & P2 & P3 & r1 & P4) (Q1 & Q2 & Q3 & r2 & Q4) [G1 G2] C A NE u1 u2.
    assert (U1 : Forall (fun b => b < 256) u1) by (unfold u1; destruct k1; [apply (G1 n1 p1 P3)|exact P3]). assert (U2 : Forall (fun b => b < 256) u2) by (unfold u2; destruct k2; [apply (G1 n2 p2 Q3)|exact Q3]).
    assert (E1 : encode n1 x1 k1 encoding = Ok (b85encode u1)) by (unfold encode, serial_encode; apply String.eqb_neq in NE; rewrite NE, P1; cbn [bind]; fold u1; unfold to_text; rewrite C; apply (ascii_text c u1 A U1)).
    assert (E2 : encode n2 x2 k2 encoding = Ok (b85encode u2)) by (unfold encode, serial_encode; apply String.eqb_neq in NE; rewrite NE, Q1; cbn [bind]; fold u2; unfold to_text; rewrite C; apply (ascii_text c u2 A U2)).
    assert (I : encode n1 x1 k1 encoding = encode n2 x2 k2 encoding <-> u1 = u2) by (rewrite E1, E2; split; [intros H; injection H as H; apply (C105_base85_injective _ _ U1 U2 H)|intros ->; reflexivity]).
    split; [exact I|]. intros K H. apply I in H. unfold u1, u2 in H. destruct k1, k2; try congruence.
    - destruct (G1 n1 p1 P3) as (_ & _ & q & E). rewrite E, Q4 in H. discriminate.
    - destruct (G1 n2 p2 Q3) as (_ & _ & q & E). rewrite E, P4 in H. discriminate.
  Qed.
End P.
Print Assumptions C106_serial_round_trip.
Print Assumptions C106_serial_errors.
Print Assumptions C107_serial_text.
Print Assumptions C108_serial_decode_rejects.
Print Assumptions C108_serial_arguments.
Print Assumptions C109_utf16_decode.
Print Assumptions C109_utf16_encode.
Print Assumptions C123_serial_masked_error.
Print Assumptions C124_serial_same_text.

(** C122.  The text is not unique: a lone last character, up to the 82nd of the alphabet,
    is ignored. *)
Theorem C122_base85_trailing s x c d : b85decode s = Ok x -> (length s mod 5 = 0)%nat -> place c d -> d < 82 -> b85decode (s ++ [c]) = Ok x.
Proof.
  intros E M P L. revert x E M. induction s as [|a|a b|a b c0|a b c0 d0|a b c0 d0 e r IH] using five_ind; intros x E M; try (vm_compute in M; discriminate).
  - injection E as <-. unfold b85decode. cbn [length app repeat Nat.sub Nat.modulo Nat.divmod fst snd decode_hunks]. assert (T : place 126 84) by (apply place_iff; split; [lia|reflexivity]).
    rewrite (hunk_ok _ _ _ _ _ _ _ _ _ _ P T T T T). cbn zeta. change (85 ^ 4) with 52200625. change (85 ^ 3) with 614125. change (85 ^ 2) with 7225.
    replace (d * 52200625 + 84 * 614125 + 84 * 7225 + 84 * 85 + 84 <? 4294967296) with true by (symmetry; apply N.ltb_lt; lia). reflexivity.
  - change (a :: b :: c0 :: d0 :: e :: r) with ([a; b; c0; d0; e] ++ r) in E |- *. rewrite <- app_assoc. rewrite decode_cons in E |- * by reflexivity. destruct (decode_hunk _) as [g|]; [|discriminate]. cbn [bind] in E |- *. destruct (b85decode r) as [y|] eqn:F; [|discriminate]. cbn [bind] in E. injection E as <-.
    rewrite (IH y eq_refl). { reflexivity. } cbn [length] in M. replace (S (S (S (S (S (length r)))))) with (length r + 1 * 5)%nat in M by lia. rewrite Nat.mod_add in M by lia. exact M.
Qed.
Print Assumptions C122_base85_trailing.
Theorem C122_base85_unique_refuted : ~ forall s t x, b85decode s = Ok x -> b85decode t = Ok x -> s = t.
Proof. intros H. specialize (H [] [48] [] eq_refl eq_refl). discriminate. Qed.
Print Assumptions C122_base85_unique_refuted.

(** The hypotheses are met: objects are byte strings, pickled with two bytes in front,
    "gzip" puts the magic and the time in front. *)
Definition ex_dump (x : bytes) : res bytes := if forallb (fun b => b <? 256) x then Ok (128 :: 4 :: x) else Err TypeError.
Definition ex_load (p : bytes) : res bytes := match p with 128 :: 4 :: x => Ok x | _ => Err UnpicklingError end.
Definition ex_gz (t : N) (p : bytes) : bytes := 31 :: 139 :: t mod 256 :: p.
Definition ex_gunzip (b : bytes) : res bytes := match b with [] => Ok [] | 31 :: 139 :: _ :: p => Ok p | _ => Err OtherError end.
Lemma ex_pickle_ok x : Forall (fun b => b < 256) x -> pickle_ok bytes ex_dump ex_load x (128 :: 4 :: x).
Proof.
  intros F. unfold pickle_ok, ex_dump. replace (forallb (fun b => b <? 256) x) with true by (symmetry; apply forallb_forall; intros y H; rewrite Forall_forall in F; apply N.ltb_lt, F, H).
  split; [reflexivity|]. split; [reflexivity|]. split; [constructor; [lia|constructor; [lia|exact F]]|eauto].
Qed.
Lemma ex_gzip_ok : gzip_ok ex_gz ex_gunzip.
Proof.
  split.
  - intros t p F. split; [reflexivity|]. split; [|unfold ex_gz; eauto]. unfold ex_gz. repeat (constructor; [lia|]). constructor; [apply N.mod_lt; discriminate|exact F].
  - intros b r H. unfold ex_gunzip in H. destruct (N.eq_dec b 31) as [E|E]; [exact E|]. exfalso. revert E H. destruct b as [|q]; [discriminate|]. do 5 (destruct q as [q|q|]; try discriminate). intros E _. apply E. reflexivity.
Qed.
Example C106_example : exists s, serial_encode bytes ex_dump ex_gz (std_codecs false) 77 [1; 2; 3] true "utf-8" = Ok s /\ length s = 10%nat /\
  serial_decode bytes ex_load ex_gunzip (std_codecs false) s "utf-8" = Ok [1; 2; 3] /\
  serial_encode bytes ex_dump ex_gz (std_codecs false) 78 [1; 2; 3] true "utf-8" <> Ok s.
Proof. eexists. split; [vm_compute; reflexivity|]. split; [vm_compute; reflexivity|]. split; [vm_compute; reflexivity|vm_compute; discriminate]. Qed.
Example C108_example : ~ well_formed [126; 126; 126; 126; 126] /\ ~ well_formed [48; 32] /\ well_formed [48; 48].
Proof.
  split; [|split].
  - intros H. apply C108_base85_accepts in H. vm_compute in H. discriminate.
  - intros H. apply C108_base85_accepts in H. vm_compute in H. discriminate.
  - apply C108_base85_accepts. vm_compute. reflexivity.
Qed.
Example C109_example : std_codecs false "utf-16" = Some (utf16_codec false) /\
  serial_encode bytes ex_dump ex_gz (std_codecs false) 77 [1] false "utf-16" = Ok [17254; 15947] /\
  serial_encode bytes ex_dump ex_gz (std_codecs false) 77 [1; 2] false "utf-16" = Err UnicodeError /\
  serial_decode bytes ex_load ex_gunzip (std_codecs false) [17254; 15947] "utf-16" = Err ValueError.
Proof. repeat split; vm_compute; reflexivity. Qed.
Example C122_example : b85decode (b85encode [1; 2; 3; 4]) = Ok [1; 2; 3; 4] /\ (length (b85encode [1; 2; 3; 4]%N) mod 5 = 0)%nat /\ place 48 0 /\
  b85decode (b85encode [1; 2; 3; 4] ++ [48]) = Ok [1; 2; 3; 4].
Proof. split; [vm_compute; reflexivity|]. split; [reflexivity|]. split; [apply place_iff; split; [lia|reflexivity]|vm_compute; reflexivity]. Qed.
Example C123_example : serial_decode bytes ex_load ex_gunzip (std_codecs false) (b85encode (ex_gz 5 [9; 9])) "ascii" = Err UnpicklingError.
Proof. vm_compute. reflexivity. Qed.
