(** base64.b85encode and base64.b85decode of the Python standard library (Lib/base64.py,
    _85encode and b85decode), as used by diamondback/commons/serial.py lines 107 and 136.
    Bytes are numbers below 256. *)
From Coq Require Import List Arith NArith ZArith Bool Lia.
From Verif Require Import Base.
Import ListNotations.
Set Asymmetric Patterns.
Local Open Scope N_scope.

(** _b85alphabet: 0-9 A-Z a-z !#$%&()*+-;<=>?@^_`{|}~ *)
Definition alphabet : list N :=
  [48;49;50;51;52;53;54;55;56;57;
   65;66;67;68;69;70;71;72;73;74;75;76;77;78;79;80;81;82;83;84;85;86;87;88;89;90;
   97;98;99;100;101;102;103;104;105;106;107;108;109;110;111;112;113;114;115;116;117;118;119;120;121;122;
   33;35;36;37;38;40;41;42;43;45;59;60;61;62;63;64;94;95;96;123;124;125;126].
Definition char_of (d : N) : N := nth (N.to_nat d) alphabet 0.
(** _b85dec *)
Fixpoint index_of (c : N) (l : list N) (i : N) : option N :=
  match l with [] => None | a :: r => if a =? c then Some i else index_of c r (i + 1) end.
Definition digit_of (c : N) : option N := index_of c alphabet 0.
(** chars2[i] *)
Definition two_of (i : N) : list N := [char_of (i / 85); char_of (i mod 85)].
(** One word, five characters. *)
Definition encode_word (w : N) : list N := two_of (w / 614125) ++ two_of (w / 85 mod 7225) ++ [char_of (w mod 85)].
Definition word_of (b0 b1 b2 b3 : N) : N := ((b0 * 256 + b1) * 256 + b2) * 256 + b3.
Fixpoint encode_words (b : list N) : list N :=
  match b with
  | b0 :: b1 :: b2 :: b3 :: r => encode_word (word_of b0 b1 b2 b3) ++ encode_words r
  | _ => []
  end.
(** padding to a multiple of four, dropping as many characters at the end *)
Definition b85encode (b : list N) : list N :=
  let padding := ((4 - length b mod 4) mod 4)%nat in
  let s := encode_words (b ++ repeat 0 padding) in
  firstn (length s - padding) s.

(** struct.pack("!I", w) *)
Definition bytes_of (w : N) : list N := [w / 16777216; w / 65536 mod 256; w / 256 mod 256; w mod 256].
Definition step85 (acc : option N) (c : N) : option N :=
  match acc, digit_of c with Some a, Some d => Some (a * 85 + d) | _, _ => None end.
Definition decode_hunk (l : list N) : res (list N) :=
  match fold_left step85 l (Some 0) with
  | None => Err ValueError                        (* bad base85 character *)
  | Some w => if w <? 4294967296 then Ok (bytes_of w) else Err ValueError     (* base85 overflow *)
  end.
Fixpoint decode_hunks (s : list N) : res (list N) :=
  match s with
  | c0 :: c1 :: c2 :: c3 :: c4 :: r => bind (decode_hunk [c0; c1; c2; c3; c4]) (fun x => bind (decode_hunks r) (fun y => Ok (x ++ y)))
  | _ => Ok []
  end.
Definition b85decode (s : list N) : res (list N) :=
  let padding := ((5 - length s mod 5) mod 5)%nat in
  bind (decode_hunks (s ++ repeat 126 padding)) (fun r => Ok (firstn (length r - padding) r)).

(** *** Facts *)
Definition is_byte (b : N) : Prop := b < 256.
Lemma digit_char d : d < 85 -> digit_of (char_of d) = Some d.
Proof.
  intros H. assert (A : forallb (fun d => match digit_of (char_of (N.of_nat d)) with Some e => e =? N.of_nat d | None => false end) (seq 0 85) = true) by (vm_compute; reflexivity).
  rewrite forallb_forall in A. specialize (A (N.to_nat d)). rewrite N2Nat.id in A. specialize (A ltac:(apply in_seq; lia)).
  destruct (digit_of (char_of d)) as [e|]; [|discriminate]. apply N.eqb_eq in A. congruence.
Qed.
Lemma char_in d : d < 85 -> In (char_of d) alphabet.
Proof. intros H. apply nth_In. change (length alphabet) with 85%nat. lia. Qed.
Lemma index_some c l i d : index_of c l i = Some d -> i <= d < i + N.of_nat (length l) /\ nth (N.to_nat (d - i)) l 0 = c.
Proof.
  revert i. induction l as [|a l IH]; intros i H; [discriminate|]. cbn [index_of] in H. cbn [length]. destruct (N.eqb_spec a c) as [E|E].
  - injection H as <-. split; [lia|]. rewrite N.sub_diag. exact E.
  - apply IH in H. destruct H as [H1 H2]. split; [lia|]. replace (N.to_nat (d - i)) with (S (N.to_nat (d - (i + 1)))) by lia. exact H2.
Qed.
Lemma digit_some c d : digit_of c = Some d -> d < 85 /\ char_of d = c.
Proof. intros H. apply index_some in H. change (N.of_nat (length alphabet)) with 85 in H. rewrite N.sub_0_r in H. split; [lia|apply H]. Qed.
Lemma index_none c l i : index_of c l i = None <-> ~ In c l.
Proof.
  revert i. induction l as [|a l IH]; intros i; cbn; [split; [intros _ []|reflexivity]|]. destruct (N.eqb_spec a c) as [E|E].
  - split; [discriminate|]. intros H. destruct H. left. exact E.
  - rewrite IH. tauto.
Qed.
Lemma digit_none c : digit_of c = None <-> ~ In c alphabet.
Proof. apply index_none. Qed.
Lemma digit_tilde : digit_of 126 = Some 84. Proof. reflexivity. Qed.

Ltac Zify.zify_post_hook ::= Z.to_euclidean_division_equations.
Lemma word_bound b0 b1 b2 b3 : is_byte b0 -> is_byte b1 -> is_byte b2 -> is_byte b3 -> word_of b0 b1 b2 b3 < 4294967296.
Proof. unfold is_byte, word_of. lia. Qed.
Lemma bytes_word b0 b1 b2 b3 : is_byte b0 -> is_byte b1 -> is_byte b2 -> is_byte b3 -> bytes_of (word_of b0 b1 b2 b3) = [b0; b1; b2; b3].
Proof. unfold is_byte, word_of, bytes_of. intros. repeat (f_equal; [lia|]). f_equal. lia. Qed.
(** The number five characters stand for, by their digits. *)
Lemma fold_digits d0 d1 d2 d3 d4 : d0 < 85 -> d1 < 85 -> d2 < 85 -> d3 < 85 -> d4 < 85 ->
  fold_left step85 (map char_of [d0; d1; d2; d3; d4]) (Some 0) = Some ((((d0 * 85 + d1) * 85 + d2) * 85 + d3) * 85 + d4).
Proof. intros. cbn [map fold_left]. unfold step85. rewrite !digit_char by assumption. reflexivity. Qed.
Lemma encode_word_digits w : encode_word w = map char_of [w / 614125 / 85; (w / 614125) mod 85; w / 85 mod 7225 / 85; (w / 85 mod 7225) mod 85; w mod 85].
Proof. reflexivity. Qed.
(** Dropping p characters of a word that ends in p zero bytes, and filling with '~'. *)
Lemma hunk_full w : w < 4294967296 -> decode_hunk (encode_word w) = Ok (bytes_of w).
Proof.
  intros H. unfold decode_hunk. rewrite encode_word_digits, fold_digits by lia.
  replace ((((w / 614125 / 85 * 85 + (w / 614125) mod 85) * 85 + w / 85 mod 7225 / 85) * 85 + (w / 85 mod 7225) mod 85) * 85 + w mod 85) with w by lia.
  replace (w <? 4294967296) with true by (symmetry; apply N.ltb_lt; exact H). reflexivity.
Qed.
Lemma hunk_of d0 d1 d2 d3 d4 w : d0 < 85 -> d1 < 85 -> d2 < 85 -> d3 < 85 -> d4 < 85 ->
  (((d0 * 85 + d1) * 85 + d2) * 85 + d3) * 85 + d4 = w -> w < 4294967296 -> decode_hunk (map char_of [d0; d1; d2; d3; d4]) = Ok (bytes_of w).
Proof.
  intros H0 H1 H2 H3 H4 E H. unfold decode_hunk. rewrite fold_digits by assumption. rewrite E. replace (w <? 4294967296) with true by (symmetry; apply N.ltb_lt; exact H). reflexivity.
Qed.
Lemma tail3 b0 b1 b2 : is_byte b0 -> is_byte b1 -> is_byte b2 ->
  exists w, decode_hunk (firstn 4 (encode_word (word_of b0 b1 b2 0)) ++ [126]) = Ok (bytes_of w) /\ firstn 3 (bytes_of w) = [b0; b1; b2].
Proof.
  unfold is_byte. intros H0 H1 H2. set (w := word_of b0 b1 b2 0). assert (W : w = ((b0 * 256 + b1) * 256 + b2) * 256) by (unfold w, word_of; lia). clearbody w.
  exists (w / 85 * 85 + 84). rewrite encode_word_digits. change (firstn 4 (map char_of [w / 614125 / 85; (w / 614125) mod 85; w / 85 mod 7225 / 85; (w / 85 mod 7225) mod 85; w mod 85]) ++ [126])
    with (map char_of [w / 614125 / 85; (w / 614125) mod 85; w / 85 mod 7225 / 85; (w / 85 mod 7225) mod 85; 84]). split.
  - apply hunk_of; try lia.
  - unfold bytes_of. cbn [firstn]. f_equal; [lia|]. f_equal; [lia|]. f_equal. lia.
Qed.
Lemma tail2 b0 b1 : is_byte b0 -> is_byte b1 ->
  exists w, decode_hunk (firstn 3 (encode_word (word_of b0 b1 0 0)) ++ [126; 126]) = Ok (bytes_of w) /\ firstn 2 (bytes_of w) = [b0; b1].
Proof.
  unfold is_byte. intros H0 H1. set (w := word_of b0 b1 0 0). assert (W : w = (b0 * 256 + b1) * 65536) by (unfold w, word_of; lia). clearbody w.
  exists (w / 7225 * 7225 + 7224). rewrite encode_word_digits. change (firstn 3 (map char_of [w / 614125 / 85; (w / 614125) mod 85; w / 85 mod 7225 / 85; (w / 85 mod 7225) mod 85; w mod 85]) ++ [126; 126])
    with (map char_of [w / 614125 / 85; (w / 614125) mod 85; w / 85 mod 7225 / 85; 84; 84]). split.
  - apply hunk_of; try lia.
  - unfold bytes_of. cbn [firstn]. f_equal; [lia|]. f_equal. lia.
Qed.
Lemma tail1 b0 : is_byte b0 ->
  exists w, decode_hunk (firstn 2 (encode_word (word_of b0 0 0 0)) ++ [126; 126; 126]) = Ok (bytes_of w) /\ firstn 1 (bytes_of w) = [b0].
Proof.
  unfold is_byte. intros H0. set (w := word_of b0 0 0 0). assert (W : w = b0 * 16777216) by (unfold w, word_of; lia). clearbody w.
  exists (w / 614125 * 614125 + 614124). rewrite encode_word_digits. change (firstn 2 (map char_of [w / 614125 / 85; (w / 614125) mod 85; w / 85 mod 7225 / 85; (w / 85 mod 7225) mod 85; w mod 85]) ++ [126; 126; 126])
    with (map char_of [w / 614125 / 85; (w / 614125) mod 85; 84; 84; 84]). split.
  - apply hunk_of; try lia.
  - unfold bytes_of. cbn [firstn]. f_equal. lia.
Qed.

Ltac Zify.zify_post_hook ::= idtac.

(** Both functions work group by group. *)
Lemma length_encode_word w : length (encode_word w) = 5%nat. Proof. reflexivity. Qed.
Lemma pad_add (k n : nat) m : m <> 0%nat -> k = m -> ((m - (k + n) mod m) mod m = (m - n mod m) mod m)%nat.
Proof. intros Hm ->. rewrite <- (Nat.add_mod_idemp_l m n m Hm), Nat.mod_same, Nat.add_0_l by exact Hm. reflexivity. Qed.
Lemma length_words n b : length b = (4 * n)%nat -> length (encode_words b) = (5 * n)%nat.
Proof.
  revert b. induction n as [|n IH]; intros b H.
  - destruct b; [reflexivity|cbn in H; lia].
  - destruct b as [|b0 [|b1 [|b2 [|b3 r]]]]; cbn [length] in H; try lia. cbn [encode_words]. rewrite app_length, length_encode_word, IH by lia. lia.
Qed.
Lemma padded4 (b : list N) : exists n, length (b ++ repeat 0 ((4 - length b mod 4) mod 4)%nat) = (4 * n)%nat /\ (length b = 0 -> n = 0)%nat /\ (0 < length b -> 0 < n)%nat.
Proof.
  rewrite app_length, repeat_length. pose proof (Nat.div_mod (length b) 4 ltac:(lia)) as D. pose proof (Nat.mod_upper_bound (length b) 4 ltac:(lia)) as U.
  generalize dependent (length b / 4)%nat. intros q D. destruct (length b mod 4)%nat as [|[|[|[|k]]]] eqn:E; [exists q|exists (S q)|exists (S q)|exists (S q)|lia]; cbn -[Nat.mul]; lia.
Qed.
Lemma encode_cons b0 b1 b2 b3 r : b85encode (b0 :: b1 :: b2 :: b3 :: r) = encode_word (word_of b0 b1 b2 b3) ++ b85encode r.
Proof.
  unfold b85encode. change (length (b0 :: b1 :: b2 :: b3 :: r)) with (4 + length r)%nat. rewrite pad_add by lia.
  set (p := ((4 - length r mod 4) mod 4)%nat). cbn [app encode_words]. destruct (padded4 r) as (n & L & Z & P). fold p in L.
  pose proof (length_words n _ L) as LW. assert (p <= length (encode_words (r ++ repeat 0%N p)))%nat.
  { rewrite LW. assert (p < 4)%nat by (unfold p; apply Nat.mod_upper_bound; lia). destruct (length r) as [|k] eqn:E; [unfold p; cbn; lia|lia]. }
  rewrite app_length, length_encode_word, firstn_app, length_encode_word.
  rewrite firstn_all2 by (rewrite length_encode_word; lia). f_equal. f_equal. lia.
Qed.
Lemma length_hunk l x : decode_hunk l = Ok x -> length x = 4%nat.
Proof. unfold decode_hunk. destruct (fold_left step85 l (Some 0)) as [w|]; [|discriminate]. destruct (w <? _); [|discriminate]. intros H. injection H as <-. reflexivity. Qed.
Lemma length_hunks n s x : length s = (5 * n)%nat -> decode_hunks s = Ok x -> length x = (4 * n)%nat.
Proof.
  revert s x. induction n as [|n IH]; intros s x L H.
  - destruct s; [|cbn in L; lia]. injection H as <-. reflexivity.
  - destruct s as [|c0 [|c1 [|c2 [|c3 [|c4 r]]]]]; cbn [length] in L; try lia. cbn [decode_hunks] in H. destruct (decode_hunk _) as [a|] eqn:E; [|discriminate]. cbn [bind] in H. destruct (decode_hunks r) as [b|] eqn:F; [|discriminate]. injection H as <-.
    rewrite app_length, (length_hunk _ _ E), (IH r b) by (lia || exact F). lia.
Qed.
Lemma padded5 (s : list N) : exists n, length (s ++ repeat 126 ((5 - length s mod 5) mod 5)%nat) = (5 * n)%nat /\ (length s = 0 -> n = 0)%nat /\ (0 < length s -> 0 < n)%nat.
Proof.
  rewrite app_length, repeat_length. pose proof (Nat.div_mod (length s) 5 ltac:(lia)) as D. pose proof (Nat.mod_upper_bound (length s) 5 ltac:(lia)) as U.
  generalize dependent (length s / 5)%nat. intros q D. destruct (length s mod 5)%nat as [|[|[|[|[|k]]]]] eqn:E; [exists q|exists (S q)|exists (S q)|exists (S q)|exists (S q)|lia]; cbn -[Nat.mul]; lia.
Qed.
Lemma decode_cons g r : length g = 5%nat -> b85decode (g ++ r) = bind (decode_hunk g) (fun x => bind (b85decode r) (fun y => Ok (x ++ y))).
Proof.
  intros G. destruct g as [|c0 [|c1 [|c2 [|c3 [|c4 [|c5 g]]]]]]; cbn [length] in G; try lia. unfold b85decode. rewrite app_length. cbn [length]. rewrite (pad_add 5) by lia. set (p := ((5 - length r mod 5) mod 5)%nat).
  cbn [app decode_hunks]. destruct (decode_hunk _) as [x|e] eqn:E; [|reflexivity]. cbn [bind]. destruct (decode_hunks (r ++ repeat 126 p)) as [y|e] eqn:F; [|reflexivity]. cbn [bind]. f_equal.
  destruct (padded5 r) as (n & L & Z & P). fold p in L. pose proof (length_hunks n _ _ L F) as LY. pose proof (length_hunk _ _ E) as LX.
  assert (p <= length y)%nat.
  { rewrite LY. assert (p < 5)%nat by (unfold p; apply Nat.mod_upper_bound; lia). destruct (length r) as [|k] eqn:EL; [unfold p; cbn; lia|lia]. }
  rewrite app_length, LX, firstn_app, LX, firstn_all2 by lia. f_equal. f_equal. lia.
Qed.
Lemma four_ind (P : list N -> Prop) : P [] -> (forall a, P [a]) -> (forall a b, P [a; b]) -> (forall a b c, P [a; b; c]) ->
  (forall a b c d r, P r -> P (a :: b :: c :: d :: r)) -> forall l, P l.
Proof.
  intros H0 H1 H2 H3 H4. fix F 1. intros [|a [|b [|c [|d r]]]]; [exact H0|apply H1|apply H2|apply H3|apply H4, F].
Qed.
Lemma five_ind (P : list N -> Prop) : P [] -> (forall a, P [a]) -> (forall a b, P [a; b]) -> (forall a b c, P [a; b; c]) -> (forall a b c d, P [a; b; c; d]) ->
  (forall a b c d e r, P r -> P (a :: b :: c :: d :: e :: r)) -> forall l, P l.
Proof.
  intros H0 H1 H2 H3 H4 H5. fix F 1. intros [|a [|b [|c [|d [|e r]]]]]; [exact H0|apply H1|apply H2|apply H3|apply H4|apply H5, F].
Qed.
Lemma b85_round_trip b : Forall is_byte b -> b85decode (b85encode b) = Ok b.
Proof.
  induction b as [|a|a b|a b c|a b c d r IH] using four_ind; intros F.
  - reflexivity.
  - apply Forall_inv in F. destruct (tail1 a F) as (w & E & W). unfold b85decode. change (b85encode [a]) with (firstn 2 (encode_word (word_of a 0 0 0))).
    replace (length (firstn 2 (encode_word (word_of a 0 0 0)))) with 2%nat by reflexivity. change ((5 - 2 mod 5) mod 5)%nat with 3%nat.
    change (repeat 126 3) with [126; 126; 126]. change (decode_hunks (firstn 2 (encode_word (word_of a 0 0 0)) ++ [126; 126; 126])) with (bind (decode_hunk (firstn 2 (encode_word (word_of a 0 0 0)) ++ [126; 126; 126])) (fun x => bind (decode_hunks []) (fun y => Ok (x ++ y)))).
    rewrite E. cbn [bind decode_hunks]. rewrite app_nil_r. cbn [bind]. f_equal. exact W.
  - inversion F as [|? ? Fa F']; subst. apply Forall_inv in F'. destruct (tail2 a b Fa F') as (w & E & W). unfold b85decode. change (b85encode [a; b]) with (firstn 3 (encode_word (word_of a b 0 0))).
    replace (length (firstn 3 (encode_word (word_of a b 0 0)))) with 3%nat by reflexivity. change ((5 - 3 mod 5) mod 5)%nat with 2%nat.
    change (repeat 126 2) with [126; 126]. change (decode_hunks (firstn 3 (encode_word (word_of a b 0 0)) ++ [126; 126])) with (bind (decode_hunk (firstn 3 (encode_word (word_of a b 0 0)) ++ [126; 126])) (fun x => bind (decode_hunks []) (fun y => Ok (x ++ y)))).
    rewrite E. cbn [bind decode_hunks]. rewrite app_nil_r. cbn [bind]. f_equal. exact W.
  - inversion F as [|? ? Fa F']; subst. inversion F' as [|? ? Fb F'']; subst. apply Forall_inv in F''. destruct (tail3 a b c Fa Fb F'') as (w & E & W). unfold b85decode. change (b85encode [a; b; c]) with (firstn 4 (encode_word (word_of a b c 0))).
    replace (length (firstn 4 (encode_word (word_of a b c 0)))) with 4%nat by reflexivity. change ((5 - 4 mod 5) mod 5)%nat with 1%nat.
    change (repeat 126 1) with [126]. change (decode_hunks (firstn 4 (encode_word (word_of a b c 0)) ++ [126])) with (bind (decode_hunk (firstn 4 (encode_word (word_of a b c 0)) ++ [126])) (fun x => bind (decode_hunks []) (fun y => Ok (x ++ y)))).
    rewrite E. cbn [bind decode_hunks]. rewrite app_nil_r. cbn [bind]. f_equal. exact W.
  - inversion F as [|? ? F0 G0]; subst. inversion G0 as [|? ? F1 G1]; subst. inversion G1 as [|? ? F2 G2]; subst. inversion G2 as [|? ? F3 G3]; subst.
    rewrite encode_cons, decode_cons by reflexivity. rewrite hunk_full by (apply word_bound; assumption). rewrite bytes_word by assumption. cbn [bind]. rewrite IH by assumption. reflexivity.
Qed.
(** Length and characters of the text. *)
Lemma b85_length b : length (b85encode b) = (5 * (length b / 4) + match length b mod 4 with 0 => 0 | S r => S (S r) end)%nat.
Proof.
  induction b as [|a|a b|a b c|a b c d r IH] using four_ind; try reflexivity. rewrite encode_cons, app_length, length_encode_word, IH. cbn [length].
  replace (S (S (S (S (length r))))) with (length r + 1 * 4)%nat by lia. rewrite Nat.div_add, Nat.mod_add by lia. lia.
Qed.
Ltac Zify.zify_post_hook ::= Z.to_euclidean_division_equations.
Lemma b85_chars b : Forall is_byte b -> Forall (fun c => In c alphabet) (b85encode b).
Proof.
  assert (W : forall w, w < 4294967296 -> Forall (fun c => In c alphabet) (encode_word w)).
  { intros w H. rewrite encode_word_digits. cbn [map]. repeat (apply Forall_cons; [apply char_in; lia|]). apply Forall_nil. }
  intros F. unfold b85encode. set (l := b ++ _). assert (FL : Forall is_byte l) by (apply Forall_app; split; [exact F|]; apply Forall_forall; intros x Hx; apply repeat_spec in Hx; subst; reflexivity). clearbody l. clear F.
  assert (G : Forall (fun c => In c alphabet) (encode_words l)).
  { induction l as [|a|a b'|a b' c|a b' c d r IH] using four_ind; try apply Forall_nil. inversion FL as [|? ? F0 G0]; subst. inversion G0 as [|? ? F1 G1]; subst. inversion G1 as [|? ? F2 G2]; subst. inversion G2 as [|? ? F3 G3]; subst.
    cbn [encode_words]. apply Forall_app. split; [apply W, word_bound; assumption|apply IH; assumption]. }
  apply Forall_forall. intros x Hx. rewrite Forall_forall in G. apply G. rewrite <- (firstn_skipn (length (encode_words l) - (4 - length b mod 4) mod 4) (encode_words l)). apply in_or_app. left. exact Hx.
Qed.
Lemma b85_bytes s x : b85decode s = Ok x -> Forall is_byte x.
Proof.
  assert (G : forall l y, decode_hunks l = Ok y -> Forall is_byte y).
  { induction l as [|a|a b|a b c|a b c d|a b c d e r IH] using five_ind; intros y H; try (injection H as <-; constructor). cbn [decode_hunks] in H. destruct (decode_hunk [a; b; c; d; e]) as [g|] eqn:E; [|discriminate]. cbn [bind] in H. destruct (decode_hunks r) as [z|]; [|discriminate]. injection H as <-.
    apply Forall_app. split; [|apply IH; reflexivity]. unfold decode_hunk in E. destruct (fold_left _ _ _) as [w|]; [|discriminate]. destruct (N.ltb_spec w 4294967296) as [L|L]; [|discriminate]. injection E as <-. unfold bytes_of, is_byte. repeat (apply Forall_cons; [lia|]). apply Forall_nil. }
  unfold b85decode. destruct (decode_hunks _) as [y|] eqn:E; [|discriminate]. cbn [bind]. intros H. injection H as <-. apply G in E. apply Forall_forall. intros z Hz. rewrite Forall_forall in E. apply E. rewrite <- (firstn_skipn (length y - (5 - length s mod 5) mod 5) y). apply in_or_app. left. exact Hz.
Qed.
Ltac Zify.zify_post_hook ::= idtac.
(** Bad characters anywhere are found. *)
Lemma step_none l : fold_left step85 l None = None.
Proof. induction l as [|c l IH]; [reflexivity|exact IH]. Qed.
Lemma fold_bad c l a : In c l -> ~ In c alphabet -> fold_left step85 l a = None.
Proof.
  intros H N. revert a. induction l as [|x l IH]; [destruct H|]. intros a. cbn. destruct H as [->|H]; [|apply IH, H]. unfold step85 at 2. apply digit_none in N. rewrite N. destruct a; apply step_none.
Qed.
Lemma hunks_bad c l n : length l = (5 * n)%nat -> In c l -> ~ In c alphabet -> decode_hunks l = Err ValueError.
Proof.
  revert l. induction n as [|n IH]; intros l L H N; [destruct l; [destruct H|cbn in L; lia]|].
  destruct l as [|c0 [|c1 [|c2 [|c3 [|c4 r]]]]]; cbn [length] in L; try lia. cbn [decode_hunks]. change (c0 :: c1 :: c2 :: c3 :: c4 :: r) with ([c0; c1; c2; c3; c4] ++ r) in H. apply in_app_or in H. destruct H as [H|H].
  - unfold decode_hunk. rewrite (fold_bad c _ _ H N). reflexivity.
  - unfold decode_hunk. destruct (fold_left _ _ _) as [w|]; [|reflexivity]. destruct (w <? _); [|reflexivity]. cbn [bind]. rewrite (IH r) by (lia || assumption). reflexivity.
Qed.
Lemma b85_bad c s : In c s -> ~ In c alphabet -> b85decode s = Err ValueError.
Proof. intros H N. unfold b85decode. destruct (padded5 s) as (n & L & _). rewrite (hunks_bad c _ n L); [reflexivity| |exact N]. apply in_or_app. left. exact H. Qed.
