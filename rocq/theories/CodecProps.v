(** C183: Serial.code and the text encodings Serial uses. *)
From Coq Require Import String List Arith NArith ZArith Lia Bool.
From Verif Require Import Base Base85 SerialModel.
Import ListNotations.
Set Asymmetric Patterns.
Local Open Scope N_scope.
Ltac Zify.zify_post_hook ::= Z.to_euclidean_division_equations.

(** ** Specification: the bit patterns of RFC 3629 and RFC 2781 *)
Definition scalar (c : N) : Prop := c < 55296 \/ 57344 <= c < 1114112.
Inductive octets : N -> bytes -> Prop :=
| one_octet c : c < 128 -> octets c [c]
| two_octets a b : a < 32 -> b < 64 -> 128 <= 64 * a + b -> octets (64 * a + b) [192 + a; 128 + b]
| three_octets a b c : a < 16 -> b < 64 -> c < 64 -> 2048 <= 4096 * a + 64 * b + c -> scalar (4096 * a + 64 * b + c) ->
    octets (4096 * a + 64 * b + c) [224 + a; 128 + b; 128 + c]
| four_octets a b c e : a < 8 -> b < 64 -> c < 64 -> e < 64 -> 65536 <= 262144 * a + 4096 * b + 64 * c + e < 1114112 ->
    octets (262144 * a + 4096 * b + 64 * c + e) [240 + a; 128 + b; 128 + c; 128 + e].
Inductive utf8 : text -> bytes -> Prop :=
| utf8_nil : utf8 [] []
| utf8_cons c o t b : octets c o -> utf8 t b -> utf8 (c :: t) (o ++ b).
(** One or two 16-bit units, high byte first or last. *)
Definition order (big : bool) (h l : N) : bytes := if big then [h; l] else [l; h].
Inductive units (big : bool) : N -> bytes -> Prop :=
| one_unit h l : h < 256 -> l < 256 -> scalar (256 * h + l) -> units big (256 * h + l) (order big h l)
| two_units h1 l1 h2 l2 : h1 < 4 -> l1 < 256 -> h2 < 4 -> l2 < 256 ->
    units big (65536 + 1024 * (256 * h1 + l1) + (256 * h2 + l2)) (order big (216 + h1) l1 ++ order big (220 + h2) l2).
Inductive utf16 (big : bool) : text -> bytes -> Prop :=
| utf16_nil : utf16 big [] []
| utf16_cons c o t b : units big c o -> utf16 big t b -> utf16 big (c :: t) (o ++ b).

(** ** utf-8 *)
Lemma octets_scalar c o : octets c o -> scalar c.
Proof. unfold scalar. destruct 1; try assumption; lia. Qed.
Ltac decide_ltb := repeat match goal with
  | |- context [?a <? ?b] => first [replace (a <? b) with true by (symmetry; apply N.ltb_lt; lia) | replace (a <? b) with false by (symmetry; apply N.ltb_ge; lia)]
  | |- context [?a <=? ?b] => first [replace (a <=? b) with true by (symmetry; apply N.leb_le; lia) | replace (a <=? b) with false by (symmetry; apply N.leb_gt; lia)]
  end; cbn [andb orb negb].
Lemma char_octets c o : octets c o -> utf8_char c = Ok o.
Proof.
  unfold utf8_char. destruct 1 as [c H|a b H1 H2 H3|a b c H1 H2 H3 H4 H5|a b c e H1 H2 H3 H4 H5].
  - decide_ltb. reflexivity.
  - decide_ltb. assert (E1 : (64 * a + b) / 64 = a) by lia. assert (E2 : (64 * a + b) mod 64 = b) by lia. rewrite E1, E2. reflexivity.
  - assert (S : (55296 <=? 4096 * a + 64 * b + c) && (4096 * a + 64 * b + c <? 57344) = false).
    { destruct H5 as [H5|H5]; [replace (55296 <=? 4096 * a + 64 * b + c) with false by (symmetry; apply N.leb_gt; lia); reflexivity|].
      replace (4096 * a + 64 * b + c <? 57344) with false by (symmetry; apply N.ltb_ge; lia). apply andb_false_r. }
    rewrite S. decide_ltb. set (v := 4096 * a + 64 * b + c). assert (E1 : v / 4096 = a) by (unfold v; lia). assert (E2 : v / 64 mod 64 = b) by (unfold v; lia). assert (E3 : v mod 64 = c) by (unfold v; lia). rewrite E1, E2, E3. reflexivity.
  - decide_ltb. set (v := 262144 * a + 4096 * b + 64 * c + e). assert (E1 : v / 262144 = a) by (unfold v; lia). assert (E2 : v / 4096 mod 64 = b) by (unfold v; lia). assert (E3 : v / 64 mod 64 = c) by (unfold v; lia). assert (E4 : v mod 64 = e) by (unfold v; lia). rewrite E1, E2, E3, E4. reflexivity.
Qed.
Lemma octets_char c o : utf8_char c = Ok o -> octets c o.
Proof.
  unfold utf8_char. destruct (N.ltb_spec c 128) as [H1|H1]; [intros E; injection E as <-; apply one_octet; exact H1|].
  destruct (N.ltb_spec c 2048) as [H2|H2].
  { intros E. assert (K : octets (64 * (c / 64) + c mod 64) [192 + c / 64; 128 + c mod 64]) by (apply two_octets; lia).
    replace (64 * (c / 64) + c mod 64) with c in K by lia. assert (Eo : [192 + c / 64; 128 + c mod 64] = o) by congruence. rewrite <- Eo. exact K. }
  destruct ((55296 <=? c) && (c <? 57344)) eqn:S; [discriminate|].
  assert (SC : c < 55296 \/ 57344 <= c) by (apply andb_false_iff in S; destruct S as [S|S]; [left; apply N.leb_gt; exact S|right; apply N.ltb_ge; exact S]).
  destruct (N.ltb_spec c 65536) as [H3|H3].
  { intros E. assert (K : octets (4096 * (c / 4096) + 64 * (c / 64 mod 64) + c mod 64) [224 + c / 4096; 128 + c / 64 mod 64; 128 + c mod 64]) by (apply three_octets; unfold scalar; lia).
    replace (4096 * (c / 4096) + 64 * (c / 64 mod 64) + c mod 64) with c in K by lia. assert (Eo : [224 + c / 4096; 128 + c / 64 mod 64; 128 + c mod 64] = o) by congruence. rewrite <- Eo. exact K. }
  destruct (N.ltb_spec c 1114112) as [H4|H4]; [|discriminate].
  intros E. assert (K : octets (262144 * (c / 262144) + 4096 * (c / 4096 mod 64) + 64 * (c / 64 mod 64) + c mod 64) [240 + c / 262144; 128 + c / 4096 mod 64; 128 + c / 64 mod 64; 128 + c mod 64]) by (apply four_octets; lia).
  replace (262144 * (c / 262144) + 4096 * (c / 4096 mod 64) + 64 * (c / 64 mod 64) + c mod 64) with c in K by lia. assert (Eo : [240 + c / 262144; 128 + c / 4096 mod 64; 128 + c / 64 mod 64; 128 + c mod 64] = o) by congruence. rewrite <- Eo. exact K.
Qed.
Lemma enc8_iff t b : utf8_enc t = Ok b <-> utf8 t b.
Proof.
  split.
  - revert b. induction t as [|c t IH]; intros b H; cbn [utf8_enc] in H; [injection H as <-; constructor|].
    destruct (utf8_char c) as [o|] eqn:E; [|discriminate]. cbn [bind] in H. destruct (utf8_enc t) as [r|]; [|discriminate]. cbn [bind] in H. injection H as <-. constructor; [apply octets_char, E|apply IH; reflexivity].
  - induction 1 as [|c o t b H1 H2 IH]; [reflexivity|]. cbn [utf8_enc]. rewrite (char_octets _ _ H1). cbn [bind]. rewrite IH. reflexivity.
Qed.
Lemma contb b : cont (128 + b) = (b <? 64).
Proof. unfold cont. destruct (N.ltb_spec b 64); decide_ltb; reflexivity. Qed.
Lemma dec8_of t b : utf8 t b -> utf8_dec b = Ok t.
Proof.
  induction 1 as [|c o t b H1 H2 IH]; [reflexivity|]. destruct H1 as [c H|a x H3 H4 H5|a x y H3 H4 H5 H6 H7|a x y z H3 H4 H5 H6 H7]; cbn [app utf8_dec].
  - decide_ltb. rewrite IH. reflexivity.
  - rewrite contb. decide_ltb. rewrite IH. cbn [bind]. replace ((192 + a - 192) * 64 + (128 + x - 128)) with (64 * a + x) by lia. reflexivity.
  - rewrite !contb. decide_ltb. cbv zeta. replace ((224 + a - 224) * 4096 + (128 + x - 128) * 64 + (128 + y - 128)) with (4096 * a + 64 * x + y) by lia.
    replace (4096 * a + 64 * x + y <? 2048) with false by (symmetry; apply N.ltb_ge; lia). cbn [orb].
    assert (S : (55296 <=? 4096 * a + 64 * x + y) && (4096 * a + 64 * x + y <? 57344) = false).
    { destruct H7 as [H7|H7]; [replace (55296 <=? 4096 * a + 64 * x + y) with false by (symmetry; apply N.leb_gt; lia); reflexivity|].
      replace (4096 * a + 64 * x + y <? 57344) with false by (symmetry; apply N.ltb_ge; lia). apply andb_false_r. }
    rewrite S, IH. reflexivity.
  - rewrite !contb. assert (A : a < 5) by lia. decide_ltb. cbv zeta. replace ((240 + a - 240) * 262144 + (128 + x - 128) * 4096 + (128 + y - 128) * 64 + (128 + z - 128)) with (262144 * a + 4096 * x + 64 * y + z) by lia.
    decide_ltb. rewrite IH. reflexivity.
Qed.
Lemma cont_split b : cont b = true -> exists x, b = 128 + x /\ x < 64.
Proof. unfold cont. intros H. apply andb_prop in H. destruct H as [H1 H2]. apply N.leb_le in H1. apply N.ltb_lt in H2. exists (b - 128). lia. Qed.
Lemma dec8_to n : forall b t, (length b <= n)%nat -> utf8_dec b = Ok t -> utf8 t b.
Proof.
  induction n as [|n IH]; intros b t L H; destruct b as [|b0 r0]; cbn [length] in L; try lia; cbn [utf8_dec] in H; try (injection H as <-; constructor).
  destruct (N.ltb_spec b0 128) as [H1|H1].
  { destruct (utf8_dec r0) as [y|] eqn:E; [|discriminate]. cbn [bind] in H. injection H as <-. exact (utf8_cons b0 [b0] y r0 (one_octet b0 H1) (IH r0 y ltac:(lia) E)). }
  destruct (N.ltb_spec b0 194) as [H2|H2]; [discriminate|]. destruct r0 as [|b1 r1]; [discriminate|]. destruct (cont b1) eqn:C1; cbn [negb] in H; [|discriminate]. destruct (cont_split _ C1) as (x & -> & Hx). clear C1. cbn [length] in L.
  destruct (N.ltb_spec b0 224) as [H3|H3].
  { destruct (utf8_dec r1) as [y|] eqn:E; [|discriminate]. cbn [bind] in H. assert (Et : t = ((b0 - 192) * 64 + (128 + x - 128)) :: y) by congruence. subst t.
    pose proof (utf8_cons (64 * (b0 - 192) + x) [192 + (b0 - 192); 128 + x] y r1 (two_octets (b0 - 192) x ltac:(lia) Hx ltac:(lia)) (IH r1 y ltac:(lia) E)) as K. cbn [app] in K.
    replace (192 + (b0 - 192)) with b0 in K by lia. replace ((b0 - 192) * 64 + (128 + x - 128)) with (64 * (b0 - 192) + x) by lia. exact K. }
  destruct r1 as [|b2 r2]; [discriminate|]. destruct (cont b2) eqn:C2; cbn [negb] in H; [|discriminate]. destruct (cont_split _ C2) as (w & -> & Hw). clear C2. cbn [length] in L.
  destruct (N.ltb_spec b0 240) as [H4|H4].
  { cbv zeta in H. replace ((b0 - 224) * 4096 + (128 + x - 128) * 64 + (128 + w - 128)) with (4096 * (b0 - 224) + 64 * x + w) in H by lia. set (c := 4096 * (b0 - 224) + 64 * x + w) in *.
    destruct (N.ltb_spec c 2048) as [H5|H5]; cbn [orb] in H; [discriminate|]. destruct ((55296 <=? c) && (c <? 57344)) eqn:S; [discriminate|].
    assert (SC : c < 55296 \/ 57344 <= c) by (apply andb_false_iff in S; destruct S as [S|S]; [left; apply N.leb_gt; exact S|right; apply N.ltb_ge; exact S]).
    destruct (utf8_dec r2) as [y|] eqn:E; [|discriminate]. cbn [bind] in H. injection H as <-.
    pose proof (utf8_cons c [224 + (b0 - 224); 128 + x; 128 + w] y r2 (three_octets (b0 - 224) x w ltac:(lia) Hx Hw H5 ltac:(unfold scalar, c in *; lia)) (IH r2 y ltac:(lia) E)) as K. cbn [app] in K.
    replace (224 + (b0 - 224)) with b0 in K by lia. exact K. }
  destruct r2 as [|b3 r3]; [discriminate|]. destruct (cont b3) eqn:C3; cbn [negb] in H; [|discriminate]. destruct (cont_split _ C3) as (z & -> & Hz). clear C3. cbn [length] in L.
  cbv zeta in H. replace ((b0 - 240) * 262144 + (128 + x - 128) * 4096 + (128 + w - 128) * 64 + (128 + z - 128)) with (262144 * (b0 - 240) + 4096 * x + 64 * w + z) in H by lia. set (c := 262144 * (b0 - 240) + 4096 * x + 64 * w + z) in *.
  destruct (N.ltb_spec b0 245) as [H5|H5]; [|discriminate]. destruct (N.leb_spec 65536 c) as [H6|H6]; [|discriminate]. destruct (N.ltb_spec c 1114112) as [H7|H7]; [|discriminate]. cbn [andb] in H.
  destruct (utf8_dec r3) as [y|] eqn:E; [|discriminate]. cbn [bind] in H. injection H as <-.
  pose proof (utf8_cons c [240 + (b0 - 240); 128 + x; 128 + w; 128 + z] y r3 (four_octets (b0 - 240) x w z ltac:(lia) Hx Hw Hz (conj H6 H7)) (IH r3 y ltac:(lia) E)) as K. cbn [app] in K.
  replace (240 + (b0 - 240)) with b0 in K by lia. exact K.
Qed.
Lemma enc8_total t : (exists b, utf8_enc t = Ok b) \/ (utf8_enc t = Err UnicodeError /\ ~ Forall scalar t).
Proof.
  induction t as [|c t IH]; [left; eexists; reflexivity|]. cbn [utf8_enc]. destruct (utf8_char c) as [o|e] eqn:E.
  - cbn [bind]. destruct IH as [[b ->]|[-> N]]; [left; eexists; reflexivity|]. right. split; [reflexivity|]. intros F. inversion F. contradiction.
  - right. unfold utf8_char in E. destruct (c <? 128); [discriminate|]. destruct (c <? 2048); [discriminate|]. destruct ((55296 <=? c) && (c <? 57344)) eqn:S.
    + split; [injection E as <-; reflexivity|]. intros F. inversion F as [|? ? F1 F2]; subst. apply andb_prop in S. destruct S as [S1 S2]. apply N.leb_le in S1. apply N.ltb_lt in S2. unfold scalar in F1. lia.
    + destruct (c <? 65536); [discriminate|]. destruct (N.ltb_spec c 1114112) as [H|H]; [discriminate|]. split; [injection E as <-; reflexivity|]. intros F. inversion F as [|? ? F1 F2]; subst. unfold scalar in F1. lia.
Qed.

(** utf-8 follows the standard in both directions, and exactly the texts without surrogates
    can be encoded. *)
Theorem C183_utf8 t b : (utf8_enc t = Ok b <-> utf8 t b) /\ (utf8_dec b = Ok t <-> utf8 t b) /\
  (Forall scalar t <-> exists b', utf8_enc t = Ok b') /\ (~ Forall scalar t -> utf8_enc t = Err UnicodeError).
Proof.
  split; [apply enc8_iff|]. split; [split; [apply (dec8_to (length b)); lia|apply dec8_of]|].
  assert (K : forall b', utf8_enc t = Ok b' -> Forall scalar t) by (intros b' H; apply enc8_iff in H; induction H as [|c o t' b'' O _ IH]; constructor; [exact (octets_scalar _ _ O)|exact IH]).
  split; [split; [intros F; destruct (enc8_total t) as [H|[_ N]]; [exact H|contradiction]|intros [b' H]; exact (K b' H)]|].
  intros N. destruct (enc8_total t) as [[b' H]|[H _]]; [destruct (N (K b' H))|exact H].
Qed.
Print Assumptions C183_utf8.

(** ** utf-16 *)
Lemma unit_order big h l : l < 256 -> unit_bytes big (256 * h + l) = order big h l.
Proof. intros H. unfold unit_bytes, order. assert (E1 : (256 * h + l) / 256 = h) by lia. assert (E2 : (256 * h + l) mod 256 = l) by lia. rewrite E1, E2. reflexivity. Qed.
Lemma unit_split u : u = 256 * (u / 256) + u mod 256.
Proof. lia. Qed.
Lemma char_units big c o : units big c o -> utf16_char big c = Ok o.
Proof.
  unfold utf16_char. destruct 1 as [h l H1 H2 H3|h1 l1 h2 l2 H1 H2 H3 H4].
  - assert (S : (55296 <=? 256 * h + l) && (256 * h + l <? 57344) = false).
    { destruct H3 as [H3|H3]; [replace (55296 <=? 256 * h + l) with false by (symmetry; apply N.leb_gt; lia); reflexivity|].
      replace (256 * h + l <? 57344) with false by (symmetry; apply N.ltb_ge; lia). apply andb_false_r. }
    rewrite S. decide_ltb. rewrite unit_order by exact H2. reflexivity.
  - set (v := 1024 * (256 * h1 + l1) + (256 * h2 + l2)). replace (65536 + 1024 * (256 * h1 + l1) + (256 * h2 + l2)) with (65536 + v) by (unfold v; lia).
    assert (V : v < 1048576) by (unfold v; lia). decide_ltb. replace (65536 + v - 65536) with v by lia.
    assert (E1 : 55296 + v / 1024 = 256 * (216 + h1) + l1) by (unfold v; lia). assert (E2 : 56320 + v mod 1024 = 256 * (220 + h2) + l2) by (unfold v; lia). rewrite E1, E2, !unit_order by assumption. reflexivity.
Qed.
Lemma units_char big c o : utf16_char big c = Ok o -> units big c o.
Proof.
  unfold utf16_char. destruct ((55296 <=? c) && (c <? 57344)) eqn:S; [discriminate|].
  assert (SC : c < 55296 \/ 57344 <= c) by (apply andb_false_iff in S; destruct S as [S|S]; [left; apply N.leb_gt; exact S|right; apply N.ltb_ge; exact S]).
  destruct (N.ltb_spec c 65536) as [H1|H1].
  - intros E. assert (Eo : unit_bytes big c = o) by congruence. subst o. pose proof (one_unit big (c / 256) (c mod 256) ltac:(lia) ltac:(lia) ltac:(unfold scalar; lia)) as K. rewrite <- unit_order in K by lia. rewrite <- unit_split in K. exact K.
  - destruct (N.ltb_spec c 1114112) as [H2|H2]; [|discriminate]. intros E. assert (Eo : unit_bytes big (55296 + (c - 65536) / 1024) ++ unit_bytes big (56320 + (c - 65536) mod 1024) = o) by congruence. subst o. clear E.
    set (v := c - 65536). assert (V : v < 1048576) by (unfold v; lia).
    pose proof (two_units big (v / 1024 / 256) (v / 1024 mod 256) (v mod 1024 / 256) (v mod 1024 mod 256) ltac:(lia) ltac:(lia) ltac:(lia) ltac:(lia)) as K.
    replace (65536 + 1024 * (256 * (v / 1024 / 256) + v / 1024 mod 256) + (256 * (v mod 1024 / 256) + v mod 1024 mod 256)) with c in K by (rewrite <- !unit_split; unfold v in *; lia).
    rewrite <- !unit_order in K by lia.
    replace (256 * (216 + v / 1024 / 256) + v / 1024 mod 256) with (55296 + v / 1024) in K by (pose proof (unit_split (v / 1024)); lia).
    replace (256 * (220 + v mod 1024 / 256) + v mod 1024 mod 256) with (56320 + v mod 1024) in K by (pose proof (unit_split (v mod 1024)); lia). exact K.
Qed.
Lemma enc16_iff big t b : utf16_chars big t = Ok b <-> utf16 big t b.
Proof.
  split.
  - revert b. induction t as [|c t IH]; intros b H; cbn [utf16_chars] in H; [injection H as <-; constructor|].
    destruct (utf16_char big c) as [o|] eqn:E; [|discriminate]. cbn [bind] in H. destruct (utf16_chars big t) as [r|]; [|discriminate]. cbn [bind] in H. injection H as <-. constructor; [apply units_char, E|apply IH; reflexivity].
  - induction 1 as [|c o t b H1 H2 IH]; [reflexivity|]. cbn [utf16_chars]. rewrite (char_units _ _ _ H1). cbn [bind]. rewrite IH. reflexivity.
Qed.
Lemma dec16_of big t b : utf16 big t b -> utf16_units big b = Ok t.
Proof.
  induction 1 as [|c o t b H1 H2 IH]; [reflexivity|]. destruct H1 as [h l H3 H4 H5|h1 l1 h2 l2 H3 H4 H5 H6].
  - assert (U : forall x y, order big h l ++ b = x :: y :: b -> unit_of big x y = 256 * h + l) by (unfold order, unit_of; destruct big; cbn [app]; intros x y E; injection E as <- <-; lia).
    assert (S : (256 * h + l <? 55296) || (57344 <=? 256 * h + l) = true).
    { destruct H5 as [H5|H5]; [replace (256 * h + l <? 55296) with true by (symmetry; apply N.ltb_lt; lia); reflexivity|]. replace (57344 <=? 256 * h + l) with true by (symmetry; apply N.leb_le; lia). apply orb_true_r. }
    destruct big; cbn [order app utf16_units] in *; rewrite (U _ _ eq_refl); cbv zeta; rewrite S, IH; reflexivity.
  - assert (U : unit_of big (if big then 216 + h1 else l1) (if big then l1 else 216 + h1) = 256 * (216 + h1) + l1) by (unfold unit_of; destruct big; lia).
    assert (V : unit_of big (if big then 220 + h2 else l2) (if big then l2 else 220 + h2) = 256 * (220 + h2) + l2) by (unfold unit_of; destruct big; lia).
    assert (G : (let u := 256 * (216 + h1) + l1 in if (u <? 55296) || (57344 <=? u) then bind (utf16_units big (order big (220 + h2) l2 ++ b)) (fun t => Ok (u :: t)) else if 56320 <=? u then Err UnicodeError
      else let v := 256 * (220 + h2) + l2 in if (56320 <=? v) && (v <? 57344) then bind (utf16_units big b) (fun t => Ok (65536 + (u - 55296) * 1024 + (v - 56320) :: t)) else Err UnicodeError) =
      Ok (65536 + 1024 * (256 * h1 + l1) + (256 * h2 + l2) :: t)).
    { cbv zeta. decide_ltb. rewrite IH. cbn [bind]. replace (65536 + (256 * (216 + h1) + l1 - 55296) * 1024 + (256 * (220 + h2) + l2 - 56320)) with (65536 + 1024 * (256 * h1 + l1) + (256 * h2 + l2)) by lia. reflexivity. }
    destruct big; cbn [order app utf16_units] in *; rewrite U, ?V in *; exact G.
Qed.
Lemma dec16_to big n : forall b t, (length b <= n)%nat -> Forall (fun x => x < 256) b -> utf16_units big b = Ok t -> utf16 big t b.
Proof.
  induction n as [|n IH]; intros b t L F H; destruct b as [|x r]; cbn [length] in L; try lia; cbn [utf16_units] in H; try (injection H as <-; constructor).
  destruct r as [|y r]; [discriminate|]. inversion F as [|? ? F1 F']; subst. inversion F' as [|? ? F2 F3]; subst. clear F F'. cbn [length] in L.
  set (h := if big then x else y). set (l := if big then y else x). assert (Hh : h < 256) by (unfold h; destruct big; assumption). assert (Hl : l < 256) by (unfold l; destruct big; assumption).
  assert (EU : unit_of big x y = 256 * h + l) by (unfold unit_of, h, l; destruct big; lia). assert (EO : forall r', x :: y :: r' = order big h l ++ r') by (unfold order, h, l; destruct big; reflexivity).
  rewrite EU in H. cbv zeta in H. destruct ((256 * h + l <? 55296) || (57344 <=? 256 * h + l)) eqn:S.
  { destruct (utf16_units big r) as [z|] eqn:E; [|discriminate]. cbn [bind] in H. injection H as <-. rewrite EO. constructor; [|apply IH; [lia|exact F3|exact E]]. apply one_unit; [exact Hh|exact Hl|].
    apply orb_prop in S. destruct S as [S|S]; [apply N.ltb_lt in S|apply N.leb_le in S]; unfold scalar; lia. }
  apply orb_false_iff in S. destruct S as [S1 S2]. apply N.ltb_ge in S1. apply N.leb_gt in S2. destruct (N.leb_spec 56320 (256 * h + l)) as [K|K]; [discriminate|].
  destruct r as [|x' [|y' r']]; [discriminate|discriminate|]. inversion F3 as [|? ? F4 F']; subst. inversion F' as [|? ? F5 F6]; subst. clear F3 F'. cbn [length] in L.
  set (h' := if big then x' else y') in *. set (l' := if big then y' else x') in *. assert (Hh' : h' < 256) by (unfold h'; destruct big; assumption). assert (Hl' : l' < 256) by (unfold l'; destruct big; assumption).
  assert (EU' : unit_of big x' y' = 256 * h' + l') by (unfold unit_of, h', l'; destruct big; lia). assert (EO' : x' :: y' :: r' = order big h' l' ++ r') by (unfold order, h', l'; destruct big; reflexivity).
  rewrite EU' in H. destruct (N.leb_spec 56320 (256 * h' + l')) as [K1|K1]; [|discriminate]. destruct (N.ltb_spec (256 * h' + l') 57344) as [K2|K2]; [|discriminate]. cbn [andb] in H.
  destruct (utf16_units big r') as [z|] eqn:E; [|discriminate]. cbn [bind] in H. assert (Et : t = 65536 + (256 * h + l - 55296) * 1024 + (256 * h' + l' - 56320) :: z) by congruence. subst t. clear H.
  rewrite EO, EO', app_assoc. pose proof (two_units big (h - 216) l (h' - 220) l' ltac:(lia) Hl ltac:(lia) Hl') as Q.
  replace (216 + (h - 216)) with h in Q by lia. replace (220 + (h' - 220)) with h' in Q by lia.
  replace (65536 + 1024 * (256 * (h - 216) + l) + (256 * (h' - 220) + l')) with (65536 + (256 * h + l - 55296) * 1024 + (256 * h' + l' - 56320)) in Q by lia.
  constructor; [exact Q|apply IH; [lia|exact F6|exact E]].
Qed.
(** utf-16 follows the standard after the byte order mark, and what one machine encodes any
    machine decodes. *)
Theorem C183_utf16 big big' t b : (utf16_enc big t = Ok b <-> exists r, utf16 big t r /\ b = (if big then [254; 255] else [255; 254]) ++ r) /\
  (Forall (fun x => x < 256) b -> forall r, b = (if big then [254; 255] else [255; 254]) ++ r -> (utf16_dec big' b = Ok t <-> utf16 big t r)) /\
  (utf16_enc big t = Ok b -> utf16_dec big' b = Ok t).
Proof.
  assert (A : utf16_enc big t = Ok b <-> exists r, utf16 big t r /\ b = (if big then [254; 255] else [255; 254]) ++ r).
  { unfold utf16_enc. split.
    - destruct (utf16_chars big t) as [r|] eqn:E; [|discriminate]. cbn [bind]. intros H. injection H as <-. exists r. split; [apply enc16_iff, E|reflexivity].
    - intros (r & H & ->). apply enc16_iff in H. rewrite H. reflexivity. }
  assert (D : forall r, utf16_dec big' ((if big then [254; 255] else [255; 254]) ++ r) = utf16_units big r) by (intros r; destruct big; reflexivity).
  split; [exact A|]. split.
  - intros F r ->. rewrite D. apply Forall_app in F. split; [apply (dec16_to big (length r)); [lia|apply F]|apply dec16_of].
  - intros H. apply A in H. destruct H as (r & H & ->). rewrite D. apply dec16_of, H.
Qed.
Print Assumptions C183_utf16.

(** ** Serial.code *)
Definition names : list string := ["utf-8"; "ascii"; "latin-1"; "utf-16"]%string.
Lemma below_eq n l m : below n l = Ok m -> l = m.
Proof. unfold below. destruct (forallb _ l); congruence. Qed.
Lemma std_injective big name c t u b : std_codecs big name = Some c -> enc c t = Ok b -> enc c u = Ok b -> t = u.
Proof.
  unfold std_codecs. destruct (name =? "utf-8")%string; [|destruct (name =? "ascii")%string; [|destruct (name =? "latin-1")%string; [|destruct (name =? "utf-16")%string; [|discriminate]]]]; intros E; injection E as <-; cbn [enc utf8_codec ascii_codec latin1_codec utf16_codec]; intros H1 H2.
  - apply C183_utf8 in H1, H2. apply (C183_utf8 t b) in H1. apply (C183_utf8 u b) in H2. congruence.
  - apply below_eq in H1, H2. congruence.
  - apply below_eq in H1, H2. congruence.
  - apply (C183_utf16 big big) in H1, H2. congruence.
Qed.

(** A collision of the hash function between the encodings of two texts. *)
Definition collision (sha3 : bytes -> text) (x y : res bytes) : Prop := exists a b, x = Ok a /\ y = Ok b /\ a <> b /\ sha3 a = sha3 b.
(** Texts with the same code are equal, unless SHA3-256 collides on their encodings. *)
Theorem C183_code_injective sha3 big name x y h : serial_code sha3 (std_codecs big) x name = Ok h -> serial_code sha3 (std_codecs big) y name = Ok h ->
  x = y \/ collision sha3 (to_bytes (std_codecs big) x name) (to_bytes (std_codecs big) y name).
Proof.
  unfold serial_code, to_bytes. destruct (is_empty x); [discriminate|]. destruct (is_empty y); [discriminate|]. destruct (name =? "")%string; [discriminate|].
  destruct (std_codecs big name) as [c|] eqn:E; [|discriminate]. destruct (enc c x) as [a|] eqn:E1; [|discriminate]. destruct (enc c y) as [b|] eqn:E2; [|discriminate]. cbn [bind]. intros H1 H2.
  destruct (list_eq_dec N.eq_dec a b) as [<-|N]; [left; exact (std_injective big name c x y a E E1 E2)|]. right. exists a, b. repeat split; [exact N|congruence].
Qed.
Print Assumptions C183_code_injective.

(** ASCII texts have one code in utf-8, ascii and latin-1. *)
Theorem C183_code_ascii sha3 big x : x <> [] -> Forall (fun c => c < 128) x -> forall name, In name ["utf-8"; "ascii"; "latin-1"]%string ->
  serial_code sha3 (std_codecs big) x name = Ok (sha3 x).
Proof.
  intros Hx F name Hn. assert (B : forall n, 128 <= n -> below n x = Ok x).
  { intros n L. unfold below. replace (forallb (fun c => c <? n) x) with true; [reflexivity|]. symmetry. apply forallb_forall. intros c Hc. apply N.ltb_lt. pose proof (proj1 (Forall_forall _ _) F c Hc) as H. cbv beta in H. lia. }
  assert (U : utf8_enc x = Ok x).
  { apply C183_utf8. clear - F. induction x as [|c x IH]; [constructor|]. inversion F as [|? ? F1 F2]; subst. exact (utf8_cons c [c] x x (one_octet c F1) (IH F2)). }
  assert (E : is_empty x = false) by (destruct x; [congruence|reflexivity]).
  destruct Hn as [<-|[<-|[<-|[]]]]; unfold serial_code, to_bytes; rewrite E; cbn -[N.ltb below utf8_enc]; rewrite ?U, ?B by lia; reflexivity.
Qed.
Print Assumptions C183_code_ascii.

(** When code fails. *)
Theorem C183_code_errors sha3 big x name :
  (x = [] \/ name = ""%string -> serial_code sha3 (std_codecs big) x name = Err ValueError) /\
  (x <> [] -> name <> ""%string -> ~ In name names -> serial_code sha3 (std_codecs big) x name = Err OtherError) /\
  (x <> [] -> ((exists h, serial_code sha3 (std_codecs big) x "utf-8" = Ok h) <-> Forall scalar x) /\
              ((exists h, serial_code sha3 (std_codecs big) x "utf-16" = Ok h) <-> Forall scalar x) /\
              ((exists h, serial_code sha3 (std_codecs big) x "latin-1" = Ok h) <-> Forall (fun c => c < 256) x) /\
              ((exists h, serial_code sha3 (std_codecs big) x "ascii" = Ok h) <-> Forall (fun c => c < 128) x)).
Proof.
  split; [|split].
  - unfold serial_code. intros [-> | ->]; [reflexivity|]. destruct (is_empty x); reflexivity.
  - intros Hx Hn HN. unfold serial_code, to_bytes. destruct x as [|c x]; [congruence|]. cbn [is_empty]. destruct (String.eqb_spec name ""); [congruence|].
    unfold std_codecs. repeat match goal with |- context [(name =? ?s)%string] => destruct (String.eqb_spec name s) as [->|_]; [exfalso; apply HN; cbn; tauto|] end. reflexivity.
  - intros Hx. assert (E : is_empty x = false) by (destruct x; [congruence|reflexivity]).
    assert (B : forall n, (exists b, below n x = Ok b) <-> Forall (fun c => c < n) x).
    { intros n. unfold below. destruct (forallb (fun c => c <? n) x) eqn:F.
      - split; [intros _; apply Forall_forall; intros c Hc; apply N.ltb_lt; exact (proj1 (forallb_forall _ _) F c Hc)|eauto].
      - split; [intros [b H]; discriminate|]. intros H. exfalso. rewrite (proj2 (forallb_forall _ x)) in F; [discriminate|]. intros c Hc. apply N.ltb_lt. exact (proj1 (Forall_forall _ _) H c Hc). }
    assert (W : forall (r : res bytes), (exists h, bind r (fun b => Ok (sha3 b)) = Ok h) <-> exists b, r = Ok b) by (intros [b|e]; cbn [bind]; split; [eauto|intros _; eauto|intros [h H]; discriminate|intros [h H]; discriminate]).
    unfold serial_code, to_bytes. rewrite E. cbn -[N.ltb below utf8_enc utf16_enc bind]. rewrite !W. split; [|split; [|split; [apply (B 256)|apply (B 128)]]].
    + split; intros H; apply (C183_utf8 x []); exact H.
    + split.
      * intros [b H]. apply (proj1 (proj1 (C183_utf16 big big x b))) in H. destruct H as (r & H & _). clear - H. induction H as [|c o t b O _ IH]; constructor; [|exact IH]. destruct O; unfold scalar in *; lia.
      * intros H. assert (K : exists r, utf16 big x r).
        { clear - H. induction H as [|c x Hc _ [r IH]]; [eexists; constructor|]. assert (Q : exists o, units big c o).
          { destruct (utf16_char big c) as [o|] eqn:E; [exists o; apply units_char, E|]. exfalso. unfold utf16_char in E. destruct ((55296 <=? c) && (c <? 57344)) eqn:S; [apply andb_prop in S; destruct S as [S1 S2]; apply N.leb_le in S1; apply N.ltb_lt in S2; unfold scalar in Hc; lia|].
            destruct (c <? 65536); [discriminate|]. destruct (N.ltb_spec c 1114112); [discriminate|]. unfold scalar in Hc; lia. }
          destruct Q as [o Q]. exists (o ++ r). constructor; assumption. }
        destruct K as [r K]. eexists. apply (proj2 (proj1 (C183_utf16 big big x _))). exists r. split; [exact K|reflexivity].
Qed.
Print Assumptions C183_code_errors.

(** The code of a text in utf-16 depends on the byte order of the machine, for every text. *)
Theorem C183_code_machine_refuted sha3 x h1 h2 :
  serial_code sha3 (std_codecs true) x "utf-16" = Ok h1 -> serial_code sha3 (std_codecs false) x "utf-16" = Ok h2 ->
  h1 <> h2 \/ collision sha3 (to_bytes (std_codecs true) x "utf-16") (to_bytes (std_codecs false) x "utf-16").
Proof.
  unfold serial_code, to_bytes. destruct (is_empty x); [discriminate|]. cbn -[utf16_enc bind].
  destruct (utf16_enc true x) as [a|] eqn:E1; [|discriminate]. destruct (utf16_enc false x) as [b|] eqn:E2; [|discriminate]. cbn [bind]. intros H1 H2.
  destruct (list_eq_dec N.eq_dec h1 h2) as [E|N]; [|left; exact N]. right. exists a, b. repeat split; [|congruence]. intros K.
  apply (proj1 (proj1 (C183_utf16 true true x a))) in E1. apply (proj1 (proj1 (C183_utf16 false true x b))) in E2. destruct E1 as (r & _ & ->), E2 as (s & _ & ->). discriminate.
Qed.
Print Assumptions C183_code_machine_refuted.

(** U+20AC, U+1D11E: three and four octets, one and two units. *)
Example C183_example : utf8_enc [8364; 119070] = Ok [226; 130; 172; 240; 157; 132; 158] /\ utf8_dec [226; 130; 172; 240; 157; 132; 158] = Ok [8364; 119070] /\
  utf16_enc false [8364; 119070] = Ok [255; 254; 172; 32; 52; 216; 30; 221] /\ utf16_dec true [255; 254; 172; 32; 52; 216; 30; 221] = Ok [8364; 119070] /\
  utf8_dec [192; 128] = Err UnicodeError /\ utf8_dec [237; 160; 128] = Err UnicodeError /\ utf8_enc [55296] = Err UnicodeError.
Proof. repeat split; reflexivity. Qed.
Example C183_code_example : let code x n := serial_code (fun b => b) (std_codecs true) x n in
  code [104; 105] "utf-8"%string = Ok [104; 105] /\ code [104; 105] "latin-1"%string = Ok [104; 105] /\ code [233] "utf-8"%string = Ok [195; 169] /\ code [233] "latin-1"%string = Ok [233] /\
  code [233] "ascii"%string = Err UnicodeError /\ code [104] "utf-16"%string = Ok [254; 255; 0; 104] /\ code [104] "ebcdic"%string = Err OtherError.
Proof. cbv zeta. repeat split; reflexivity. Qed.
