(** Python string methods used by the modelled code, for ASCII strings.
    Simplification: Python strings are Unicode; only ASCII is modelled. *)
From Coq Require Import List Bool Arith Lia Ascii String.
Import ListNotations.

Definition is_lower (c : ascii) : bool :=
  (97 <=? nat_of_ascii c) && (nat_of_ascii c <=? 122).
Definition is_upper (c : ascii) : bool :=
  (65 <=? nat_of_ascii c) && (nat_of_ascii c <=? 90).
Definition is_alpha (c : ascii) : bool := is_lower c || is_upper c.
Definition to_upper (c : ascii) : ascii :=
  if is_lower c then ascii_of_nat (nat_of_ascii c - 32) else c.
Definition to_lower (c : ascii) : ascii :=
  if is_upper c then ascii_of_nat (nat_of_ascii c + 32) else c.

Fixpoint smap (f : ascii -> ascii) (s : string) : string :=
  match s with EmptyString => EmptyString | String c r => String (f c) (smap f r) end.

(** str.upper, str.lower *)
Definition py_upper (s : string) : string := smap to_upper s.
Definition py_lower (s : string) : string := smap to_lower s.

(** str.title: a cased character is upper-cased when the previous character is
    not cased and lower-cased otherwise (CPython Objects/unicodeobject.c, do_title). *)
Fixpoint title_go (prev : bool) (s : string) : string :=
  match s with
  | EmptyString => EmptyString
  | String c r => String (if prev then to_lower c else to_upper c) (title_go (is_alpha c) r)
  end.
Definition py_title (s : string) : string := title_go false s.

Definition mem_str (s : string) (l : list string) : bool := existsb (String.eqb s) l.

(** str.strip(chars) on character lists. *)
Fixpoint lstrip (f : ascii -> bool) (s : list ascii) : list ascii :=
  match s with c :: r => if f c then lstrip f r else s | [] => [] end.
Definition strip (f : ascii -> bool) (s : list ascii) : list ascii :=
  rev (lstrip f (rev (lstrip f s))).

Lemma mem_str_iff s l : mem_str s l = true <-> In s l.
Proof.
  unfold mem_str. rewrite existsb_exists. split.
  - intros (x & Hx & E). apply String.eqb_eq in E. congruence.
  - intros H. exists s. split; [exact H|apply String.eqb_refl].
Qed.

(** Every finite check over the 256 characters lifts to a universal statement. *)
Lemma all_ascii (P : ascii -> bool) :
  forallb P (map ascii_of_nat (seq 0 256)) = true -> forall c, P c = true.
Proof.
  intros H c. rewrite forallb_forall in H. apply H.
  rewrite in_map_iff. exists (nat_of_ascii c). split; [apply ascii_nat_embedding|].
  apply in_seq. pose proof (nat_ascii_bounded c). lia.
Qed.

Lemma to_lower_upper c : to_lower (to_upper c) = to_lower c.
Proof. apply Ascii.eqb_eq. revert c. apply all_ascii. vm_compute. reflexivity. Qed.
Lemma to_upper_lower c : to_upper (to_lower c) = to_upper c.
Proof. apply Ascii.eqb_eq. revert c. apply all_ascii. vm_compute. reflexivity. Qed.
Lemma to_lower_idem c : to_lower (to_lower c) = to_lower c.
Proof. apply Ascii.eqb_eq. revert c. apply all_ascii. vm_compute. reflexivity. Qed.
Lemma to_upper_idem c : to_upper (to_upper c) = to_upper c.
Proof. apply Ascii.eqb_eq. revert c. apply all_ascii. vm_compute. reflexivity. Qed.
Lemma is_alpha_lower c : is_alpha (to_lower c) = is_alpha c.
Proof. apply eqb_prop. revert c. apply all_ascii. vm_compute. reflexivity. Qed.
Lemma is_alpha_upper c : is_alpha (to_upper c) = is_alpha c.
Proof. apply eqb_prop. revert c. apply all_ascii. vm_compute. reflexivity. Qed.

Lemma title_go_lower p s : title_go p (py_lower s) = title_go p s.
Proof.
  revert p; induction s as [|c s IH]; intros p; cbn; [reflexivity|].
  rewrite is_alpha_lower. rewrite IH. f_equal.
  destruct p; [apply to_lower_idem|apply to_upper_lower].
Qed.
Lemma lower_title_go p s : py_lower (title_go p s) = py_lower s.
Proof.
  revert p; induction s as [|c s IH]; intros p; cbn; [reflexivity|].
  fold (py_lower (title_go (is_alpha c) s)). rewrite IH. f_equal.
  destruct p; [apply to_lower_idem|apply to_lower_upper].
Qed.

(** title() only depends on, and determines, the lower-cased string. *)
Lemma py_title_eq_iff s t : py_title s = py_title t <-> py_lower s = py_lower t.
Proof.
  split; intros H.
  - unfold py_title in H. rewrite <- (lower_title_go false s), <- (lower_title_go false t). congruence.
  - unfold py_title. rewrite <- (title_go_lower false s), <- (title_go_lower false t). congruence.
Qed.

(** Membership of title() in a list of titles is case-insensitive membership. *)
Lemma mem_title_iff s (l : list string) :
  (forall t, In t l -> py_title t = t) ->
  (mem_str (py_title s) l = true <-> exists t, In t l /\ py_lower s = py_lower t).
Proof.
  intros Ht. rewrite mem_str_iff. split.
  - intros H. exists (py_title s). split; [exact H|]. unfold py_title. rewrite lower_title_go. reflexivity.
  - intros (t & Hin & E). apply py_title_eq_iff in E. rewrite E, Ht by assumption. exact Hin.
Qed.
