(** Polynomials with complex coefficients as lists, lowest power first. *)
From Coq Require Import List Arith Lia Reals Lra Permutation.
From Coquelicot Require Import Complex.
Import ListNotations.
Set Asymmetric Patterns.

(** numpy.convolve(x, y) in full mode, for given operations. *)
Section Conv.
  Context {X : Type} (add mul : X -> X -> X) (zero : X).
  Fixpoint padd (x y : list X) : list X :=
    match x, y with
    | [], _ => y
    | _, [] => x
    | a :: x', b :: y' => add a b :: padd x' y'
    end.
  Fixpoint conv (x y : list X) : list X :=
    match x with
    | [] => []
    | [a] => map (mul a) y
    | a :: x' => padd (map (mul a) y) (zero :: conv x' y)
    end.
  Lemma padd_length x y : length (padd x y) = Nat.max (length x) (length y).
  Proof. revert y. induction x as [|a x IH]; intros [|b y]; cbn [padd length]; try lia. rewrite IH. lia. Qed.
  Lemma conv_length x y : y <> [] -> x <> [] -> length (conv x y) = length x + length y - 1.
  Proof.
    intros Hy. induction x as [|a x IH]; [congruence|]. intros _. destruct y as [|b y]; [congruence|].
    destruct x as [|c x]; [cbn [conv length]; rewrite map_length; cbn; lia|].
    change (conv (a :: c :: x) (b :: y)) with (padd (map (mul a) (b :: y)) (zero :: conv (c :: x) (b :: y))).
    rewrite padd_length, map_length. cbn [length] in *. rewrite IH by discriminate. lia.
  Qed.
End Conv.

Open Scope R_scope.
Open Scope C_scope.
Definition convC : list C -> list C -> list C := conv Cplus Cmult 0.
Definition convR : list R -> list R -> list R := conv Rplus Rmult 0%R.

(** Value at w. *)
Fixpoint pe (c : list C) (w : C) : C := match c with [] => 0 | a :: r => a + w * pe r w end.
Definition csum (l : list C) : C := fold_right Cplus 0 l.
Definition cprod (l : list C) : C := fold_right Cmult 1 l.

Lemma pe_padd x y w : pe (padd Cplus x y) w = pe x w + pe y w.
Proof.
  revert y. induction x as [|a x IH]; intros [|b y]; cbn [padd pe]; try ring. rewrite IH. ring.
Qed.
Lemma pe_scale a y w : pe (map (Cmult a) y) w = a * pe y w.
Proof. induction y as [|b y IH]; cbn [map pe]; [ring|rewrite IH; ring]. Qed.
Lemma pe_conv x y w : pe (convC x y) w = pe x w * pe y w.
Proof.
  unfold convC. induction x as [|a x IH]; [cbn [pe conv map]; ring|]. destruct x as [|c x].
  - cbn [conv]. rewrite pe_scale. cbn [pe]. ring.
  - change (conv Cplus Cmult 0 (a :: c :: x) y) with (padd Cplus (map (Cmult a) y) (RtoC 0 :: conv Cplus Cmult 0 (c :: x) y)).
    rewrite pe_padd, pe_scale. cbn [pe] in *. rewrite IH. ring.
Qed.
Lemma pe_one c : pe c 1 = csum c.
Proof. induction c as [|a c IH]; cbn [pe csum fold_right]; [reflexivity|]. fold (csum c). rewrite IH. ring. Qed.
(** numpy.poly. *)
Definition cpoly (zs : list C) : list C := fold_left (fun a z => convC a [RtoC 1; - z]) zs [RtoC 1].

Lemma pe_cpoly_from zs a w : pe (fold_left (fun a z => convC a [RtoC 1; - z]) zs a) w = pe a w * cprod (map (fun z => 1 - z * w) zs).
Proof.
  revert a. induction zs as [|z zs IH]; intros a; cbn [fold_left map cprod fold_right]; [ring|].
  fold (cprod (map (fun z => 1 - z * w) zs)). rewrite IH, pe_conv. cbn [pe]. ring.
Qed.
Lemma pe_cpoly zs w : pe (cpoly zs) w = cprod (map (fun z => 1 - z * w) zs).
Proof. unfold cpoly. rewrite pe_cpoly_from. cbn [pe]. ring. Qed.
Lemma cpoly_length zs : length (cpoly zs) = S (length zs).
Proof.
  unfold cpoly. enough (H : forall a, a <> [] -> length (fold_left (fun a z => convC a [RtoC 1; - z]) zs a) = (length a + length zs)%nat) by (rewrite H; [reflexivity|discriminate]).
  induction zs as [|z zs IH]; intros a Ha; cbn [fold_left length]; [lia|].
  assert (L : length (convC a [RtoC 1; - z]) = S (length a)) by (unfold convC; rewrite conv_length by (discriminate || exact Ha); cbn; lia).
  rewrite IH, L; [lia|]. intros E. rewrite E in L. discriminate.
Qed.
Lemma pe_hd c : pe c 0 = hd (RtoC 0) c.
Proof. destruct c; cbn [pe hd]; [reflexivity|ring]. Qed.
Lemma cprod_ones l : Forall (fun x : C => x = 1) l -> cprod l = 1.
Proof. induction 1 as [|x l Hx _ IH]; [reflexivity|]. cbn [cprod fold_right]. fold (cprod l). rewrite IH, Hx. ring. Qed.
Lemma cpoly_hd zs : hd (RtoC 0) (cpoly zs) = 1.
Proof.
  rewrite <- pe_hd, pe_cpoly. apply cprod_ones. rewrite Forall_forall. intros x Hx. apply in_map_iff in Hx. destruct Hx as (z & <- & _). ring.
Qed.


Fixpoint cpow (w : C) (n : nat) : C := match n with O => 1 | S m => w * cpow w m end.
Lemma pe_app x y w : pe (x ++ y) w = pe x w + cpow w (length x) * pe y w.
Proof. induction x as [|a x IH]; cbn [app pe length cpow]; [ring|]. rewrite IH. ring. Qed.
Lemma pe_app_zeros x n w : pe (x ++ repeat (RtoC 0) n) w = pe x w.
Proof.
  rewrite pe_app. assert (E : pe (repeat (RtoC 0) n) w = 0) by (induction n as [|n IH]; cbn [repeat pe]; [reflexivity|rewrite IH; ring]).
  rewrite E. ring.
Qed.

(** A polynomial with n coefficients and n distinct roots is zero. *)
Fixpoint quot (c : list C) (x : C) : list C :=
  match c with [] => [] | _ :: r => match r with [] => [] | _ => pe r x :: quot r x end end.
Lemma quot_length c x : length (quot c x) = pred (length c).
Proof.
  induction c as [|a r IH]; [reflexivity|]. destruct r as [|b r]; [reflexivity|]. cbn [quot length] in *. rewrite IH. reflexivity.
Qed.
Lemma quot_spec c x w : pe c w = pe c x + (w - x) * pe (quot c x) w.
Proof.
  induction c as [|a r IH]; [cbn [pe quot conv map]; ring|]. destruct r as [|b r]; [cbn [pe quot conv map]; ring|].
  change (pe (quot (a :: b :: r) x) w) with (pe (b :: r) x + w * pe (quot (b :: r) x) w).
  change (pe (a :: b :: r) w) with (a + w * pe (b :: r) w). change (pe (a :: b :: r) x) with (a + x * pe (b :: r) x).
  transitivity (a + w * (pe (b :: r) x + (w - x) * pe (quot (b :: r) x) w)); [rewrite <- IH; reflexivity|ring].
Qed.
Lemma quot_zero c x : pe c x = 0 -> Forall (fun y : C => y = 0) (quot c x) -> Forall (fun y : C => y = 0) c.
Proof.
  induction c as [|a r IH]; [constructor|]. destruct r as [|b r].
  - intros H _. constructor; [|constructor]. cbn [pe] in H. rewrite <- H. ring.
  - intros H Hq. change (quot (a :: b :: r) x) with (pe (b :: r) x :: quot (b :: r) x) in Hq. apply Forall_cons_iff in Hq. destruct Hq as [H1 H2]. specialize (IH H1 H2).
    constructor; [|exact IH]. change (pe (a :: b :: r) x) with (a + x * pe (b :: r) x) in H. rewrite H1 in H. rewrite <- H. ring.
Qed.
Lemma Cmult_zero a b : a * b = 0 -> a = 0 \/ b = 0.
Proof.
  intros H. destruct (Ceq_dec a 0) as [E|E]; [left; exact E|right].
  assert (b = / a * (a * b)) as -> by (field; exact E). rewrite H. ring.
Qed.
Theorem pe_roots_zero xs : forall c, NoDup xs -> length xs = length c -> (forall x, In x xs -> pe c x = 0) -> Forall (fun y : C => y = 0) c.
Proof.
  induction xs as [|x xs IH]; intros c ND L H; [destruct c; [constructor|discriminate]|].
  inversion ND as [|? ? H1 H2]; subst. apply (quot_zero c x); [apply H; left; reflexivity|]. apply IH; [exact H2|rewrite quot_length, <- L; reflexivity|].
  intros y Hy. pose proof (quot_spec c x y) as Q. rewrite (H x), (H y) in Q by (cbn; tauto).
  assert (Q' : (y - x) * pe (quot c x) y = 0) by (rewrite <- (Cplus_0_l ((y - x) * _)), <- Q; reflexivity).
  apply Cmult_zero in Q'. destruct Q' as [Q'|Q']; [|exact Q'].
  exfalso. apply H1. replace x with y; [exact Hy|]. replace y with (y - x + x) by ring. rewrite Q'. ring.
Qed.

Fixpoint real_points (n : nat) : list C := match n with O => [] | S m => RtoC (INR m) :: real_points m end.
Lemma real_points_spec n x : In x (real_points n) -> exists m, (m < n)%nat /\ x = RtoC (INR m).
Proof.
  induction n as [|n IH]; cbn [real_points In]; [tauto|]. intros [<-|H]; [exists n; split; [lia|reflexivity]|].
  destruct (IH H) as (m & ? & ?). exists m. split; [lia|assumption].
Qed.
Lemma real_points_nodup n : NoDup (real_points n).
Proof.
  induction n as [|n IH]; cbn [real_points]; constructor; [|exact IH].
  intros H. apply real_points_spec in H. destruct H as (m & Hm & E). apply RtoC_inj in E. apply INR_eq in E. lia.
Qed.
Lemma real_points_length n : length (real_points n) = n.
Proof. induction n; cbn [real_points length]; congruence. Qed.

Theorem pe_ext c d : length c = length d -> (forall r : R, pe c (RtoC r) = pe d (RtoC r)) -> c = d.
Proof.
  intros L H. set (e := padd Cplus c (map (Cmult (-(1))) d)).
  assert (Z : Forall (fun y : C => y = 0) e).
  { apply (pe_roots_zero (real_points (length e))); [apply real_points_nodup|apply real_points_length|].
    intros x Hx. apply real_points_spec in Hx. destruct Hx as (m & _ & ->). unfold e. rewrite pe_padd, pe_scale, H. ring. }
  unfold e in Z. clear H e. revert d L Z. induction c as [|a c IH]; intros [|b d] L Z; try discriminate; [reflexivity|].
  cbn [map padd] in Z. inversion Z as [|? ? H1 H2]; subst. f_equal; [|apply IH; [injection L; auto|exact H2]].
  replace a with (a + - (1) * b + b) by ring. rewrite H1. ring.
Qed.

(** Conjugation. *)
Lemma Cconj_add a b : Cconj (a + b) = Cconj a + Cconj b.
Proof. unfold Cconj, Cplus. cbn. f_equal; ring. Qed.
Lemma Cconj_mul a b : Cconj (a * b) = Cconj a * Cconj b.
Proof. unfold Cconj, Cmult. cbn. f_equal; ring. Qed.
Lemma Cconj_R r : Cconj (RtoC r) = RtoC r.
Proof. unfold Cconj, RtoC. cbn. f_equal; ring. Qed.
Lemma Cconj_sub a b : Cconj (a - b) = Cconj a - Cconj b.
Proof. unfold Cconj, Cminus, Cplus, Copp. cbn. f_equal; ring. Qed.
Lemma pe_conj c r : pe (map Cconj c) (RtoC r) = Cconj (pe c (RtoC r)).
Proof.
  induction c as [|a c IH]; cbn [map pe]; [symmetry; apply (Cconj_R 0)|]. rewrite IH, Cconj_add, Cconj_mul, Cconj_R. reflexivity.
Qed.
Lemma real_of_conj x : Cconj x = x -> RtoC (fst x) = x.
Proof. destruct x as [a b]. unfold Cconj, RtoC. cbn. intros H. injection H as H. f_equal. lra. Qed.
Lemma real_coeffs c : (forall r : R, Cconj (pe c (RtoC r)) = pe c (RtoC r)) -> map (fun x => RtoC (fst x)) c = c.
Proof.
  intros H. assert (E : map Cconj c = c) by (apply pe_ext; [apply map_length|intros r; rewrite pe_conj; apply H]).
  clear H. induction c as [|a c IH]; [reflexivity|]. cbn [map] in *. injection E as E1 E2. f_equal; [apply real_of_conj, E1|apply IH, E2].
Qed.
Lemma cprod_perm l l' : Permutation l l' -> cprod l = cprod l'.
Proof.
  unfold cprod. induction 1; cbn [fold_right]; try reflexivity; try congruence. ring.
Qed.
Lemma csum_perm l l' : Permutation l l' -> csum l = csum l'.
Proof.
  unfold csum. induction 1; cbn [fold_right]; try reflexivity; try congruence. ring.
Qed.
Lemma cprod_conj l : Cconj (cprod l) = cprod (map Cconj l).
Proof.
  induction l as [|a l IH]; cbn [cprod fold_right map]; [apply (Cconj_R 1)|]. fold (cprod l) (cprod (map Cconj l)). rewrite Cconj_mul, IH. reflexivity.
Qed.
Lemma csum_conj l : Cconj (csum l) = csum (map Cconj l).
Proof.
  induction l as [|a l IH]; cbn [csum fold_right map]; [apply (Cconj_R 0)|]. fold (csum l) (csum (map Cconj l)). rewrite Cconj_add, IH. reflexivity.
Qed.
Lemma cprod_zero l : cprod l = 0 -> exists x, In x l /\ x = 0.
Proof.
  induction l as [|a l IH].
  - intros H. exfalso. apply RtoC_inj in H. lra.
  - cbn [cprod fold_right]; fold (cprod l). intros H. apply Cmult_zero in H. destruct H as [H|H]; [exists a; cbn; auto|]. destruct (IH H) as (x & ? & ?). exists x. cbn. auto.
Qed.
Lemma cprod_has_zero l : In (RtoC 0) l -> cprod l = 0.
Proof.
  induction l as [|a l IH]; cbn [In cprod fold_right]; [tauto|]. fold (cprod l). intros [->|H]; [ring|rewrite (IH H); ring].
Qed.
Lemma cprod_app l l' : cprod (l ++ l') = cprod l * cprod l'.
Proof. induction l as [|a l IH]; cbn [app cprod fold_right]; [symmetry; apply Cmult_1_l|]. fold (cprod (l ++ l')) (cprod l). rewrite IH. ring. Qed.

(** Two monic products of linear factors that agree at every real point have the same factors. *)
Fixpoint lin_prod (l : list C) : list C := match l with [] => [RtoC 1] | p :: r => convC [- p; RtoC 1] (lin_prod r) end.
Lemma pe_lin_prod l s : pe (lin_prod l) s = cprod (map (fun p => s - p) l).
Proof.
  induction l as [|p l IH]; cbn [lin_prod map cprod fold_right]; [cbn [pe quot conv map]; ring|]. fold (cprod (map (fun p => s - p) l)).
  rewrite pe_conv, IH. cbn [pe]. ring.
Qed.
Lemma lin_prod_length l : length (lin_prod l) = S (length l).
Proof.
  induction l as [|p l IH]; [reflexivity|]. cbn [lin_prod length]. unfold convC. rewrite conv_length, IH; [reflexivity| |discriminate].
  intros E. rewrite E in IH. discriminate.
Qed.
Theorem same_factors l l' :
  length l = length l' -> (forall r : R, cprod (map (fun p => RtoC r - p) l) = cprod (map (fun p => RtoC r - p) l')) -> Permutation l l'.
Proof.
  intros L H. assert (E : lin_prod l = lin_prod l').
  { apply pe_ext; [rewrite !lin_prod_length, L; reflexivity|]. intros r. rewrite !pe_lin_prod. apply H. }
  assert (F : forall s, cprod (map (fun p => s - p) l) = cprod (map (fun p => s - p) l')) by (intros s; rewrite <- !pe_lin_prod, E; reflexivity).
  clear H E. revert l' L F. induction l as [|p l IH]; intros l' L F; [destruct l'; [constructor|discriminate]|].
  assert (Z : cprod (map (fun q => p - q) l') = 0).
  { rewrite <- F. cbn [map cprod fold_right]. ring. }
  apply cprod_zero in Z. destruct Z as (x & Hx & ->). apply in_map_iff in Hx. destruct Hx as (q & Hq & Hin).
  assert (q = p) as -> by (replace q with (p - (p - q)) by ring; rewrite Hq; ring).
  apply in_split in Hin. destruct Hin as (l1 & l2 & ->). apply Permutation_cons_app. apply IH.
  { rewrite app_length in *. cbn [length] in L. lia. }
  assert (G : forall s, s <> p -> cprod (map (fun q => s - q) l) = cprod (map (fun q => s - q) (l1 ++ l2))).
  { intros s Hs. specialize (F s). rewrite map_app, cprod_app in *. cbn [map cprod fold_right] in F.
    fold (cprod (map (fun p => s - p) l)) (cprod (map (fun p => s - p) l2)) in F.
    assert (Hn : s - p <> 0) by (intros Q; apply Hs; replace s with (s - p + p) by ring; rewrite Q; ring).
    assert (forall x y, (s - p) * x = (s - p) * y -> x = y) as inj.
    { intros x y Q. replace x with (/ (s - p) * ((s - p) * x)) by (field; exact Hn). rewrite Q. field. exact Hn. }
    apply inj. rewrite F. ring. }
  assert (E : lin_prod l = lin_prod (l1 ++ l2)).
  { set (c := lin_prod l). set (d := lin_prod (l1 ++ l2)).
    assert (Lc : length c = length d) by (unfold c, d; rewrite !lin_prod_length, app_length in *; cbn [length] in L; lia).
    assert (Z : Forall (fun y : C => y = 0) (padd Cplus c (map (Cmult (-(1))) d))).
    { set (m := length (padd Cplus c (map (Cmult (-(1))) d))).
      set (xs := map (fun k => p + k + 1) (real_points m)).
      apply (pe_roots_zero xs); [|unfold xs; rewrite map_length; apply real_points_length|].
      - unfold xs. apply FinFun.Injective_map_NoDup; [|apply real_points_nodup]. intros x y Q.
        replace x with (p + x + 1 - p - 1) by ring. rewrite Q. ring.
      - intros x Hx. unfold xs in Hx. apply in_map_iff in Hx. destruct Hx as (k & <- & Hk). apply real_points_spec in Hk. destruct Hk as (n & _ & ->).
        rewrite pe_padd, pe_scale. unfold c, d. rewrite !pe_lin_prod, G; [ring|].
        intros Q. assert (Q2 : RtoC (INR n + 1) = RtoC 0). { rewrite RtoC_plus. replace (RtoC (INR n) + RtoC 1) with (p + INR n + 1 - p) by ring. rewrite Q. ring. }
        apply RtoC_inj in Q2. pose proof (pos_INR n). lra. }
    revert Lc Z. generalize c d. clear. intros c d. revert d. induction c as [|a c IH]; intros [|b d] L Z; try discriminate; [reflexivity|].
    cbn [map padd] in Z. inversion Z as [|? ? H1 H2]; subst. f_equal; [|apply IH; [injection L; auto|exact H2]].
    replace a with (a + - (1) * b + b) by ring. rewrite H1. ring. }
  intros s. rewrite <- !pe_lin_prod, E. reflexivity.
Qed.
