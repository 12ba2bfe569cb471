(** Proofs about the FIR model. *)
From Coq Require Import List Arith ZArith Lia Bool Ring.
From Verif Require Import Base BaseLemmas Instances FirModel FirSpec.
Import ListNotations.
Set Asymmetric Patterns.

Lemma firstn_app_firstn {X} n (l m : list X) : firstn n (l ++ firstn n m) = firstn n (l ++ m).
Proof. rewrite !firstn_app, firstn_firstn. do 2 f_equal. lia. Qed.

Lemma nth_sig {A : Arith} (s x : list A) n i :
  n < length x ->
  nth i (rev (firstn (S n) x) ++ s) zero = sig s x (Z.of_nat n - Z.of_nat i).
Proof.
  intros Hn. unfold sig.
  assert (Hl : length (rev (firstn (S n) x)) = S n).
  { rewrite rev_length, firstn_length. lia. }
  destruct (Z.ltb_spec (Z.of_nat n - Z.of_nat i) 0) as [H|H].
  - rewrite app_nth2 by lia. rewrite Hl. f_equal. lia.
  - rewrite app_nth1 by lia. rewrite rev_nth by (rewrite firstn_length; lia).
    rewrite firstn_length, Nat.min_l by lia.
    rewrite nth_firstn by lia. f_equal. lia.
Qed.

Lemma sig_rev_app {A : Arith} (s x u : list A) k :
  (0 <= k)%Z -> sig (rev x ++ s) u (- k - 1) = sig s x (Z.of_nat (length x) - 1 - k).
Proof.
  intros Hk. unfold sig.
  destruct (Z.ltb_spec (- k - 1) 0); [|lia].
  replace (- (- k - 1) - 1)%Z with k by lia.
  destruct (Z.ltb_spec (Z.of_nat (length x) - 1 - k) 0) as [H1|H1].
  - rewrite app_nth2 by (rewrite rev_length; lia). rewrite rev_length. f_equal. lia.
  - rewrite app_nth1 by (rewrite rev_length; lia). rewrite rev_nth by lia. f_equal. lia.
Qed.

Section Fir.
  Context {A : Arith}.
  Implicit Types (s x : list A).

  Lemma fir_step_eq dt b s (x : A) :
    s <> [] -> length s = length b ->
    fir_step dt b s x =
    (firstn (length b) (cast dt x :: s),
     Ok (cast dt (dot b (firstn (length b) (cast dt x :: s))))).
  Proof.
    intros Hs Hl. unfold fir_step. rewrite shift_set by exact Hs. rewrite Hl.
    unfold np_dot. rewrite firstn_length. cbn [length]. rewrite Nat.min_l by lia.
    rewrite Nat.eqb_refl. reflexivity.
  Qed.

  Definition fir_ys dt b s (x : list A) : list A :=
    map (fun n => cast dt (dot b (firstn (length b) (rev (firstn (S n) (map (cast dt) x)) ++ s))))
        (seq 0 (length x)).

  Lemma fir_run_eq dt b x : forall s,
    b <> [] -> length s = length b ->
    run (fir_step dt b) s x =
    (firstn (length b) (rev (map (cast dt) x) ++ s), Ok (fir_ys dt b s x)).
  Proof.
    induction x as [|v x IH]; intros s Hb Hl; cbn [run].
    - cbn [map rev app]. rewrite <- Hl, firstn_all. reflexivity.
    - assert (Hs : s <> []) by (destruct s, b; cbn in *; congruence).
      rewrite fir_step_eq by assumption.
      rewrite IH; [|assumption|].
      2:{ rewrite firstn_length. cbn [length]. lia. }
      f_equal.
      + rewrite firstn_app_firstn. cbn [map rev]. rewrite <- app_assoc. reflexivity.
      + f_equal. unfold fir_ys. cbn [length seq map]. f_equal.
        rewrite <- seq_shift, map_map. apply map_ext. intros n.
        rewrite firstn_app_firstn. cbn [map firstn rev]. rewrite <- app_assoc. reflexivity.
  Qed.

  Lemma fir_filter_eq (f : fir A) x :
    fb f <> [] -> length (fs f) = length (fb f) -> x <> [] ->
    fir_filter f x =
    (with_s f (firstn (length (fb f)) (rev (map (cast (fdt f)) x) ++ fs f)),
     Ok (fir_ys (fdt f) (fb f) (fs f) x)).
  Proof.
    intros Hb Hl Hx. unfold fir_filter.
    destruct x as [|v x]; [congruence|]. cbn [length Nat.eqb].
    destruct (fb f) as [|b0 b'] eqn:E; [congruence|]. rewrite <- E in *.
    rewrite fir_run_eq by assumption. reflexivity.
  Qed.

  Lemma nth_fir_ys dt b s x n :
    n < length x ->
    nth n (fir_ys dt b s x) zero =
    cast dt (dot b (firstn (length b) (rev (firstn (S n) (map (cast dt) x)) ++ s))).
  Proof.
    intros Hn. unfold fir_ys.
    set (g := fun n => _). rewrite (nth_indep _ zero (g 0)) by (rewrite map_length, seq_length; exact Hn).
    rewrite map_nth. rewrite seq_nth by exact Hn. reflexivity.
  Qed.

  Lemma length_fir_ys dt b s x : length (fir_ys dt b s x) = length x.
  Proof. unfold fir_ys. rewrite map_length, seq_length. reflexivity. Qed.

  (** The window seen by sample n, as a list of signal values. *)
  Lemma fir_window dt N s x n :
    n < length x -> length s = N ->
    firstn N (rev (firstn (S n) (map (cast dt) x)) ++ s) =
    map (fun i => sig s (map (cast dt) x) (Z.of_nat n - Z.of_nat i)) (seq 0 N).
  Proof.
    intros Hn Hl. apply (nth_ext _ _ zero zero).
    - rewrite map_length, seq_length, firstn_length, app_length. lia.
    - intros i Hi. rewrite firstn_length, app_length in Hi.
      rewrite nth_firstn by lia.
      rewrite nth_sig by (rewrite map_length; exact Hn).
      set (g := fun i => _). rewrite (nth_indep _ zero (g 0)) by (rewrite map_length, seq_length; lia).
      rewrite map_nth, seq_nth by lia. reflexivity.
  Qed.

  (** ** Invariant of constructed filters *)
  Definition fir_inv (f : fir A) : Prop :=
    fb f <> [] /\ length (fs f) = length (fb f).

  Lemma fir_make_inv (b s : arr A) f : fir_make b s = Ok f -> fir_inv f.
  Proof.
    unfold fir_make. destruct (Nat.eqb_spec (length (els b)) 0) as [H|H]; [discriminate|].
    intros E. inversion E; subst; clear E. unfold fir_inv; cbn [fb fs].
    destruct (Nat.ltb_spec (length (els b)) (length (els s))) as [H1|H1]; cbn [els].
    - split.
      + intros C. apply app_eq_nil in C. destruct C as [C _]. rewrite C in H. auto.
      + rewrite map_length. rewrite app_length. unfold zeros. rewrite repeat_length.
        destruct (Nat.ltb_spec (length (els s)) (length (els b) + (length (els s) - length (els b)))); lia.
    - split.
      + intros C. rewrite C in H. auto.
      + rewrite map_length.
        destruct (Nat.ltb_spec (length (els s)) (length (els b))).
        * unfold zeros. rewrite app_length, repeat_length. lia.
        * lia.
  Qed.

  Lemma fir_exec_b (f : fir A) o : fb (fir_exec f o) = fb f /\ fdt (fir_exec f o) = fdt f.
  Proof.
    destruct o as [x|[v|]]; cbn; auto.
    unfold fir_filter. destruct (Nat.eqb _ _); [auto|]. destruct (fb f) eqn:E; [auto|].
    destruct (run _ _ _); cbn; auto.
  Qed.

  Lemma fir_exec_inv (f : fir A) o : fir_inv f -> fir_inv (fir_exec f o).
  Proof.
    intros (Hb & Hl). destruct (fir_exec_b f o) as [Eb _]. unfold fir_inv. rewrite Eb. split; [exact Hb|].
    destruct o as [x|[v|]]; cbn [fir_exec].
    - destruct (list_eq_dec Nat.eq_dec (map (fun _ => 0) x) []) as [E|E].
      + destruct x; [|discriminate]. cbn. exact Hl.
      + rewrite fir_filter_eq; auto; [|destruct x; cbn in *; congruence].
        cbn [fst with_s fs]. rewrite firstn_length, app_length. lia.
    - cbn. rewrite map_length. exact Hl.
    - exact Hl.
  Qed.

  (** Dtype consistency: the arrays hold numbers of their dtype. *)
  Definition fir_typed (f : fir A) : Prop :=
    Forall (fits (fdt f)) (fb f) /\ Forall (fits (fdt f)) (fs f).

  Lemma Forall_firstn {X} (P : X -> Prop) n l : Forall P l -> Forall P (firstn n l).
  Proof.
    intros H. rewrite Forall_forall in *. intros v Hv. apply H.
    rewrite <- (firstn_skipn n l). apply in_or_app. auto.
  Qed.

  Lemma fir_step_typed (L : Laws A) dt b s (x : A) :
    s <> [] -> length s = length b ->
    Forall (fits dt) s -> Forall (fits dt) (fst (fir_step dt b s x)).
  Proof.
    intros Hs Hl HF. rewrite fir_step_eq by assumption. cbn [fst].
    apply Forall_firstn. constructor; [apply (law_cast_idem L)|exact HF].
  Qed.

  Lemma fir_exec_typed (L : Laws A) (f : fir A) o :
    fir_inv f -> fir_typed f -> fir_typed (fir_exec f o).
  Proof.
    intros (Hb & Hl) (Tb & Ts). destruct (fir_exec_b f o) as [Eb Ed]. unfold fir_typed.
    rewrite Eb, Ed. split; [exact Tb|].
    destruct o as [x|[v|]]; cbn [fir_exec].
    - destruct x as [|v x].
      + exact Ts.
      + rewrite fir_filter_eq; auto; [|congruence]. cbn [fst with_s fs].
        apply Forall_firstn. apply Forall_app. split; [|exact Ts].
        apply Forall_rev. rewrite Forall_forall. intros w Hw. apply in_map_iff in Hw.
        destruct Hw as (w' & <- & _). apply (law_cast_idem L).
    - cbn. rewrite Forall_forall. intros w Hw. apply in_map_iff in Hw.
      destruct Hw as (w' & <- & _). apply (law_cast_idem L).
    - exact Ts.
  Qed.

  Lemma fir_make_typed (L : Laws A) (b s : arr A) f :
    arr_ok b -> fir_make b s = Ok f -> fir_typed f.
  Proof.
    intros Hb. unfold fir_make. destruct (Nat.eqb _ _); [discriminate|].
    intros E. inversion E; subst; clear E. split; cbn [fb fs fdt].
    - destruct (Nat.ltb _ _); [|exact Hb]. cbn [adt els].
      apply Forall_app. split.
      + eapply Forall_impl; [|exact Hb]. intros v. apply (law_fits_widen L).
      + unfold zeros. rewrite Forall_forall. intros v Hv. apply repeat_spec in Hv. subst.
        apply (law_fits_zero L).
    - rewrite Forall_forall. intros w Hw'. apply in_map_iff in Hw'.
      destruct Hw' as (w' & <- & _). apply (law_cast_idem L).
  Qed.

  Lemma map_cast_fits dt (x : list A) : Forall (fits dt) x -> map (cast dt) x = x.
  Proof. induction 1 as [|v x H _ IH]; [reflexivity|]. cbn. rewrite IH, H. reflexivity. Qed.
End Fir.

Section FirExact.
  Variable A : Arith.
  Hypothesis L : Laws A.
  Let Rth := law_ring L.
  Add Ring Aring2 : Rth.
  Local Infix "+" := (@add A).
  Local Infix "*" := (@mul A).

  Lemma fits_sig dt s x k :
    Forall (fits dt) s -> Forall (fits dt) x -> fits dt (@sig A s x k).
  Proof. intros. unfold sig. destruct (_ <? _)%Z; apply fits_nth; assumption. Qed.

  Lemma dot_conv dt b s (x : list A) n :
    length s = length b -> n < length x ->
    dot b (firstn (length b) (rev (firstn (S n) (map (cast dt) x)) ++ s)) =
    convolution b s (map (cast dt) x) n.
  Proof.
    intros Hl Hn. rewrite fir_window by assumption.
    rewrite (law_dot L) by (rewrite map_length, seq_length; reflexivity).
    unfold convolution. apply bigsum_ext. intros i Hi. f_equal.
    set (g := fun i => _). rewrite (nth_indep _ zero (g O)) by (rewrite map_length, seq_length; lia).
    rewrite map_nth, seq_nth by lia. reflexivity.
  Qed.

  Lemma convolution_fits dt b s (x : list A) n :
    Forall (fits dt) b -> Forall (fits dt) s -> Forall (fits dt) x ->
    fits dt (convolution b s x n).
  Proof.
    intros Hb Hs Hx. apply fits_bigsum; [exact L|]. intros i Hi.
    apply (law_fits_mul L); [apply fits_nth; assumption|apply fits_sig; assumption].
  Qed.

  Lemma Forall_map_cast dt (x : list A) : Forall (fits dt) (map (cast dt) x).
  Proof.
    rewrite Forall_forall. intros v Hv. apply in_map_iff in Hv. destruct Hv as (w & <- & _).
    apply (law_cast_idem L).
  Qed.

  (** Every reachable filter convolves the stored (converted) signal. *)
  Lemma fir_filter_conv (f : fir A) x :
    fir_inv f -> fir_typed f -> x <> [] ->
    exists f' y, fir_filter f x = (f', Ok y) /\ length y = length x /\
      forall n, n < length x ->
        nth n y zero = convolution (fb f) (fs f) (map (cast (fdt f)) x) n.
  Proof.
    intros (Hb & Hl) (Tb & Ts) Hx. rewrite fir_filter_eq by assumption.
    eexists _, _. split; [reflexivity|]. split; [apply length_fir_ys|].
    intros n Hn. rewrite nth_fir_ys by exact Hn. rewrite dot_conv by assumption.
    apply convolution_fits; try assumption. apply Forall_map_cast.
  Qed.

  (** Superposition. *)
  Lemma nth_lin p q (x u : list A) i :
    length x = length u -> nth i (lin p q x u) zero = p * nth i x zero + q * nth i u zero.
  Proof.
    intros Hl. unfold lin. revert u i Hl.
    induction x as [|v x IH]; intros [|w u] i Hl; try discriminate.
    - destruct i; cbn; ring.
    - destruct i as [|i]; cbn [combine map nth fst snd]; [reflexivity|]. apply IH. cbn in Hl. congruence.
  Qed.
  Lemma length_lin p q (x u : list A) : length x = length u -> length (lin p q x u) = length x.
  Proof. intros H. unfold lin. rewrite map_length, combine_length. lia. Qed.
  Lemma sig_lin p q s t (x u : list A) k :
    length s = length t -> length x = length u ->
    sig (lin p q s t) (lin p q x u) k = p * sig s x k + q * sig t u k.
  Proof. intros H1 H2. unfold sig. destruct (_ <? _)%Z; apply nth_lin; assumption. Qed.
  Lemma convolution_lin p q b s t (x u : list A) n :
    length s = length t -> length x = length u ->
    convolution b (lin p q s t) (lin p q x u) n =
    p * convolution b s x n + q * convolution b t u n.
  Proof.
    intros H1 H2. unfold convolution.
    rewrite <- !(bigsum_scal A L), <- (bigsum_add A L). apply bigsum_ext. intros i _.
    rewrite sig_lin by assumption. ring.
  Qed.
  Lemma lin_typed dt p q (x u : list A) :
    fits dt p -> fits dt q -> Forall (fits dt) x -> Forall (fits dt) u -> length x = length u ->
    Forall (fits dt) (lin p q x u).
  Proof.
    intros Hp Hq Hx Hu Hl. rewrite Forall_forall. intros v Hv.
    destruct (In_nth _ _ zero Hv) as (i & Hi & <-). rewrite nth_lin by exact Hl.
    apply (law_fits_add L); apply (law_fits_mul L); auto; apply fits_nth; auto.
  Qed.

  Lemma sig_const (s x : list A) c k :
    (forall i, i < length s -> nth i s zero = c) -> (forall i, i < length x -> nth i x zero = c) ->
    (- Z.of_nat (length s) <= k < Z.of_nat (length x))%Z -> sig s x k = c.
  Proof.
    intros Hs Hx Hk. unfold sig. destruct (Z.ltb_spec k 0); [apply Hs|apply Hx]; lia.
  Qed.
End FirExact.
