(** Proofs about the IIR model. *)
From Coq Require Import List Arith ZArith Lia Bool Ring.
From Verif Require Import Base BaseLemmas Instances FirModel FirSpec FirProofs IirModel IirSpec.
Import ListNotations.
Set Asymmetric Patterns.

Section Gen.
  Context {A : Arith}.

  (** History registers after the first two lines of an iteration. *)
  Definition hist (dt : dtype) (a s : list A) : list A :=
    match s with
    | [] => []
    | s0 :: t => firstn (length t) (cast dt (add s0 (dot a s)) :: t)
    end.

  Definition cvec (a b : list A) : list A :=
    map (fun p => add (mul (fst p) (nth 0 b zero)) (snd p)) (combine a b).

  Lemma length_hist dt a s : length (hist dt a s) = length s - 1.
  Proof. destruct s as [|s0 t]; [reflexivity|]. cbn [hist]. rewrite firstn_length. cbn [length]. lia. Qed.

  Lemma bcast_eq {X Y Z} (f : X -> Y -> Z) xs ys :
    length xs = length ys -> bcast f xs ys = Ok (map (fun p => f (fst p) (snd p)) (combine xs ys)).
  Proof. intros H. unfold bcast. rewrite H, Nat.eqb_refl. reflexivity. Qed.

  Lemma iir_step_eq dt a b s x :
    b <> [] -> length a = length b -> length s = length b ->
    iir_step dt a b s x =
    (cast dt x :: hist dt a s, Ok (cast dt (dot (cvec a b) (cast dt x :: hist dt a s)))).
  Proof.
    intros Hb Ha Hs. destruct b as [|b0 b']; [congruence|].
    destruct s as [|s0 t]; [discriminate|].
    assert (E : (if Nat.ltb 1 (length (s0 :: t))
       then match np_dot a (s0 :: t) with
            | Err e => Err e
            | Ok v => Ok (np_shift (cast dt (add s0 v) :: t)) end
       else Ok (s0 :: t)) = Ok (match t with [] => s0 | _ => cast dt (add s0 (dot a (s0 :: t))) end :: hist dt a (s0 :: t))).
    { unfold np_dot. rewrite Ha, <- Hs, Nat.eqb_refl. cbn [length] in *.
      destruct t as [|s1 t]; [reflexivity|].
      change (1 <? S (length (s1 :: t))) with true. cbv iota.
      cbn [np_shift]. rewrite removelast_firstn_eq. cbn [hist].
      replace (length (cast dt (add s0 (dot a (s0 :: s1 :: t))) :: s1 :: t) - 1)
        with (length (s1 :: t)) by (cbn [length]; lia).
      reflexivity. }
    unfold iir_step. cbv zeta. 
    match goal with |- context [match ?p with Ok s1 => _ | Err e => (_, Err e) end] =>
      change p with (if Nat.ltb 1 (length (s0 :: t))
       then match np_dot a (s0 :: t) with
            | Err e => Err e
            | Ok v => Ok (np_shift (cast dt (add s0 v) :: t)) end
       else Ok (s0 :: t)) end.
    rewrite E. cbn [np_set0]. rewrite bcast_eq by exact Ha.
    unfold np_dot. fold (@cvec a (b0 :: b')).
    assert (Hc : length (cvec a (b0 :: b')) = length (cast dt x :: hist dt a (s0 :: t))).
    { unfold cvec. rewrite map_length, combine_length. cbn [length]. rewrite length_hist.
      cbn [length] in *. lia. }
    unfold cvec in Hc at 1. cbn [nth] in Hc. rewrite Hc, Nat.eqb_refl. reflexivity.
  Qed.

  Definition iir_inv (f : iir A) : Prop :=
    ib f <> [] /\ length (ia f) = length (ib f) /\ length (is_ f) = length (ib f).

  Lemma iir_run_ok dt (a b : list A) : b <> [] -> length a = length b -> forall x s,
    length s = length b ->
    exists s' y, run (iir_step dt a b) s x = (s', Ok y) /\ length s' = length b /\ length y = length x.
  Proof.
    intros Hb Ha x s Hs.
    destruct (run_ok (iir_step dt a b) (fun s => length s = length b) (fun _ : A => True)) with (xs := x) (s := s)
      as (s' & y & E & H1 & H2); auto.
    - intros s1 v H1 _. rewrite iir_step_eq by assumption. eexists _, _. split; [reflexivity|].
      cbn [length]. rewrite length_hist. destruct b; [congruence|]. cbn [length] in *. lia.
    - apply Forall_forall. auto.
    - exists s', y. auto.
  Qed.

  Lemma iir_filter_run (f : iir A) x : ib f <> [] -> x <> [] ->
    iir_filter f x = let '(s', r) := run (iir_step (idt f) (ia f) (ib f)) (is_ f) x in (iir_with_s f s', r).
  Proof.
    intros Hb Hx. unfold iir_filter. destruct x; [congruence|]. cbn [length Nat.eqb].
    destruct (ib f) eqn:E; [congruence|]. reflexivity.
  Qed.

  Lemma iir_filter_ok (f : iir A) x : iir_inv f -> x <> [] ->
    exists s' y, run (iir_step (idt f) (ia f) (ib f)) (is_ f) x = (s', Ok y) /\
      iir_filter f x = (iir_with_s f s', Ok y) /\ length s' = length (ib f) /\ length y = length x.
  Proof.
    intros (Hb & Ha & Hs) Hx. rewrite iir_filter_run by assumption.
    destruct (iir_run_ok (idt f) (ia f) (ib f) Hb Ha x (is_ f) Hs) as (s' & y & E & H1 & H2).
    exists s', y. rewrite E. auto.
  Qed.

  Lemma iir_exec_ab (f : iir A) o :
    ia (iir_exec f o) = ia f /\ ib (iir_exec f o) = ib f /\ idt (iir_exec f o) = idt f.
  Proof.
    destruct o as [x|[v|]]; cbn [iir_exec].
    - unfold iir_filter. destruct (Nat.eqb _ _); [auto|]. destruct (ib f) eqn:E; [auto|].
      destruct (run _ _ _); cbn; auto.
    - unfold iir_reset. destruct (is_ f) as [|s0 [|s1 t]], (ib f) as [|b0 b'] eqn:E; cbn; auto.
      destruct (bcast _ _ _); cbn; auto.
    - auto.
  Qed.

  Lemma iir_exec_inv (f : iir A) o : iir_inv f -> iir_inv (iir_exec f o).
  Proof.
    intros Hi. destruct (iir_exec_ab f o) as (Ea & Eb & _). unfold iir_inv. rewrite Ea, Eb.
    pose proof Hi as (Hb & Ha & Hs). split; [exact Hb|]. split; [exact Ha|].
    destruct o as [x|[v|]]; cbn [iir_exec].
    - destruct x as [|v x]; [exact Hs|].
      destruct (iir_filter_ok f (v :: x) Hi) as (s' & y & _ & E & H1 & _); [congruence|].
      rewrite E. exact H1.
    - unfold iir_reset. destruct (is_ f) as [|s0 [|s1 t]] eqn:Es, (ib f) as [|b0 b'] eqn:E; cbn [length] in *;
        try congruence; cbn [iir_with_s is_ fst].
      + exact Hs.
      + destruct (bcast _ _ _); cbn [iir_with_s is_ fst length].
        * rewrite map_length. cbn [length]. exact Hs.
        * rewrite Es. exact Hs.
    - exact Hs.
  Qed.

  Lemma length_pad (xs : list A) n : length xs <= n -> length (pad xs n) = n.
  Proof. intros H. unfold pad, zeros. rewrite app_length, repeat_length. lia. Qed.

  Lemma nth_pad (xs : list A) n i : nth i (pad xs n) zero = nth i xs zero.
  Proof.
    unfold pad. destruct (Nat.lt_ge_cases i (length xs)) as [H|H].
    - apply app_nth1; exact H.
    - rewrite app_nth2 by exact H. rewrite (nth_overflow xs) by exact H. unfold zeros.
      generalize (i - length xs) as j, (n - length xs) as m. clear. intros j m; revert j.
      induction m; destruct j; cbn; auto.
  Qed.

  (** What the constructor stores. *)
  Lemma iir_make_ok (a b s : arr A) :
    (els a <> [] \/ els b <> []) -> (els a <> [] -> eqb (nth 0 (els a) zero) zero = true) ->
    eqb (@zero A) zero = true ->
    let n := max (length (els a)) (length (els b)) in
    exists f, iir_make a b s = Ok f /\
      ia f = pad (els a) n /\
      (forall i, nth i (ib f) zero = nth i (els b) zero) /\
      length (ib f) = max n (length (els s)) /\ length (is_ f) = max n (length (els s)).
  Proof.
    intros Hne Ha0 Hz n. unfold iir_make.
    assert (E1 : match els a with a0 :: _ => negb (eqb a0 zero) | [] => false end = false).
    { destruct (els a) as [|a0 a']; [reflexivity|]. cbn [nth] in Ha0. rewrite Ha0 by congruence. reflexivity. }
    rewrite E1. cbv zeta. fold n. cbn [els adt].
    assert (Hn : n <> 0).
    { unfold n. destruct Hne as [H|H]; [destruct (els a)|destruct (els b)]; cbn [length] in *; try congruence; lia. }
    assert (Hl : length (pad (els a) n) = n) by (apply length_pad; unfold n; lia).
    assert (Hlb : length (pad (els b) n) = n) by (apply length_pad; unfold n; lia).
    destruct (pad (els a) n) as [|a0 a'] eqn:Ep; [cbn in Hl; congruence|].
    assert (Ea0 : a0 = nth 0 (els a) zero) by (rewrite <- (nth_pad (els a) n), Ep; reflexivity).
    assert (Hz0 : eqb a0 zero = true).
    { rewrite Ea0. destruct (els a); [exact Hz|apply Ha0; congruence]. }
    rewrite Hz0. cbn [negb].
    set (dt := if (dtype_eqb _ _ || _)%bool then _ else _).
    unfold fir_make. cbn [els adt].
    rewrite Hlb. destruct (Nat.eqb_spec n 0) as [C|_]; [congruence|].
    eexists. split; [reflexivity|]. cbn [ia ib is_ fb fs fdt].
    split; [reflexivity|].
    destruct (Nat.ltb_spec n (length (els s))) as [H|H]; cbn [els adt].
    - split; [|split].
      + intros i. fold (pad (pad (els b) n) (length (els s))) in *.
        replace (pad (els b) n ++ zeros (length (els s) - n)) with (pad (pad (els b) n) (length (els s)))
          by (unfold pad at 1; rewrite Hlb; reflexivity).
        rewrite !nth_pad. reflexivity.
      + unfold zeros. rewrite app_length, repeat_length. lia.
      + rewrite map_length. unfold zeros. rewrite app_length, repeat_length, Hlb.
        destruct (Nat.ltb_spec (length (els s)) (n + (length (els s) - n))); lia.
    - split; [|split].
      + intros i. apply nth_pad.
      + lia.
      + rewrite map_length, Hlb. destruct (Nat.ltb_spec (length (els s)) n).
        * unfold zeros. rewrite app_length, repeat_length. lia.
        * lia.
  Qed.

  Lemma fir_make_arr_ok b s (f : fir A) : fir_make b s = Ok f -> els b <> [].
  Proof. unfold fir_make. destruct (els b); [discriminate|congruence]. Qed.
End Gen.

(** A longer state than coefficients: every later call fails. *)
Section Long.
  Context {A : Arith}.
  Lemma iir_long_state (f : iir A) x :
    ib f <> [] -> length (ia f) < length (is_ f) -> ia f <> [] -> x <> [] ->
    iir_filter f x = (f, Err ValueError).
  Proof.
    intros Hb Hl Ha Hx. rewrite iir_filter_run by assumption.
    destruct x as [|v x]; [congruence|]. cbn [run]. unfold iir_step at 1.
    assert (1 < length (is_ f)) by (destruct (ia f); cbn in *; [congruence|lia]).
    destruct (Nat.ltb_spec 1 (length (is_ f))); [|lia].
    unfold np_dot. destruct (Nat.eqb_spec (length (ia f)) (length (is_ f))); [lia|].
    destruct f; reflexivity.
  Qed.
End Long.

(** ** Exact arithmetic *)
Section Exact.
  Variable A : Arith.
  Hypothesis L : Laws A.
  Let Rth := law_ring L.
  Add Ring Aring3 : Rth.
  Local Notation "0" := (@zero A).
  Local Infix "+" := (@add A).
  Local Infix "-" := (@sub A).
  Local Infix "*" := (@mul A).

  (** The internal sequence of the direct form II realisation. *)
  Definition nextw (a h : list A) (x : A) : A :=
    x + bigsum (length a - 1) (fun i => nth (S i) a 0 * nth i h 0).
  Fixpoint wlist (a h x : list A) : list A :=
    match x with
    | [] => []
    | v :: x' => let w := nextw a h v in w :: wlist a (w :: h) x'
    end.

  Lemma length_wlist a h x : length (wlist a h x) = length x.
  Proof. revert h; induction x as [|v x IH]; intros h; cbn; [reflexivity|]. f_equal. apply IH. Qed.

  Lemma sig_cons h (w : A) ws k : (0 <= k + 1)%Z \/ (k + 1 < 0)%Z ->
    sig h (w :: ws) (k + 1) = sig (w :: h) ws k.
  Proof.
    intros _. unfold sig.
    destruct (Z.ltb_spec (k + 1) 0), (Z.ltb_spec k 0); try lia.
    - replace (Z.to_nat (- k - 1)) with (S (Z.to_nat (- (k + 1) - 1))) by lia. reflexivity.
    - replace (Z.to_nat (- k - 1)) with O by lia. replace (Z.to_nat (k + 1)) with O by lia. reflexivity.
    - replace (Z.to_nat (k + 1)) with (S (Z.to_nat k)) by lia. reflexivity.
  Qed.

  Lemma wlist_rec a x : forall h n, (n < length x)%nat ->
    nth n (wlist a h x) 0 =
    nth n x 0 + bigsum (length a - 1)
      (fun i => nth (S i) a 0 * sig h (wlist a h x) (Z.of_nat n - 1 - Z.of_nat i)).
  Proof.
    induction x as [|v x IH]; intros h n Hn; [cbn in Hn; lia|].
    destruct n as [|n]; cbn [wlist nth].
    - unfold nextw. f_equal. apply bigsum_ext. intros i _. f_equal. unfold sig.
      destruct (Z.ltb_spec (Z.of_nat 0 - 1 - Z.of_nat i) 0%Z); [|lia]. f_equal. lia.
    - rewrite IH by (cbn in Hn; lia). f_equal. apply bigsum_ext. intros i _. f_equal.
      rewrite <- sig_cons by lia. f_equal. lia.
  Qed.

  (** Elimination of the internal sequence. *)
  Lemma df2_elim (N M : nat) (a b : nat -> A) (X W : Z -> A) (n : Z) :
    (forall j, (j < M)%nat -> W (n - Z.of_nat j)%Z = X (n - Z.of_nat j)%Z +
        bigsum N (fun i => a (S i) * W (n - Z.of_nat j - 1 - Z.of_nat i)%Z)) ->
    bigsum M (fun j => b j * W (n - Z.of_nat j)%Z) =
    bigsum N (fun i => a (S i) * bigsum M (fun j => b j * W (n - 1 - Z.of_nat i - Z.of_nat j)%Z)) +
    bigsum M (fun j => b j * X (n - Z.of_nat j)%Z).
  Proof.
    intros H.
    rewrite (bigsum_ext N (fun i => a (S i) * bigsum M (fun j => b j * W (n - 1 - Z.of_nat i - Z.of_nat j)%Z))
      (fun i => bigsum M (fun j => a (S i) * (b j * W (n - 1 - Z.of_nat i - Z.of_nat j)%Z))))
      by (intros; symmetry; apply (bigsum_scal A L)).
    rewrite (bigsum_swap A L). rewrite <- (bigsum_add A L). apply bigsum_ext. intros j Hj.
    rewrite H by exact Hj.
    transitivity (bigsum N (fun i => b j * (a (S i) * W (n - Z.of_nat j - 1 - Z.of_nat i)%Z)) + b j * X (n - Z.of_nat j)%Z).
    - rewrite (bigsum_scal A L). ring.
    - f_equal. apply bigsum_ext. intros i _.
      replace (n - 1 - Z.of_nat i - Z.of_nat j)%Z with (n - Z.of_nat j - 1 - Z.of_nat i)%Z by lia. ring.
  Qed.

  Definition agree (N : nat) (h1 h2 : list A) : Prop := forall i, (i < N)%nat -> nth i h1 0 = nth i h2 0.

  Lemma dot_cons_hist a h (x : A) :
    a <> [] -> length a = S (length h) -> nth O a 0 = 0 ->
    dot a (x :: h) = bigsum (length a - 1) (fun i => nth (S i) a 0 * nth i h 0).
  Proof.
    intros Ha Hl H0. rewrite (law_dot L) by (cbn; exact Hl). rewrite Hl. rewrite (bigsum_S_l A L).
    rewrite H0. cbn [nth]. replace (S (length h) - 1)%nat with (length h) by lia. ring.
  Qed.

  Lemma nth_cvec a b i : length a = length b ->
    nth i (cvec a b) 0 = nth i a 0 * nth O b 0 + nth i b 0.
  Proof.
    intros Hl. unfold cvec. destruct (Nat.lt_ge_cases i (length a)) as [H|H].
    - rewrite (nth_map_lt _ _ i (0, 0)) by (rewrite combine_length; lia).
      rewrite combine_nth by exact Hl. reflexivity.
    - rewrite (nth_overflow a (n := i)), (nth_overflow b (n := i)), nth_overflow; [ring|rewrite map_length, combine_length| |]; lia.
  Qed.

  Lemma output_w a b h (x : A) :
    b <> [] -> length a = length b -> length b = S (length h) -> nth O a 0 = 0 ->
    dot (cvec a b) (x :: h) =
    nth O b 0 * nextw a h x + bigsum (length b - 1) (fun i => nth (S i) b 0 * nth i h 0).
  Proof.
    intros Hb Ha Hl H0.
    assert (Hc : length (cvec a b) = S (length h)).
    { unfold cvec. rewrite map_length, combine_length. lia. }
    rewrite (law_dot L) by (cbn; exact Hc). rewrite Hc, (bigsum_S_l A L).
    rewrite nth_cvec by exact Ha. rewrite H0. cbn [nth].
    unfold nextw. rewrite Ha, Hl. replace (S (length h) - 1)%nat with (length h) by lia.
    rewrite (bigsum_ext (length h) (fun i => nth (S i) (cvec a b) 0 * nth i h 0)
      (fun i => nth O b 0 * (nth (S i) a 0 * nth i h 0) + nth (S i) b 0 * nth i h 0)).
    - rewrite (bigsum_add A L), (bigsum_scal A L). ring.
    - intros i _. rewrite nth_cvec by exact Ha. ring.
  Qed.

  Lemma hist_typed dt (a s : list A) : Forall (fits dt) s -> Forall (fits dt) (hist dt a s).
  Proof.
    intros H. destruct s as [|s0 t]; [constructor|]. cbn [hist]. apply Forall_firstn.
    inversion H; subst. constructor; [apply (law_cast_idem L)|assumption].
  Qed.

  Lemma bigsum_agree a N h h' : (length a - 1 <= N)%nat -> agree N h h' ->
    bigsum (length a - 1) (fun i => nth (S i) a 0 * nth i h 0) =
    bigsum (length a - 1) (fun i => nth (S i) a 0 * nth i h' 0).
  Proof. intros Hl H. apply bigsum_ext. intros i Hi. rewrite H by lia. reflexivity. Qed.

  (** Output of a run in terms of the internal sequence. *)
  Lemma iir_run_w dt (a b : list A) : b <> [] -> length a = length b -> nth O a 0 = 0 ->
    Forall (fits dt) a -> Forall (fits dt) b ->
    forall x s h, length s = length b -> Forall (fits dt) s -> Forall (fits dt) x ->
    agree (length b - 1) (hist dt a s) h ->
    exists s' y, run (iir_step dt a b) s x = (s', Ok y) /\ length y = length x /\
      forall n, (n < length x)%nat ->
        nth n y 0 = bigsum (length b) (fun i => nth i b 0 * sig h (wlist a h x) (Z.of_nat n - Z.of_nat i)).
  Proof.
    intros Hb Ha H0 Ta Tb. induction x as [|v x IH]; intros s h Hs Ts Tx Hh.
    - exists s, []. cbn. repeat split; auto. intros; lia.
    - inversion Tx as [|? ? Tv Tx']; subst.
      cbn [run]. rewrite iir_step_eq by assumption. rewrite Tv.
      set (h0 := hist dt a s) in *.
      assert (Hl0 : length b = S (length h0)).
      { unfold h0. rewrite length_hist, Hs. destruct b; [congruence|]. cbn. lia. }
      assert (Th0 : Forall (fits dt) h0) by (apply hist_typed; exact Ts).
      assert (Hw : nextw a h0 v = nextw a h v).
      { unfold nextw. f_equal. apply (bigsum_agree a (length b - 1)); [lia|exact Hh]. }
      assert (Tw : fits dt (nextw a h0 v)).
      { unfold nextw. apply (law_fits_add L); [exact Tv|]. apply (fits_bigsum A L). intros i _.
        apply (law_fits_mul L); apply (fits_nth A L); assumption. }
      assert (Ey : cast dt (dot (cvec a b) (v :: h0)) =
                   nth O b 0 * nextw a h v + bigsum (length b - 1) (fun i => nth (S i) b 0 * nth i h 0)).
      { rewrite output_w by assumption.
        assert (E : bigsum (length b - 1) (fun i => nth (S i) b 0 * nth i h0 0) =
                    bigsum (length b - 1) (fun i => nth (S i) b 0 * nth i h 0)).
        { apply bigsum_agree with (N := (length b - 1)%nat); [lia|exact Hh]. }
        rewrite <- Hw, <- E. apply (law_fits_add L).
        - apply (law_fits_mul L); [apply (fits_nth A L); assumption|exact Tw].
        - apply (fits_bigsum A L). intros i _. apply (law_fits_mul L); apply (fits_nth A L); assumption. }
      assert (Hagree : agree (length b - 1) (hist dt a (v :: h0)) (nextw a h v :: h)).
      { intros i Hi. cbn [hist]. rewrite nth_firstn by lia.
        destruct i as [|i]; cbn [nth].
        - rewrite dot_cons_hist; [|destruct a, b; cbn in *; congruence|congruence|exact H0].
          change (v + _) with (nextw a h0 v). rewrite Tw. exact Hw.
        - apply Hh. lia. }
      destruct (IH (v :: h0) (nextw a h v :: h)) as (s' & y & E & Hly & Hy); auto.
      rewrite E. exists s', (cast dt (dot (cvec a b) (v :: h0)) :: y).
      split; [reflexivity|]. split; [cbn; congruence|].
      intros n Hn. destruct n as [|n]; cbn [nth wlist].
      + rewrite Ey, Hl0. replace (S (length h0) - 1)%nat with (length h0) by lia.
        rewrite (bigsum_S_l A L). f_equal.
        apply bigsum_ext. intros i _. f_equal.
        unfold sig. destruct (Z.ltb_spec (Z.of_nat 0 - Z.of_nat (S i)) 0%Z); [|lia]. f_equal. lia.
      + rewrite Hy by (cbn in Hn; lia). apply bigsum_ext. intros i _. f_equal.
        rewrite <- sig_cons by lia. f_equal. lia.
  Qed.

  Definition iir_typed (f : iir A) : Prop :=
    Forall (fits (idt f)) (ia f) /\ Forall (fits (idt f)) (ib f) /\ Forall (fits (idt f)) (is_ f).

  Lemma iir_step_typed dt a b s (x : A) :
    b <> [] -> length a = length b -> length s = length b ->
    Forall (fits dt) s -> Forall (fits dt) (fst (iir_step dt a b s x)).
  Proof.
    intros Hb Ha Hs Ts. rewrite iir_step_eq by assumption. cbn [fst].
    constructor; [apply (law_cast_idem L)|apply hist_typed; exact Ts].
  Qed.

  Lemma iir_run_typed dt (a b : list A) : b <> [] -> length a = length b -> forall x s,
    length s = length b -> Forall (fits dt) s ->
    Forall (fits dt) (fst (run (iir_step dt a b) s x)).
  Proof.
    intros Hb Ha x s Hs Ts.
    apply (run_inv (iir_step dt a b) (fun s => length s = length b /\ Forall (fits dt) s)).
    - intros s1 v [H1 H2]. split; [|apply iir_step_typed; assumption].
      rewrite iir_step_eq by assumption. cbn [fst length]. rewrite length_hist, H1.
      destruct b; [congruence|]. cbn. lia.
    - auto.
  Qed.

  Lemma iir_exec_typed (f : iir A) o : iir_inv f -> iir_typed f -> iir_typed (iir_exec f o).
  Proof.
    intros Hi (Ta & Tb & Ts). destruct (iir_exec_ab f o) as (Ea & Eb & Ed).
    unfold iir_typed. rewrite Ea, Eb, Ed. split; [exact Ta|]. split; [exact Tb|].
    destruct o as [x|[v|]]; cbn [iir_exec].
    - destruct x as [|v x]; [exact Ts|].
      destruct (iir_filter_ok f (v :: x) Hi) as (s' & y & Er & E & _ & _); [congruence|].
      rewrite E. cbn [fst iir_with_s is_]. destruct Hi as (Hb & Ha & Hs).
      pose proof (iir_run_typed (idt f) (ia f) (ib f) Hb Ha (v :: x) (is_ f) Hs Ts) as H.
      rewrite Er in H. exact H.
    - unfold iir_reset. destruct (is_ f) as [|s0 [|s1 t]] eqn:Es, (ib f) as [|b0 b'] eqn:E;
        try (cbn; rewrite Es; exact Ts); cbn [fst iir_with_s is_];
        try (repeat constructor; apply (law_cast_idem L)).
      destruct (bcast _ _ _); cbn [fst iir_with_s is_].
      + constructor; [apply (law_cast_idem L)|]. rewrite Forall_forall. intros w Hw.
        apply in_map_iff in Hw. destruct Hw as (u & <- & _). apply (law_cast_idem L).
      + rewrite Es. exact Ts.
    - exact Ts.
  Qed.

  (** Difference equation from sample N on. *)
  Lemma iir_difference_late dt (a b : list A) s x s' y :
    b <> [] -> length a = length b -> nth O a 0 = 0 -> length s = length b ->
    Forall (fits dt) a -> Forall (fits dt) b -> Forall (fits dt) s -> Forall (fits dt) x ->
    run (iir_step dt a b) s x = (s', Ok y) ->
    forall n, (length b - 1 <= n < length x)%nat -> nth n y 0 = difference_rhs a b y x n.
  Proof.
    intros Hb Ha H0 Hs Ta Tb Ts Tx E n [Hn1 Hn2].
    destruct (iir_run_w dt a b Hb Ha H0 Ta Tb x s (hist dt a s) Hs Ts Tx) as (s2 & y2 & E2 & Hl & Hy).
    { intros i _. reflexivity. }
    rewrite E in E2. injection E2 as <- <-.
    set (h := hist dt a s) in *. set (W := sig h (wlist a h x)) in *.
    rewrite Hy by exact Hn2. unfold difference_rhs.
    rewrite (df2_elim (length a - 1) (length b) (fun i => nth i a 0) (fun i => nth i b 0) (sig [] x) W).
    - f_equal. apply bigsum_ext. intros i Hi. f_equal.
      unfold sig. destruct (Z.ltb_spec (Z.of_nat n - 1 - Z.of_nat i) 0%Z); [lia|].
      rewrite Hy by lia. apply bigsum_ext. intros j Hj. f_equal. f_equal. lia.
    - intros j Hj. replace (Z.of_nat n - Z.of_nat j)%Z with (Z.of_nat (n - j)) by lia.
      unfold W at 1. unfold sig at 1 2.
      destruct (Z.ltb_spec (Z.of_nat (n - j)) 0%Z); [lia|]. rewrite Nat2Z.id.
      apply wlist_rec. lia.
  Qed.

  Lemma hist_zero dt a n : (1 <= n)%nat -> length a = n ->
    agree (n - 1) (hist dt a (zeros n)) [].
  Proof.
    intros Hn Ha i Hi. destruct n as [|n]; [lia|]. cbn [zeros repeat hist].
    rewrite repeat_length. fold (@zeros A n). rewrite nth_firstn by lia.
    assert (Hz : dot a (0 :: zeros n) = 0).
    { rewrite (law_dot L) by (cbn; unfold zeros; rewrite repeat_length; exact Ha).
      apply (bigsum_zero A L). intros k _. change (0 :: zeros n) with (@zeros A (S n)).
      rewrite (nth_zeros A). ring. }
    destruct i as [|i]; cbn [nth].
    - rewrite Hz. replace (0 + 0) with 0 by ring. apply (law_fits_zero L).
    - apply (nth_zeros A).
  Qed.

  Lemma Forall_zeros dt n : Forall (fits dt) (@zeros A n).
  Proof.
    unfold zeros. rewrite Forall_forall. intros v Hv. apply repeat_spec in Hv. subst. apply (law_fits_zero L).
  Qed.

  (** Difference equation from rest. *)
  Lemma iir_difference_rest dt (a b : list A) x s' y :
    b <> [] -> length a = length b -> nth O a 0 = 0 ->
    Forall (fits dt) a -> Forall (fits dt) b -> Forall (fits dt) x ->
    run (iir_step dt a b) (zeros (length b)) x = (s', Ok y) ->
    satisfies_difference a b y x.
  Proof.
    intros Hb Ha H0 Ta Tb Tx E.
    assert (Hlb : (1 <= length b)%nat) by (destruct b; [congruence|cbn; lia]).
    destruct (iir_run_w dt a b Hb Ha H0 Ta Tb x (zeros (length b)) []) as (s2 & y2 & E2 & Hl & Hy).
    - unfold zeros. apply repeat_length.
    - apply Forall_zeros.
    - exact Tx.
    - apply hist_zero; assumption.
    - rewrite E in E2. injection E2 as <- <-. split; [exact Hl|]. intros n Hn.
      set (W := sig [] (wlist a [] x)) in *.
      assert (HW : forall k, (k < 0)%Z -> W k = 0).
      { intros k Hk. unfold W, sig. destruct (Z.ltb_spec k 0%Z); [|lia]. destruct (Z.to_nat (- k - 1)); reflexivity. }
      rewrite Hy by exact Hn. unfold difference_rhs.
      rewrite (df2_elim (length a - 1) (length b) (fun i => nth i a 0) (fun i => nth i b 0) (sig [] x) W).
      + f_equal. apply bigsum_ext. intros i Hi. f_equal.
        unfold sig. destruct (Z.ltb_spec (Z.of_nat n - 1 - Z.of_nat i) 0%Z) as [Hneg|Hneg].
        * rewrite (bigsum_zero A L).
          -- destruct (Z.to_nat _); reflexivity.
          -- intros j _. rewrite HW by lia. ring.
        * rewrite Hy by lia. apply bigsum_ext. intros j _. f_equal. f_equal. lia.
      + intros j Hj. destruct (Z_lt_ge_dec (Z.of_nat n - Z.of_nat j) 0%Z) as [Hneg|Hneg].
        * rewrite HW by exact Hneg. rewrite (bigsum_zero A L).
          -- unfold sig. destruct (Z.ltb_spec (Z.of_nat n - Z.of_nat j) 0%Z); [|lia].
             destruct (Z.to_nat _); cbn; ring.
          -- intros i _. rewrite HW by lia. ring.
        * replace (Z.of_nat n - Z.of_nat j)%Z with (Z.of_nat (n - j)) by lia.
          unfold W at 1. unfold sig at 1 2.
          destruct (Z.ltb_spec (Z.of_nat (n - j)) 0%Z); [lia|]. rewrite Nat2Z.id.
          apply wlist_rec. lia.
  Qed.

  (** The difference equation determines the output. *)
  Lemma difference_unique (a b x y z : list A) :
    satisfies_difference a b y x -> satisfies_difference a b z x -> y = z.
  Proof.
    intros [Ly Hy] [Lz Hz]. apply (nth_ext _ _ 0 0); [congruence|]. rewrite Ly.
    intros n. induction n as [n IH] using (well_founded_induction lt_wf). intros Hn.
    rewrite Hy, Hz by exact Hn. unfold difference_rhs. f_equal. apply bigsum_ext. intros i _. f_equal.
    unfold sig. destruct (Z.ltb_spec (Z.of_nat n - 1 - Z.of_nat i) 0%Z); [reflexivity|].
    apply IH; lia.
  Qed.

  (** Superposition, one step and whole runs. *)
  Lemma lin_cons p q (v w : A) x u : lin p q (v :: x) (w :: u) = (p * v + q * w) :: lin p q x u.
  Proof. reflexivity. Qed.

  Lemma lin_firstn p q n (x u : list A) : lin p q (firstn n x) (firstn n u) = firstn n (lin p q x u).
  Proof. unfold lin. rewrite firstn_map, combine_firstn. reflexivity. Qed.

  Lemma dot_lin c p q (s t : list A) : length s = length c -> length t = length c ->
    dot c (lin p q s t) = p * dot c s + q * dot c t.
  Proof.
    intros Hs Ht. rewrite !(law_dot L) by (rewrite ?length_lin; congruence).
    rewrite <- !(bigsum_scal A L), <- (bigsum_add A L). apply bigsum_ext. intros i _.
    rewrite (nth_lin A L) by congruence. ring.
  Qed.

  Lemma hist_lin dt (a : list A) p q s t : length s = length a -> length t = length a -> a <> [] ->
    fits dt p -> fits dt q -> Forall (fits dt) a -> Forall (fits dt) s -> Forall (fits dt) t ->
    hist dt a (lin p q s t) = lin p q (hist dt a s) (hist dt a t).
  Proof.
    intros Hs Ht Ha Tp Tq Ta Ts Tt.
    destruct s as [|s0 s]; [destruct a; cbn in *; congruence|].
    destruct t as [|t0 t]; [destruct a; cbn in *; congruence|].
    assert (Hst : length s = length t) by (cbn in *; congruence).
    rewrite lin_cons. cbn [hist]. rewrite <- lin_cons. rewrite dot_lin by assumption.
    rewrite (length_lin A) by exact Hst. rewrite <- Hst.
    rewrite lin_firstn. rewrite lin_cons. do 2 f_equal.
    assert (Fd : forall u, length u = length a -> Forall (fits dt) u -> fits dt (dot a u)).
    { intros u Hu Tu. rewrite (law_dot L) by congruence. apply (fits_bigsum A L). intros i _.
      apply (law_fits_mul L); apply (fits_nth A L); assumption. }
    inversion Ts; inversion Tt; subst.
    assert (F1 : fits dt (s0 + dot a (s0 :: s))) by (apply (law_fits_add L); auto).
    assert (F2 : fits dt (t0 + dot a (t0 :: t))) by (apply (law_fits_add L); auto).
    rewrite F1, F2.
    transitivity (cast dt (p * (s0 + dot a (s0 :: s)) + q * (t0 + dot a (t0 :: t)))); [f_equal; ring|].
    apply (law_fits_add L); apply (law_fits_mul L); assumption.
  Qed.

  Lemma iir_run_lin dt (a b : list A) p q : b <> [] -> length a = length b ->
    Forall (fits dt) a -> Forall (fits dt) b -> fits dt p -> fits dt q ->
    forall x u s t, length s = length b -> length t = length b -> length x = length u ->
    Forall (fits dt) s -> Forall (fits dt) t -> Forall (fits dt) x -> Forall (fits dt) u ->
    exists s' t' y v,
      run (iir_step dt a b) s x = (s', Ok y) /\ run (iir_step dt a b) t u = (t', Ok v) /\
      run (iir_step dt a b) (lin p q s t) (lin p q x u) = (lin p q s' t', Ok (lin p q y v)).
  Proof.
    intros Hb Ha Ta Tb Tp Tq. induction x as [|v x IH]; intros [|w u] s t Hs Ht Hl Ts Tt Tx Tu; try discriminate.
    - exists s, t, [], []. auto.
    - inversion Tx as [|? ? Tv Tx']; inversion Tu as [|? ? Tw Tu']; subst.
      rewrite lin_cons. cbn [run].
      assert (Hlin : length (lin p q s t) = length b) by (rewrite (length_lin A); congruence).
      rewrite !iir_step_eq by assumption. rewrite Tv, Tw.
      assert (Tvw : fits dt (p * v + q * w)) by (apply (law_fits_add L); apply (law_fits_mul L); assumption).
      rewrite Tvw.
      assert (Hane : a <> []) by (destruct a, b; cbn in *; congruence).
      rewrite hist_lin by (assumption || congruence).
      assert (Hh : length (v :: hist dt a s) = length b /\ length (w :: hist dt a t) = length b).
      { cbn [length]. rewrite !length_hist, Hs, Ht. destruct b; [congruence|]. cbn. lia. }
      destruct Hh as [Hh1 Hh2].
      assert (T1 : Forall (fits dt) (v :: hist dt a s)) by (constructor; [assumption|apply hist_typed; assumption]).
      assert (T2 : Forall (fits dt) (w :: hist dt a t)) by (constructor; [assumption|apply hist_typed; assumption]).
      destruct (IH u (v :: hist dt a s) (w :: hist dt a t)) as (s' & t' & y & z & E1 & E2 & E3); try assumption.
      { injection Hl; auto. }
      rewrite lin_cons in E3. rewrite E1, E2, E3.
      eexists s', t', _, _. split; [reflexivity|]. split; [reflexivity|].
      f_equal. f_equal. rewrite lin_cons. f_equal.
      rewrite <- lin_cons.
      assert (Hc : length (cvec a b) = length b) by (unfold cvec; rewrite map_length, combine_length; lia).
      rewrite dot_lin by congruence.
      assert (Tc : Forall (fits dt) (cvec a b)).
      { rewrite Forall_forall. intros c Hc'. destruct (In_nth _ _ 0 Hc') as (i & _ & <-).
        rewrite nth_cvec by exact Ha. apply (law_fits_add L); [apply (law_fits_mul L)|];
        apply (fits_nth A L); assumption. }
      assert (Fd : forall z, length z = length b -> Forall (fits dt) z -> fits dt (dot (cvec a b) z)).
      { intros z0 Hz Tz. rewrite (law_dot L) by congruence. apply (fits_bigsum A L). intros i _.
        apply (law_fits_mul L); apply (fits_nth A L); assumption. }
      rewrite (Fd (v :: hist dt a s)), (Fd (w :: hist dt a t)) by assumption.
      apply (law_fits_add L); apply (law_fits_mul L); auto.
  Qed.

  (** With a zero recursive part the step is the FIR step. *)
  Lemma iir_step_fir dt (a b : list A) s (x : A) :
    b <> [] -> length a = length b -> length s = length b ->
    Forall (fits dt) s -> (forall i, nth i a 0 = 0) ->
    iir_step dt a b s x = fir_step dt b s x.
  Proof.
    intros Hb Ha Hs Ts Hz. rewrite iir_step_eq, fir_step_eq by (assumption || (destruct s, b; cbn in *; congruence)).
    assert (Eh : cast dt x :: hist dt a s = firstn (length b) (cast dt x :: s)).
    { destruct s as [|s0 t]; [destruct b; cbn in *; congruence|]. cbn [hist].
      rewrite <- Hs. cbn [length firstn]. f_equal.
      assert (Ed : dot a (s0 :: t) = 0).
      { rewrite (law_dot L) by congruence. apply (bigsum_zero A L). intros i _. rewrite Hz. ring. }
      rewrite Ed. replace (s0 + 0) with s0 by ring. inversion Ts; subst.
      match goal with H : fits dt s0 |- _ => rewrite H end. reflexivity. }
    rewrite <- Eh. do 4 f_equal. apply (nth_ext _ _ 0 0).
    - unfold cvec. rewrite map_length, combine_length. lia.
    - intros i _. rewrite nth_cvec by exact Ha. rewrite Hz. ring.
  Qed.

  Lemma iir_run_fir dt (a b : list A) : b <> [] -> length a = length b -> (forall i, nth i a 0 = 0) ->
    forall x s, length s = length b -> Forall (fits dt) s ->
    run (iir_step dt a b) s x = run (fir_step dt b) s x.
  Proof.
    intros Hb Ha Hz. induction x as [|v x IH]; intros s Hs Ts; [reflexivity|].
    cbn [run].
    pose proof (iir_step_typed dt a b s v Hb Ha Hs Ts) as T1.
    assert (H1 : length (fst (iir_step dt a b s v)) = length b).
    { rewrite iir_step_eq by assumption. cbn [fst length]. rewrite length_hist, Hs. destruct b; [congruence|]. cbn. lia. }
    rewrite <- iir_step_fir with (a := a) by assumption.
    destruct (iir_step dt a b s v) as [s1 [y|e]]; [|reflexivity].
    cbn [fst] in *. rewrite IH by assumption. reflexivity.
  Qed.
End Exact.

(** Constructed filters. *)
Section Make.
  Context {A : Arith}.

  Lemma iir_make_inv (a b s : arr A) f :
    length (els s) <= max (length (els a)) (length (els b)) ->
    iir_make a b s = Ok f -> iir_inv f.
  Proof.
    intros Hs. unfold iir_make.
    destruct (match els a with [] => false | a0 :: _ => negb (eqb a0 zero) end); [discriminate|].
    cbv zeta. cbn [els adt]. set (n := max _ _) in *.
    assert (Hla : length (pad (els a) n) = n) by (apply length_pad; unfold n; lia).
    assert (Hlb : length (pad (els b) n) = n) by (apply length_pad; unfold n; lia).
    destruct (pad (els a) n) as [|a0 a'] eqn:Ea; [discriminate|]. rewrite <- Ea in *.
    destruct (negb (eqb a0 zero)); [discriminate|].
    match goal with |- context [fir_make ?b1 ?s1] => destruct (fir_make b1 s1) as [g|e] eqn:E end; [|discriminate].
    intros H. injection H as <-.
    pose proof (fir_make_inv _ _ _ E) as [H1 H2]. unfold iir_inv. cbn [ib ia is_].
    split; [exact H1|]. split; [|exact H2].
    unfold fir_make in E. cbn [els adt] in E. destruct (Nat.eqb _ _); [discriminate|].
    injection E as <-. cbn [fb]. destruct (Nat.ltb_spec (length (pad (els b) n)) (length (els s))); [lia|].
    cbn [els]. congruence.
  Qed.

  Lemma iir_make_a0 (L : Laws A) (a b s : arr A) f : iir_make a b s = Ok f -> nth 0 (ia f) zero = zero.
  Proof.
    unfold iir_make.
    destruct (match els a with [] => false | a0 :: _ => negb (eqb a0 zero) end); [discriminate|].
    cbv zeta. cbn [els adt]. set (n := max _ _) in *.
    destruct (pad (els a) n) as [|a0 a'] eqn:Ea; [discriminate|].
    destruct (eqb a0 zero) eqn:E0; [|discriminate]. cbn [negb].
    match goal with |- context [fir_make ?b1 ?s1] => destruct (fir_make b1 s1) as [g|e] eqn:E end; [|discriminate].
    intros H. injection H as <-. cbn [ia nth]. apply (law_eqb L). exact E0.
  Qed.

  Lemma Forall_pad (L : Laws A) dt (l : list A) n : Forall (fits dt) l -> Forall (fits dt) (pad l n).
  Proof. intros H. unfold pad. apply Forall_app. split; [exact H|apply (Forall_zeros A L)]. Qed.

  Lemma iir_make_typed (L : Laws A) (a b s : arr A) f :
    arr_ok a -> arr_ok b -> (adt b = DInt -> adt a = DInt) ->
    iir_make a b s = Ok f -> iir_typed A f.
  Proof.
    intros Ta Tb Hd. unfold iir_make.
    destruct (match els a with [] => false | a0 :: _ => negb (eqb a0 zero) end); [discriminate|].
    cbv zeta. cbn [els adt]. set (n := max _ _) in *.
    destruct (pad (els a) n) as [|a0 a'] eqn:Ea; [discriminate|]. rewrite <- Ea in *.
    destruct (negb (eqb a0 zero)); [discriminate|].
    set (da := if Nat.ltb (length (els a)) (length (els b)) then promote (adt a) DFloat else adt a).
    set (db := if Nat.ltb (length (els b)) (length (els a)) then promote (adt b) DFloat else adt b).
    set (dt := if (dtype_eqb da DComplex || dtype_eqb db DComplex)%bool then DComplex else db).
    assert (Fb : Forall (fits dt) (els b)).
    { eapply Forall_impl; [|exact Tb]. intros v Hv.
      assert (E : dt = promote (adt b) dt).
      { unfold dt, db, da. destruct (Nat.ltb _ _), (Nat.ltb _ _), (adt a), (adt b); reflexivity. }
      rewrite E. apply (law_fits_widen L). exact Hv. }
    assert (Fa : Forall (fits dt) (els a)).
    { eapply Forall_impl; [|exact Ta]. intros v Hv.
      assert (E : dt = promote (adt a) dt).
      { unfold dt, db, da. destruct (Nat.ltb _ _), (Nat.ltb _ _), (adt a), (adt b); try reflexivity;
        specialize (Hd eq_refl); discriminate. }
      rewrite E. apply (law_fits_widen L). exact Hv. }
    match goal with |- context [fir_make ?b1 ?s1] => destruct (fir_make b1 s1) as [g|e] eqn:E end; [|discriminate].
    intros H. injection H as <-. unfold iir_typed. cbn [ia ib is_ idt].
    destruct (fir_make_typed L _ _ _ (Forall_pad L dt _ n Fb : arr_ok (mkArr dt (pad (els b) n))) E) as [T1 T2].
    split; [|split; assumption].
    unfold fir_make in E. cbn [els adt] in E. destruct (Nat.eqb _ _); [discriminate|].
    injection E as <-. cbn [fdt]. apply (Forall_pad L).
    destruct (Nat.ltb (length (pad (els b) n)) (length (els s))); cbn [adt]; [|exact Fa].
    eapply Forall_impl; [|exact Fa]. intros v. apply (law_fits_widen L).
  Qed.
End Make.

Section Steady.
  Variable A : Arith.
  Hypothesis L : Laws A.
  Let Rth := law_ring L.
  Add Ring Aring4 : Rth.
  Local Notation "0" := (@zero A).
  Local Infix "+" := (@add A).
  Local Infix "-" := (@sub A).
  Local Infix "*" := (@mul A).

  Lemma total_cons (v : A) l : total (v :: l) = v + total l.
  Proof. unfold total. cbn [length]. rewrite (bigsum_S_l A L). reflexivity. Qed.

  Lemma dot_const a (v c : A) n : length a = S n ->
    dot a (v :: repeat c n) = nth O a 0 * v + c * (total a - nth O a 0).
  Proof.
    intros Hl. destruct a as [|a0 a]; [discriminate|]. cbn [length] in Hl. injection Hl as Hl.
    rewrite (law_dot L) by (cbn; rewrite repeat_length; congruence). cbn [length].
    rewrite (bigsum_S_l A L). cbn [nth]. rewrite total_cons.
    rewrite (bigsum_ext _ _ (fun i => c * nth i a 0)).
    - rewrite (bigsum_scal A L). unfold total. ring.
    - intros i Hi. rewrite nth_repeat_lt by lia. ring.
  Qed.

  Lemma total_cvec a b : length a = length b -> total (cvec a b) = total a * nth O b 0 + total b.
  Proof.
    intros Hl. unfold total at 1.
    replace (length (cvec a b)) with (length b) by (unfold cvec; rewrite map_length, combine_length; lia).
    rewrite (bigsum_ext _ _ (fun i => nth i a 0 * nth O b 0 + nth i b 0)) by (intros; apply (nth_cvec A L); exact Hl).
    rewrite (bigsum_add A L), (bigsum_scal_r A L). unfold total. rewrite Hl. reflexivity.
  Qed.

  Lemma hist_const dt a (v c : A) n : (0 < n)%nat -> length a = S n -> nth O a 0 = 0 ->
    hist dt a (v :: repeat c n) = cast dt (v + c * total a) :: repeat c (n - 1).
  Proof.
    intros Hn Hl H0. cbn [hist]. rewrite dot_const by exact Hl. rewrite H0.
    replace (v + (0 * v + c * (total a - 0))) with (v + c * total a) by ring.
    rewrite repeat_length. destruct n as [|n]; [lia|]. cbn [firstn]. f_equal.
    replace (S n - 1)%nat with n by lia. cbn [repeat].
    replace (c :: repeat c n) with (repeat c (S n)) by reflexivity.
    clear. induction n; [reflexivity|]. cbn [repeat firstn]. f_equal. exact IHn.
  Qed.

  Definition iir_den (a b : list A) : A := total a * nth O b 0 + total b - nth O b 0.

  (** What reset stores. *)
  Lemma iir_reset_eq (f : iir A) c : iir_inv f -> nth O (ia f) 0 = 0 -> (1 < length (ib f))%nat ->
    iir_reset f (Some c) =
    (iir_with_s f (cast (idt f) c ::
       repeat (cast (idt f) (div (c * (one - nth O (ib f) 0)) (iir_den (ia f) (ib f)))) (length (ib f) - 1)), Ok tt).
  Proof.
    intros (Hb & Ha & Hs) H0 Hl. unfold iir_reset.
    destruct (is_ f) as [|s0 [|s1 t]] eqn:Es; cbn [length] in Hs; try lia.
    destruct (ib f) as [|b0 b'] eqn:Eb; [congruence|].
    destruct (ia f) as [|a0 a'] eqn:Ea; [cbn in Ha; lia|].
    cbn [nth] in H0. subst a0. cbn [tl].
    assert (Hl' : length a' = length b') by (cbn in Ha; congruence).
    rewrite bcast_eq by exact Hl'.
    assert (Ec : @Base.sum A (map (fun p => fst p * b0 + snd p) (combine a' b')) = iir_den (0 :: a') (b0 :: b')).
    { unfold iir_den. rewrite !total_cons. cbn [nth].
      rewrite (law_sum L). rewrite map_length, combine_length.
      rewrite (bigsum_ext _ _ (fun i => nth i a' 0 * b0 + nth i b' 0)).
      - rewrite Hl', Nat.min_id, (bigsum_add A L), (bigsum_scal_r A L). unfold total. rewrite Hl'. ring.
      - intros i Hi. rewrite (nth_map_lt _ _ i (0, 0)) by (rewrite combine_length; exact Hi).
        rewrite combine_nth by exact Hl'. reflexivity. }
    rewrite Ec. cbn [nth]. do 3 f_equal. cbn [length] in *. replace (S (length b') - 1)%nat with (S (length t)) by lia.
    cbn [map repeat]. f_equal.
    generalize (cast (idt f) (div (c * (one - b0)) (iir_den (0 :: a') (b0 :: b')))). intros v. clear.
    induction t as [|w t IH]; [reflexivity|]. cbn. f_equal. exact IH.
  Qed.
End Steady.
