(** Property C194: two-dimensional WaveletTransform: rows and columns are treated alike. *)
From Coq Require Import List Arith ZArith Lia Bool String Reals Lra.
From Verif Require Import Base BaseLemmas PyString Instances CalculusModel FirModel FirSpec FirProofs Sums WaveletModel WaveletProofs WaveletProps WaveletExactProps.
Import ListNotations.
Set Asymmetric Patterns.
Close Scope string_scope. Close Scope R_scope. Open Scope nat_scope.

Section Any.
  Context {A : Arith}.
  Implicit Types M N B : list (list A).

  Lemma transp_block r c ii jj M : wf r c M -> ii <= r -> jj <= c -> transp jj (block ii jj M) = block jj ii (transp c M).
  Proof.
    intros HM Hi Hj. pose proof (transp_wf c M r (proj1 HM)) as HT. pose proof (block_wf r c ii jj M HM Hi Hj) as HB.
    apply (mat_ext jj ii); [apply transp_wf, HB|apply (block_wf c r); assumption|].
    intros j i Hjj Hii. rewrite transp_get by (destruct HB; lia). rewrite (block_get r c) by assumption. rewrite (block_get c r) by assumption.
    symmetry. apply transp_get; destruct HM; lia.
  Qed.
  Lemma transp_set r c ii jj B M : wf r c M -> wf ii jj B -> ii <= r -> jj <= c ->
    transp c (set_block ii jj B M) = set_block jj ii (transp jj B) (transp c M).
  Proof.
    intros HM HB Hi Hj. pose proof (transp_wf c M r (proj1 HM)) as HT. pose proof (transp_wf jj B ii (proj1 HB)) as HU.
    pose proof (set_block_wf r c ii jj B M HM HB Hi Hj) as HS.
    apply (mat_ext c r); [apply transp_wf, HS|apply set_block_wf; assumption|].
    intros j i Hjj Hii. rewrite transp_get by (destruct HS; lia). rewrite (set_block_get r c) by assumption. rewrite (set_block_get c r) by assumption.
    rewrite andb_comm. destruct (Nat.ltb_spec i ii), (Nat.ltb_spec j jj); cbn [andb];
      symmetry; apply transp_get; destruct HM, HB; lia.
  Qed.

  (** The rows of the transpose are the columns. *)
  Lemma rows_transp f k r c M : keeps_len f -> adm (S k) r -> wf r c M -> rows_if f r (transp c M) = transp c (cols_if f r c M).
  Proof.
    intros Hf Hr HM. unfold rows_if, cols_if. destruct (Nat.ltb_spec 1 r) as [H|H]; [|reflexivity].
    unfold on_cols. symmetry. apply (transp_invol c r). eapply cols_mid_wf; eauto.
  Qed.
  Lemma cols_transp f r c M : wf r c M -> cols_if f c r (transp c M) = transp c (rows_if f c M).
  Proof.
    intros HM. unfold rows_if, cols_if. destruct (Nat.ltb_spec 1 c) as [H|H]; [|reflexivity].
    unfold on_cols. rewrite (transp_invol r c M HM). reflexivity.
  Qed.

  Context (f : list A -> list A) (Hf : keeps_len f) (D : nat -> nat -> Prop) (Hh : forall r c, D r c -> D (half r) (half c)).
  Context (comm : forall k r c M, D r c -> adm (S k) r -> adm (S k) c -> wf r c M -> rows_if f c (cols_if f r c M) = cols_if f r c (rows_if f c M)).

  Lemma pureA_transp : forall count r c M, D r c -> adm count r -> adm count c -> wf r c M ->
    pureA f count c r (transp c M) = transp c (pureA f count r c M).
  Proof.
    induction count as [|k IH]; intros r c M Hd Hr Hc HM; [reflexivity|]. cbn [pureA].
    destruct (adm_half _ _ Hr) as [Hr1 Hr2]. destruct (adm_half _ _ Hc) as [Hc1 Hc2].
    assert (H2 : wf r c (cols_if f r c (rows_if f c M))) by (eapply cols_if_wf; eauto; eapply rows_if_wf; eauto).
    assert (E : cols_if f c r (rows_if f r (transp c M)) = transp c (cols_if f r c (rows_if f c M))).
    { rewrite (rows_transp f k) by assumption. rewrite (cols_transp f r c) by (eapply cols_if_wf; eauto). f_equal. eapply comm; eauto. }
    rewrite E. rewrite <- (transp_block r c) by (assumption || lia). assert (HB : wf (half r) (half c) (block (half r) (half c) (cols_if f r c (rows_if f c M)))) by (apply (block_wf r c); [exact H2|lia|lia]).
    rewrite IH by (auto). symmetry. apply (transp_set r c); [exact H2|apply pureA_wf; assumption|lia|lia].
  Qed.
  Lemma pureS_transp : forall count r c M, D r c -> adm count r -> adm count c -> wf r c M ->
    pureS f count c r (transp c M) = transp c (pureS f count r c M).
  Proof.
    induction count as [|k IH]; intros r c M Hd Hr Hc HM; [reflexivity|]. cbn [pureS].
    destruct (adm_half _ _ Hr) as [Hr1 Hr2]. destruct (adm_half _ _ Hc) as [Hc1 Hc2].
    assert (HB : wf (half r) (half c) (block (half r) (half c) M)) by (apply (block_wf r c); [exact HM|lia|lia]).
    rewrite <- (transp_block r c) by (assumption || lia). rewrite IH by auto.
    assert (HP : wf (half r) (half c) (pureS f k (half r) (half c) (block (half r) (half c) M))) by (apply pureS_wf; assumption).
    rewrite <- (transp_set r c) by (assumption || lia). set (M1 := set_block _ _ _ M).
    assert (H1 : wf r c M1) by (apply set_block_wf; assumption || lia).
    rewrite (cols_transp f r c) by exact H1. rewrite (rows_transp f k) by (assumption || eapply rows_if_wf; eauto). f_equal. symmetry. eapply comm; eauto.
  Qed.
End Any.

(** ** Linear line operations *)
Open Scope R_scope.
Definition linear_on (n : nat) (f : list R -> list R) : Prop :=
  exists K : nat -> nat -> R, forall x, length x = n -> forall p, (p < n)%nat -> nth p (f x) 0 = rsum n (fun i => K p i * nth i x 0).

Lemma linear_analysis b0 b1 h : linear_on (2 * h) (anR b0 b1).
Proof.
  exists (fun p i => if (p <? h)%nat then ex b0 (Z.of_nat (2 * p + 1) - Z.of_nat i) else ex b1 (Z.of_nat (2 * (p - h) + 1) - Z.of_nat i)).
  intros x Hx p Hp. destruct (Nat.ltb_spec p h) as [C|C].
  - rewrite (anR_low b0 b1 x h p Hx C), zfR_swap, Hx by lia. reflexivity.
  - replace p with (h + (p - h))%nat at 1 by lia. rewrite (anR_high b0 b1 x h (p - h) Hx), zfR_swap, Hx by lia. reflexivity.
Qed.
Lemma linear_synthesis b0 b1 h : linear_on (2 * h) (syR b0 b1).
Proof.
  exists (fun p i => if (i <? h)%nat then 2 * ex b0 (Z.of_nat p - 2 * Z.of_nat i) else 2 * ex b1 (Z.of_nat p - 2 * Z.of_nat (i - h))).
  intros x Hx p Hp. rewrite (syR_nth b0 b1 x h p Hx Hp). replace (2 * h)%nat with (h + h)%nat by lia. rewrite rsum_app, <- !rsum_scal. f_equal; apply rsum_ext; intros j Hj.
  - destruct (Nat.ltb_spec j h); [|lia]. ring.
  - destruct (Nat.ltb_spec (h + j) h); [lia|]. replace (h + j - h)%nat with j by lia. ring.
Qed.
Lemma get_rows (f : list R -> list R) M p q : (p < length M)%nat -> @mget RA (map f M) p q = nth q (f (nth p M [])) 0.
Proof. intros H. unfold mget. f_equal. apply (nth_map_lt f M p []). exact H. Qed.

Lemma comm_linear (f : list R -> list R) k r c (M : list (list R)) : @keeps_len RA f -> (forall h, linear_on (2 * S h) f) ->
  adm (S k) r -> adm (S k) c -> @wf RA r c M -> @rows_if RA f c (@cols_if RA f r c M) = @cols_if RA f r c (@rows_if RA f c M).
Proof.
  intros Hf Hl Hr Hc HM. unfold rows_if, cols_if. destruct (Nat.ltb_spec 1 r) as [H1|H1]; [|reflexivity]. destruct (Nat.ltb_spec 1 c) as [H2|H2]; [|reflexivity].
  destruct (adm_even _ _ Hr) as [C|[h C]]; [lia|]. destruct (adm_even _ _ Hc) as [C'|[h' C']]; [lia|].
  assert (Kr : forall l : list R, length l = r -> length (f l) = r) by (intros l L; rewrite C in *; apply Hf, L).
  assert (Kc : forall l : list R, length l = c -> length (f l) = c) by (intros l L; rewrite C' in *; apply Hf, L).
  assert (Wt : forall X, @wf RA r c X -> @wf RA c r (map f (@transp RA c X))) by (intros X HX; apply (@map_wf RA c r); [exact Kr|apply transp_wf, HX]).
  assert (Wm : @wf RA r c (map f M)) by (apply (@map_wf RA r c); assumption).
  assert (Wo : forall X, @wf RA r c X -> @wf RA r c (@on_cols RA f r c X)) by (intros X HX; apply transp_wf, (Wt X HX)).
  destruct (Hl h) as [P HP]. destruct (Hl h') as [Q HQ]. rewrite <- C in HP. rewrite <- C' in HQ.
  assert (Gc : forall X p q, @wf RA r c X -> (p < r)%nat -> (q < c)%nat -> @mget RA (@on_cols RA f r c X) p q = rsum r (fun i => P p i * @mget RA X i q)).
  { intros X p q HX Hp Hq. unfold on_cols. etransitivity; [apply (@transp_get RA r _ q p Hp (eq_ind_r (fun n => (q < n)%nat) Hq (proj1 (Wt X HX))))|].
    pose proof (@transp_wf RA c X r (proj1 HX)) as HT.
    etransitivity; [apply (get_rows f _ q p (eq_ind_r (fun n => (q < n)%nat) Hq (proj1 HT)))|]. rewrite HP by (try exact Hp; apply (@wf_row RA c r _ q HT Hq)).
    apply rsum_ext. intros i Hi. f_equal. apply (@transp_get RA c X i q Hq). exact (eq_ind_r (fun n => (i < n)%nat) Hi (proj1 HX)). }
  assert (Gr : forall X p q, @wf RA r c X -> (p < r)%nat -> (q < c)%nat -> @mget RA (map f X) p q = rsum c (fun j => Q q j * @mget RA X p j)).
  { intros X p q HX Hp Hq. etransitivity; [apply (get_rows f X p q (eq_ind_r (fun n => (p < n)%nat) Hp (proj1 HX)))|]. rewrite HQ by (try exact Hq; apply (@wf_row RA r c X p HX Hp)). reflexivity. }
  apply (@mat_ext RA r c); [apply (@map_wf RA r c); [exact Kc|apply Wo, HM]|apply Wo, Wm|].
  intros p q Hp Hq. rewrite Gr by (try assumption; apply Wo, HM). rewrite Gc by assumption.
  rewrite (rsum_ext c _ (fun j => rsum r (fun i => Q q j * (P p i * @mget RA M i j)))) by (intros j Hj; rewrite rsum_scal; f_equal; apply Gc; assumption).
  rewrite rsum_swap. apply rsum_ext. intros i Hi. rewrite Gr by assumption. rewrite <- rsum_scal. apply rsum_ext. intros j Hj. ring.
Qed.

(** ** Theorems *)
(** Transforming the transpose gives the transpose of the transform, in both directions and
    for any number of levels. *)
Theorem C194_transpose (style : string) (order : Z) (bk : wbank RA) (count : Z) (inverse : bool) r c (M N : list (list R)) :
  makeR style order = Ok bk -> (0 < count)%Z -> wfR r c M -> wfR c r N -> r <> 0%nat -> c <> 0%nat -> good_dim count r -> good_dim count c ->
  (forall i j, (i < r)%nat -> (j < c)%nat -> getR N j i = getR M i j) ->
  exists Y Z : list (list R), transformR bk (ND2 (A := RA) c M) count inverse = Ok (ND2 (A := RA) c Y) /\ transformR bk (ND2 (A := RA) r N) count inverse = Ok (ND2 (A := RA) r Z) /\
    wfR r c Y /\ wfR c r Z /\ forall i j, (i < r)%nat -> (j < c)%nat -> getR Z j i = getR Y i j.
Proof.
  intros E Hc HM HN Hr0 Hc0 Gr Gc Ht. pose proof (wt_make_ok _ _ _ E) as Hb.
  destruct (to_nat_pos _ Hc) as [k Hk]. assert (Ec : count = Z.of_nat (S k)) by lia. subst count. clear Hc Hk.
  pose proof (good_adm k r Hr0 Gr) as Ar. pose proof (good_adm k c Hc0 Gc) as Ac.
  assert (EN : N = @transp RA c M).
  { apply (@mat_ext RA c r); [exact HN|apply (@transp_wf RA c M r (proj1 HM))|]. intros j i Hj Hi. etransitivity; [apply (Ht i j Hi Hj)|].
    symmetry. apply (@transp_get RA c M i j Hj). exact (eq_ind_r (fun n => (i < n)%nat) Hi (proj1 HM)). }
  exists (@pure_wt RA bk DFloat inverse (S k) r c M), (@pure_wt RA bk DFloat inverse (S k) c r N).
  split; [apply (@transform2 RA bk Hb DFloat r c M k inverse); assumption|]. split; [apply (@transform2 RA bk Hb DFloat c r N k inverse); assumption|].
  assert (WY : @wf RA r c (@pure_wt RA bk DFloat inverse (S k) r c M)).
  { unfold pure_wt. destruct inverse; [apply pureS_wf|apply pureA_wf]; auto; [apply keeps_synthesis|apply keeps_analysis]. }
  assert (EZ : @pure_wt RA bk DFloat inverse (S k) c r N = @transp RA c (@pure_wt RA bk DFloat inverse (S k) r c M)).
  { rewrite EN. unfold pure_wt. destruct inverse.
    - apply (@pureS_transp RA _ (@keeps_synthesis RA DFloat _ _) (fun _ _ => True)); auto. intros k0 r0 c0 M0 _ H1 H2 H3.
      apply (comm_linear _ k0 r0 c0 M0); [apply (@keeps_synthesis RA)|intros h; apply linear_synthesis|assumption..].
    - apply (@pureA_transp RA _ (@keeps_analysis RA DFloat _ _) (fun _ _ => True)); auto. intros k0 r0 c0 M0 _ H1 H2 H3.
      apply (comm_linear _ k0 r0 c0 M0); [apply (@keeps_analysis RA)|intros h; apply linear_analysis|assumption..]. }
  split; [exact WY|]. rewrite EZ. split; [apply (@transp_wf RA c _ r (proj1 WY))|]. intros i j Hi Hj.
  apply (@transp_get RA c _ i j Hj). exact (eq_ind_r (fun n => (i < n)%nat) Hi (proj1 WY)).
Qed.
Print Assumptions C194_transpose.

(** In any arithmetic a matrix of one row, and one of one column, is transformed like the
    signal it holds. *)
Theorem C194_line (A : Arith) style order (bk : wbank A) dt count inverse (x : list A) :
  wt_make style order = Ok bk -> (0 < count)%Z -> x <> [] -> good_dim count (length x) ->
  exists y, wt_transform bk dt (ND1 x) count inverse = Ok (ND1 y) /\ length y = length x /\
    wt_transform bk dt (ND2 (length x) [x]) count inverse = Ok (ND2 (length x) [y]) /\
    wt_transform bk dt (ND2 1 (map (fun v => [v]) x)) count inverse = Ok (ND2 1 (map (fun v => [v]) y)).
Proof.
  intros E Hc Hx Hg. pose proof (wt_make_ok _ _ _ E) as Hb.
  destruct (to_nat_pos _ Hc) as [k Hk]. assert (Ec : count = Z.of_nat (S k)) by lia. subst count. clear Hc Hk.
  assert (Hl : length x <> 0%nat) by (destruct x; cbn; congruence). pose proof (good_adm k _ Hl Hg) as Ax.
  destruct (transform1 bk Hb dt x k inverse Hx Hg) as (y & E1 & E2). exists y. split; [exact E1|].
  assert (Hw : wf 1 (length x) [x]) by (split; [reflexivity|repeat constructor]).
  assert (W : wf 1 (length x) (pure_wt bk dt inverse (S k) 1 (length x) [x])).
  { unfold pure_wt. destruct inverse; [apply pureS_wf|apply pureA_wf]; auto; try (apply keeps_synthesis || apply keeps_analysis); left; reflexivity. }
  rewrite E2 in W. assert (Hy : length y = length x) by (destruct W as [_ W]; inversion W; assumption). split; [exact Hy|].
  assert (T : forall z : list A, transp (length z) [z] = map (fun v => [v]) z).
  { intros z. unfold transp. cbn [map]. apply (nth_ext _ _ [] []); [rewrite !map_length, seq_length; reflexivity|]. rewrite map_length, seq_length. intros n Hn.
    rewrite (nth_map_lt _ _ n 0%nat) by (rewrite seq_length; exact Hn). rewrite seq_nth by exact Hn. rewrite (nth_map_lt _ z n zero) by exact Hn. reflexivity. }
  split.
  - rewrite (transform2 bk Hb dt 1 (length x) [x] k inverse); [rewrite E2; reflexivity|lia|exact Hl|exact Hw|left; reflexivity|exact Hg].
  - rewrite <- T. pose proof (transp_wf (length x) [x] 1 eq_refl) as HT.
    rewrite (transform2 bk Hb dt (length x) 1 _ k inverse); [|exact Hl|lia|exact HT|exact Hg|left; reflexivity]. do 2 f_equal.
    rewrite <- (T y), Hy, <- E2. unfold pure_wt.
    assert (C : forall (f : list A -> list A) (k : nat) (r c : nat) (M : list (list A)), r = 1%nat -> adm (S k) r -> adm (S k) c -> wf r c M -> rows_if f c (cols_if f r c M) = cols_if f r c (rows_if f c M)).
    { intros f k0 r c M -> _ _ _. reflexivity. }
    destruct inverse.
    + apply (pureS_transp _ (keeps_synthesis dt _ _) (fun r _ => r = 1%nat)); try assumption; try reflexivity; [intros r c -> ; reflexivity|intros k0 r c M; apply C|left; reflexivity].
    + apply (pureA_transp _ (keeps_analysis dt _ _) (fun r _ => r = 1%nat)); try assumption; try reflexivity; [intros r c -> ; reflexivity|intros k0 r c M; apply C|left; reflexivity].
Qed.
Print Assumptions C194_line.

(** One level of an outer product is the outer product of the transformed factors. *)
Definition lift (n : nat) (f : list R -> list R) (l : list R) : list R := if (1 <? n)%nat then f l else l.
Lemma lift_scale n f a (l m : list R) : (forall h, linear_on (2 * S h) f) -> (n = 1%nat \/ exists h, n = (2 * S h)%nat) -> length l = n -> length m = n ->
  (forall i, (i < n)%nat -> nth i m 0 = a * nth i l 0) -> forall i, (i < n)%nat -> nth i (lift n f m) 0 = a * nth i (lift n f l) 0.
Proof.
  intros Hf Hn Hl Hm H i Hi. unfold lift. destruct Hn as [->|[h ->]]; [apply H, Hi|]. destruct (Nat.ltb_spec 1 (2 * S h)); [|lia].
  destruct (Hf h) as [K HK]. rewrite !HK by assumption. rewrite <- rsum_scal. apply rsum_ext. intros j Hj. rewrite H by exact Hj. ring.
Qed.
Lemma outer_level f k r c (u v : list R) (M : list (list R)) : @keeps_len RA f -> (forall h, linear_on (2 * S h) f) -> adm (S k) r -> adm (S k) c ->
  length u = r -> length v = c -> wfR r c M -> (forall i j, (i < r)%nat -> (j < c)%nat -> getR M i j = nth i u 0 * nth j v 0) ->
  forall i j, (i < r)%nat -> (j < c)%nat -> getR (@cols_if RA f r c (@rows_if RA f c M)) i j = nth i (lift r f u) 0 * nth j (lift c f v) 0.
Proof.
  intros Hf Hlin Hr Hc Hu Hv HM H. assert (Er := adm_even _ _ Hr). assert (Ec := adm_even _ _ Hc).
  set (X := @rows_if RA f c M). assert (WX : @wf RA r c X) by (eapply rows_if_wf; eauto).
  assert (HX : forall i j, (i < r)%nat -> (j < c)%nat -> getR X i j = nth i u 0 * nth j (lift c f v) 0).
  { intros i j Hi Hj. rewrite <- (lift_scale c f (nth i u 0) v (nth i M []) Hlin Ec Hv (@wf_row RA r c M i HM Hi)); [|intros q Hq; apply (H i q Hi Hq)|exact Hj].
    unfold X, rows_if, lift. destruct (1 <? c)%nat; [|reflexivity]. apply (get_rows f M i j). exact (eq_ind_r (fun n => (i < n)%nat) Hi (proj1 HM)). }
  intros i j Hi Hj. rewrite Rmult_comm. pose proof (@transp_wf RA c X r (proj1 WX)) as HT.
  rewrite <- (lift_scale r f (nth j (lift c f v) 0) u (nth j (@transp RA c X) []) Hlin Er Hu (@wf_row RA c r _ j HT Hj)); [| |exact Hi].
  - unfold cols_if, lift. destruct (1 <? r)%nat eqn:B.
    + unfold on_cols. apply Nat.ltb_lt in B. assert (HW : @wf RA c r (map f (@transp RA c X))) by (eapply cols_mid_wf; eauto).
      etransitivity; [apply (@transp_get RA r _ j i Hi (eq_ind_r (fun n => (j < n)%nat) Hj (proj1 HW)))|].
      apply (get_rows f _ j i). exact (eq_ind_r (fun n => (j < n)%nat) Hj (proj1 HT)).
    + symmetry. apply (@transp_get RA c X i j Hj). exact (eq_ind_r (fun n => (i < n)%nat) Hi (proj1 WX)).
  - intros q Hq. etransitivity; [apply (@transp_get RA c X q j Hj); exact (eq_ind_r (fun n => (q < n)%nat) Hq (proj1 WX))|].
    etransitivity; [apply (HX q j Hq Hj)|]. ring.
Qed.
Theorem C194_outer (style : string) (order : Z) (bk : wbank RA) (inverse : bool) (u v : list R) (M : list (list R)) :
  makeR style order = Ok bk -> u <> [] -> v <> [] -> good_dim 1 (length u) -> good_dim 1 (length v) -> wfR (length u) (length v) M ->
  (forall i j, (i < length u)%nat -> (j < length v)%nat -> getR M i j = nth i u 0 * nth j v 0) ->
  exists (a b : list R) (Y : list (list R)), transformR bk (ND1 (A := RA) u) 1 inverse = Ok (ND1 (A := RA) a) /\ transformR bk (ND1 (A := RA) v) 1 inverse = Ok (ND1 (A := RA) b) /\
    transformR bk (ND2 (A := RA) (length v) M) 1 inverse = Ok (ND2 (A := RA) (length v) Y) /\
    forall i j, (i < length u)%nat -> (j < length v)%nat -> getR Y i j = nth i a 0 * nth j b 0.
Proof.
  intros E Hu Hv Gu Gv HM H. pose proof (wt_make_ok _ _ _ E) as Hb.
  assert (Lu : length u <> 0%nat) by (destruct u; cbn; congruence). assert (Lv : length v <> 0%nat) by (destruct v; cbn; congruence).
  pose proof (good_adm 0 _ Lu Gu) as Au. pose proof (good_adm 0 _ Lv Gv) as Av.
  set (f := if inverse then sy bk else an bk).
  assert (Kf : @keeps_len RA f) by (unfold f; destruct inverse; [apply (@keeps_synthesis RA)|apply (@keeps_analysis RA)]).
  assert (Lf : forall h, linear_on (2 * S h) f) by (intros h; unfold f; destruct inverse; [apply linear_synthesis|apply linear_analysis]).
  assert (P : forall r c (X : list (list R)), adm 1 r -> adm 1 c -> @wf RA r c X ->
    @pure_wt RA bk DFloat inverse 1 r c X = @cols_if RA f r c (@rows_if RA f c X)).
  { intros r c X Hr Hc HX. destruct (adm_half _ _ Hr) as [_ Hr2]. destruct (adm_half _ _ Hc) as [_ Hc2]. unfold pure_wt, f. destruct inverse; cbn [pureA pureS].
    - rewrite (@set_block_same RA r c) by (assumption || lia). apply (comm_linear _ 0 r c X); [apply (@keeps_synthesis RA)|intros h; apply linear_synthesis|assumption..].
    - apply (@set_block_same RA r c); [|lia|lia]. apply (cols_if_wf _ 0); [apply (@keeps_analysis RA)|exact Hr|]. apply (rows_if_wf _ 0); [apply (@keeps_analysis RA)|exact Hc|exact HX]. }
  assert (P1 : forall x : list R, x <> [] -> good_dim 1 (length x) -> transformR bk (ND1 (A := RA) x) 1 inverse = Ok (ND1 (A := RA) (lift (length x) f x))).
  { intros x Hx Gx. assert (Lx : length x <> 0%nat) by (destruct x; cbn; congruence).
    destruct (@transform1 RA bk Hb DFloat x 0 inverse Hx Gx) as (y & T1 & T2). etransitivity; [exact T1|]. do 2 f_equal.
    pose proof (P 1%nat (length x) [x] (or_introl eq_refl) (good_adm 0 _ Lx Gx) (conj eq_refl (Forall_cons _ eq_refl (Forall_nil _)))) as PP.
    apply (f_equal (hd [])) in T2. cbn [hd] in T2. rewrite <- T2. etransitivity; [exact (f_equal (hd []) PP)|].
    unfold lift, rows_if, cols_if. change (1 <? 1)%nat with false. cbv iota. change (@length (carrier RA) x) with (length x). destruct (1 <? length x)%nat; reflexivity. }
  exists (lift (length u) f u), (lift (length v) f v), (@cols_if RA f (length u) (length v) (@rows_if RA f (length v) M)).
  split; [apply P1; assumption|]. split; [apply P1; assumption|]. split.
  - etransitivity; [apply (@transform2 RA bk Hb DFloat (length u) (length v) M 0 inverse Lu Lv HM Gu Gv)|]. do 2 f_equal. apply P; assumption.
  - apply (outer_level f 0); auto.
Qed.
Print Assumptions C194_outer.
Example C194_example : exists bk, makeR "Daubechies" 3 = Ok bk /\ wfR 2 4 [[1; 2; 3; 4]; [2; 4; 6; 8]] /\ wfR 4 2 [[1; 2]; [2; 4]; [3; 6]; [4; 8]] /\
  good_dim 1 2 /\ good_dim 1 4 /\
  (forall i j, (i < 2)%nat -> (j < 4)%nat -> getR [[1; 2]; [2; 4]; [3; 6]; [4; 8]] j i = getR [[1; 2; 3; 4]; [2; 4; 6; 8]] i j) /\
  (forall i j, (i < 2)%nat -> (j < 4)%nat -> getR [[1; 2; 3; 4]; [2; 4; 6; 8]] i j = nth i [1; 2] 0 * nth j [1; 2; 3; 4] 0).
Proof.
  destruct (makeR "Daubechies" 3) as [bk|e] eqn:E; [exists bk|exfalso; discriminate E]. split; [reflexivity|].
  split; [split; [reflexivity|repeat constructor]|]. split; [split; [reflexivity|repeat constructor]|]. split; [right; reflexivity|]. split; [right; reflexivity|].
  split; intros i j Hi Hj; destruct i as [|[|i]]; try lia; destruct j as [|[|[|[|j]]]]; try lia; cbn; lra.
Qed.
