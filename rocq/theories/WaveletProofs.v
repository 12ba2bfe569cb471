(** Proofs about the wavelet transform: shapes, recursion, in any arithmetic. *)
From Coq Require Import List Arith ZArith Lia Bool.
From Verif Require Import Base BaseLemmas FirModel FirSpec FirProofs WaveletModel.
Import ListNotations.
Set Asymmetric Patterns.

Lemma mapM_ok {X Y} (f : X -> res Y) (g : X -> Y) l :
  (forall x, In x l -> f x = Ok (g x)) -> mapM f l = Ok (map g l).
Proof.
  induction l as [|x l IH]; intros H; [reflexivity|].
  change (mapM f (x :: l)) with (bind (f x) (fun y => bind (mapM f l) (fun ys => Ok (y :: ys)))).
  rewrite H by (left; reflexivity). cbn [bind]. rewrite IH by (intros; apply H; right; assumption). reflexivity.
Qed.

Section Lists.
  Context {A : Arith}.
  Implicit Types l x y u : list A.

  Lemma every2_length l : length (every2 l) = (length l + 1) / 2.
  Proof.
    assert (H : forall n l, length l <= n -> length (every2 l) = (length l + 1) / 2).
    { induction n as [|n IH]; intros [|a [|b r]] Hl; try reflexivity; cbn [length] in Hl; try lia.
      cbn [every2 length]. rewrite IH by lia.
      replace (S (S (length r)) + 1) with (length r + 1 + 1 * 2) by lia. rewrite Nat.div_add by lia. lia. }
    apply (H (length l)). lia.
  Qed.
  Lemma every2_nth l i : nth i (every2 l) zero = nth (2 * i) l zero.
  Proof.
    revert l. induction i as [|i IH]; intros [|a [|b r]]; try reflexivity.
    - cbn [every2]. replace (2 * S i) with (S (S (2 * i))) by lia. cbn [nth]. destruct i; reflexivity.
    - cbn [every2]. replace (2 * S i) with (S (S (2 * i))) by lia. cbn [nth]. apply IH.
  Qed.
  Lemma tl_nth l i : nth i (tl l) zero = nth (S i) l zero.
  Proof. destruct l; [destruct i; reflexivity|reflexivity]. Qed.
  Lemma tl_length l : length (tl l) = length l - 1.
  Proof. destruct l; cbn; lia. Qed.
  Lemma odds_length u h : length u = 2 * h -> length (every2 (tl u)) = h.
  Proof.
    intros H. rewrite every2_length, tl_length, H. destruct h as [|h]; [reflexivity|].
    replace (2 * S h - 1 + 1) with (S h * 2) by lia. apply Nat.div_mul. lia.
  Qed.
  Lemma upsample_length y : length (@upsample A y) = 2 * length y.
  Proof. induction y as [|v y IH]; [reflexivity|]. unfold upsample in *. cbn [flat_map app length]. rewrite IH. lia. Qed.
  Lemma upsample_even y j : j < length y -> nth (2 * j) (@upsample A y) zero = cast DFloat (nth j y zero).
  Proof.
    revert j. induction y as [|v y IH]; intros j Hj; [cbn in Hj; lia|]. destruct j as [|j]; [reflexivity|].
    replace (2 * S j) with (S (S (2 * j))) by lia. unfold upsample in *. cbn [flat_map app nth]. apply IH. cbn in Hj; lia.
  Qed.
  Lemma upsample_odd y j : nth (2 * j + 1) (@upsample A y) zero = zero.
  Proof.
    revert j. induction y as [|v y IH]; intros j; [destruct (2 * j + 1); reflexivity|]. destruct j as [|j]; [reflexivity|].
    replace (2 * S j + 1) with (S (S (2 * j + 1))) by lia. unfold upsample in *. cbn [flat_map app nth]. apply IH.
  Qed.

  (** ** One line *)
  Definition zf (b x : list A) : list A := fir_ys DFloat b (zeros (length b)) x.
  Definition pure_analysis dt (b0 b1 x : list A) : list A :=
    map (cast dt) (every2 (tl (zf b0 x))) ++ map (cast dt) (every2 (tl (zf b1 x))).
  Definition pure_synthesis dt (b0 b1 y : list A) : list A :=
    let h := length y / 2 in
    map (cast dt) (map2 add (map2 add (zeros (length y)) (map (mul (add one one)) (zf b0 (upsample (firstn h y)))))
                                      (map (mul (add one one)) (zf b1 (upsample (firstn h (skipn h y)))))).

  Definition is_float_fir (b : list A) (f : fir A) : Prop := fdt f = DFloat /\ fb f = b /\ length (fs f) = length b /\ b <> [].

  Lemma fir_make_float b : b <> [] -> exists f, fir_make (mkArr DFloat b) (mkArr DFloat []) = Ok f /\ is_float_fir b f.
  Proof.
    intros Hb. unfold fir_make. cbn [els adt length]. destruct (Nat.eqb_spec (length b) 0) as [C|C]; [destruct b; cbn in C; congruence|].
    destruct (Nat.ltb_spec (length b) 0); [lia|]. cbn [els adt]. eexists. split; [reflexivity|].
    unfold is_float_fir. cbn [fdt fb fs]. repeat split; [|exact Hb].
    destruct (Nat.ltb_spec 0 (length b)); [|lia]. rewrite map_length, app_length. unfold zeros. rewrite repeat_length. cbn. lia.
  Qed.
  Lemma fir_make_empty : @fir_make A (mkArr DFloat []) (mkArr DFloat []) = Err ValueError.
  Proof. reflexivity. Qed.

  Lemma zfilter_eq b f x : is_float_fir b f -> x <> [] -> zfilter f x = Ok (zf b x).
  Proof.
    intros (H1 & H2 & H3 & H4) Hx. unfold zfilter. rewrite fir_filter_eq.
    - cbn [snd with_s fdt fb fs]. rewrite H1, H2, H3. reflexivity.
    - cbn. congruence.
    - cbn. unfold zeros. rewrite repeat_length. congruence.
    - exact Hx.
  Qed.
  Lemma zf_length b x : length (zf b x) = length x.
  Proof. apply length_fir_ys. Qed.

  Lemma pure_analysis_length dt b0 b1 x h : length x = 2 * h -> length (pure_analysis dt b0 b1 x) = 2 * h.
  Proof. intros H. unfold pure_analysis. rewrite app_length, !map_length, !(odds_length _ h) by (rewrite zf_length; exact H). lia. Qed.
  Lemma pure_synthesis_length dt b0 b1 y h : length y = 2 * h -> length (pure_synthesis dt b0 b1 y) = 2 * h.
  Proof.
    intros H. unfold pure_synthesis. rewrite map_length, !length_map2, !map_length, !zf_length, !upsample_length.
    unfold zeros. rewrite repeat_length. rewrite H. replace (2 * h / 2) with h by (rewrite Nat.mul_comm, Nat.div_mul; lia).
    rewrite !firstn_length, skipn_length, H. lia.
  Qed.

  Lemma line_analysis_eq dt b0 b1 f0 f1 x : is_float_fir b0 f0 -> is_float_fir b1 f1 -> x <> [] ->
    line_analysis dt f0 f1 x = Ok (pure_analysis dt b0 b1 x).
  Proof. intros H0 H1 Hx. unfold line_analysis. rewrite (zfilter_eq b0 f0), (zfilter_eq b1 f1) by assumption. reflexivity. Qed.
  Lemma line_synthesis_eq dt b0 b1 f0 f1 y h : is_float_fir b0 f0 -> is_float_fir b1 f1 -> length y = 2 * S h ->
    line_synthesis dt f0 f1 y = Ok (pure_synthesis dt b0 b1 y).
  Proof.
    intros H0 H1 Hy. unfold line_synthesis. assert (E : length y / 2 = S h) by (rewrite Hy, Nat.mul_comm, Nat.div_mul; lia).
    rewrite (zfilter_eq b0 f0), (zfilter_eq b1 f1); try assumption; [reflexivity| |].
    - intros C. apply (f_equal (@length A)) in C. rewrite upsample_length, firstn_length, skipn_length, E, Hy in C. cbn [length] in C. lia.
    - intros C. apply (f_equal (@length A)) in C. rewrite upsample_length, firstn_length, E, Hy in C. cbn [length] in C. lia.
  Qed.

  (** ** Matrices *)
  Definition wf (r c : nat) (M : list (list A)) : Prop := length M = r /\ Forall (fun row => length row = c) M.
  Definition mget (M : list (list A)) i j : A := nth j (nth i M []) zero.

  Lemma wf_row r c M i : wf r c M -> i < r -> length (nth i M []) = c.
  Proof. intros [H1 H2] Hi. rewrite Forall_forall in H2. apply H2. apply nth_In. lia. Qed.
  Lemma mat_ext r c M N : wf r c M -> wf r c N -> (forall i j, i < r -> j < c -> mget M i j = mget N i j) -> M = N.
  Proof.
    intros HM HN H. apply (nth_ext _ _ [] []); [destruct HM, HN; congruence|]. intros i Hi.
    assert (Hr : i < r) by (destruct HM; lia). apply (nth_ext _ _ zero zero).
    - rewrite (wf_row r c M i HM Hr), (wf_row r c N i HN Hr). reflexivity.
    - intros j Hj. rewrite (wf_row r c M i HM Hr) in Hj. apply H; assumption.
  Qed.
  Lemma transp_wf c M r : length M = r -> wf c r (transp c M).
  Proof.
    intros H. split; [unfold transp; rewrite map_length, seq_length; reflexivity|].
    unfold transp. rewrite Forall_forall. intros l Hl. apply in_map_iff in Hl. destruct Hl as (j & <- & _). rewrite map_length. exact H.
  Qed.
  Lemma transp_get c M i j : j < c -> i < length M -> mget (transp c M) j i = mget M i j.
  Proof.
    intros Hj Hi. unfold mget, transp. rewrite (nth_map_seq (fun j => map (fun row => nth j row zero) M)) by exact Hj.
    rewrite (nth_map_lt (fun row => nth j row zero) M i []) by exact Hi. reflexivity.
  Qed.
  Lemma transp_invol r c M : wf r c M -> transp r (transp c M) = M.
  Proof.
    intros H. pose proof (proj1 H) as HL. pose proof (transp_wf c M r HL) as HT. apply (mat_ext r c); [apply transp_wf; apply HT|exact H|].
    intros i j Hi Hj. rewrite transp_get; [|exact Hi|destruct HT; lia]. apply transp_get; lia.
  Qed.
  Lemma transp_inj r c M N : wf r c M -> wf r c N -> transp c M = transp c N -> M = N.
  Proof. intros HM HN E. rewrite <- (transp_invol r c M HM), <- (transp_invol r c N HN), E. reflexivity. Qed.

  Lemma map_wf r c M (f : list A -> list A) : (forall l, length l = c -> length (f l) = c) -> wf r c M -> wf r c (map f M).
  Proof.
    intros Hf [H1 H2]. split; [rewrite map_length; exact H1|]. rewrite Forall_forall in *. intros l Hl.
    apply in_map_iff in Hl. destruct Hl as (l0 & <- & Hl0). apply Hf, H2, Hl0.
  Qed.

  Lemma block_wf r c ii jj M : wf r c M -> ii <= r -> jj <= c -> wf ii jj (block ii jj M).
  Proof.
    intros [H1 H2] Hi Hj. unfold block. split; [rewrite map_length, firstn_length; lia|].
    rewrite Forall_forall in *. intros l Hl. apply in_map_iff in Hl. destruct Hl as (l0 & <- & Hl0).
    rewrite firstn_length, H2; [lia|]. rewrite <- (firstn_skipn ii M). apply in_or_app. auto.
  Qed.
  Lemma block_get r c ii jj M i j : wf r c M -> ii <= r -> i < ii -> j < jj -> mget (block ii jj M) i j = mget M i j.
  Proof.
    intros [H1 H2] Hi Hii Hjj. unfold mget, block. rewrite (nth_map_lt _ _ i []) by (rewrite firstn_length; lia).
    rewrite nth_firstn by exact Hjj. rewrite nth_firstn by exact Hii. reflexivity.
  Qed.
  Lemma set_block_wf r c ii jj B M : wf r c M -> wf ii jj B -> ii <= r -> jj <= c -> wf r c (set_block ii jj B M).
  Proof.
    intros HM HB Hi Hj. destruct HM as [H1 H2], HB as [H3 H4]. unfold set_block. split.
    - rewrite app_length, length_map2, firstn_length, skipn_length. lia.
    - apply Forall_app. split; [|apply Forall_forall; intros l Hl; rewrite Forall_forall in H2; apply H2; rewrite <- (firstn_skipn ii M); apply in_or_app; auto].
      assert (HF : Forall (fun row => length row = c) (firstn ii M)) by (apply Forall_firstn, H2).
      clear H1 H2 H3. revert HF H4. generalize (firstn ii M). clear - Hj. intros N. revert N.
      induction B as [|b B IH]; intros [|m N] HF HB; cbn [map2]; try constructor.
      + inversion HF; inversion HB; subst. rewrite app_length, skipn_length. lia.
      + inversion HF; inversion HB; subst. apply IH; assumption.
  Qed.
  Lemma set_block_get r c ii jj B M i j : wf r c M -> wf ii jj B -> ii <= r -> jj <= c -> i < r -> j < c ->
    mget (set_block ii jj B M) i j = if (i <? ii) && (j <? jj) then mget B i j else mget M i j.
  Proof.
    intros HM HB Hi Hj Hri Hcj. pose proof (proj1 HM) as H1. pose proof (proj1 HB) as H3. unfold mget, set_block.
    destruct (Nat.ltb_spec i ii) as [C|C].
    - rewrite app_nth1 by (rewrite length_map2, firstn_length; lia).
      rewrite (nth_map2 (fun b row => b ++ skipn jj row) B (firstn ii M) i [] [] []) by (rewrite ?firstn_length; lia).
      rewrite nth_firstn by exact C. pose proof (wf_row _ _ B i HB C) as HL.
      destruct (Nat.ltb_spec j jj); cbn [andb].
      + apply app_nth1. lia.
      + rewrite app_nth2 by lia. rewrite nth_skipn_add, HL. f_equal. lia.
    - cbn [andb]. rewrite app_nth2 by (rewrite length_map2, firstn_length; lia). rewrite length_map2, firstn_length, nth_skipn_add.
      f_equal. f_equal. lia.
  Qed.
  Lemma set_block_same r c ii jj M : wf r c M -> ii <= r -> jj <= c -> set_block ii jj (block ii jj M) M = M.
  Proof.
    intros HM Hi Hj. pose proof (block_wf _ _ _ _ _ HM Hi Hj) as HB. apply (mat_ext r c); [apply set_block_wf; assumption|exact HM|].
    intros i j Hri Hcj. rewrite (set_block_get r c) by assumption.
    destruct (Nat.ltb_spec i ii), (Nat.ltb_spec j jj); cbn [andb]; try reflexivity. apply (block_get r c); assumption.
  Qed.
  Lemma block_set r c ii jj B M : wf r c M -> wf ii jj B -> ii <= r -> jj <= c -> block ii jj (set_block ii jj B M) = B.
  Proof.
    intros HM HB Hi Hj. pose proof (set_block_wf _ _ _ _ _ _ HM HB Hi Hj) as HS. apply (mat_ext ii jj); [apply (block_wf r c); assumption|exact HB|].
    intros i j Hri Hcj. rewrite (block_get r c) by assumption. rewrite (set_block_get r c) by (assumption || lia).
    destruct (Nat.ltb_spec i ii), (Nat.ltb_spec j jj); cbn [andb]; try reflexivity; lia.
  Qed.
  Lemma set_block_twice r c ii jj B C M : wf r c M -> wf ii jj B -> wf ii jj C -> ii <= r -> jj <= c ->
    set_block ii jj C (set_block ii jj B M) = set_block ii jj C M.
  Proof.
    intros HM HB HC Hi Hj. pose proof (set_block_wf _ _ _ _ _ _ HM HB Hi Hj) as HS.
    apply (mat_ext r c); [apply set_block_wf; assumption..|]. intros i j Hri Hcj. rewrite !(set_block_get r c) by assumption.
    destruct ((i <? ii) && (j <? jj)); reflexivity.
  Qed.

  (** ** The recursion, without exceptions *)
  Definition half r := Nat.max (r / 2) 1.
  (** Admissible dimension at [count] levels. *)
  Definition adm count r : Prop := r = 1 \/ (r <> 0 /\ r mod 2 ^ count = 0).

  Lemma adm_even count r : adm (S count) r -> r = 1 \/ exists h, r = 2 * S h.
  Proof.
    intros [H|[H1 H2]]; [left; exact H|right]. rewrite Nat.mod_divides in H2 by (apply Nat.pow_nonzero; lia).
    destruct H2 as [k Hk]. rewrite Nat.pow_succ_r' in Hk. exists (2 ^ count * k - 1).
    assert (2 ^ count * k <> 0). { intros C. rewrite <- Nat.mul_assoc, C in Hk. lia. } rewrite Hk. lia.
  Qed.
  Lemma adm_half count r : adm (S count) r -> adm count (half r) /\ 1 <= half r <= r.
  Proof.
    intros [->|[H1 H2]]; [split; [left; reflexivity|cbn; lia]|].
    rewrite Nat.mod_divides in H2 by (apply Nat.pow_nonzero; lia). destruct H2 as [k Hk]. rewrite Nat.pow_succ_r' in Hk.
    assert (E : r / 2 = 2 ^ count * k). { rewrite Hk. replace (2 * 2 ^ count * k) with (2 ^ count * k * 2) by lia. apply Nat.div_mul. lia. }
    assert (2 ^ count * k <> 0). { intros C. rewrite <- Nat.mul_assoc, C in Hk. lia. }
    unfold half. rewrite E, Nat.max_l by lia. split.
    - right. split; [assumption|]. rewrite Nat.mul_comm. apply Nat.mod_mul, Nat.pow_nonzero. lia.
    - lia.
  Qed.
  Lemma adm_round count r : adm count r -> Nat.max (r / 2 ^ count * 2 ^ count) 1 = r.
  Proof.
    intros [->|[H1 H2]].
    - destruct count as [|count]; [reflexivity|]. rewrite Nat.div_small; [reflexivity|]. rewrite Nat.pow_succ_r'. pose proof (Nat.pow_nonzero 2 count). lia.
    - pose proof (Nat.div_mod r (2 ^ count)). rewrite H2 in H. rewrite Nat.mul_comm.
      assert (2 ^ count <> 0) by (apply Nat.pow_nonzero; lia). specialize (H H0). lia.
  Qed.

  Definition on_cols (f : list A -> list A) r c M := transp r (map f (transp c M)).
  Definition rows_if f c (M : list (list A)) := if Nat.ltb 1 c then map f M else M.
  Definition cols_if f r c M := if Nat.ltb 1 r then on_cols f r c M else M.

  Fixpoint pureA (f : list A -> list A) count r c M :=
    match count with
    | 0 => M
    | S k => let M2 := cols_if f r c (rows_if f c M) in
             set_block (half r) (half c) (pureA f k (half r) (half c) (block (half r) (half c) M2)) M2
    end.
  Fixpoint pureS (f : list A -> list A) count r c M :=
    match count with
    | 0 => M
    | S k => let M1 := set_block (half r) (half c) (pureS f k (half r) (half c) (block (half r) (half c) M)) M in
             rows_if f c (cols_if f r c M1)
    end.

  (** A line operation that keeps the length of even lines. *)
  Definition keeps_len (f : list A -> list A) := forall l h, length l = 2 * S h -> length (f l) = 2 * S h.

  Lemma rows_if_wf f count r c M : keeps_len f -> adm (S count) c -> wf r c M -> wf r c (rows_if f c M).
  Proof.
    intros Hf Hc HM. unfold rows_if. destruct (Nat.ltb_spec 1 c); [|exact HM]. destruct (adm_even _ _ Hc) as [C|[h C]]; [lia|].
    apply map_wf; [|exact HM]. intros l Hl. rewrite C in *. apply Hf, Hl.
  Qed.
  Lemma cols_if_wf f count r c M : keeps_len f -> adm (S count) r -> wf r c M -> wf r c (cols_if f r c M).
  Proof.
    intros Hf Hc HM. unfold cols_if. destruct (Nat.ltb_spec 1 r); [|exact HM].
    unfold on_cols. apply transp_wf. rewrite map_length. apply (transp_wf c M r (proj1 HM)).
  Qed.
  Lemma cols_mid_wf f count r c M : keeps_len f -> adm (S count) r -> 1 < r -> wf r c M -> wf c r (map f (transp c M)).
  Proof.
    intros Hf Hr H1 HM. destruct (adm_even _ _ Hr) as [C|[h C]]; [lia|]. apply map_wf; [|apply transp_wf, HM].
    intros l Hl. rewrite C in *. apply Hf, Hl.
  Qed.
  Lemma pureA_wf f : keeps_len f -> forall count r c M, adm count r -> adm count c -> wf r c M -> wf r c (pureA f count r c M).
  Proof.
    intros Hf. induction count as [|k IH]; intros r c M Hr Hc HM; [exact HM|]. cbn [pureA].
    destruct (adm_half _ _ Hr) as [Hr1 Hr2]. destruct (adm_half _ _ Hc) as [Hc1 Hc2].
    assert (H2 : wf r c (cols_if f r c (rows_if f c M))) by (eapply cols_if_wf; eauto; eapply rows_if_wf; eauto).
    apply set_block_wf; [exact H2| |lia|lia]. apply IH; [assumption..|]. apply (block_wf r c); [exact H2|lia|lia].
  Qed.
  Lemma pureS_wf f : keeps_len f -> forall count r c M, adm count r -> adm count c -> wf r c M -> wf r c (pureS f count r c M).
  Proof.
    intros Hf. induction count as [|k IH]; intros r c M Hr Hc HM; [exact HM|]. cbn [pureS].
    destruct (adm_half _ _ Hr) as [Hr1 Hr2]. destruct (adm_half _ _ Hc) as [Hc1 Hc2].
    eapply rows_if_wf; eauto. eapply cols_if_wf; eauto.
    apply set_block_wf; [exact HM| |lia|lia]. apply IH; [assumption..|]. apply (block_wf r c); [exact HM|lia|lia].
  Qed.

  (** Perfect reconstruction of lines lifts to matrices and to all levels. *)
  Lemma rows_if_inv f g count r c M : (forall l h, length l = 2 * S h -> g (f l) = l) -> adm (S count) c -> wf r c M ->
    rows_if g c (rows_if f c M) = M.
  Proof.
    intros H Hc HM. unfold rows_if. destruct (Nat.ltb_spec 1 c); [|reflexivity]. destruct (adm_even _ _ Hc) as [C|[h C]]; [lia|].
    rewrite map_map. rewrite <- (map_id M) at 2. apply map_ext_in. intros l Hl. destruct HM as [_ HM]. rewrite Forall_forall in HM.
    apply (H l h). rewrite (HM l Hl). exact C.
  Qed.
  Lemma cols_if_inv f g count r c M : keeps_len f -> (forall l h, length l = 2 * S h -> g (f l) = l) -> adm (S count) r -> wf r c M ->
    cols_if g r c (cols_if f r c M) = M.
  Proof.
    intros Hf H Hr HM. unfold cols_if. destruct (Nat.ltb_spec 1 r) as [H1|H1]; [|reflexivity]. unfold on_cols.
    rewrite (transp_invol c r) by (eapply cols_mid_wf; eauto).
    pose proof (transp_wf c M r (proj1 HM)) as HT. pose proof (rows_if_inv f g count c r (transp c M) H Hr HT) as E.
    unfold rows_if in E. destruct (Nat.ltb_spec 1 r); [|lia]. rewrite E. apply transp_invol, HM.
  Qed.
  Lemma pure_reconstruct f g : keeps_len f -> keeps_len g -> (forall l h, length l = 2 * S h -> g (f l) = l) ->
    forall count r c M, adm count r -> adm count c -> wf r c M -> pureS g count r c (pureA f count r c M) = M.
  Proof.
    intros Hf Hg H. induction count as [|k IH]; intros r c M Hr Hc HM; [reflexivity|]. cbn [pureS pureA].
    destruct (adm_half _ _ Hr) as [Hr1 Hr2]. destruct (adm_half _ _ Hc) as [Hc1 Hc2].
    assert (H1 : wf r c (rows_if f c M)) by (eapply rows_if_wf; eauto).
    assert (H2 : wf r c (cols_if f r c (rows_if f c M))) by (eapply cols_if_wf; eauto).
    set (M2 := cols_if f r c (rows_if f c M)) in *.
    assert (HB : wf (half r) (half c) (block (half r) (half c) M2)) by (apply (block_wf r c); [exact H2|lia|lia]).
    assert (HP : wf (half r) (half c) (pureA f k (half r) (half c) (block (half r) (half c) M2))) by (apply pureA_wf; assumption).
    rewrite (block_set r c) by (assumption || lia). rewrite IH by assumption.
    rewrite (set_block_twice r c) by (assumption || lia). rewrite (set_block_same r c) by (assumption || lia).
    unfold M2. rewrite (cols_if_inv f g k) by assumption. apply (rows_if_inv f g k r); assumption.
  Qed.

  (** ** The model equals the pure recursion *)
  Definition bank_ok (bk : wbank A) : Prop := ba0 bk <> [] /\ ba1 bk <> [] /\ bs0 bk <> [] /\ bs1 bk <> [].
  Lemma keeps_analysis dt b0 b1 : keeps_len (pure_analysis dt b0 b1).
  Proof. intros l h Hl. apply pure_analysis_length, Hl. Qed.
  Lemma keeps_synthesis dt b0 b1 : keeps_len (pure_synthesis dt b0 b1).
  Proof. intros l h Hl. apply pure_synthesis_length, Hl. Qed.

  Definition dim_bad count r : bool := negb (r =? 1) && negb (r mod 2 ^ count =? 0).
  Lemma dim_bad_iff count r : r <> 0 -> dim_bad count r = false <-> adm count r.
  Proof.
    intros Hr. unfold dim_bad, adm. destruct (Nat.eqb_spec r 1); destruct (Nat.eqb_spec (r mod 2 ^ count) 0); cbn [negb andb]; split; intros; auto; try discriminate.
    destruct H as [H|[_ H]]; congruence.
  Qed.

  Lemma rows_step f (line : list A -> res (list A)) count r c M : adm (S count) c -> wf r c M ->
    (forall l h, length l = 2 * S h -> line l = Ok (f l)) ->
    (if Nat.ltb 1 c then mapM line M else Ok M) = Ok (rows_if f c M).
  Proof.
    intros Hc HM H. unfold rows_if. destruct (Nat.ltb_spec 1 c); [|reflexivity]. destruct (adm_even _ _ Hc) as [C|[h C]]; [lia|].
    apply mapM_ok. intros l Hl. destruct HM as [_ HM]. rewrite Forall_forall in HM. apply (H l h). rewrite (HM l Hl). exact C.
  Qed.
  Lemma cols_step f (line : list A -> res (list A)) count r c M : adm (S count) r -> adm (S count) c -> wf r c M ->
    (forall l h, length l = 2 * S h -> line l = Ok (f l)) ->
    (if Nat.ltb 1 r then if c =? 0 then Err IndexError else map_cols line c r M else Ok M) = Ok (cols_if f r c M).
  Proof.
    intros Hr Hc HM H. unfold cols_if. destruct (Nat.ltb_spec 1 r); [|reflexivity].
    destruct (Nat.eqb_spec c 0) as [C|C]; [destruct Hc as [Hc|[Hc _]]; lia|].
    unfold map_cols, on_cols. pose proof (rows_step f line count c r (transp c M) Hr (transp_wf c M r (proj1 HM)) H) as E.
    unfold rows_if in E. destruct (Nat.ltb_spec 1 r); [|lia]. rewrite E. reflexivity.
  Qed.

  Definition pure_wt (bk : wbank A) dt (inverse : bool) count r c M :=
    if inverse then pureS (pure_synthesis dt (bs0 bk) (bs1 bk)) count r c M
    else pureA (pure_analysis dt (ba0 bk) (ba1 bk)) count r c M.

  Lemma wt_mat_ok bk dt inverse : bank_ok bk -> forall count r c M, adm (S count) r -> adm (S count) c -> wf r c M ->
    wt_mat bk dt inverse (S count) c M = Ok (pure_wt bk dt inverse (S count) r c M).
  Proof.
    intros (K0 & K1 & K2 & K3). induction count as [|k IH]; intros r c M Hr Hc HM.
    all: pose proof (proj1 HM) as HL; assert (Hr0 : r <> 0) by (destruct Hr as [Hr|[Hr _]]; lia);
      assert (Hc0 : c <> 0) by (destruct Hc as [Hc|[Hc _]]; lia);
      destruct (adm_half _ _ Hr) as [Hr1 Hr2]; destruct (adm_half _ _ Hc) as [Hc1 Hc2].
    all: remember (S k) as k1 eqn:Ek1 in * || idtac.
    all: cbn [wt_mat].
    all: rewrite HL.
    - change (negb (r =? 1) && negb (r mod 2 ^ 1 =? 0)) with (dim_bad 1 r). change (negb (c =? 1) && negb (c mod 2 ^ 1 =? 0)) with (dim_bad 1 c).
      rewrite (proj2 (dim_bad_iff 1 r Hr0) Hr), (proj2 (dim_bad_iff 1 c Hc0) Hc). cbn [orb].
      rewrite !(adm_round 1) by assumption.
      destruct inverse.
      + destruct (fir_make_float _ K2) as (f0 & E0 & F0). destruct (fir_make_float _ K3) as (f1 & E1 & F1). rewrite E0, E1. change (0 <? 0) with false; cbn [bind negb].
        set (g := pure_synthesis dt (bs0 bk) (bs1 bk)).
        assert (Hg : forall l h, length l = 2 * S h -> line_synthesis dt f0 f1 l = Ok (g l)) by (intros; eapply line_synthesis_eq; eauto).
        rewrite (cols_step g _ 0 r c M Hr Hc HM Hg). cbn [bind].
        rewrite (rows_step g _ 0 r c _ Hc); [|eapply cols_if_wf; [apply keeps_synthesis|exact Hr|exact HM]|exact Hg].
        unfold pure_wt. cbn [pureS]. rewrite (set_block_same r c) by (assumption || lia). reflexivity.
      + destruct (fir_make_float _ K0) as (f0 & E0 & F0). destruct (fir_make_float _ K1) as (f1 & E1 & F1). rewrite E0, E1. change (0 <? 0) with false; cbn [bind negb].
        set (g := pure_analysis dt (ba0 bk) (ba1 bk)).
        assert (Hg : forall l h, length l = 2 * S h -> line_analysis dt f0 f1 l = Ok (g l)).
        { intros l h Hl. apply line_analysis_eq; [assumption..|]. intros C. subst l. cbn in Hl. lia. }
        rewrite (rows_step g _ 0 r c M Hc HM Hg). cbn [bind].
        assert (H1 : wf r c (rows_if g c M)) by (eapply rows_if_wf; [apply keeps_analysis|exact Hc|exact HM]).
        rewrite (cols_step g _ 0 r c _ Hr Hc H1 Hg). cbn [bind].
        unfold pure_wt. cbn [pureA]. rewrite (set_block_same r c); [reflexivity| |lia|lia].
        eapply cols_if_wf; [apply keeps_analysis|exact Hr|exact H1].
    - change (negb (r =? 1) && negb (r mod 2 ^ S k1 =? 0)) with (dim_bad (S k1) r). change (negb (c =? 1) && negb (c mod 2 ^ S k1 =? 0)) with (dim_bad (S k1) c).
      rewrite (proj2 (dim_bad_iff (S k1) r Hr0) Hr), (proj2 (dim_bad_iff (S k1) c Hc0) Hc). cbn [orb].
      rewrite !(adm_round (S k1)) by assumption. fold (half r) (half c).
      assert (Hmin : Nat.min (half c) c = half c) by lia. rewrite Hmin.
      assert (Hk : (0 <? k1) = true) by (apply Nat.ltb_lt; lia). rewrite Hk.
      destruct inverse.
      + destruct (fir_make_float _ K2) as (f0 & E0 & F0). destruct (fir_make_float _ K3) as (f1 & E1 & F1). rewrite E0, E1. cbn [bind negb].
        set (g := pure_synthesis dt (bs0 bk) (bs1 bk)).
        assert (Hg : forall l h, length l = 2 * S h -> line_synthesis dt f0 f1 l = Ok (g l)) by (intros; eapply line_synthesis_eq; eauto).
        assert (HB : wf (half r) (half c) (block (half r) (half c) M)) by (apply (block_wf r c); [exact HM|lia|lia]).
        rewrite (IH (half r) (half c) _ Hr1 Hc1 HB). cbn [bind].
        assert (HP : wf (half r) (half c) (pure_wt bk dt true k1 (half r) (half c) (block (half r) (half c) M))) by (apply pureS_wf; [apply keeps_synthesis|assumption..]).
        assert (HS : wf r c (set_block (half r) (half c) (pure_wt bk dt true k1 (half r) (half c) (block (half r) (half c) M)) M)) by (apply set_block_wf; [exact HM|exact HP|lia|lia]).
        rewrite (cols_step g _ k1 r c _ Hr Hc HS Hg). cbn [bind].
        rewrite (rows_step g _ k1 r c _ Hc); [reflexivity|eapply cols_if_wf; [apply keeps_synthesis|exact Hr|exact HS]|exact Hg].
      + destruct (fir_make_float _ K0) as (f0 & E0 & F0). destruct (fir_make_float _ K1) as (f1 & E1 & F1). rewrite E0, E1. cbn [bind negb].
        set (g := pure_analysis dt (ba0 bk) (ba1 bk)).
        assert (Hg : forall l h, length l = 2 * S h -> line_analysis dt f0 f1 l = Ok (g l)).
        { intros l h Hl. apply line_analysis_eq; [assumption..|]. intros C. subst l. cbn in Hl. lia. }
        rewrite (rows_step g _ k1 r c M Hc HM Hg). cbn [bind].
        assert (H1 : wf r c (rows_if g c M)) by (eapply rows_if_wf; [apply keeps_analysis|exact Hc|exact HM]).
        rewrite (cols_step g _ k1 r c _ Hr Hc H1 Hg). cbn [bind].
        assert (H2 : wf r c (cols_if g r c (rows_if g c M))) by (eapply cols_if_wf; [apply keeps_analysis|exact Hr|exact H1]).
        assert (HB : wf (half r) (half c) (block (half r) (half c) (cols_if g r c (rows_if g c M)))) by (apply (block_wf r c); [exact H2|lia|lia]).
        rewrite (IH (half r) (half c) _ Hr1 Hc1 HB). reflexivity.
  Qed.
End Lists.
