(** Properties C58, C60-C63: WaveletTransform in exact arithmetic. *)
From Coq Require Import List Arith ZArith Lia Bool String Reals Lra.
From Verif Require Import Base BaseLemmas PyString Instances CalculusModel CalculusProps FirModel FirSpec FirProofs Sums WaveletModel WaveletProofs WaveletProps.
Import ListNotations.
Set Asymmetric Patterns.
Close Scope string_scope. Open Scope R_scope.

Definition makeR (style : string) (order : Z) : res (wbank RA) := @wt_make RA style order.
Definition bankR (row : list R) : res (wbank RA) := @wt_bank RA row.
Definition transformR (bk : wbank RA) (x : ndarr RA) (count : Z) (inverse : bool) : res (ndarr RA) :=
  wt_transform bk DFloat x count inverse.
(** The coefficients of a row of the table. *)
Definition rowR (r : list Z) : list R := map (fun z => IZR z / IZR wt_scale) r.
Lemma wt_row_R r : @wt_row RA r = rowR r.
Proof. unfold wt_row, rowR. apply map_ext. intros z. rewrite !of_Z_IZR. reflexivity. Qed.
Definition total (row : list R) : R := rsum (length row) (fun i => nth i row 0).
Definition normal (row : list R) : list R := map (fun x => x / total row) row.
Lemma sum_total (row : list R) : @Base.sum RA row = total row.
Proof. rewrite (law_sum RA_laws). apply bigsum_rsum. Qed.

(** (-1)^z *)
Definition alt (z : Z) : R := if Z.odd z then -1 else 1.

Lemma neg_from_nth i (l : list R) k : (k < length l)%nat ->
  nth k (@neg_from RA i l) 0 = if Nat.leb i k && Nat.even (k - i) then - nth k l 0 else nth k l 0.
Proof.
  intros Hk. unfold neg_from. change (@length (carrier RA) l) with (length l).
  rewrite (nth_map_lt _ (combine (seq 0 (length l)) l) k (0%nat, 0)) by (rewrite combine_length, seq_length; lia).
  rewrite combine_nth by (rewrite seq_length; reflexivity). rewrite seq_nth by exact Hk. cbn [Nat.add].
  destruct (Nat.leb i k && Nat.even (k - i)); [|reflexivity]. change (@mul RA) with Rmult. change (@opp RA) with Ropp. change (@one RA) with 1. match goal with |- @eq _ ?a ?b => change (@eq R a b) end. ring.
Qed.

Lemma ex_rev (l : list R) z : ex (rev l) z = ex l (Z.of_nat (length l) - 1 - z).
Proof.
  destruct (Z_lt_dec z 0) as [C|C]; [rewrite ex_neg, ex_big by lia; reflexivity|].
  destruct (Z_le_dec (Z.of_nat (length l)) z) as [D|D]; [rewrite ex_big, ex_neg by (rewrite ?rev_length; lia); reflexivity|].
  unfold ex. destruct (Z.ltb_spec z 0); [lia|]. destruct (Z.ltb_spec (Z.of_nat (length l) - 1 - z) 0); [lia|].
  rewrite rev_nth by lia. f_equal. lia.
Qed.
Lemma odd_Z k : Nat.odd k = Z.odd (Z.of_nat k).
Proof. induction k as [|k IH]; [reflexivity|]. rewrite Nat2Z.inj_succ, Z.odd_succ, Nat.odd_succ, <- Nat.negb_odd, <- Z.negb_odd, IH. reflexivity. Qed.

Lemma neg_from_length_R i (l : list R) : length (@neg_from RA i l : list R) = length l.
Proof. apply (@neg_from_length RA). Qed.
Lemma ex_neg1 (l : list R) z : ex (@neg_from RA 1 l) z = alt z * ex l z.
Proof.
  destruct (Z_lt_dec z 0) as [C|C]; [rewrite !ex_neg by lia; ring|].
  destruct (Z_le_dec (Z.of_nat (length l)) z) as [D|D]; [rewrite (ex_big l), ex_big; [ring|rewrite ?neg_from_length_R; exact D..]|].
  unfold ex. destruct (Z.ltb_spec z 0); [lia|]. rewrite neg_from_nth by lia. replace (alt z) with (alt (Z.of_nat (Z.to_nat z))) by (f_equal; lia). unfold alt. rewrite <- odd_Z.
  destruct (Z.to_nat z) as [|k]; [cbn; ring|]. cbn [Nat.leb Nat.sub andb]. rewrite Nat.sub_0_r, Nat.odd_succ. destruct (Nat.even k); ring.
Qed.
Lemma ex_neg0 (l : list R) z : ex (@neg_from RA 0 l) z = - alt z * ex l z.
Proof.
  destruct (Z_lt_dec z 0) as [C|C]; [rewrite !ex_neg by lia; ring|].
  destruct (Z_le_dec (Z.of_nat (length l)) z) as [D|D]; [rewrite (ex_big l), ex_big; [ring|rewrite ?neg_from_length_R; exact D..]|].
  unfold ex. destruct (Z.ltb_spec z 0); [lia|]. rewrite neg_from_nth by lia. replace (alt z) with (alt (Z.of_nat (Z.to_nat z))) by (f_equal; lia). unfold alt. rewrite <- odd_Z.
  cbn [Nat.leb andb]. rewrite Nat.sub_0_r, <- Nat.negb_odd. destruct (Nat.odd (Z.to_nat z)); cbn [negb]; ring.
Qed.
Lemma alt_sub n z : Z.odd n = true -> alt (n - z) = - alt z.
Proof. intros H. unfold alt. rewrite Z.odd_sub, H. destruct (Z.odd z); cbn; lra. Qed.
Lemma alt_add a b : alt (a + b) = alt a * alt b.
Proof. unfold alt. rewrite Z.odd_add. destruct (Z.odd a), (Z.odd b); cbn; lra. Qed.
Lemma alt_opp a : alt (- a) = alt a.
Proof. unfold alt. rewrite Z.odd_opp. reflexivity. Qed.

(** The four filters of a bank, as lists of reals. *)
Definition ba0_ (bk : wbank RA) : list R := ba0 bk.
Definition ba1_ (bk : wbank RA) : list R := ba1 bk.
Definition bs0_ (bk : wbank RA) : list R := bs0 bk.
Definition bs1_ (bk : wbank RA) : list R := bs1 bk.

(** ** The bank built from a row of n+1 coefficients, n odd *)
Definition is_bank (b : list R) (n : Z) (bk : wbank RA) : Prop :=
  ba0_ bk = b /\ length (bs0_ bk) = length b /\ length (ba1_ bk) = length b /\ length (bs1_ bk) = length b /\
  (forall z, ex (bs0_ bk) z = ex b (n - z)) /\
  (n <> 1%Z -> forall z, ex (ba1_ bk) z = - alt z * ex b (n - z) /\ ex (bs1_ bk) z = alt z * ex b z) /\
  (n = 1%Z -> forall z, ex (ba1_ bk) z = alt z * ex b z /\ ex (bs1_ bk) z = - alt z * ex b (n - z)).

Lemma bankR_spec row n : Z.of_nat (length row) = (n + 1)%Z -> Z.odd n = true -> (0 < n)%Z ->
  exists bk, bankR row = Ok bk /\ is_bank (normal row) n bk.
Proof.
  intros Hl Hn Hn0. unfold bankR, wt_bank. change (@length (carrier RA) row) with (length row).
  assert (Hn1 : Nat.odd (length row - 1) = true). { rewrite odd_Z. rewrite <- Hn. f_equal. lia. }
  assert (Hpos : (0 < length row)%nat). { lia. }
  rewrite Hn1. cbn [orb]. change (map (fun x : carrier RA => div x (sum row)) row) with (map (fun x : R => x / @Base.sum RA row) row).
  rewrite sum_total. change (map (fun x : R => x / total row) row) with (normal row).
  assert (Hnl : length (normal row) = length row) by (unfold normal; rewrite map_length; reflexivity).
  eexists. split; [reflexivity|]. unfold is_bank. unfold ba0_, ba1_, bs0_, bs1_. cbn [ba0 ba1 bs0 bs1]. split; [reflexivity|].
  split; [apply rev_length|].
  split; [destruct (Nat.eqb _ 1); [|etransitivity; [apply rev_length|]]; apply (@neg_from_length RA)|].
  split; [destruct (Nat.eqb _ 1); [|etransitivity; [apply rev_length|]]; (etransitivity; [apply (@neg_from_length RA)|apply rev_length])|].
  assert (Hrev : forall z, ex (rev (normal row)) z = ex (normal row) (n - z)).
  { intros z. rewrite ex_rev, Hnl. f_equal. lia. }
  split; [exact Hrev|]. split.
  - intros C z. destruct (Nat.eqb_spec (length row - 1) 1) as [D|D]; [exfalso; apply C; lia|]. split.
    + etransitivity; [apply ex_rev|]. change (@length (carrier RA)) with (@length R). rewrite (@neg_from_length RA : forall i (l : list R), @length R (@neg_from RA i l) = length l).
      rewrite ex_neg1, Hnl. replace (Z.of_nat (length row) - 1 - z)%Z with (n - z)%Z by lia. rewrite alt_sub by exact Hn. reflexivity.
    + etransitivity; [apply ex_rev|]. change (@length (carrier RA)) with (@length R). rewrite (@neg_from_length RA : forall i (l : list R), @length R (@neg_from RA i l) = length l).
      rewrite ex_neg0. change (@rev (carrier RA)) with (@rev R). rewrite rev_length, Hnl. replace (Z.of_nat (length row) - 1 - z)%Z with (n - z)%Z by lia. rewrite alt_sub by exact Hn. rewrite Hrev.
      replace (n - (n - z))%Z with z by lia. ring.
  - intros C z. destruct (Nat.eqb_spec (length row - 1) 1) as [D|D]; [|exfalso; apply D; lia]. split.
    + apply ex_neg1.
    + etransitivity; [apply ex_neg0|]. f_equal. apply Hrev.
Qed.

(** ** C61 *)
Fixpoint zsum (r : list Z) : Z := match r with [] => 0%Z | z :: r' => (z + zsum r')%Z end.
Fixpoint zalt (r : list Z) : Z := match r with [] => 0%Z | z :: r' => (z - zalt r')%Z end.
Lemma total_rowR r : total (rowR r) = IZR (zsum r) / IZR wt_scale.
Proof.
  unfold total. rewrite <- rsum_list. unfold rowR. induction r as [|z r IH]; cbn [map fold_right zsum]; [unfold Rdiv; ring|].
  rewrite IH, plus_IZR. unfold Rdiv. ring.
Qed.
Lemma table_sum style order r : table_row style order r -> (0 < zsum r)%Z.
Proof.
  intros H. apply Z.ltb_lt. refine (table_all_spec (fun _ r => 0 <? zsum r)%Z style order r _ H). vm_compute. reflexivity.
Qed.
Lemma scale_pos : 0 < IZR wt_scale. Proof. apply IZR_lt. reflexivity. Qed.
Lemma normal_rowR r k : (0 < zsum r)%Z -> nth k (normal (rowR r)) 0 = IZR (nth k r 0%Z) / IZR (zsum r).
Proof.
  intros H. pose proof scale_pos. apply IZR_lt in H.
  destruct (le_lt_dec (length r) k) as [C|C].
  - rewrite !nth_overflow; [unfold Rdiv; rewrite Rmult_0_l; reflexivity|exact C|unfold normal, rowR; rewrite !map_length; exact C].
  - unfold normal. rewrite (nth_map_lt _ _ k 0) by (unfold rowR; rewrite map_length; exact C). rewrite total_rowR. unfold rowR.
    rewrite (nth_map_lt _ _ k 0%Z) by exact C. field. split; lra.
Qed.
Lemma rsum_IZR (r : list Z) : rsum (length r) (fun k => IZR (nth k r 0%Z)) = IZR (zsum r).
Proof. induction r as [|z r IH]; [reflexivity|]. cbn [length]. rewrite rsum_S_l. cbn [nth zsum]. rewrite IH, plus_IZR. reflexivity. Qed.
Lemma rsum_alt (r : list Z) : rsum (length r) (fun k => alt (Z.of_nat k) * IZR (nth k r 0%Z)) = IZR (zalt r).
Proof.
  induction r as [|z r IH]; [reflexivity|]. cbn [length]. rewrite rsum_S_l. cbn [nth zalt].
  rewrite (rsum_ext _ _ (fun k => - (alt (Z.of_nat k) * IZR (nth k r 0%Z)))).
  - rewrite rsum_opp, IH, minus_IZR. cbn. unfold alt. cbn. ring.
  - intros k Hk. rewrite Nat2Z.inj_succ. unfold Z.succ. rewrite alt_add. unfold alt at 2. cbn [Z.odd]. ring.
Qed.

Lemma rsum_ex (l : list R) : rsum (length l) (fun k => nth k l 0) = rsum (length l) (fun k => ex l (Z.of_nat k)).
Proof. apply rsum_ext. intros k _. symmetry. apply ex_nat. Qed.

Theorem C61_wavelet_bank (style : string) (order : Z) :
  (forall r, table_row style order r ->
     exists bk, makeR style order = Ok bk /\ is_bank (normal (rowR r)) order bk /\ total (ba0_ bk) = 1 /\ total (bs0_ bk) = 1) /\
  ((forall r, ~ table_row style order r) -> makeR style order = Err ValueError) /\
  (forall style', py_lower style = py_lower style' -> makeR style' order = makeR style order).
Proof.
  split; [|split].
  - intros r H. destruct (table_shape _ _ _ H) as (H1 & H2 & H3). pose proof (table_sum _ _ _ H) as HS.
    destruct (bankR_spec (rowR r) order) as (bk & E & HB); [unfold rowR; rewrite map_length; lia|exact H2|exact H1|]. exists bk.
    assert (HT : total (normal (rowR r)) = 1).
    { unfold total. replace (length (normal (rowR r))) with (length r) by (unfold normal, rowR; rewrite !map_length; reflexivity).
      rewrite (rsum_ext _ _ (fun k => / IZR (zsum r) * IZR (nth k r 0%Z))) by (intros k _; rewrite normal_rowR by exact HS; unfold Rdiv; ring).
      rewrite rsum_scal, rsum_IZR. apply Rinv_l. apply IZR_lt in HS. lra. }
    split; [|split; [exact HB|split]].
    + destruct H as (rows & K1 & K2). unfold makeR, wt_make. rewrite K1, K2. rewrite wt_row_R. exact E.
    + destruct HB as (-> & _). exact HT.
    + destruct HB as (_ & HL & _ & _ & HR & _). unfold total. rewrite rsum_ex, HL.
      rewrite <- HT. unfold total. rewrite rsum_ex. rewrite (rsum_rev _ (fun k => ex (normal (rowR r)) (Z.of_nat k))). apply rsum_ext. intros k Hk.
      rewrite HR. f_equal. unfold normal, rowR in Hk |- *. rewrite !map_length in Hk |- *. lia.
  - intros H. unfold makeR, wt_make. destruct (assoc_str (py_title style) wt_table) as [rows|] eqn:E1; [|reflexivity].
    destruct (assoc_Z order rows) as [r|] eqn:E2; [|reflexivity]. exfalso. apply (H r). exists rows. auto.
  - intros style' E. unfold makeR, wt_make. rewrite (proj2 (py_title_eq_iff style style') E). reflexivity.
Qed.
Print Assumptions C61_wavelet_bank.

(** The sum of a high-pass filter is the alternating sum of its row; it vanishes only up to the
    accuracy of the table. *)
Theorem C61_wavelet_highpass_sum (style : string) (order : Z) (bk : wbank RA) : makeR style order = Ok bk ->
  Rabs (total (ba1_ bk)) <= 4 / 100000 /\ Rabs (total (bs1_ bk)) <= 4 / 100000.
Proof.
  intros E. destruct (wt_make_row _ _ _ E) as (r & H & Eb). rewrite wt_row_R in Eb.
  destruct (table_shape _ _ _ H) as (H1 & H2 & H3). pose proof (table_sum _ _ _ H) as HS.
  destruct (bankR_spec (rowR r) order) as (bk' & E' & HB); [unfold rowR; rewrite map_length; lia|exact H2|exact H1|].
  assert (bk' = bk) by (unfold bankR in E'; congruence). subst bk'. clear E' Eb E.
  assert (HZ : (100000 * Z.abs (zalt r) <=? 4 * zsum r)%Z = true).
  { refine (table_all_spec (fun _ r => 100000 * Z.abs (zalt r) <=? 4 * zsum r)%Z style order r _ H). vm_compute. reflexivity. }
  apply Z.leb_le, IZR_le in HZ. rewrite !mult_IZR, abs_IZR in HZ. pose proof HS as HS'. apply IZR_lt in HS'.
  set (b := normal (rowR r)) in *. assert (Hb : length b = length r) by (unfold b, normal, rowR; rewrite !map_length; reflexivity).
  assert (HA : rsum (length b) (fun k => alt (Z.of_nat k) * ex b (Z.of_nat k)) = IZR (zalt r) / IZR (zsum r)).
  { rewrite Hb. rewrite (rsum_ext _ _ (fun k => / IZR (zsum r) * (alt (Z.of_nat k) * IZR (nth k r 0%Z)))).
    - rewrite rsum_scal, rsum_alt. unfold Rdiv. ring.
    - intros k Hk. rewrite ex_nat. unfold b. rewrite normal_rowR by exact HS. unfold Rdiv. ring. }
  assert (HR : rsum (length b) (fun k => - alt (Z.of_nat k) * ex b (order - Z.of_nat k)) = IZR (zalt r) / IZR (zsum r)).
  { rewrite <- HA. rewrite (rsum_rev _ (fun k => alt (Z.of_nat k) * ex b (Z.of_nat k))). apply rsum_ext. intros k Hk.
    replace (Z.of_nat (length b - 1 - k)) with (order - Z.of_nat k)%Z by lia. rewrite alt_sub by exact H2. reflexivity. }
  assert (HB1 : Rabs (IZR (zalt r) / IZR (zsum r)) <= 4 / 100000).
  { unfold Rdiv. rewrite Rabs_mult, Rabs_inv, (Rabs_pos_eq (IZR (zsum r))) by lra. apply Rmult_le_reg_r with (IZR (zsum r)); [exact HS'|].
    rewrite Rmult_assoc, Rinv_l by lra. lra. }
  destruct HB as (_ & _ & L1 & L2 & _ & N1 & N2). unfold total. rewrite !rsum_ex.
  change (@length (carrier RA)) with (@length R) in *. rewrite L1, L2. destruct (Z.eq_dec order 1) as [C|C].
  - specialize (N2 C). rewrite (rsum_ext _ _ (fun k => alt (Z.of_nat k) * ex b (Z.of_nat k))) by (intros; apply N2).
    rewrite (rsum_ext _ (fun k => ex (bs1_ bk) (Z.of_nat k)) (fun k => - alt (Z.of_nat k) * ex b (order - Z.of_nat k))) by (intros; apply N2).
    rewrite HA, HR. auto.
  - specialize (N1 C). rewrite (rsum_ext _ (fun k => ex (ba1_ bk) (Z.of_nat k)) (fun k => - alt (Z.of_nat k) * ex b (order - Z.of_nat k))) by (intros; apply N1).
    rewrite (rsum_ext _ (fun k => ex (bs1_ bk) (Z.of_nat k)) (fun k => alt (Z.of_nat k) * ex b (Z.of_nat k))) by (intros; apply N1).
    rewrite HA, HR. auto.
Qed.
Print Assumptions C61_wavelet_highpass_sum.
Example C61_example : exists r, table_row "dAUBECHIES" 3 r /\ length r = 4%nat /\ (zalt r <> 0)%Z.
Proof. eexists. split; [exists (snd (nth 1 wt_table (""%string, []))); split; reflexivity|]. split; [reflexivity|vm_compute; discriminate]. Qed.

(** The high-pass filters do not sum to zero exactly: Coiflet of order 5. *)
Theorem C61_wavelet_highpass_zero_refuted : exists style order (bk : wbank RA), makeR style order = Ok bk /\
  3 / 100000 < Rabs (total (ba1_ bk)).
Proof.
  set (r := match assoc_str "Coiflet" wt_table with Some rows => match assoc_Z 5 rows with Some r => r | None => [] end | None => [] end).
  assert (H : table_row "Coiflet" 5 r).
  { exists (match assoc_str "Coiflet" wt_table with Some rows => rows | None => [] end). split; reflexivity. }
  destruct (proj1 (C61_wavelet_bank "Coiflet" 5) r H) as (bk & E & HB & _). exists "Coiflet"%string, 5%Z, bk. split; [exact E|].
  destruct HB as (_ & _ & L1 & _ & _ & N1 & _). specialize (N1 ltac:(discriminate)).
  pose proof (table_sum _ _ _ H) as HS. pose proof HS as HS'. apply IZR_lt in HS'.
  set (b := normal (rowR r)) in *. assert (Hb : length b = length r) by (unfold b, normal, rowR; rewrite !map_length; reflexivity).
  assert (HA : rsum (length b) (fun k => alt (Z.of_nat k) * ex b (Z.of_nat k)) = IZR (zalt r) / IZR (zsum r)).
  { rewrite Hb. rewrite (rsum_ext _ _ (fun k => / IZR (zsum r) * (alt (Z.of_nat k) * IZR (nth k r 0%Z)))).
    - rewrite rsum_scal, rsum_alt. unfold Rdiv. ring.
    - intros k Hk. rewrite ex_nat. unfold b. rewrite normal_rowR by exact HS. unfold Rdiv. ring. }
  assert (HT : total (ba1_ bk) = IZR (zalt r) / IZR (zsum r)).
  { unfold total. rewrite rsum_ex, L1, <- HA. rewrite (rsum_rev _ (fun k => alt (Z.of_nat k) * ex b (Z.of_nat k))). apply rsum_ext. intros k Hk.
    rewrite (proj1 (N1 _)). replace (Z.of_nat (length b - 1 - k)) with (5 - Z.of_nat k)%Z by (rewrite Hb in *; change (length r) with 6%nat in *; lia).
    rewrite alt_sub by reflexivity. reflexivity. }
  rewrite HT. assert (HZ : (3 * zsum r <? 100000 * Z.abs (zalt r))%Z = true) by (vm_compute; reflexivity).
  apply Z.ltb_lt, IZR_lt in HZ. rewrite !mult_IZR, abs_IZR in HZ. unfold Rdiv at 2. rewrite Rabs_mult, Rabs_inv, (Rabs_pos_eq (IZR (zsum r))) by lra.
  apply Rmult_lt_reg_r with (IZR (zsum r)); [exact HS'|]. rewrite Rmult_assoc, Rinv_l by lra. lra.
Qed.
Print Assumptions C61_wavelet_highpass_zero_refuted.

(** ** Lifting a line property to the transform *)
Definition an bk : list R -> list R := anR (ba0_ bk) (ba1_ bk).
Definition sy bk : list R -> list R := syR (bs0_ bk) (bs1_ bk).
Definition wfR (r c : nat) (M : list (list R)) : Prop := length M = r /\ Forall (fun row => length row = c) M.

Lemma transform1 {A : Arith} (bk : wbank A) (Hb : bank_ok bk) dt (x : list A) k inverse : x <> [] -> good_dim (Z.of_nat (S k)) (length x) ->
  exists y, wt_transform bk dt (ND1 x) (Z.of_nat (S k)) inverse = Ok (ND1 y) /\
    pure_wt bk dt inverse (S k) 1 (length x) [x] = [y].
Proof.
  intros Hx Hg. unfold wt_transform. assert (Hl : (length x <> 0)%nat) by (destruct x; cbn; congruence).
  destruct (Nat.eqb_spec (length x) 0); [congruence|]. destruct (Z.leb_spec (Z.of_nat (S k)) 0); [lia|].
  apply good_dim_adm in Hg; [|lia|exact Hl]. rewrite Nat2Z.id in *.
  assert (Hw : wf 1 (length x) [x]) by (split; [reflexivity|repeat constructor]).
  rewrite (wt_mat_ok bk dt inverse Hb k 1 (length x) [x] (or_introl eq_refl) Hg Hw). cbn [bind].
  assert (P : wf 1 (length x) (pure_wt bk dt inverse (S k) 1 (length x) [x])).
  { unfold pure_wt. destruct inverse; [apply pureS_wf|apply pureA_wf]; auto; try (apply keeps_synthesis || apply keeps_analysis); left; reflexivity. }
  destruct P as [P1 P2]. destruct (pure_wt _ _ _ _ _ _ _) as [|y [|]]; try discriminate P1. exists y. auto.
Qed.
Lemma transform2 {A : Arith} (bk : wbank A) (Hb : bank_ok bk) dt r c (M : list (list A)) k inverse : r <> 0%nat -> c <> 0%nat -> wf r c M ->
  good_dim (Z.of_nat (S k)) r -> good_dim (Z.of_nat (S k)) c ->
  wt_transform bk dt (ND2 c M) (Z.of_nat (S k)) inverse = Ok (ND2 c (pure_wt bk dt inverse (S k) r c M)).
Proof.
  intros Hr Hc HM Gr Gc. unfold wt_transform. pose proof (proj1 HM) as HL. rewrite HL.
  destruct (Nat.eqb_spec r 0); [congruence|]. destruct (Z.leb_spec (Z.of_nat (S k)) 0); [lia|].
  apply good_dim_adm in Gr, Gc; [|lia|assumption..|lia|assumption]. rewrite Nat2Z.id in *.
  rewrite (wt_mat_ok bk dt inverse Hb k r c M Gr Gc HM). reflexivity.
Qed.

Lemma good_adm k n : n <> 0%nat -> good_dim (Z.of_nat (S k)) n -> adm (S k) n.
Proof. intros Hn Hg. apply good_dim_adm in Hg; [rewrite Nat2Z.id in Hg; exact Hg|lia|exact Hn]. Qed.
Definition inverts {A : Arith} (bk : wbank A) dt : Prop :=
  forall l h, length l = (2 * S h)%nat -> pure_synthesis dt (bs0 bk) (bs1 bk) (pure_analysis dt (ba0 bk) (ba1 bk) l) = l.
Lemma reconstruct1 {A : Arith} (bk : wbank A) (Hb : bank_ok bk) dt (x : list A) k : inverts bk dt -> x <> [] -> good_dim (Z.of_nat (S k)) (length x) ->
  exists y, wt_transform bk dt (ND1 x) (Z.of_nat (S k)) false = Ok (ND1 y) /\ wt_transform bk dt (ND1 y) (Z.of_nat (S k)) true = Ok (ND1 x).
Proof.
  intros Hl Hx Hg. destruct (transform1 bk Hb dt x k false Hx Hg) as (y & E1 & E2). exists y. split; [exact E1|].
  assert (Hxl : length x <> 0%nat) by (destruct x; cbn; congruence). pose proof (good_adm _ _ Hxl Hg) as Ha.
  assert (Hw : wf 1 (length x) [x]) by (split; [reflexivity|repeat constructor]).
  assert (P : wf 1 (length x) (pure_wt bk dt false (S k) 1 (length x) [x])).
  { apply pureA_wf; [apply keeps_analysis|left; reflexivity|exact Ha|exact Hw]. }
  rewrite E2 in P. destruct P as [_ P]. inversion P as [|? ? Hy _]; subst.
  assert (Hyl : y <> []) by (intros ->; cbn in Hy; congruence).
  destruct (transform1 bk Hb dt y k true Hyl) as (z & E3 & E4); [rewrite Hy; exact Hg|]. rewrite E3. rewrite Hy in E4.
  assert (K : [z] = [x]); [|congruence]. rewrite <- E4, <- E2. unfold pure_wt.
  apply pure_reconstruct; try assumption; [apply keeps_analysis|apply keeps_synthesis|left; reflexivity].
Qed.
Lemma reconstruct2 {A : Arith} (bk : wbank A) (Hb : bank_ok bk) dt r c (M : list (list A)) k : inverts bk dt -> r <> 0%nat -> c <> 0%nat -> wf r c M ->
  good_dim (Z.of_nat (S k)) r -> good_dim (Z.of_nat (S k)) c ->
  exists N, wt_transform bk dt (ND2 c M) (Z.of_nat (S k)) false = Ok (ND2 c N) /\ wt_transform bk dt (ND2 c N) (Z.of_nat (S k)) true = Ok (ND2 c M).
Proof.
  intros Hl Hr0 Hc0 HM Hr Hg. pose proof (good_adm _ _ Hr0 Hr) as Ar. pose proof (good_adm _ _ Hc0 Hg) as Ac.
  exists (pure_wt bk dt false (S k) r c M). split; [apply transform2; assumption|].
  rewrite (transform2 bk Hb dt r c); try assumption.
  - f_equal. f_equal. unfold pure_wt. apply pure_reconstruct; try assumption; [apply keeps_analysis|apply keeps_synthesis].
  - apply pureA_wf; [apply keeps_analysis|assumption..].
Qed.

Lemma listR_ext (x y : list R) : length x = length y -> (forall i, (i < length x)%nat -> nth i x 0 = nth i y 0) -> x = y.
Proof. intros H1 H2. apply (nth_ext _ _ 0 0 H1 H2). Qed.

(** ** C58 *)
Lemma haar_ex z : ex [1/2; 1/2] z = if ((z =? 0) || (z =? 1))%Z then 1/2 else 0.
Proof.
  unfold ex. destruct (Z.ltb_spec z 0); destruct (Z.eqb_spec z 0); destruct (Z.eqb_spec z 1); subst; try lia; try reflexivity. cbn [orb].
  rewrite nth_overflow; [reflexivity|]. cbn [length]. lia.
Qed.
Lemma haar_line bk : is_bank [1/2; 1/2] 1 bk -> forall l h, length l = (2 * S h)%nat -> sy bk (an bk l) = l.
Proof.
  intros (B0 & _ & _ & _ & V & _ & N). specialize (N eq_refl). intros x h Hx. unfold sy, an. rewrite B0.
  pose proof (anR_length [1/2; 1/2] (ba1_ bk) x _ Hx) as HL. pose proof (syR_length (bs0_ bk) (bs1_ bk) _ _ HL) as HS.
  apply listR_ext; [congruence|]. intros m Hm. rewrite HS in Hm. rewrite (roundtrip _ _ _ _ x (S h) m Hx Hm).
  rewrite (rsum_single _ m); [|exact Hm|].
  - rewrite (rsum_single _ (m / 2)).
    + rewrite V, (proj2 (N _)), (proj1 (N _)), !haar_ex. pose proof (Nat.div_mod m 2 ltac:(lia)) as D. pose proof (Nat.mod_upper_bound m 2 ltac:(lia)).
      set (j := (m / 2)%nat) in *. assert (C : (m mod 2 = 0 \/ m mod 2 = 1)%nat) by lia. destruct C as [C|C]; rewrite C in D.
      * replace (Z.of_nat m - 2 * Z.of_nat j)%Z with 0%Z by lia. replace (2 * Z.of_nat j + 1 - Z.of_nat m)%Z with 1%Z by lia. cbn. unfold alt. cbn. field.
      * replace (Z.of_nat m - 2 * Z.of_nat j)%Z with 1%Z by lia. replace (2 * Z.of_nat j + 1 - Z.of_nat m)%Z with 0%Z by lia. cbn. unfold alt. cbn. field.
    + apply Nat.div_lt_upper_bound; lia.
    + intros j Hj Hne. rewrite V, (proj2 (N _)), !haar_ex. pose proof (Nat.div_mod m 2 ltac:(lia)) as D. pose proof (Nat.mod_upper_bound m 2 ltac:(lia)).
      destruct (Z.eqb_spec (1 - (Z.of_nat m - 2 * Z.of_nat j)) 0); [lia|]. destruct (Z.eqb_spec (1 - (Z.of_nat m - 2 * Z.of_nat j)) 1); [lia|]. cbn [orb]. ring.
  - intros i Hi Hne. rewrite (rsum_zero (S h)); [ring|]. intros j Hj. rewrite V, (proj2 (N _)), (proj1 (N _)), !haar_ex.
    destruct (Z.eqb_spec (1 - (Z.of_nat m - 2 * Z.of_nat j)) 0); destruct (Z.eqb_spec (1 - (Z.of_nat m - 2 * Z.of_nat j)) 1); try lia; cbn [orb]; [..|ring].
    + assert (m = 2 * j + 1)%nat by lia. subst m.
      destruct (Z.eqb_spec (2 * Z.of_nat j + 1 - Z.of_nat i) 0); [lia|]. destruct (Z.eqb_spec (2 * Z.of_nat j + 1 - Z.of_nat i) 1) as [C|C]; cbn [orb]; [|ring].
      rewrite C. replace (Z.of_nat (2 * j + 1) - 2 * Z.of_nat j)%Z with 1%Z by lia. unfold alt. cbn [Z.odd]. field.
    + assert (m = 2 * j)%nat by lia. subst m. replace (Z.of_nat (2 * j) - 2 * Z.of_nat j)%Z with 0%Z by lia.
      destruct (Z.eqb_spec (2 * Z.of_nat j + 1 - Z.of_nat i) 0) as [C|C]; [|destruct (Z.eqb_spec (2 * Z.of_nat j + 1 - Z.of_nat i) 1); [lia|cbn [orb]; ring]].
      rewrite C. unfold alt. cbn. field.
Qed.
Lemma haar_row : normal (rowR [10000000000000000; 10000000000000000]%Z) = [1/2; 1/2].
Proof.
  apply listR_ext; [reflexivity|]. intros i Hi. rewrite normal_rowR by reflexivity.
  destruct i as [|[|i]]; cbn [nth zsum]; [| |cbn in Hi; lia]; rewrite ?plus_IZR; field.
Qed.
Lemma haar_bank style bk : py_lower style = "haar"%string -> makeR style 1 = Ok bk -> is_bank [1/2; 1/2] 1 bk.
Proof.
  intros Hs E. assert (H : table_row style 1 [10000000000000000; 10000000000000000]%Z).
  { exists [(1, [10000000000000000; 10000000000000000])]%Z. split; [|reflexivity].
    rewrite (proj2 (py_title_eq_iff style "Haar") Hs). reflexivity. }
  destruct (proj1 (C61_wavelet_bank style 1) _ H) as (bk' & E' & HB & _). rewrite E in E'. injection E' as ->. rewrite haar_row in HB. exact HB.
Qed.

Theorem C58_wavelet_haar_reconstructs (style : string) (bk : wbank RA) (count : Z) :
  py_lower style = "haar"%string -> makeR style 1 = Ok bk -> (0 < count)%Z ->
  (forall x : list R, x <> [] -> good_dim count (length x) ->
     exists y, transformR bk (ND1 x) count false = Ok (ND1 y) /\ transformR bk (ND1 y) count true = Ok (ND1 x)) /\
  (forall r c (M : list (list R)), length M = r -> Forall (fun row => length row = c) M -> r <> 0%nat -> c <> 0%nat ->
     good_dim count r -> good_dim count c ->
     exists N, transformR bk (ND2 c M) count false = Ok (ND2 c N) /\ transformR bk (ND2 c N) count true = Ok (ND2 c M)).
Proof.
  intros Hs E Hc. pose proof (wt_make_ok _ _ _ E) as Hb. pose proof (haar_line bk (haar_bank _ _ Hs E)) as Hl.
  destruct (to_nat_pos _ Hc) as [k Hk]. assert (Ec : count = Z.of_nat (S k)) by lia. subst count. clear Hc Hk. split.
  - intros x Hx Hg. apply (reconstruct1 bk Hb DFloat x k Hl Hx Hg).
  - intros r c M HL HF Hr0 Hc0 Hr Hg. apply (reconstruct2 bk Hb DFloat r c M k Hl Hr0 Hc0 (conj HL HF) Hr Hg).
Qed.
Print Assumptions C58_wavelet_haar_reconstructs.
Example C58_example : exists bk, makeR "HAAR" 1 = Ok bk /\ good_dim 2 4 /\ good_dim 2 8.
Proof.
  destruct (makeR "HAAR" 1) as [bk|e] eqn:E; [exists bk|exfalso; discriminate E]. split; [reflexivity|]. split; right; reflexivity.
Qed.

(** ** One level on a signal *)
Lemma one_level {A : Arith} (bk : wbank A) (Hb : bank_ok bk) dt (x : list A) h : length x = (2 * S h)%nat ->
  wt_transform bk dt (ND1 x) 1 false = Ok (ND1 (pure_analysis dt (ba0 bk) (ba1 bk) x)) /\
  wt_transform bk dt (ND1 x) 1 true = Ok (ND1 (pure_synthesis dt (bs0 bk) (bs1 bk) x)).
Proof.
  intros Hx. assert (Hn : x <> []) by (intros ->; cbn in Hx; lia).
  assert (Hg : good_dim (Z.of_nat 1) (length x)).
  { right. rewrite Nat2Z.id, Hx. change (2 ^ 1)%nat with 2%nat. rewrite Nat.mul_comm. apply Nat.mod_mul. lia. }
  assert (Hc : Nat.ltb 1 (length x) = true) by (apply Nat.ltb_lt; lia).
  assert (K : forall f : list A -> list A, keeps_len f ->
     pureA f 1 1 (length x) [x] = [f x] /\ pureS f 1 1 (length x) [x] = [f x]).
  { intros f Hf. cbn [pureA pureS]. unfold cols_if. change (Nat.ltb 1 1) with false. cbv iota. unfold rows_if. rewrite Hc. cbn [map].
    assert (HH : (half (length x) <= length x)%nat) by (unfold half; rewrite Hx, (Nat.mul_comm 2), Nat.div_mul by lia; lia).
    split.
    - apply (set_block_same 1 (length x)); [split; [reflexivity|repeat constructor; rewrite Hx; apply Hf, Hx]|reflexivity|exact HH].
    - rewrite (set_block_same 1 (length x)); [reflexivity|split; [reflexivity|repeat constructor]|reflexivity|exact HH]. }
  split.
  - destruct (transform1 bk Hb dt x 0 false Hn Hg) as (y & E1 & E2). change (Z.of_nat 1) with 1%Z in E1. rewrite E1. unfold pure_wt in E2.
    rewrite (proj1 (K _ (keeps_analysis dt _ _))) in E2. congruence.
  - destruct (transform1 bk Hb dt x 0 true Hn Hg) as (y & E1 & E2). change (Z.of_nat 1) with 1%Z in E1. rewrite E1. unfold pure_wt in E2.
    rewrite (proj2 (K _ (keeps_synthesis dt _ _))) in E2. congruence.
Qed.

(** ** C62 *)
(** Correlation of the low-pass filter with itself shifted by d. *)
Definition acorr (b : list R) (d : Z) : R := rsum (length b) (fun p => nth p b 0 * ex b (Z.of_nat p + d)).

Lemma ex_support b z : ex b z <> 0 -> (0 <= z < Z.of_nat (length b))%Z.
Proof.
  intros H. destruct (Z_lt_dec z 0); [rewrite ex_neg in H by lia; lra|].
  destruct (Z_le_dec (Z.of_nat (length b)) z); [rewrite ex_big in H by lia; lra|]. lia.
Qed.
Lemma kernel b n bk h m i : is_bank b n bk -> Z.of_nat (length b) = (n + 1)%Z -> Z.odd n = true -> n <> 1%Z ->
  (m < 2 * h)%nat -> (i < 2 * h)%nat ->
  rsum h (fun j => ex (bs0_ bk) (Z.of_nat m - 2 * Z.of_nat j) * ex (ba0_ bk) (2 * Z.of_nat j + 1 - Z.of_nat i) +
                   ex (bs1_ bk) (Z.of_nat m - 2 * Z.of_nat j) * ex (ba1_ bk) (2 * Z.of_nat j + 1 - Z.of_nat i)) =
  if Z.odd (Z.of_nat m - Z.of_nat i) then 0 else acorr b (n - 1 + Z.of_nat i - Z.of_nat m).
Proof.
  intros (B0 & _ & _ & _ & V & N & _) Hl Hn Hn1 Hm Hi. specialize (N Hn1). set (d := (n - 1 + Z.of_nat i - Z.of_nat m)%Z).
  set (G := fun p => ex b p * ex b (p + d)).
  assert (HG : forall p, G p <> 0 -> (0 <= p <= n)%Z /\ (0 <= p + d <= n)%Z).
  { intros p Hp. unfold G in Hp. assert (ex b p <> 0) as H1 by (intros E; rewrite E in Hp; lra).
    assert (ex b (p + d) <> 0) as H2 by (intros E; rewrite E in Hp; lra). apply ex_support in H1, H2. lia. }
  assert (Hpar : forall p q, Z.odd p = Z.odd q -> exists w, (p - q = 2 * w)%Z).
  { intros p q E. exists (Z.div2 (p - q)). pose proof (Z.div2_odd (p - q)) as K. rewrite Z.odd_sub, E, xorb_nilpotent in K. cbn [Z.b2z] in K. lia. }
  rewrite rsum_add.
  rewrite (rsum_ext h _ (fun j => G (1 - Z.of_nat i + 1 * (2 * Z.of_nat j))%Z)).
  2:{ intros j Hj. rewrite V, B0. unfold G. rewrite Rmult_comm. f_equal; f_equal; unfold d; lia. }
  rewrite (rsum_ext h (fun j => ex (bs1_ bk) _ * _) (fun j => alt (Z.of_nat m - Z.of_nat i) * G (Z.of_nat m + -1 * (2 * Z.of_nat j))%Z)).
  2:{ intros j Hj. rewrite (proj1 (N _)), (proj2 (N _)). unfold G.
      replace (Z.of_nat m + -1 * (2 * Z.of_nat j))%Z with (Z.of_nat m - 2 * Z.of_nat j)%Z by lia.
      replace (n - (2 * Z.of_nat j + 1 - Z.of_nat i))%Z with (Z.of_nat m - 2 * Z.of_nat j + d)%Z by (unfold d; lia).
      replace (alt (Z.of_nat m - 2 * Z.of_nat j)) with (alt (Z.of_nat m)) by (unfold alt; rewrite Z.odd_sub, Z.odd_mul; cbn; rewrite xorb_false_r; reflexivity).
      replace (alt (2 * Z.of_nat j + 1 - Z.of_nat i)) with (- alt (Z.of_nat i)).
      2:{ rewrite <- (alt_sub 1) by reflexivity. unfold alt. rewrite !Z.odd_sub, Z.odd_add, Z.odd_mul. reflexivity. }
      replace (alt (Z.of_nat m - Z.of_nat i)) with (alt (Z.of_nat m) * alt (Z.of_nat i)) by (unfold Z.sub; rewrite alt_add, alt_opp; reflexivity). ring. }
  rewrite rsum_scal. rewrite (reindex G (1 - Z.of_nat i) 1 h (length b)); [|left; reflexivity|].
  2:{ intros p Hp. apply HG in Hp. unfold d in Hp. split; [lia|]. intros E. apply Hpar in E. destruct E as [w Hw]. lia. }
  rewrite (reindex G (Z.of_nat m) (-1) h (length b)); [|right; reflexivity|].
  2:{ intros p Hp. apply HG in Hp. unfold d in Hp. split; [lia|]. intros E. apply Hpar in E. destruct E as [w Hw]. lia. }
  unfold alt. rewrite !Z.odd_sub. change (Z.odd 1) with true.
  destruct (Z.odd (Z.of_nat m)), (Z.odd (Z.of_nat i)); cbn [xorb].
  - rewrite Rmult_1_l, <- rsum_add. unfold acorr. apply rsum_ext. intros p Hp. unfold G. rewrite ex_nat. destruct (Z.odd (Z.of_nat p)); cbn [Bool.eqb]; ring.
  - ring.
  - ring.
  - rewrite Rmult_1_l, <- rsum_add. unfold acorr. apply rsum_ext. intros p Hp. unfold G. rewrite ex_nat. destruct (Z.odd (Z.of_nat p)); cbn [Bool.eqb]; ring.
Qed.

(** One level of analysis then synthesis of x, for any low-pass row. *)
Lemma one_level_kernel row n bk (x : list R) h : Z.of_nat (length row) = (n + 1)%Z -> Z.odd n = true -> (1 < n)%Z -> bankR row = Ok bk ->
  length x = (2 * S h)%nat ->
  exists y z : list R, transformR bk (ND1 x) 1 false = Ok (ND1 y) /\ transformR bk (ND1 y) 1 true = Ok (ND1 z) /\ length y = length x /\ length z = length x /\
    forall m, (m < length x)%nat -> nth m z 0 = rsum (length x) (fun i => nth i x 0 *
      (if Z.odd (Z.of_nat m - Z.of_nat i) then 0 else 2 * acorr (normal row) (n - 1 + Z.of_nat i - Z.of_nat m))).
Proof.
  intros Hl Hn H1 E Hx. destruct (bankR_spec row n Hl Hn ltac:(lia)) as (bk' & E' & HB). rewrite E in E'. injection E' as <-.
  assert (Hrow : row <> []) by (intros ->; cbn in Hl; lia). pose proof (wt_bank_ok row bk Hrow E) as Hb.
  pose proof (anR_length (ba0_ bk) (ba1_ bk) x _ Hx) as HL. pose proof (syR_length (bs0_ bk) (bs1_ bk) _ _ HL) as HS.
  exists (anR (ba0_ bk) (ba1_ bk) x), (syR (bs0_ bk) (bs1_ bk) (anR (ba0_ bk) (ba1_ bk) x)).
  split; [apply (one_level bk Hb DFloat x h Hx)|]. split; [apply (one_level bk Hb DFloat _ h HL)|]. split; [congruence|]. split; [congruence|].
  intros m Hm. rewrite Hx in Hm |- *. rewrite (roundtrip _ _ _ _ x (S h) m Hx Hm). apply rsum_ext. intros i Hi. f_equal.
  rewrite (kernel (normal row) n bk (S h) m i HB); [|unfold normal; rewrite map_length; exact Hl|exact Hn|lia|exact Hm|exact Hi].
  destruct (Z.odd (Z.of_nat m - Z.of_nat i)); [ring|reflexivity].
Qed.

Lemma delta_sum (x : list R) (m e : Z) : rsum (length x) (fun i => nth i x 0 * (if (e + Z.of_nat i - m =? 0)%Z then 1 else 0)) = ex x (m - e).
Proof.
  destruct (Z_lt_dec (m - e) 0) as [C|C].
  - rewrite ex_neg by lia. apply rsum_zero. intros i Hi. destruct (Z.eqb_spec (e + Z.of_nat i - m) 0); [lia|ring].
  - destruct (Z_le_dec (Z.of_nat (length x)) (m - e)) as [D|D].
    + rewrite ex_big by lia. apply rsum_zero. intros i Hi. destruct (Z.eqb_spec (e + Z.of_nat i - m) 0); [lia|ring].
    + rewrite (rsum_single _ (Z.to_nat (m - e))); [|lia|].
      * destruct (Z.eqb_spec (e + Z.of_nat (Z.to_nat (m - e)) - m) 0); [|lia]. rewrite <- ex_nat. rewrite Z2Nat.id by lia. ring.
      * intros i Hi Hne. destruct (Z.eqb_spec (e + Z.of_nat i - m) 0); [lia|ring].
Qed.

Theorem C62_wavelet_orthogonal_delay (row : list R) (n : Z) (bk : wbank RA) :
  Z.of_nat (length row) = (n + 1)%Z -> Z.odd n = true -> (1 < n)%Z -> bankR row = Ok bk ->
  (* the double-shift orthogonality relations of the low-pass filter b = row / sum(row) *)
  (forall k : Z, acorr (normal row) (2 * k) = if (k =? 0)%Z then 1/2 else 0) ->
  forall x : list R, x <> [] -> Nat.even (length x) = true ->
  exists y z : list R, transformR bk (ND1 x) 1 false = Ok (ND1 y) /\ transformR bk (ND1 y) 1 true = Ok (ND1 z) /\ length z = length x /\
    forall m, (m < length x)%nat -> nth m z 0 = ex x (Z.of_nat m - (n - 1)).
Proof.
  intros Hl Hn H1 E Ho x Hx He. apply Nat.even_spec in He. destruct He as [[|h] Hh]; [destruct x; [congruence|cbn in Hh; lia]|].
  destruct (one_level_kernel row n bk x h Hl Hn H1 E Hh) as (y & z & E1 & E2 & _ & L & K). exists y, z. split; [exact E1|]. split; [exact E2|]. split; [exact L|].
  intros m Hm. rewrite (K m Hm). rewrite <- delta_sum. apply rsum_ext. intros i Hi. f_equal.
  pose proof (Z.div2_odd (Z.of_nat m - Z.of_nat i)) as D. pose proof (Z.div2_odd n) as Dn. rewrite Hn in Dn.
  destruct (Z.odd (Z.of_nat m - Z.of_nat i)); cbn [Z.b2z] in *.
  - destruct (Z.eqb_spec (n - 1 + Z.of_nat i - Z.of_nat m) 0); [lia|reflexivity].
  - replace (n - 1 + Z.of_nat i - Z.of_nat m)%Z with (2 * (Z.div2 n - Z.div2 (Z.of_nat m - Z.of_nat i)))%Z by lia. rewrite Ho.
    destruct (Z.eqb_spec (Z.div2 n - Z.div2 (Z.of_nat m - Z.of_nat i)) 0), (Z.eqb_spec (2 * (Z.div2 n - Z.div2 (Z.of_nat m - Z.of_nat i))) 0); try lia; lra.
Qed.
Print Assumptions C62_wavelet_orthogonal_delay.

(** The relations hold for the exact Daubechies row of order 3. *)
Definition d4 : list R := [1 + sqrt 3; 3 + sqrt 3; 3 - sqrt 3; 1 - sqrt 3].
Example C62_example : Z.of_nat (length d4) = (3 + 1)%Z /\ (exists bk, bankR d4 = Ok bk) /\
  (forall k : Z, acorr (normal d4) (2 * k) = if (k =? 0)%Z then 1/2 else 0).
Proof.
  split; [reflexivity|]. split; [eexists; reflexivity|].
  assert (Hs : sqrt 3 * sqrt 3 = 3) by (apply sqrt_sqrt; lra).
  assert (HT : total d4 = 8) by (unfold total, d4; cbn; ring).
  intros k. unfold acorr. change (length (normal d4)) with 4%nat. cbn [rsum].
  assert (Hex : forall i, nth i (normal d4) 0 = nth i d4 0 / 8).
  { intros i. unfold normal. rewrite HT. destruct i as [|[|[|[|i]]]]; cbn [d4 map nth]; try reflexivity. destruct i; unfold Rdiv; rewrite Rmult_0_l; reflexivity. }
  assert (Hz : forall z, ex (normal d4) z = if (z =? 0)%Z then (1 + sqrt 3) / 8 else if (z =? 1)%Z then (3 + sqrt 3) / 8 else
                          if (z =? 2)%Z then (3 - sqrt 3) / 8 else if (z =? 3)%Z then (1 - sqrt 3) / 8 else 0).
  { intros z. unfold ex. destruct (Z.ltb_spec z 0).
    - destruct (Z.eqb_spec z 0); [lia|]. destruct (Z.eqb_spec z 1); [lia|]. destruct (Z.eqb_spec z 2); [lia|]. destruct (Z.eqb_spec z 3); [lia|reflexivity].
    - rewrite Hex. destruct (Z.eqb_spec z 0); [subst; reflexivity|]. destruct (Z.eqb_spec z 1); [subst; reflexivity|].
      destruct (Z.eqb_spec z 2); [subst; reflexivity|]. destruct (Z.eqb_spec z 3); [subst; reflexivity|].
      rewrite nth_overflow; [unfold Rdiv; ring|cbn [length d4]; lia]. }
  rewrite !Hex, !Hz. cbn [nth d4].
  destruct (Z.eqb_spec k 0) as [->|C]; [cbn; nra|].
  destruct (Z.eqb_spec k 1) as [->|C1]; [cbn; nra|]. destruct (Z.eqb_spec k (-1)) as [->|C2]; [cbn; nra|].
  repeat match goal with |- context [if (?a =? ?b)%Z then _ else _] => destruct (Z.eqb_spec a b); [exfalso; lia|] end. ring.
Qed.

(** The rows of the table satisfy the relations up to the accuracy of their decimals. *)
Definition zex (r : list Z) (z : Z) : Z := if (z <? 0)%Z then 0%Z else nth (Z.to_nat z) r 0%Z.
Definition zacorr (r : list Z) (d : Z) : Z := zsum (map (fun p => nth p r 0 * zex r (Z.of_nat p + d))%Z (seq 0 (length r))).
(** sum over the even shifts d of |2 r*r(d) - [d = 0] (sum r)^2| *)
Definition zdefect1 (r : list Z) (d : Z) : Z :=
  if Z.odd d then 0%Z else Z.abs (2 * zacorr r d - if (d =? 0)%Z then zsum r * zsum r else 0)%Z.
Definition zdefect (r : list Z) : Z :=
  zsum (map (fun k => zdefect1 r (Z.of_nat k - Z.of_nat (length r))) (seq 0 (2 * length r))).

Lemma ex_rowR r z : (0 < zsum r)%Z -> ex (normal (rowR r)) z = IZR (zex r z) / IZR (zsum r).
Proof.
  intros H. unfold ex, zex. destruct (Z.ltb z 0); [unfold Rdiv; rewrite Rmult_0_l; reflexivity|]. apply normal_rowR, H.
Qed.
Lemma zsum_rsum (f : nat -> Z) n : IZR (zsum (map f (seq 0 n))) = rsum n (fun i => IZR (f i)).
Proof.
  enough (G : forall s, IZR (zsum (map f (seq s n))) = rsum n (fun i => IZR (f (s + i)%nat))) by (apply (G 0%nat)).
  induction n as [|n IH]; intros s; [reflexivity|]. cbn [seq map zsum]. rewrite rsum_S_l, plus_IZR, IH, Nat.add_0_r. f_equal.
  apply rsum_ext. intros i Hi. f_equal. f_equal. lia.
Qed.
Lemma acorr_rowR r d : (0 < zsum r)%Z -> acorr (normal (rowR r)) d = IZR (zacorr r d) / (IZR (zsum r) * IZR (zsum r)).
Proof.
  intros H. pose proof H as H'. apply IZR_lt in H'. unfold acorr, zacorr. rewrite zsum_rsum.
  replace (length (normal (rowR r))) with (length r) by (unfold normal, rowR; rewrite !map_length; reflexivity).
  unfold Rdiv. rewrite <- rsum_scal_r. apply rsum_ext. intros p Hp. rewrite normal_rowR, ex_rowR by exact H. rewrite mult_IZR. field. lra.
Qed.
Lemma shift_le (g : Z -> R) (a lo : Z) (N K : nat) : (forall z, 0 <= g z) -> (forall z, g z <> 0 -> (lo <= z < lo + Z.of_nat K)%Z) ->
  rsum N (fun i => g (a + Z.of_nat i)%Z) <= rsum K (fun k => g (lo + Z.of_nat k)%Z).
Proof.
  intros Hp Hs.
  rewrite (rsum_ext N _ (fun i => rsum K (fun k => if (a + Z.of_nat i =? lo + Z.of_nat k)%Z then g (lo + Z.of_nat k)%Z else 0))).
  - rewrite rsum_swap. apply rsum_le. intros k Hk.
    destruct (Z_le_dec a (lo + Z.of_nat k)) as [C|C]; [destruct (Z_lt_dec (lo + Z.of_nat k) (a + Z.of_nat N)) as [D|D]|].
    + rewrite (rsum_single _ (Z.to_nat (lo + Z.of_nat k - a))); [|lia|].
      * destruct (Z.eqb_spec (a + Z.of_nat (Z.to_nat (lo + Z.of_nat k - a))) (lo + Z.of_nat k)); [lra|lia].
      * intros i Hi Hne. destruct (Z.eqb_spec (a + Z.of_nat i) (lo + Z.of_nat k)); [lia|reflexivity].
    + rewrite rsum_zero; [apply Hp|]. intros i Hi. destruct (Z.eqb_spec (a + Z.of_nat i) (lo + Z.of_nat k)); [lia|reflexivity].
    + rewrite rsum_zero; [apply Hp|]. intros i Hi. destruct (Z.eqb_spec (a + Z.of_nat i) (lo + Z.of_nat k)); [lia|reflexivity].
  - intros i Hi. destruct (Req_dec (g (a + Z.of_nat i)%Z) 0) as [C|C].
    + rewrite C. symmetry. apply rsum_zero. intros k Hk. destruct (Z.eqb_spec (a + Z.of_nat i) (lo + Z.of_nat k)) as [D|D]; [rewrite <- D; exact C|reflexivity].
    + pose proof (Hs _ C). symmetry. rewrite (rsum_single _ (Z.to_nat (a + Z.of_nat i - lo))); [|lia|].
      * destruct (Z.eqb_spec (a + Z.of_nat i) (lo + Z.of_nat (Z.to_nat (a + Z.of_nat i - lo)))); [f_equal; lia|lia].
      * intros k Hk Hne. destruct (Z.eqb_spec (a + Z.of_nat i) (lo + Z.of_nat k)); [lia|reflexivity].
Qed.
Lemma acorr_support b d : acorr b d <> 0 -> (- Z.of_nat (length b) <= d < Z.of_nat (length b))%Z.
Proof.
  intros H. assert (C : ~ ((- Z.of_nat (length b) <= d < Z.of_nat (length b))%Z) -> acorr b d = 0).
  { intros C. unfold acorr. apply rsum_zero. intros p Hp. destruct (Z_lt_dec d 0); [rewrite ex_neg by lia|rewrite ex_big by lia]; ring. }
  destruct (Z_le_dec (- Z.of_nat (length b)) d); [destruct (Z_lt_dec d (Z.of_nat (length b)))|]; [lia|exfalso; apply H, C; lia..].
Qed.

Theorem C62_wavelet_table_delay (style : string) (order : Z) (bk : wbank RA) :
  makeR style order = Ok bk -> (1 < order)%Z ->
  forall (x : list R) (X : R), x <> [] -> Nat.even (length x) = true -> Forall (fun v => Rabs v <= X) x ->
  exists y z : list R, transformR bk (ND1 x) 1 false = Ok (ND1 y) /\ transformR bk (ND1 y) 1 true = Ok (ND1 z) /\ length z = length x /\
    forall m, (m < length x)%nat ->
      Rabs (nth m z 0 - ex x (Z.of_nat m - (order - 1))) <=
      (if (String.eqb (py_lower style) "coiflet" && (order =? 5)%Z) || (String.eqb (py_lower style) "daubechies" && (order =? 11)%Z)
       then 2 / 10000 else 1 / 10000000) * X.
Proof.
  intros E Ho x X Hx He HX. destruct (wt_make_row _ _ _ E) as (r & H & Eb). rewrite wt_row_R in Eb.
  destruct (table_shape _ _ _ H) as (H1 & H2 & H3). pose proof (table_sum _ _ _ H) as HS.
  apply Nat.even_spec in He. destruct He as [[|h] Hh]; [destruct x; [congruence|cbn in Hh; lia]|].
  assert (Hlr : Z.of_nat (length (rowR r)) = (order + 1)%Z) by (unfold rowR; rewrite map_length; lia).
  destruct (one_level_kernel (rowR r) order bk x h Hlr H2 Ho Eb Hh) as (y & z & E1 & E2 & _ & L & K). exists y, z.
  split; [exact E1|]. split; [exact E2|]. split; [exact L|]. intros m Hm. rewrite (K m Hm), <- delta_sum, <- rsum_sub.
  pose proof HS as HS'. apply IZR_lt in HS'. set (S := IZR (zsum r)) in *. assert (HSS : 0 < S * S) by nra.
  set (B := if _ || _ then _ else _).
  assert (HB : IZR (zdefect r) <= B * (S * S)).
  { destruct H as (rows & K1 & K2).
    assert (T : ((String.eqb (py_lower style) "coiflet" && (order =? 5)%Z) || (String.eqb (py_lower style) "daubechies" && (order =? 11)%Z) = true /\
                 (10000 * zdefect r <= 2 * (zsum r * zsum r))%Z) \/
                ((10000000 * zdefect r <= zsum r * zsum r)%Z)).
    { assert (Tb : forallb (fun sr => forallb (fun orow =>
                (((String.eqb (fst sr) "Coiflet" && (fst orow =? 5)%Z) || (String.eqb (fst sr) "Daubechies" && (fst orow =? 11)%Z)) &&
                 (10000 * zdefect (snd orow) <=? 2 * (zsum (snd orow) * zsum (snd orow)))%Z) ||
                (fst orow =? 1)%Z || (10000000 * zdefect (snd orow) <=? zsum (snd orow) * zsum (snd orow))%Z) (snd sr)) wt_table = true) by (vm_compute; reflexivity).
      rewrite forallb_forall in Tb. specialize (Tb _ (assoc_str_In _ _ _ K1)). cbn [fst snd] in Tb. rewrite forallb_forall in Tb.
      specialize (Tb _ (assoc_Z_In _ _ _ K2)). cbn [fst snd] in Tb. apply orb_true_iff in Tb. destruct Tb as [Tb|Tb]; [|right; apply Z.leb_le, Tb].
      apply orb_true_iff in Tb. destruct Tb as [Tb|Tb]; [|apply Z.eqb_eq in Tb; lia]. left. apply andb_true_iff in Tb. destruct Tb as [Tb Tc].
      apply Z.leb_le in Tc. split; [|exact Tc]. apply orb_true_iff in Tb. apply orb_true_iff.
      assert (Q : forall t u, py_lower t = u -> String.eqb (py_title style) t = true -> String.eqb (py_lower style) u = true).
      { intros t u Ht Hq. apply String.eqb_eq in Hq. apply String.eqb_eq. rewrite <- Ht, <- Hq. unfold py_title. symmetry. apply lower_title_go. }
      destruct Tb as [Tb|Tb]; [left|right]; apply andb_true_iff in Tb; destruct Tb as [Tb Td]; rewrite Td, andb_true_r; [apply (Q "Coiflet"%string)|apply (Q "Daubechies"%string)]; try reflexivity; exact Tb. }
    unfold B. destruct T as [[-> T]|T].
    - apply IZR_le in T. rewrite !mult_IZR in T. fold S in T. lra.
    - apply IZR_le in T. rewrite !mult_IZR in T. fold S in T. destruct (_ || _); nra. }
  eapply Rle_trans; [apply rsum_abs|].
  set (e := fun d : Z => IZR (zdefect1 r d) / (S * S)).
  assert (HX0 : 0 <= X). { destruct x as [|v x']; [congruence|]. inversion HX; subst. pose proof (Rabs_pos v). lra. }
  assert (He0 : forall d, 0 <= e d).
  { intros d. unfold e. apply Rmult_le_pos; [|apply Rlt_le, Rinv_0_lt_compat, HSS]. apply IZR_le. unfold zdefect1. destruct (Z.odd d); lia. }
  apply Rle_trans with (rsum (length x) (fun i => X * e (order - 1 - Z.of_nat m + Z.of_nat i)%Z)).
  - apply rsum_le. intros i Hi. rewrite <- Rmult_minus_distr_l, Rabs_mult.
    assert (Hv : Rabs (nth i x 0) <= X) by (rewrite Forall_forall in HX; apply HX, nth_In, Hi).
    apply Rmult_le_compat; [apply Rabs_pos|apply Rabs_pos|exact Hv|]. apply Req_le.
    replace (order - 1 - Z.of_nat m + Z.of_nat i)%Z with (order - 1 + Z.of_nat i - Z.of_nat m)%Z by lia. set (d := (order - 1 + Z.of_nat i - Z.of_nat m)%Z).
    assert (Hodd : Z.odd (Z.of_nat m - Z.of_nat i) = Z.odd d).
    { replace d with (order - 1 - (Z.of_nat m - Z.of_nat i))%Z by (unfold d; lia). rewrite (Z.odd_sub (order - 1)), (Z.odd_sub order), H2. cbn [Z.odd xorb]. destruct (Z.odd (_ - _)); reflexivity. }
    rewrite Hodd. unfold e, zdefect1. destruct (Z.odd d) eqn:Od.
    + destruct (Z.eqb_spec d 0) as [C|C]; [rewrite C in Od; discriminate|]. rewrite Rminus_0_r, Rabs_R0. unfold Rdiv. ring.
    + rewrite acorr_rowR by exact HS. fold S. rewrite abs_IZR, minus_IZR, mult_IZR. unfold Rdiv. rewrite <- (Rabs_pos_eq (/ (S * S))) at 2 by (apply Rlt_le, Rinv_0_lt_compat, HSS).
      rewrite <- Rabs_mult. f_equal. destruct (Z.eqb d 0); rewrite ?mult_IZR; fold S; field; lra.
  - rewrite rsum_scal, Rmult_comm. apply Rmult_le_compat_r; [exact HX0|].
    eapply Rle_trans; [apply (shift_le e (order - 1 - Z.of_nat m) (- Z.of_nat (length r)) (length x) (2 * length r) He0)|].
    + intros d Hd. unfold e, zdefect1 in Hd. destruct (Z.odd d); [exfalso; apply Hd; unfold Rdiv; ring|].
      destruct (Z.eqb_spec d 0) as [C|C]; [lia|]. rewrite Z.sub_0_r in Hd.
      assert (A : acorr (normal (rowR r)) d <> 0). { rewrite acorr_rowR by exact HS. fold S. intros C1. apply Hd.
        rewrite abs_IZR, mult_IZR. unfold Rdiv in *. apply Rmult_integral in C1. destruct C1 as [C1|C1]; [rewrite C1, Rmult_0_r, Rabs_R0; ring|].
        pose proof (Rinv_0_lt_compat _ HSS). lra. }
      apply acorr_support in A. replace (length (normal (rowR r))) with (length r) in A by (unfold normal, rowR; rewrite !map_length; reflexivity). lia.
    + apply Rmult_le_reg_r with (S * S); [exact HSS|]. eapply Rle_trans; [|exact HB]. apply Req_le. rewrite <- rsum_scal_r. unfold zdefect. rewrite zsum_rsum.
      apply rsum_ext. intros k Hk. unfold e. replace (- Z.of_nat (length r) + Z.of_nat k)%Z with (Z.of_nat k - Z.of_nat (length r))%Z by lia. field. lra.
Qed.
Print Assumptions C62_wavelet_table_delay.
Example C62_table_example : is_ok (makeR "symmlet" 7) = true /\ is_ok (makeR "Coiflet" 5) = true.
Proof. split; reflexivity. Qed.

(** ** C63 *)
Lemma pure_analysis_int b0 b1 (x : list R) : @pure_analysis RA DInt b0 b1 x = map Rtrunc (anR b0 b1 x).
Proof. rewrite anR_eq, map_app. reflexivity. Qed.
Lemma pure_synthesis_int b0 b1 (x : list R) : @pure_synthesis RA DInt b0 b1 x = map Rtrunc (syR b0 b1 x).
Proof. unfold syR, pure_synthesis. change (@map (carrier RA) (carrier RA)) with (@map R R). rewrite map_castf. reflexivity. Qed.
Lemma haar_an bk : is_bank [1/2; 1/2] 1 bk -> forall x h j, length x = (2 * h)%nat -> (j < h)%nat ->
  nth j (an bk x) 0 = (nth (2 * j) x 0 + nth (2 * j + 1) x 0) / 2 /\
  nth (h + j) (an bk x) 0 = (nth (2 * j + 1) x 0 - nth (2 * j) x 0) / 2.
Proof.
  intros (B0 & L0 & L1 & L2 & V & _ & N) x h j Hx Hj. specialize (N eq_refl). unfold an.
  rewrite (anR_low _ _ _ h), (anR_high _ _ _ h) by assumption. rewrite !zfR_nth by lia. rewrite B0, L1. cbn [length rsum].
  change (nth 0 (ba1_ bk) 0) with (ex (ba1_ bk) 0). change (nth 1 (ba1_ bk) 0) with (ex (ba1_ bk) 1). rewrite !(proj1 (N _)).
  replace (Z.of_nat (2 * j + 1) - Z.of_nat 0)%Z with (Z.of_nat (2 * j + 1)) by lia.
  replace (Z.of_nat (2 * j + 1) - Z.of_nat 1)%Z with (Z.of_nat (2 * j)) by lia. rewrite !ex_nat. unfold alt. cbn [Z.odd nth ex Z.ltb Z.compare Z.to_nat Pos.to_nat Pos.iter_op].
  split; unfold ex; cbn [Z.ltb Z.compare Z.to_nat nth]; change (Pos.to_nat 1) with 1%nat; cbv iota; field.
Qed.
Lemma haar_sy bk : is_bank [1/2; 1/2] 1 bk -> forall y h j, length y = (2 * h)%nat -> (j < h)%nat ->
  nth (2 * j) (sy bk y) 0 = nth j y 0 - nth (h + j) y 0 /\
  nth (2 * j + 1) (sy bk y) 0 = nth j y 0 + nth (h + j) y 0.
Proof.
  intros (B0 & L0 & L1 & L2 & V & _ & N) y h j Hy Hj. specialize (N eq_refl). unfold sy.
  assert (T : forall e, (e = 0 \/ e = 1)%Z -> forall c (g : nat -> R), (forall z, c z <> 0 -> (0 <= z <= 1)%Z) ->
     rsum h (fun k => c (Z.of_nat (2 * j) + e - 2 * Z.of_nat k)%Z * g k) = c e * g j).
  { intros e He c g Hc. rewrite (rsum_single _ j _ Hj); [f_equal; f_equal; lia|]. intros k Hk Hne.
    destruct (Req_dec (c (Z.of_nat (2 * j) + e - 2 * Z.of_nat k)%Z) 0) as [C|C]; [rewrite C; ring|]. apply Hc in C. lia. }
  assert (S0 : forall z, ex (bs0_ bk) z <> 0 -> (0 <= z <= 1)%Z) by (intros z Hz; apply ex_support in Hz; rewrite L0 in Hz; cbn in Hz; lia).
  assert (S1 : forall z, ex (bs1_ bk) z <> 0 -> (0 <= z <= 1)%Z) by (intros z Hz; apply ex_support in Hz; rewrite L2 in Hz; cbn in Hz; lia).
  rewrite !(syR_nth _ _ y h) by (assumption || lia). replace (Z.of_nat (2 * j + 1)) with (Z.of_nat (2 * j) + 1)%Z by lia.
  split.
  - rewrite (rsum_ext h _ (fun k => ex (bs0_ bk) (Z.of_nat (2 * j) + 0 - 2 * Z.of_nat k)%Z * nth k y 0)) by (intros; rewrite Z.add_0_r; reflexivity).
    rewrite (rsum_ext h (fun k => ex (bs1_ bk) _ * _) (fun k => ex (bs1_ bk) (Z.of_nat (2 * j) + 0 - 2 * Z.of_nat k)%Z * nth (h + k) y 0)) by (intros; rewrite Z.add_0_r; reflexivity).
    rewrite (T 0%Z ltac:(left; reflexivity) _ (fun k => nth k y 0) S0), (T 0%Z ltac:(left; reflexivity) _ (fun k => nth (h + k) y 0) S1). rewrite V, (proj2 (N _)), !haar_ex. unfold alt. cbn. field.
  - rewrite (T 1%Z ltac:(right; reflexivity) _ (fun k => nth k y 0) S0), (T 1%Z ltac:(right; reflexivity) _ (fun k => nth (h + k) y 0) S1). rewrite V, (proj2 (N _)), !haar_ex. unfold alt. cbn. field.
Qed.

(** Integer signals: the one-level Haar round trip is exact if and only if every pair sum is even. *)
Theorem C63_wavelet_int_truncates (style : string) (bk : wbank RA) (x : list Z) (h : nat) :
  py_lower style = "haar"%string -> makeR style 1 = Ok bk -> length x = (2 * S h)%nat ->
  exists y z : list R,
    wt_transform bk DInt (ND1 (map IZR x)) 1 false = Ok (ND1 y) /\ wt_transform bk DInt (ND1 y) 1 true = Ok (ND1 z) /\
    length y = length x /\ length z = length x /\
    (forall j, (j <= h)%nat ->
       nth j y 0 = Rtrunc ((IZR (nth (2 * j) x 0%Z) + IZR (nth (2 * j + 1) x 0%Z)) / 2) /\
       nth (S h + j) y 0 = Rtrunc ((IZR (nth (2 * j + 1) x 0%Z) - IZR (nth (2 * j) x 0%Z)) / 2)) /\
    (z = map IZR x <-> forall j, (j <= h)%nat -> Z.even (nth (2 * j) x 0%Z + nth (2 * j + 1) x 0%Z) = true).
Proof.
  intros Hs E Hx. pose proof (wt_make_ok _ _ _ E) as Hb. pose proof (haar_bank _ _ Hs E) as HB.
  assert (Hx' : length (map IZR x) = (2 * S h)%nat) by (rewrite map_length; exact Hx).
  set (y := map Rtrunc (an bk (map IZR x))). set (z := map Rtrunc (sy bk y)).
  assert (Ly0 : length (an bk (map IZR x)) = (2 * S h)%nat) by (apply anR_length, Hx').
  assert (Ly : length y = (2 * S h)%nat) by (unfold y; rewrite map_length; exact Ly0).
  assert (Lz0 : length (sy bk y) = (2 * S h)%nat) by (apply syR_length, Ly).
  assert (Lz : length z = (2 * S h)%nat) by (unfold z; rewrite map_length; exact Lz0).
  assert (Hn : forall i, nth i (map IZR x) 0 = IZR (nth i x 0%Z)) by (intros i; apply (map_nth IZR x 0%Z i)).
  assert (Hy : forall j, (j <= h)%nat -> nth j y 0 = Rtrunc ((IZR (nth (2 * j) x 0%Z) + IZR (nth (2 * j + 1) x 0%Z)) / 2) /\
       nth (S h + j) y 0 = Rtrunc ((IZR (nth (2 * j + 1) x 0%Z) - IZR (nth (2 * j) x 0%Z)) / 2)).
  { intros j Hj. unfold y. rewrite !(nth_map_lt Rtrunc _ _ 0) by lia. destruct (haar_an bk HB (map IZR x) (S h) j Hx' ltac:(lia)) as [-> ->]. rewrite !Hn. auto. }
  assert (Hz : forall j, (j <= h)%nat -> nth (2 * j) z 0 = nth j y 0 - nth (S h + j) y 0 /\ nth (2 * j + 1) z 0 = nth j y 0 + nth (S h + j) y 0).
  { intros j Hj. unfold z. rewrite !(nth_map_lt Rtrunc _ _ 0) by lia. destruct (haar_sy bk HB y (S h) j Ly ltac:(lia)) as [-> ->].
    destruct (Hy j Hj) as [-> ->]. destruct (Rtrunc_is_IZR ((IZR (nth (2 * j) x 0%Z) + IZR (nth (2 * j + 1) x 0%Z)) / 2)) as [u ->].
    destruct (Rtrunc_is_IZR ((IZR (nth (2 * j + 1) x 0%Z) - IZR (nth (2 * j) x 0%Z)) / 2)) as [v ->].
    rewrite <- minus_IZR, <- plus_IZR, !Rtrunc_IZR. auto. }
  exists y, z. split; [|split; [|split; [congruence|split; [congruence|split; [exact Hy|]]]]].
  - rewrite (proj1 (one_level bk Hb DInt (map IZR x) h Hx')). f_equal. f_equal. apply pure_analysis_int.
  - rewrite (proj2 (one_level bk Hb DInt y h Ly)). f_equal. f_equal. apply pure_synthesis_int.
  - split.
    + intros Ez j Hj. destruct (Hz j Hj) as [Z1 Z2]. destruct (Hy j Hj) as [Y1 Y2].
      destruct (Rtrunc_is_IZR ((IZR (nth (2 * j) x 0%Z) + IZR (nth (2 * j + 1) x 0%Z)) / 2)) as [u Hu].
      rewrite Ez, !Hn in *. assert (D : IZR (nth (2 * j) x 0%Z) + IZR (nth (2 * j + 1) x 0%Z) = 2 * IZR u) by lra.
      rewrite <- plus_IZR, <- mult_IZR in D. apply eq_IZR in D. rewrite D, Z.even_mul. reflexivity.
    + intros He. apply listR_ext; [congruence|]. intros i Hi. rewrite Lz in Hi. rewrite Hn.
      pose proof (Nat.div_mod i 2 ltac:(lia)) as D. pose proof (Nat.mod_upper_bound i 2 ltac:(lia)) as M. set (j := (i / 2)%nat) in *.
      assert (Hj : (j <= h)%nat) by (apply Nat.lt_succ_r, Nat.div_lt_upper_bound; lia).
      destruct (Hz j Hj) as [Z1 Z2]. destruct (Hy j Hj) as [Y1 Y2]. specialize (He j Hj). apply Z.even_spec in He. destruct He as [u Hu].
      set (a := nth (2 * j) x 0%Z) in *. set (b := nth (2 * j + 1) x 0%Z) in *.
      replace ((IZR a + IZR b) / 2) with (IZR u) in Y1 by (rewrite <- plus_IZR, Hu, mult_IZR; field).
      replace ((IZR b - IZR a) / 2) with (IZR (u - a)) in Y2 by (rewrite minus_IZR; replace (IZR b) with (2 * IZR u - IZR a) by (rewrite <- mult_IZR, <- Hu, plus_IZR; ring); field).
      rewrite Rtrunc_IZR in Y1, Y2. rewrite minus_IZR in Y2.
      assert (Hb2 : IZR b = 2 * IZR u - IZR a) by (rewrite <- mult_IZR, <- Hu, plus_IZR; ring).
      assert (C : (i = 2 * j \/ i = 2 * j + 1)%nat) by lia. destruct C as [C|C]; rewrite C.
      * rewrite Z1, Y1, Y2. fold a. ring.
      * rewrite Z2, Y1, Y2. fold b. rewrite Hb2. ring.
Qed.
Print Assumptions C63_wavelet_int_truncates.
Example C63_example : Z.even (nth 0 [1; 2]%Z 0%Z + nth 1 [1; 2]%Z 0%Z) = false /\ length [1; 2]%Z = (2 * 1)%nat.
Proof. split; reflexivity. Qed.

(** ** C60 *)
(** p x + q u, for signals and matrices *)
Definition linR (p q : R) (x u : list R) : list R := map2 (fun a b => p * a + q * b) x u.
Definition mlin (p q : R) (M N : list (list R)) : list (list R) := map2 (linR p q) M N.
Lemma linR_length p q x u : length x = length u -> length (linR p q x u) = length x.
Proof. intros H. unfold linR. rewrite length_map2. lia. Qed.
Lemma linR_nth p q x u i : length x = length u -> nth i (linR p q x u) 0 = p * nth i x 0 + q * nth i u 0.
Proof.
  intros H. destruct (le_lt_dec (length x) i) as [C|C].
  - rewrite !nth_overflow; [ring|lia|lia|rewrite linR_length by exact H; lia].
  - unfold linR. apply (nth_map2 (fun a b => p * a + q * b) x u i 0 0 0); lia.
Qed.

Definition getR (M : list (list R)) i j : R := nth j (nth i M []) 0.
Lemma mlin_wf p q r c M N : wfR r c M -> wfR r c N -> wfR r c (mlin p q M N).
Proof.
  intros [H1 H2] [H3 H4]. unfold mlin. split; [rewrite length_map2; lia|]. clear H1 H3. revert N H4.
  induction M as [|m M IH]; intros [|n N] H4; cbn [map2]; constructor.
  - inversion H2; inversion H4; subst. rewrite linR_length; congruence.
  - inversion H2; inversion H4; subst. apply IH; assumption.
Qed.
Lemma mlin_get p q r c M N i j : wfR r c M -> wfR r c N -> (i < r)%nat -> getR (mlin p q M N) i j = p * getR M i j + q * getR N i j.
Proof.
  intros HM HN Hi. unfold getR, mlin. rewrite (nth_map2 (linR p q) M N i [] [] []) by (destruct HM, HN; lia). apply linR_nth.
  etransitivity; [apply (@wf_row RA r c M i HM Hi)|symmetry; apply (@wf_row RA r c N i HN Hi)].
Qed.
Lemma matR_ext r c M N : wfR r c M -> wfR r c N -> (forall i j, (i < r)%nat -> (j < c)%nat -> getR M i j = getR N i j) -> M = N.
Proof. apply (@mat_ext RA). Qed.

Definition trR (c : nat) (M : list (list R)) : list (list R) := @transp RA c M.
Lemma trR_wf r c M : wfR r c M -> wfR c r (trR c M).
Proof. intros H. apply (@transp_wf RA c M r (proj1 H)). Qed.
Lemma tr_lin p q r c M N : wfR r c M -> wfR r c N -> trR c (mlin p q M N) = mlin p q (trR c M) (trR c N).
Proof.
  intros HM HN. pose proof (mlin_wf p q r c M N HM HN) as HL. apply (matR_ext c r); [apply trR_wf, HL|apply mlin_wf; apply trR_wf; assumption|].
  assert (G : forall K, wfR r c K -> forall i j, (i < c)%nat -> (j < r)%nat -> getR (trR c K) i j = getR K j i).
  { intros K HK i j Hi Hj. apply (@transp_get RA c K j i Hi). destruct HK as [HK _]. change (@length (list (carrier RA)) K) with (length K). lia. }
  intros i j Hi Hj. rewrite (mlin_get p q c r) by (try apply trR_wf; assumption). rewrite !G by assumption. apply (mlin_get p q r c); assumption.
Qed.

Definition lineR (f : list R -> list R) : Prop :=
  (forall l h, length l = (2 * S h)%nat -> length (f l) = (2 * S h)%nat) /\
  forall p q x u h, length x = (2 * S h)%nat -> length u = (2 * S h)%nat -> f (linR p q x u) = linR p q (f x) (f u).
Definition pAR : (list R -> list R) -> nat -> nat -> nat -> list (list R) -> list (list R) := @pureA RA.
Definition pSR : (list R -> list R) -> nat -> nat -> nat -> list (list R) -> list (list R) := @pureS RA.
Definition rowsR (f : list R -> list R) c (M : list (list R)) := @rows_if RA f c M.
Definition colsR (f : list R -> list R) r c (M : list (list R)) := @cols_if RA f r c M.
Definition blockR ii jj (M : list (list R)) : list (list R) := @block RA ii jj M.
Definition set_blockR ii jj (B M : list (list R)) : list (list R) := @set_block RA ii jj B M.

Lemma map_lin p q f r c M N : (forall x u, length x = c -> length u = c -> f (linR p q x u) = linR p q (f x) (f u)) ->
  wfR r c M -> wfR r c N -> map f (mlin p q M N) = mlin p q (map f M) (map f N).
Proof.
  intros Hf [H1 H2] [H3 H4]. clear H1 H3. revert N H4. unfold mlin. induction M as [|m M IH]; intros [|n N] H4; cbn [map2 map]; try reflexivity.
  inversion H2; inversion H4; subst. f_equal; [apply Hf; congruence|apply IH; assumption].
Qed.
Lemma rows_lin p q f k r c M N : lineR f -> adm (S k) c -> wfR r c M -> wfR r c N ->
  rowsR f c (mlin p q M N) = mlin p q (rowsR f c M) (rowsR f c N).
Proof.
  intros [_ Hf] Hc HM HN. unfold rowsR, rows_if. destruct (Nat.ltb_spec 1 c); [|reflexivity]. destruct (adm_even _ _ Hc) as [C|[h C]]; [lia|].
  apply (map_lin p q f r c); try assumption. intros x u Hx Hu. apply (Hf p q x u h); congruence.
Qed.
Lemma cols_lin p q f k r c M N : lineR f -> adm (S k) r -> wfR r c M -> wfR r c N ->
  colsR f r c (mlin p q M N) = mlin p q (colsR f r c M) (colsR f r c N).
Proof.
  intros Hf Hr HM HN. unfold colsR, cols_if. destruct (Nat.ltb_spec 1 r) as [H1|H1]; [|reflexivity]. unfold on_cols.
  change (@transp RA) with trR. rewrite (tr_lin p q r c) by assumption. destruct (adm_even _ _ Hr) as [C|[h C]]; [lia|].
  change (@map (list (carrier RA)) (list (carrier RA))) with (@map (list R) (list R)).
  assert (W : forall K, wfR r c K -> wfR c r (map f (trR c K))).
  { intros K HK. apply (@map_wf RA c r (trR c K) f); [|apply trR_wf, HK]. intros l Hl. change (@length (carrier RA)) with (@length R) in *. rewrite C in *. apply (proj1 Hf). exact Hl. }
  rewrite (map_lin p q f c r); [|intros x u Hx Hu; apply (proj2 Hf p q x u h); congruence|apply trR_wf; assumption..].
  apply (tr_lin p q c r); apply W; assumption.
Qed.
Lemma block_lin p q r c ii jj M N : wfR r c M -> wfR r c N -> (ii <= r)%nat -> (jj <= c)%nat ->
  blockR ii jj (mlin p q M N) = mlin p q (blockR ii jj M) (blockR ii jj N).
Proof.
  intros HM HN Hi Hj. pose proof (mlin_wf p q r c M N HM HN) as HL.
  assert (W : forall K, wfR r c K -> wfR ii jj (blockR ii jj K)) by (intros K HK; apply (@block_wf RA r c); assumption).
  apply (matR_ext ii jj); [apply W, HL|apply mlin_wf; apply W; assumption|].
  assert (G : forall K, wfR r c K -> forall i j, (i < ii)%nat -> (j < jj)%nat -> getR (blockR ii jj K) i j = getR K i j).
  { intros K HK i j Hii Hjj. apply (@block_get RA r c); assumption. }
  intros i j Hii Hjj. rewrite (mlin_get p q ii jj) by (try apply W; assumption). rewrite !G by assumption. apply (mlin_get p q r c); assumption || lia.
Qed.
Lemma set_block_lin p q r c ii jj B C M N : wfR r c M -> wfR r c N -> wfR ii jj B -> wfR ii jj C -> (ii <= r)%nat -> (jj <= c)%nat ->
  set_blockR ii jj (mlin p q B C) (mlin p q M N) = mlin p q (set_blockR ii jj B M) (set_blockR ii jj C N).
Proof.
  intros HM HN HB HC Hi Hj. pose proof (mlin_wf p q r c M N HM HN) as HL. pose proof (mlin_wf p q ii jj B C HB HC) as HL2.
  assert (W : forall D K, wfR ii jj D -> wfR r c K -> wfR r c (set_blockR ii jj D K)) by (intros D K HD HK; apply (@set_block_wf RA r c); assumption).
  apply (matR_ext r c); [apply W; assumption|apply mlin_wf; apply W; assumption|].
  assert (G : forall D K, wfR ii jj D -> wfR r c K -> forall i j, (i < r)%nat -> (j < c)%nat ->
     getR (set_blockR ii jj D K) i j = if (i <? ii)%nat && (j <? jj)%nat then getR D i j else getR K i j).
  { intros D K HD HK i j Hii Hjj. apply (@set_block_get RA r c); assumption. }
  intros i j Hii Hjj. rewrite (mlin_get p q r c) by (try apply W; assumption). rewrite !G by assumption.
  destruct (Nat.ltb_spec i ii), (Nat.ltb_spec j jj); cbn [andb]; first [apply (mlin_get p q ii jj); assumption|apply (mlin_get p q r c); assumption].
Qed.
Lemma pA_lin p q f : lineR f -> forall k r c M N, adm k r -> adm k c -> wfR r c M -> wfR r c N ->
  pAR f k r c (mlin p q M N) = mlin p q (pAR f k r c M) (pAR f k r c N).
Proof.
  intros Hf. induction k as [|k IH]; intros r c M N Hr Hc HM HN; [reflexivity|].
  assert (E : forall K, pAR f (S k) r c K = set_blockR (half r) (half c) (pAR f k (half r) (half c) (blockR (half r) (half c) (colsR f r c (rowsR f c K)))) (colsR f r c (rowsR f c K))) by reflexivity.
  rewrite !E. destruct (adm_half _ _ Hr) as [Hr1 Hr2]. destruct (adm_half _ _ Hc) as [Hc1 Hc2].
  assert (W1 : forall K, wfR r c K -> wfR r c (rowsR f c K)) by (intros K HK; apply (@rows_if_wf RA f k r c K (proj1 Hf) Hc HK)).
  assert (W2 : forall K, wfR r c K -> wfR r c (colsR f r c K)) by (intros K HK; apply (@cols_if_wf RA f k r c K (proj1 Hf) Hr HK)).
  assert (W3 : forall K, wfR r c K -> wfR (half r) (half c) (blockR (half r) (half c) K)) by (intros K HK; apply (@block_wf RA r c); [exact HK|lia|lia]).
  rewrite (rows_lin p q f k r c), (cols_lin p q f k r c) by auto. rewrite (block_lin p q r c) by (auto || lia). rewrite IH by auto.
  apply (set_block_lin p q r c); auto; try lia; apply (@pureA_wf RA f (proj1 Hf)); auto; apply W3; auto.
Qed.
Lemma pS_lin p q f : lineR f -> forall k r c M N, adm k r -> adm k c -> wfR r c M -> wfR r c N ->
  pSR f k r c (mlin p q M N) = mlin p q (pSR f k r c M) (pSR f k r c N).
Proof.
  intros Hf. induction k as [|k IH]; intros r c M N Hr Hc HM HN; [reflexivity|].
  assert (E : forall K, pSR f (S k) r c K = rowsR f c (colsR f r c (set_blockR (half r) (half c) (pSR f k (half r) (half c) (blockR (half r) (half c) K)) K))) by reflexivity.
  rewrite !E. destruct (adm_half _ _ Hr) as [Hr1 Hr2]. destruct (adm_half _ _ Hc) as [Hc1 Hc2].
  assert (W1 : forall K, wfR r c K -> wfR r c (colsR f r c K)) by (intros K HK; apply (@cols_if_wf RA f k r c K (proj1 Hf) Hr HK)).
  assert (W3 : forall K, wfR r c K -> wfR (half r) (half c) (blockR (half r) (half c) K)) by (intros K HK; apply (@block_wf RA r c); [exact HK|lia|lia]).
  assert (W4 : forall K, wfR r c K -> wfR (half r) (half c) (pSR f k (half r) (half c) (blockR (half r) (half c) K))).
  { intros K HK. apply (@pureS_wf RA f (proj1 Hf)); auto. apply W3, HK. }
  assert (W5 : forall K, wfR r c K -> wfR r c (set_blockR (half r) (half c) (pSR f k (half r) (half c) (blockR (half r) (half c) K)) K)).
  { intros K HK. apply (@set_block_wf RA r c); try lia; [exact HK|apply W4, HK]. }
  rewrite (block_lin p q r c) by (auto || lia). rewrite IH by auto. rewrite (set_block_lin p q r c) by (auto || lia).
  rewrite (cols_lin p q f k r c) by auto. apply (rows_lin p q f k r c); auto.
Qed.

Lemma ex_lin p q x u z : length x = length u -> ex (linR p q x u) z = p * ex x z + q * ex u z.
Proof. intros H. unfold ex. destruct (Z.ltb z 0); [ring|]. apply linR_nth, H. Qed.
Lemma zfR_lin p q b x u n : length x = length u -> (n < length x)%nat -> nth n (zfR b (linR p q x u)) 0 = p * nth n (zfR b x) 0 + q * nth n (zfR b u) 0.
Proof.
  intros H Hn. rewrite !zfR_nth by (rewrite ?linR_length; lia). rewrite <- !rsum_scal, <- rsum_add. apply rsum_ext. intros k Hk. rewrite ex_lin by exact H. ring.
Qed.
Lemma an_line b0 b1 : lineR (anR b0 b1).
Proof.
  split; [intros l h Hl; apply anR_length, Hl|]. intros p q x u h Hx Hu. assert (Hxu : length x = length u) by congruence.
  assert (Hl : length (linR p q x u) = (2 * S h)%nat) by (rewrite linR_length; congruence).
  pose proof (anR_length b0 b1 _ _ Hl) as L1. pose proof (anR_length b0 b1 _ _ Hx) as L2. pose proof (anR_length b0 b1 _ _ Hu) as L3.
  apply listR_ext; [rewrite linR_length; congruence|]. intros i Hi. rewrite L1 in Hi. rewrite linR_nth by congruence.
  destruct (le_lt_dec (S h) i) as [C|C].
  - replace i with (S h + (i - S h))%nat by lia. rewrite !(anR_high _ _ _ (S h)) by (assumption || lia). apply zfR_lin; lia.
  - rewrite !(anR_low _ _ _ (S h)) by (assumption || lia). apply zfR_lin; lia.
Qed.
Lemma sy_line b0 b1 : lineR (syR b0 b1).
Proof.
  split; [intros l h Hl; apply syR_length, Hl|]. intros p q x u h Hx Hu. assert (Hxu : length x = length u) by congruence.
  assert (Hl : length (linR p q x u) = (2 * S h)%nat) by (rewrite linR_length; congruence).
  pose proof (syR_length b0 b1 _ _ Hl) as L1. pose proof (syR_length b0 b1 _ _ Hx) as L2. pose proof (syR_length b0 b1 _ _ Hu) as L3.
  apply listR_ext; [rewrite linR_length; congruence|]. intros i Hi. rewrite L1 in Hi. rewrite linR_nth by congruence.
  rewrite !(syR_nth _ _ _ (S h)) by assumption. rewrite !Rmult_plus_distr_l, <- !rsum_scal, <- !rsum_add. apply rsum_ext. intros j Hj.
  rewrite !linR_nth by exact Hxu. ring.
Qed.
Lemma pure_lin bk inverse p q k r c M N : adm k r -> adm k c -> wfR r c M -> wfR r c N ->
  @pure_wt RA bk DFloat inverse k r c (mlin p q M N) = mlin p q (@pure_wt RA bk DFloat inverse k r c M) (@pure_wt RA bk DFloat inverse k r c N).
Proof.
  intros Hr Hc HM HN. unfold pure_wt. destruct inverse.
  - apply (pS_lin p q (syR (bs0 bk) (bs1 bk)) (sy_line _ _)); assumption.
  - apply (pA_lin p q (anR (ba0 bk) (ba1 bk)) (an_line _ _)); assumption.
Qed.

Lemma transform1R bk (Hb : bank_ok bk) (x : list R) n k inverse : length x = n -> n <> 0%nat -> good_dim (Z.of_nat (S k)) n ->
  exists y : list R, transformR bk (ND1 x) (Z.of_nat (S k)) inverse = Ok (ND1 y) /\ @pure_wt RA bk DFloat inverse (S k) 1 n [x] = [y].
Proof. intros <- Hn Hg. apply (transform1 bk Hb DFloat x k inverse); [intros ->; apply Hn; reflexivity|exact Hg]. Qed.

Theorem C60_wavelet_linear (style : string) (order : Z) (bk : wbank RA) (count : Z) (inverse : bool) (p q : R) :
  makeR style order = Ok bk ->
  (forall x u y v : list R, length x = length u ->
     transformR bk (ND1 x) count inverse = Ok (ND1 y) -> transformR bk (ND1 u) count inverse = Ok (ND1 v) ->
     transformR bk (ND1 (linR p q x u)) count inverse = Ok (ND1 (linR p q y v))) /\
  (forall c (M N K L : list (list R)), length M = length N -> c <> 0%nat ->
     Forall (fun row => length row = c) M -> Forall (fun row => length row = c) N ->
     transformR bk (ND2 c M) count inverse = Ok (ND2 c K) -> transformR bk (ND2 c N) count inverse = Ok (ND2 c L) ->
     transformR bk (ND2 c (mlin p q M N)) count inverse = Ok (ND2 c (mlin p q K L))).
Proof.
  intros E. pose proof (wt_make_ok _ _ _ E) as Hb. destruct (C59_wavelet_shape RA style order bk DFloat count inverse E) as (S1 & S2 & _).
  assert (Dec : forall n, good_dim count n \/ ~ good_dim count n).
  { intros n. unfold good_dim. destruct (Nat.eq_dec n 1); [auto|]. destruct (Nat.eq_dec (n mod 2 ^ Z.to_nat count) 0); [auto|]. right. intuition. }
  split.
  - intros x u y v Hl Ex Eu.
    assert (Hx : x <> []) by (intros ->; discriminate Ex).
    assert (Hc : (0 < count)%Z). { destruct (Z_lt_dec 0 count); [assumption|]. exfalso. destruct (S1 x) as [_ B]. unfold transformR in Ex. rewrite B in Ex by (intros (_ & C & _); lia). discriminate. }
    assert (Hg : good_dim count (length x)). { destruct (Dec (length x)) as [D|D]; [exact D|]. exfalso. destruct (S1 x) as [_ B]. unfold transformR in Ex. rewrite B in Ex by (intros (_ & _ & C); apply D, C). discriminate. }
    destruct (to_nat_pos _ Hc) as [k Hk]. assert (Ec : count = Z.of_nat (S k)) by lia. subst count. clear Hc Hk.
    assert (Hxl : length x <> 0%nat) by (destruct x; cbn; congruence).
    destruct (transform1R bk Hb x (length x) k inverse eq_refl Hxl Hg) as (y' & T1 & P1). rewrite T1 in Ex. injection Ex as ->.
    destruct (transform1R bk Hb u (length x) k inverse (eq_sym Hl) Hxl Hg) as (v' & T2 & P2). rewrite T2 in Eu. injection Eu as ->.
    destruct (transform1R bk Hb (linR p q x u) (length x) k inverse (linR_length p q x u Hl) Hxl Hg) as (w & T3 & P3).
    rewrite T3. f_equal. f_equal. pose proof (good_adm _ _ Hxl Hg) as Ha.
    assert (PL : [w] = mlin p q [y] [v]); [|cbn in PL; congruence]. rewrite <- P1, <- P2, <- P3.
    apply (pure_lin bk inverse p q (S k) 1 (length x) [x] [u] (or_introl eq_refl) Ha); (split; [reflexivity|repeat constructor]). symmetry. exact Hl.
  - intros c M N K L HL Hc0 HM HN EM EN.
    assert (HM0 : M <> []) by (intros ->; discriminate EM). assert (Hr0 : length M <> 0%nat) by (destruct M; cbn; congruence).
    assert (Hc : (0 < count)%Z). { destruct (Z_lt_dec 0 count); [assumption|]. exfalso. destruct (S2 c M HM) as (_ & B & _). unfold transformR in EM. rewrite B in EM by (intros (_ & C & _); lia). discriminate. }
    assert (Hg : good_dim count (length M)). { destruct (Dec (length M)) as [D|D]; [exact D|]. exfalso. destruct (S2 c M HM) as (_ & B & _). unfold transformR in EM. rewrite B in EM by (intros (_ & _ & C & _); apply D, C). discriminate. }
    assert (Hgc : good_dim count c). { destruct (Dec c) as [D|D]; [exact D|]. exfalso. destruct (S2 c M HM) as (_ & B & _). unfold transformR in EM. rewrite B in EM by (intros (_ & _ & _ & C); apply D, C). discriminate. }
    destruct (to_nat_pos _ Hc) as [k Hk]. assert (Ec : count = Z.of_nat (S k)) by lia. subst count. clear Hc Hk. unfold transformR in *.
    set (r := length M) in *. assert (WM : wfR r c M) by (split; [reflexivity|exact HM]). assert (WN : wfR r c N) by (split; [congruence|exact HN]).
    rewrite (@transform2 RA bk Hb DFloat r c M k inverse Hr0 Hc0 WM Hg Hgc) in EM. injection EM as <-.
    rewrite (@transform2 RA bk Hb DFloat r c N k inverse Hr0 Hc0 WN Hg Hgc) in EN. injection EN as <-.
    rewrite (@transform2 RA bk Hb DFloat r c (mlin p q M N) k inverse Hr0 Hc0 (mlin_wf p q r c M N WM WN) Hg Hgc). f_equal. f_equal.
    apply pure_lin; try assumption; apply good_adm; assumption.
Qed.
Print Assumptions C60_wavelet_linear.
Example C60_example : forall x : list R, length x = 4%nat -> exists bk y, makeR "Symmlet" 7 = Ok bk /\ transformR bk (ND1 x) 2 true = Ok (ND1 y).
Proof.
  intros x Hx. destruct (makeR "Symmlet" 7) as [bk|e] eqn:E; [|exfalso; discriminate E].
  destruct (C59_wavelet_shape RA "Symmlet" 7 bk DFloat 2 true E) as (S1 & _). destruct (S1 x) as [S _].
  destruct S as (y & Ey & _); [intros ->; discriminate|reflexivity|right; change (@length (carrier RA) x) with (length x); rewrite Hx; reflexivity|]. exists bk, y. auto.
Qed.
