(** Property C156: GaussianModel under linear changes of the features. *)
From Coq Require Import List Arith ZArith Bool Permutation Sorting Reals Lra Lia.
From Verif Require Import Base BaseLemmas Instances Sums LinAlg RankModel RankProps GaussModel GaussProps GaussExactProps.
Import ListNotations.
Set Asymmetric Patterns.
Open Scope R_scope.

(** The features of a row mixed by the matrix A. *)
Definition mixed (cols : nat) (A : nat -> nat -> R) (r : list R) : list R :=
  map (fun i => rsum cols (fun k => A i k * nth k r 0)) (seq 0 cols).
Definition invertible (n : nat) (A : nat -> nat -> R) : Prop :=
  exists B, right_inverse n A B /\ right_inverse n B A.
Definition trans (A : nat -> nat -> R) (i j : nat) : R := A j i.

Lemma mixed_length n A r : length (mixed n A r) = n.
Proof. unfold mixed. rewrite map_length, seq_length. reflexivity. Qed.
Lemma mixed_nth n A r i : (i < n)%nat -> nth i (mixed n A r) 0 = rsum n (fun k => A i k * nth k r 0).
Proof. intros H. unfold mixed. rewrite nth_map_lt with (d := 0%nat) by (rewrite seq_length; exact H). rewrite seq_nth by exact H. reflexivity. Qed.

Lemma mulv_inverse n A B v i : right_inverse n A B -> (i < n)%nat -> mulv n A (mulv n B v) i = v i.
Proof.
  intros H Hi. unfold mulv. rewrite (rsum_ext n _ (fun j => rsum n (fun k => A i j * B j k * v k))) by (intros; rewrite <- rsum_scal; apply rsum_ext; intros; ring).
  rewrite rsum_swap. rewrite (rsum_ext n _ (fun k => delta k i * v k)).
  - apply rsum_delta. exact Hi.
  - intros k Hk. rewrite rsum_scal_r. rewrite (H i k Hi Hk). unfold delta. rewrite Nat.eqb_sym. reflexivity.
Qed.
Lemma mulv_ext n A u v i : (forall k, (k < n)%nat -> u k = v k) -> mulv n A u i = mulv n A v i.
Proof. intros H. unfold mulv. apply rsum_ext. intros k Hk. rewrite H by exact Hk. reflexivity. Qed.
Lemma inner_trans n A u v : inner n (mulv n A u) v = inner n u (mulv n (trans A) v).
Proof.
  unfold inner, mulv, trans. rewrite (rsum_ext n _ (fun i => rsum n (fun j => A i j * u j * v i))) by (intros; rewrite rsum_scal_r; reflexivity).
  rewrite rsum_swap. apply rsum_ext. intros j Hj. rewrite <- rsum_scal. apply rsum_ext. intros; ring.
Qed.
Lemma trans_inverse n A B : right_inverse n A B -> right_inverse n (trans B) (trans A).
Proof. intros H i j Hi Hj. unfold trans. rewrite (rsum_ext n _ (fun k => A j k * B k i)) by (intros; ring). rewrite (H j i Hj Hi). unfold delta. rewrite Nat.eqb_sym. reflexivity. Qed.

(** M' = A M A^T. *)
Definition congruent (n : nat) (A M M' : nat -> nat -> R) : Prop :=
  forall i j, (i < n)%nat -> (j < n)%nat -> M' i j = rsum n (fun k => rsum n (fun l => A i k * M k l * A j l)).
Lemma congruent_mulv n A M M' v i : congruent n A M M' -> (i < n)%nat -> mulv n M' v i = mulv n A (mulv n M (mulv n (trans A) v)) i.
Proof.
  intros H Hi. unfold mulv at 1 2. transitivity (rsum n (fun j => rsum n (fun k => A i k * (rsum n (fun l => M k l * A j l) * v j)))).
  - apply rsum_ext. intros j Hj. rewrite (H i j Hi Hj). rewrite <- rsum_scal_r. apply rsum_ext. intros k Hk.
    rewrite (rsum_ext n _ (fun l => A i k * (M k l * A j l))) by (intros; ring). rewrite rsum_scal. ring.
  - rewrite rsum_swap. apply rsum_ext. intros k Hk. rewrite rsum_scal. f_equal. unfold mulv, trans.
    rewrite (rsum_ext n _ (fun j => rsum n (fun l => M k l * A j l * v j))) by (intros; rewrite rsum_scal_r; reflexivity).
    rewrite rsum_swap. apply rsum_ext. intros l Hl. rewrite <- rsum_scal. apply rsum_ext. intros; ring.
Qed.
Lemma congruent_pos_def n A M M' : invertible n A -> congruent n A M M' -> pos_def n M -> pos_def n M'.
Proof.
  intros (B & AB & BA) H Pd v [i [Hi Nz]]. unfold quad, inner.
  rewrite (rsum_ext n _ (fun i => v i * mulv n A (mulv n M (mulv n (trans A) v)) i)) by (intros; rewrite (congruent_mulv n A M M') by assumption; reflexivity).
  change (0 < inner n v (mulv n A (mulv n M (mulv n (trans A) v)))). unfold inner. rewrite (rsum_ext n _ (fun i => mulv n A (mulv n M (mulv n (trans A) v)) i * v i)) by (intros; ring).
  change (0 < inner n (mulv n A (mulv n M (mulv n (trans A) v))) v). rewrite inner_trans. unfold inner. rewrite (rsum_ext n _ (fun i => mulv n (trans A) v i * mulv n M (mulv n (trans A) v) i)) by (intros; ring).
  apply Pd. destruct (Classical_Prop.classic (nonzero n (mulv n (trans A) v))) as [C|C]; [exact C|exfalso]. apply Nz.
  rewrite <- (mulv_inverse n (trans B) (trans A) v i) by (try exact Hi; apply trans_inverse; exact AB).
  unfold mulv at 1. apply rsum_zero. intros j Hj. destruct (Req_dec (mulv n (trans A) v j) 0) as [E|E]; [rewrite E; ring|]. exfalso. apply C. exists j. split; assumption.
Qed.
Lemma congruent_distance n A M M' P P' d : invertible n A -> congruent n A M M' -> pos_def n M ->
  right_inverse n M P -> right_inverse n M' P' -> quad n P' (mulv n A d) = quad n P d.
Proof.
  intros (B & AB & BA) H Pd RP RP'. set (w := mulv n P' (mulv n A d)).
  assert (E1 : forall i, (i < n)%nat -> mulv n A (mulv n M (mulv n (trans A) w)) i = mulv n A d i).
  { intros i Hi. rewrite <- (congruent_mulv n A M M') by assumption. apply mulv_inverse; assumption. }
  assert (E2 : forall i, (i < n)%nat -> mulv n M (mulv n (trans A) w) i = d i).
  { intros i Hi. rewrite <- (mulv_inverse n B A d i BA Hi). rewrite <- (mulv_inverse n B A (mulv n M (mulv n (trans A) w)) i BA Hi). apply mulv_ext. exact E1. }
  assert (E3 : forall i, (i < n)%nat -> mulv n (trans A) w i = mulv n P d i).
  { intros i Hi. apply Rminus_diag_uniq. apply (pos_def_kernel n M (fun i => mulv n (trans A) w i - mulv n P d i) Pd); [|exact Hi].
    intros k Hk. unfold mulv at 1. rewrite (rsum_ext n _ (fun j => M k j * mulv n (trans A) w j - M k j * mulv n P d j)) by (intros; ring).
    rewrite rsum_sub. change (mulv n M (mulv n (trans A) w) k - mulv n M (mulv n P d) k = 0). rewrite E2 by exact Hk. rewrite mulv_inverse by assumption. ring. }
  unfold quad. fold w. rewrite inner_trans. unfold inner. apply rsum_ext. intros i Hi. rewrite E3 by exact Hi. reflexivity.
Qed.

(** ** fit *)
Lemma fit_total inv (g : gauss RO) cols (rows : list (list R)) labels cs : inverts inv cols -> training cols rows labels -> classes_of labels cs ->
  (forall c, In c labels -> pos_def cols (ent (cov_list cols (gregularize g) (scatter c rows labels)))) ->
  exists g', gauss_fit inv g (X2 cols rows) (YInt labels) = (g', Ok tt) /\ gshape g' = Some cols /\ length (gmodel g') = length cs /\
    forall p, (p < length cs)%nat -> let c := nth p cs 0%Z in
      exists P, nth p (gmodel g') ([], []) = (P, map (cmean c rows labels) (seq 0 cols)) /\ length P = cols /\
        right_inverse cols (ent (cov_list cols (gregularize g) (scatter c rows labels))) (ent P).
Proof.
  intros Hinv T Hcs Hpd. destruct (gauss_fit inv g (X2 cols rows) (YInt labels)) as [g' e] eqn:E.
  assert (Good : forall c, In c labels -> exists P, inv (cov_list cols (gregularize g) (scatter c rows labels)) = Some P /\ length P = cols /\
             right_inverse cols (ent (cov_list cols (gregularize g) (scatter c rows labels))) (ent P)).
  { intros c Hc. destruct (cov_list_dims cols (gregularize g) (scatter c rows labels)) as [D1 D2]. destruct (Hinv _ D1 D2 (Hpd c Hc)) as (P & H1 & H2 & _ & H3). exists P. auto. }
  destruct (C85_gauss_midway _ _ _ _ _ _ _ _ _ T Hcs E) as (Sh & _ & k & Hk & _ & _ & D).
  assert (Ee : e = Ok tt).
  { destruct D as [[D _]|(_ & D1 & D)]; [exact D|]. exfalso. rewrite class_fit_R in D by exact T.
    destruct (Good (nth k cs 0%Z)) as (P & EP & _); [apply (proj2 Hcs), nth_In; exact D1|]. change (@carrier (oa RO)) with R in D. rewrite EP in D. discriminate. }
  subst e. exists g'. split; [reflexivity|]. split; [exact Sh|]. destruct (C84_gauss_fit inv g g' cols rows labels cs T Hcs E) as [Lm Hm]. split; [exact Lm|].
  intros p Hp c. destruct (Hm p Hp) as (P & Em & Ei). fold c in Em, Ei. exists P. split; [exact Em|].
  destruct (Good c) as (P' & EP & LP & R); [apply (proj2 Hcs), nth_In; exact Hp|]. assert (P' = P) by congruence. subst P'. split; assumption.
Qed.

Section Mixed.
  Variables (cols : nat) (A : nat -> nat -> R) (rows : list (list R)) (labels : list Z).
  Hypothesis T : training cols rows labels.
  Let rows' := map (mixed cols A) rows.
  Lemma mixed_training : training cols rows' labels.
  Proof.
    destruct T as (Hc & Nr & L & F). split; [exact Hc|]. split; [unfold rows'; destruct rows; [contradiction|discriminate]|]. split; [unfold rows'; rewrite map_length; exact L|].
    apply Forall_forall. intros r Hr. apply in_map_iff in Hr. destruct Hr as [r0 [<- _]]. apply mixed_length.
  Qed.
  Lemma mixed_mean c i : In c labels -> (i < cols)%nat -> cmean c rows' labels i = mulv cols A (cmean c rows labels) i.
  Proof.
    intros Hin Hi. destruct T as (Hc & Nr & L & F). pose proof (size_pos c rows labels L Hin) as Ps. unfold cmean.
    assert (Es : size c rows' labels = size c rows labels) by (unfold rows'; rewrite !size_length, select_map, map_length; reflexivity).
    rewrite Es. unfold rows'. rewrite total_eq, select_map, lsum_map. rewrite (lsum_ext _ (fun r => rsum cols (fun k => A i k * nth k r 0))) by (intros; apply mixed_nth; exact Hi).
    rewrite <- lsum_rsum. unfold mulv, Rdiv. rewrite <- rsum_scal_r. apply rsum_ext. intros k Hk. rewrite lsum_scal, total_eq. ring.
  Qed.
  Lemma mixed_scatter c : In c labels -> congruent cols A (scatter c rows labels) (scatter c rows' labels).
  Proof.
    intros Hin i j Hi Hj. unfold scatter. rewrite total_eq. unfold rows' at 3. rewrite select_map, lsum_map.
    set (m := cmean c rows labels).
    rewrite (lsum_ext _ (fun r => rsum cols (fun k => rsum cols (fun l => A i k * ((nth k r 0 - m k) * (nth l r 0 - m l)) * A j l)))).
    - rewrite <- lsum_rsum. apply rsum_ext. intros k Hk. rewrite <- lsum_rsum. apply rsum_ext. intros l Hl. rewrite total_eq.
      rewrite (lsum_ext _ (fun r => (A i k * A j l) * ((nth k r 0 - m k) * (nth l r 0 - m l)))) by (intros; ring). rewrite lsum_scal. ring.
    - intros r _. rewrite !mixed_nth by assumption. rewrite !(mixed_mean c) by assumption. fold m. unfold mulv.
      rewrite <- !rsum_sub. rewrite <- rsum_scal_r. apply rsum_ext. intros k Hk. rewrite <- rsum_scal. apply rsum_ext. intros; ring.
  Qed.
  Lemma mixed_cov r r' c : In c labels -> (forall i j, (i < cols)%nat -> (j < cols)%nat -> r * rsum cols (fun k => A i k * A j k) = r' * delta i j) ->
    congruent cols A (ent (cov_list cols r (scatter c rows labels))) (ent (cov_list cols r' (scatter c rows' labels))).
  Proof.
    intros Hin Hr i j Hi Hj. rewrite cov_list_ent by assumption. rewrite (mixed_scatter c Hin i j Hi Hj), <- Hr by assumption.
    rewrite (rsum_ext cols (fun k => rsum cols (fun l => A i k * ent (cov_list cols r (scatter c rows labels)) k l * A j l))
      (fun k => rsum cols (fun l => A i k * scatter c rows labels k l * A j l) * / INR cols + r * (A i k * A j k))).
    - rewrite rsum_add, rsum_scal_r, rsum_scal. reflexivity.
    - intros k Hk. rewrite (rsum_ext cols _ (fun l => A i k * scatter c rows labels k l * A j l * / INR cols + delta l k * (r * A i k * A j l))).
      + rewrite rsum_add, rsum_scal_r, rsum_delta by exact Hk. ring.
      + intros l Hl. rewrite cov_list_ent by assumption. unfold Rdiv. assert (D : delta k l = delta l k) by (unfold delta; rewrite Nat.eqb_sym; reflexivity). rewrite D. ring.
  Qed.
End Mixed.

Lemma predict_eval argsort (g : gauss RO) cols (x : list (list R)) : (0 < cols)%nat -> gmodel g <> [] -> gshape g = Some cols -> x <> [] ->
  snd (gauss_predict argsort g (X2 cols x)) = Ok (map (predict_row argsort (gmodel g)) x).
Proof.
  intros Hc Hm Hs Hx. unfold gauss_predict. cbn [snd]. rewrite Hs. destruct (gmodel g) as [|q m]; [contradiction|]. destruct x; [contradiction|]. destruct cols; [lia|].
  cbn [length Nat.eqb orb]. rewrite Nat.eqb_refl. reflexivity.
Qed.

(** C156.  A linear map A of the features, with regularisation r before and r' after it,
    r A A^T = r', changes no prediction: any invertible A without regularisation, rotations
    and permutations with the same, scaling by s with regularisation times s^2. *)
Theorem C156_gauss_linear inv argsort (g h : gauss RO) cols (A : nat -> nat -> R) (rows : list (list R)) labels (x : list (list R)) :
  inverts inv cols -> training cols rows labels -> invertible cols A ->
  (forall i j, (i < cols)%nat -> (j < cols)%nat -> gregularize g * rsum cols (fun k => A i k * A j k) = gregularize h * delta i j) ->
  (forall c, In c labels -> pos_def cols (ent (cov_list cols (gregularize g) (scatter c rows labels)))) ->
  x <> [] -> Forall (fun r => length r = cols) x ->
  exists g' h' v, gauss_fit inv g (X2 cols rows) (YInt labels) = (g', Ok tt) /\
    gauss_fit inv h (X2 cols (map (mixed cols A) rows)) (YInt labels) = (h', Ok tt) /\
    gauss_predict argsort g' (X2 cols x) = (g', Ok v) /\ gauss_predict argsort h' (X2 cols (map (mixed cols A) x)) = (h', Ok v).
Proof.
  intros Hinv T Ai Hr Hpd Nx Fx. pose proof (mixed_training cols A rows labels T) as T'. set (cs := sorted_set labels). pose proof (sorted_set_ok labels) as Hcs. fold cs in Hcs.
  assert (Hpd' : forall c, In c labels -> pos_def cols (ent (cov_list cols (gregularize h) (scatter c (map (mixed cols A) rows) labels)))).
  { intros c Hc. eapply congruent_pos_def; [exact Ai|apply (mixed_cov cols A rows labels T (gregularize g)); assumption|apply Hpd; exact Hc]. }
  destruct (fit_total inv g cols rows labels cs Hinv T Hcs Hpd) as (g' & E & Sg & Lg & Hg).
  destruct (fit_total inv h cols _ labels cs Hinv T' Hcs Hpd') as (h' & E' & Sh & Lh & Hh).
  pose proof T as (Hc & Nr & L & F).
  assert (Ncs : (0 < length cs)%nat).
  { destruct labels as [|c0 ls]; [destruct rows; [contradiction|discriminate]|]. destruct cs; [|cbn; lia]. exfalso. apply (proj2 Hcs c0). left. reflexivity. }
  exists g', h', (map (predict_row argsort (gmodel g')) x). split; [exact E|]. split; [exact E'|].
  assert (Pg : snd (gauss_predict argsort g' (X2 cols x)) = Ok (map (predict_row argsort (gmodel g')) x)).
  { apply predict_eval; try assumption. intros Z. rewrite Z in Lg. cbn in Lg. lia. }
  assert (Ph : snd (gauss_predict argsort h' (X2 cols (map (mixed cols A) x))) = Ok (map (predict_row argsort (gmodel h')) (map (mixed cols A) x))).
  { apply predict_eval; try assumption; [intros Z; rewrite Z in Lh; cbn in Lh; lia|destruct x; [contradiction|discriminate]]. }
  split; [rewrite <- Pg; reflexivity|]. rewrite map_map in Ph.
  match goal with |- _ = (_, Ok ?v) => assert (Ev : map (fun r => predict_row argsort (gmodel h') (mixed cols A r)) x = v); [|rewrite <- Ev; rewrite <- Ph; reflexivity] end.
  enough (Row : forall r : list R, length r = cols -> predict_row argsort (gmodel h') (mixed cols A r) = predict_row argsort (gmodel g') r).
  { apply map_ext_in. intros r Hrin. apply Row. rewrite Forall_forall in Fx; apply Fx; exact Hrin. }
  intros r Lr.
  unfold predict_row. f_equal. apply nth_ext with (d := @mahalanobis RO ([], []) (mixed cols A r)) (d' := @mahalanobis RO ([], []) r); [rewrite !map_length; transitivity (length cs); [exact Lh|symmetry; exact Lg]|].
  intros p Hp. rewrite map_length in Hp. assert (Hp' : (p < length cs)%nat) by (rewrite <- Lh; exact Hp).
  rewrite (map_nth (fun q => @mahalanobis RO q (mixed cols A r))), (map_nth (fun q => @mahalanobis RO q r)).
  destruct (Hg p Hp') as (P & EP & LP & RP). destruct (Hh p Hp') as (P' & EP' & LP' & RP'). set (c := nth p cs 0%Z) in *.
  assert (Hcl : In c labels) by (apply (proj2 Hcs), nth_In; exact Hp').
  match goal with |- _ = @mahalanobis RO ?q r => replace q with (P, map (cmean c rows labels) (seq 0 cols)) by (symmetry; exact EP) end.
  match goal with |- @mahalanobis RO ?q _ = _ => replace q with (P', map (cmean c (map (mixed cols A) rows) labels) (seq 0 cols)) by (symmetry; exact EP') end.
  assert (Lu : length (map (cmean c rows labels) (seq 0 cols)) = cols) by (rewrite map_length, seq_length; reflexivity).
  assert (Lu' : length (map (cmean c (map (mixed cols A) rows) labels) (seq 0 cols)) = cols) by (rewrite map_length, seq_length; reflexivity).
  etransitivity; [exact (mahalanobis_R P' _ (mixed cols A r) cols (mixed_length cols A r) Lu' LP')|]. etransitivity; [|symmetry; exact (mahalanobis_R P _ r cols Lr Lu LP)].
  assert (D : distance P' (map (cmean c (map (mixed cols A) rows) labels) (seq 0 cols)) (mixed cols A r) = distance P (map (cmean c rows labels) (seq 0 cols)) r).
  { unfold distance. rewrite mixed_length, Lr. rewrite <- (congruent_distance cols A _ _ _ _ (fun i => nth i r 0 - nth i (map (cmean c rows labels) (seq 0 cols)) 0) Ai
      (mixed_cov cols A rows labels T _ _ c Hcl Hr) (Hpd c Hcl) RP RP'). unfold quad, inner, mulv at 1 3.
    assert (Ed : forall i, (i < cols)%nat -> nth i (mixed cols A r) 0 - nth i (map (cmean c (map (mixed cols A) rows) labels) (seq 0 cols)) 0 =
      mulv cols A (fun i => nth i r 0 - nth i (map (cmean c rows labels) (seq 0 cols)) 0) i).
    { intros i Hi. rewrite mixed_nth by exact Hi. rewrite nth_map_lt with (d := 0%nat) by (rewrite seq_length; exact Hi). rewrite seq_nth by exact Hi. cbn [Nat.add].
      rewrite (mixed_mean cols A rows labels T) by assumption. unfold mulv. rewrite <- rsum_sub. apply rsum_ext. intros k Hk.
      rewrite (nth_map_lt (cmean c rows labels)) with (d := 0%nat) by (rewrite seq_length; exact Hk). rewrite seq_nth by exact Hk. cbn [Nat.add]. ring. }
    apply rsum_ext. intros i Hi. rewrite Ed by exact Hi. f_equal. apply rsum_ext. intros k Hk. rewrite Ed by exact Hk. reflexivity. }
  rewrite D. reflexivity.
Qed.
Print Assumptions C156_gauss_linear.

(** With regularisation, a change of units changes predictions. *)
Lemma order2 (d : nat -> R) row : Permutation row (seq 0 2) -> d (nth 0 row 0%nat) <= d (nth 1 row 0%nat) ->
  (d 0%nat < d 1%nat -> row = [0; 1]%nat) /\ (d 1%nat < d 0%nat -> row = [1; 0]%nat).
Proof.
  intros P H. cbn [seq] in P. apply Permutation_sym, Permutation_length_2_inv in P. destruct P as [E|E]; subst row; cbn [nth] in H; split; intros; try reflexivity; lra.
Qed.
Lemma distance1 P u x M : right_inverse 1 M (ent P) -> M 0%nat 0%nat <> 0 -> distance P [u] [x] = (x - u) ^ 2 / M 0%nat 0%nat.
Proof.
  intros R Nz. specialize (R 0%nat 0%nat ltac:(lia) ltac:(lia)). cbn in R. unfold delta in R. cbn in R. unfold distance, quad, inner, mulv. cbn.
  assert (E : ent P 0 0 = / M 0%nat 0%nat). { apply Rmult_eq_reg_l with (M 0%nat 0%nat); [|exact Nz]. rewrite Rinv_r by exact Nz. lra. }
  rewrite E. field. exact Nz.
Qed.
Lemma one_feature inv argsort (s : R) : inverts inv 1 -> @is_argsort RO argsort -> 0 < s ->
  let g := mkGauss [] 1 None : gauss RO in
  exists g' row, gauss_fit inv g (X2 1 [[s * 0]; [s * 2]; [s * 5]]) (YInt [0; 0; 1]%Z) = (g', Ok tt) /\
    gauss_predict argsort g' (X2 1 [[s * (7 / 2)]]) = (g', Ok [row]) /\
    ((s * (5 / 2)) ^ 2 / (2 * s ^ 2 + 1) < (s * (3 / 2)) ^ 2 -> row = [0; 1]%nat) /\
    ((s * (3 / 2)) ^ 2 < (s * (5 / 2)) ^ 2 / (2 * s ^ 2 + 1) -> row = [1; 0]%nat).
Proof.
  intros Hinv Ha Hs g. set (rows := [[s * 0]; [s * 2]; [s * 5]]). set (labels := [0; 0; 1]%Z).
  assert (T : training 1 rows labels) by (unfold training, rows, labels; repeat split; [lia|discriminate|repeat constructor]).
  assert (Hcs : classes_of labels [0; 1]%Z) by apply (sorted_set_ok labels).
  destruct (C81_gauss_nearest inv argsort g 1 rows labels [0; 1]%Z [[s * (7 / 2)]] Hinv Ha T Hcs ltac:(cbn; lra) ltac:(discriminate) ltac:(repeat constructor)) as (g' & v & E & Ev & Lv & Q).
  destruct v as [|row [|? ?]]; try discriminate Lv. exists g', row. split; [exact E|]. split; [exact Ev|].
  destruct (C87_gauss_distances inv g 1 rows labels [0; 1]%Z Hinv T Hcs ltac:(cbn; lra)) as (g2 & E2 & Lm & Hm). assert (g2 = g') by congruence. subst g2.
  destruct (Q 0%nat ltac:(cbn; lia)) as [P S]. cbn [nth length] in P, S. specialize (S 0%nat 1%nat ltac:(lia)).
  destruct (Hm 0%nat ltac:(cbn; lia)) as (P0 & E0 & R0 & _). destruct (Hm 1%nat ltac:(cbn; lia)) as (P1 & E1 & R1 & _). cbn [nth] in E0, R0, E1, R1.
  assert (m0 : cmean 0 rows labels 0 = s) by (unfold cmean, size, total; cbn; field).
  assert (m1 : cmean 1 rows labels 0 = s * 5) by (unfold cmean, size, total; cbn; field).
  assert (c0 : ent (cov_list 1 (gregularize g) (scatter 0 rows labels)) 0 0 = 2 * s ^ 2 + 1).
  { rewrite cov_list_ent by lia. unfold scatter. rewrite m0. unfold total, rows, labels, delta. cbn. field. }
  assert (c1 : ent (cov_list 1 (gregularize g) (scatter 1 rows labels)) 0 0 = 1).
  { rewrite cov_list_ent by lia. unfold scatter. rewrite m1. unfold total, rows, labels, delta. cbn. field. }
  assert (Ps : 0 < s ^ 2) by (apply pow_lt; exact Hs).
  pose proof (distance1 P0 s (s * (7 / 2)) _ R0 ltac:(rewrite c0; lra)) as D0. pose proof (distance1 P1 (s * 5) (s * (7 / 2)) _ R1 ltac:(rewrite c1; lra)) as D1. rewrite c0 in D0. rewrite c1 in D1.
  set (d := fun q : nat => distance (fst (nth q (gmodel g') ([], []))) (map (cmean (nth q [0; 1]%Z 0%Z) rows labels) (seq 0 1)) [s * (7 / 2)]) in *.
  assert (F0 : d 0%nat = (s * (5 / 2)) ^ 2 / (2 * s ^ 2 + 1)).
  { unfold d. cbn [nth seq map]. rewrite m0. match goal with |- distance ?q _ _ = _ => replace q with P0 by (symmetry; exact (f_equal fst E0)) end. rewrite D0. field. lra. }
  assert (F1 : d 1%nat = (s * (3 / 2)) ^ 2).
  { unfold d. cbn [nth seq map]. rewrite m1. match goal with |- distance ?q _ _ = _ => replace q with P1 by (symmetry; exact (f_equal fst E1)) end. rewrite D1. field. }
  destruct (order2 d row P S) as [O1 O2]. rewrite F0, F1 in O1, O2. split; assumption.
Qed.
Theorem C156_gauss_scaling_refuted inv argsort : inverts inv 1 -> @is_argsort RO argsort ->
  exists (g g1 g2 : gauss RO) rows labels x, training 1 rows labels /\ @gauss_make RO 1 = Ok g /\
    gauss_fit inv g (X2 1 rows) (YInt labels) = (g1, Ok tt) /\ gauss_predict argsort g1 (X2 1 x) = (g1, Ok [[0; 1]%nat]) /\
    gauss_fit inv g (X2 1 (map (mixed 1 (fun _ _ => 1 / 10)) rows)) (YInt labels) = (g2, Ok tt) /\
    gauss_predict argsort g2 (X2 1 (map (mixed 1 (fun _ _ => 1 / 10)) x)) = (g2, Ok [[1; 0]%nat]).
Proof.
  intros Hinv Ha. destruct (one_feature inv argsort 1 Hinv Ha ltac:(lra)) as (g1 & r1 & E1 & P1 & Q1 & _).
  destruct (one_feature inv argsort (1 / 10) Hinv Ha ltac:(lra)) as (g2 & r2 & E2 & P2 & _ & Q2).
  rewrite Q1 in P1 by lra. rewrite Q2 in P2 by lra.
  exists (mkGauss [] 1 None), g1, g2, [[1 * 0]; [1 * 2]; [1 * 5]], [0; 0; 1]%Z, [[1 * (7 / 2)]].
  split; [unfold training; repeat split; [lia|discriminate|repeat constructor]|]. split.
  { unfold gauss_make. change (@oltb RO 1 zero) with (Rltb 1 0). destruct (Rltb 1 0) eqn:E; [apply Rltb_iff in E; lra|reflexivity]. }
  split; [exact E1|]. split; [exact P1|].
  assert (M : forall v, mixed 1 (fun _ _ => 1 / 10) [1 * v] = [1 / 10 * v]) by (intros v; unfold mixed; cbn; f_equal; ring).
  cbn [map]. rewrite !M. split; [exact E2|exact P2].
Qed.
Print Assumptions C156_gauss_scaling_refuted.

(** A rotation; a shear without regularisation. *)
Definition rotation (i j : nat) : R := match i, j with 0%nat, 0%nat => 3 / 5 | 0%nat, 1%nat => - (4 / 5) | 1%nat, 0%nat => 4 / 5 | _, _ => 3 / 5 end.
Definition shear (i j : nat) : R := match i, j with 0%nat, 0%nat => 1 | 0%nat, 1%nat => 2 | 1%nat, 0%nat => 0 | _, _ => 1 end.
Definition unshear (i j : nat) : R := match i, j with 0%nat, 0%nat => 1 | 0%nat, 1%nat => -2 | 1%nat, 0%nat => 0 | _, _ => 1 end.
Example C156_example : inverts inv_schur 2 /\
  (invertible 2 rotation /\ forall i j, (i < 2)%nat -> (j < 2)%nat -> (1 / 10) * rsum 2 (fun k => rotation i k * rotation j k) = (1 / 10) * delta i j) /\
  (invertible 2 shear /\ forall i j, (i < 2)%nat -> (j < 2)%nat -> 0 * rsum 2 (fun k => shear i k * shear j k) = 0 * delta i j) /\
  (let rows := [[0; 0]; [1; 0]; [0; 1]; [5; 5]; [6; 5]; [5; 7]] in let labels := [0; 0; 0; 1; 1; 1]%Z in
   training 2 rows labels /\ forall c, In c labels -> pos_def 2 (ent (cov_list 2 0 (scatter c rows labels)))).
Proof.
  split; [apply inv_schur_inverts|]. split; [|split].
  - split.
    + exists (trans rotation). split; intros i j Hi Hj; destruct i as [|[|i]]; try lia; destruct j as [|[|j]]; try lia; unfold trans, rotation, delta; cbn; field.
    + intros i j Hi Hj; destruct i as [|[|i]]; try lia; destruct j as [|[|j]]; try lia; unfold rotation, delta; cbn; field.
  - split; [|intros; ring]. exists unshear. split; intros i j Hi Hj; destruct i as [|[|i]]; try lia; destruct j as [|[|j]]; try lia; unfold shear, unshear, delta; cbn; field.
  - split; [unfold training; repeat split; [lia|discriminate|repeat constructor]|].
    intros c Hc v [i [Hi Nz]].
    assert (K : c = 0%Z \/ c = 1%Z) by (cbn in Hc; intuition). clear Hc.
    assert (Pos : 0 < v 0%nat ^ 2 + v 1%nat ^ 2).
    { pose proof (pow2_ge_0 (v 0%nat)). pose proof (pow2_ge_0 (v 1%nat)). destruct i as [|[|i]]; [| |lia]; assert (0 < v 0%nat ^ 2 \/ 0 < v 1%nat ^ 2); try lra; [left|right];
        match goal with |- 0 < ?w ^ 2 => destruct (Rtotal_order w 0) as [D|[D|D]]; [nra|contradiction|nra] end. }
    unfold quad, inner, mulv. cbn [rsum].
    destruct K as [K|K]; subst c; rewrite !cov_list_ent by lia; unfold scatter, cmean, size, total, delta; cbn -[pow];
      match goal with |- 0 < ?e => first [replace e with ((v 0%nat ^ 2 + v 1%nat ^ 2 + (v 0%nat - v 1%nat) ^ 2) / 6) by field|replace e with ((v 0%nat ^ 2 + 4 * v 1%nat ^ 2 + (v 0%nat - 2 * v 1%nat) ^ 2) / 6) by field] end;
      [pose proof (pow2_ge_0 (v 0%nat - v 1%nat))|pose proof (pow2_ge_0 (v 0%nat - 2 * v 1%nat)); pose proof (pow2_ge_0 (v 1%nat))]; lra.
Qed.
