(** Line-by-line approximation lifts to every level of the wavelet recursion. *)
From Coq Require Import List Arith ZArith Lia Bool Reals Lra.
From Verif Require Import Base BaseLemmas WaveletModel WaveletProofs.
Import ListNotations.
Open Scope R_scope.
Open Scope nat_scope.

Section One.
  Context {A : Arith}.
  Implicit Types M : list (list A).
  Definition col c M j : list A := nth j (transp c M) [].
  Lemma col_length r c M j : wf r c M -> j < c -> length (col c M j) = r.
  Proof. intros HM Hj. apply (wf_row c r); [apply transp_wf, HM|exact Hj]. Qed.
  Lemma col_nth r c M i j : wf r c M -> i < r -> j < c -> nth i (col c M j) zero = mget M i j.
  Proof. intros HM Hi Hj. apply (transp_get c M i j Hj). destruct HM as [-> _]. exact Hi. Qed.
  Lemma rows_get f r c M i : wf r c M -> i < r -> nth i (rows_if f c M) [] = if 1 <? c then f (nth i M []) else nth i M [].
  Proof.
    intros HM Hi. unfold rows_if. destruct (1 <? c); [|reflexivity]. apply (nth_map_lt f M i [] []). destruct HM as [-> _]. exact Hi.
  Qed.
  Lemma cols_get f k r c M i j : keeps_len f -> adm (S k) r -> wf r c M -> i < r -> j < c ->
    mget (cols_if f r c M) i j = if 1 <? r then nth i (f (col c M j)) zero else mget M i j.
  Proof.
    intros Hf Hr HM Hi Hj. unfold cols_if. destruct (Nat.ltb_spec 1 r) as [H1|H1]; [|reflexivity]. unfold on_cols.
    pose proof (cols_mid_wf f k r c M Hf Hr H1 HM) as HW. rewrite transp_get; [|exact Hi|destruct HW as [-> _]; exact Hj].
    unfold mget. rewrite (nth_map_lt f (transp c M) j [] []); [reflexivity|]. rewrite (proj1 (transp_wf c M r (proj1 HM))). exact Hj.
  Qed.
End One.

Section Lift.
  Context {A B : Arith}.
  Variable near : R -> A -> B -> Prop.
  Variable G : nat -> B -> Prop.
  Variables (fA gA : list A -> list A) (fB : list B -> list B).
  Variables (rho sig emax : R) (N : nat).
  Hypothesis near_mono : forall d e v r, (d <= e)%R -> near d v r -> near e v r.
  Hypothesis G_mono : forall m n r, m <= n -> G m r -> G n r.
  Hypothesis KfA : keeps_len fA.
  Hypothesis KgA : keeps_len gA.
  Hypothesis KfB : keeps_len fB.
  Hypothesis rho_pos : (0 <= rho)%R.
  Hypothesis sig_pos : (0 <= sig)%R.
  Hypothesis line_f : forall e n (l : list A) (l' : list B) h, length l = 2 * S h -> length l' = 2 * S h -> n < N -> (0 <= e <= emax)%R ->
    (forall i, i < 2 * S h -> near e (nth i l zero) (nth i l' zero)) -> (forall i, i < 2 * S h -> G n (nth i l' zero)) ->
    forall i, i < 2 * S h -> near (e + rho) (nth i (fA l) zero) (nth i (fB l') zero).
  Hypothesis line_G : forall n (l' : list B) h, length l' = 2 * S h -> n < N -> (forall i, i < 2 * S h -> G n (nth i l' zero)) ->
    forall i, i < 2 * S h -> G (S n) (nth i (fB l') zero).
  Hypothesis line_g : forall d e n (y : list A) (x : list B) h, length y = 2 * S h -> length x = 2 * S h -> n < N -> (0 <= d <= emax)%R -> (0 <= e <= emax)%R ->
    (forall i, i < 2 * S h -> G n (nth i x zero)) ->
    (forall i, i < S h -> near d (nth i y zero) (nth i (fB x) zero)) ->
    (forall i, i < S h -> near e (nth (S h + i) y zero) (nth (S h + i) (fB x) zero)) ->
    forall i, i < 2 * S h -> near (d + e + sig) (nth i (gA y) zero) (nth i x zero).

  Definition mnear e r c (M : list (list A)) (X : list (list B)) : Prop := forall i j, i < r -> j < c -> near e (mget M i j) (mget X i j).
  Definition mG n r c (X : list (list B)) : Prop := forall i j, i < r -> j < c -> G n (mget X i j).

  Lemma rows_near k e n r c M X : adm (S k) c -> wf r c M -> wf r c X -> n < N -> (0 <= e <= emax)%R -> mG n r c X -> mnear e r c M X ->
    mnear (e + rho) r c (rows_if fA c M) (rows_if fB c X).
  Proof.
    intros Hc HM HX Hn He HG H i j Hi Hj. unfold mget. rewrite (rows_get fA r), (rows_get fB r) by assumption.
    destruct (Nat.ltb_spec 1 c) as [C|C].
    - destruct (adm_even _ _ Hc) as [D|[h D]]; [lia|]. apply (line_f e n _ _ h); try assumption; try lia.
      + rewrite (wf_row r c); assumption. + rewrite (wf_row r c); assumption.
      + intros q Hq. apply H; lia. + intros q Hq. apply HG; lia.
    - apply near_mono with e; [lra|]. apply H; assumption.
  Qed.
  Lemma rows_G k n r c X : adm (S k) c -> wf r c X -> n < N -> mG n r c X -> mG (S n) r c (rows_if fB c X).
  Proof.
    intros Hc HX Hn HG i j Hi Hj. unfold mget. rewrite (rows_get fB r) by assumption.
    destruct (Nat.ltb_spec 1 c) as [C|C].
    - destruct (adm_even _ _ Hc) as [D|[h D]]; [lia|]. apply (line_G n _ h); try assumption; try lia.
      + rewrite (wf_row r c); assumption. + intros q Hq. apply HG; lia.
    - apply G_mono with n; [lia|]. apply HG; assumption.
  Qed.
  Lemma cols_near k e n r c M X : adm (S k) r -> wf r c M -> wf r c X -> n < N -> (0 <= e <= emax)%R -> mG n r c X -> mnear e r c M X ->
    mnear (e + rho) r c (cols_if fA r c M) (cols_if fB r c X).
  Proof.
    intros Hr HM HX Hn He HG H i j Hi Hj. rewrite (cols_get fA k), (cols_get fB k) by assumption.
    destruct (Nat.ltb_spec 1 r) as [C|C].
    - destruct (adm_even _ _ Hr) as [D|[h D]]; [lia|]. apply (line_f e n _ _ h); try assumption; try lia.
      + rewrite (col_length r); assumption. + rewrite (col_length r); assumption.
      + intros q Hq. rewrite !(col_nth r) by (assumption || lia). apply H; lia.
      + intros q Hq. rewrite !(col_nth r) by (assumption || lia). apply HG; lia.
    - apply near_mono with e; [lra|]. apply H; assumption.
  Qed.
  Lemma cols_G k n r c X : adm (S k) r -> wf r c X -> n < N -> mG n r c X -> mG (S n) r c (cols_if fB r c X).
  Proof.
    intros Hr HX Hn HG i j Hi Hj. rewrite (cols_get fB k) by assumption.
    destruct (Nat.ltb_spec 1 r) as [C|C].
    - destruct (adm_even _ _ Hr) as [D|[h D]]; [lia|]. apply (line_G n _ h); try assumption; try lia.
      + rewrite (col_length r); assumption. + intros q Hq. rewrite !(col_nth r) by (assumption || lia). apply HG; lia.
    - apply G_mono with n; [lia|]. apply HG; assumption.
  Qed.

  Lemma lift_A : forall k e n r c M X, adm k r -> adm k c -> wf r c M -> wf r c X -> n + 2 * k <= N -> (0 <= e)%R -> (e + 2 * INR k * rho <= emax)%R ->
    mG n r c X -> mnear e r c M X -> mnear (e + 2 * INR k * rho) r c (pureA fA k r c M) (pureA fB k r c X).
  Proof.
    induction k as [|k IH]; intros e n r c M X Hr Hc HM HX Hn He Hm HG H i j Hi Hj.
    - apply near_mono with e; [cbn [INR]; lra|]. apply H; assumption.
    - cbn [pureA]. destruct (adm_half _ _ Hr) as [Hr1 Hr2]. destruct (adm_half _ _ Hc) as [Hc1 Hc2]. rewrite S_INR in *.
      pose proof (pos_INR k) as Hk. assert (Hkr : (0 <= INR k * rho)%R) by (apply Rmult_le_pos; assumption).
      assert (W1 : wf r c (rows_if fA c M)) by (eapply rows_if_wf; eauto).
      assert (W1' : wf r c (rows_if fB c X)) by (eapply rows_if_wf; eauto).
      assert (W2 : wf r c (cols_if fA r c (rows_if fA c M))) by (eapply cols_if_wf; eauto).
      assert (W2' : wf r c (cols_if fB r c (rows_if fB c X))) by (eapply cols_if_wf; eauto).
      assert (N1 : mnear (e + rho) r c (rows_if fA c M) (rows_if fB c X)) by (apply (rows_near k e n); try assumption; [lia|lra]).
      assert (G1 : mG (S n) r c (rows_if fB c X)) by (apply (rows_G k n); try assumption; lia).
      assert (N2 : mnear (e + rho + rho) r c (cols_if fA r c (rows_if fA c M)) (cols_if fB r c (rows_if fB c X)))
        by (apply (cols_near k (e + rho) (S n)); try assumption; [lia|lra]).
      assert (G2 : mG (S (S n)) r c (cols_if fB r c (rows_if fB c X))) by (apply (cols_G k (S n)); try assumption; lia).
      set (M2 := cols_if fA r c (rows_if fA c M)) in *. set (X2 := cols_if fB r c (rows_if fB c X)) in *.
      assert (B2 : wf (half r) (half c) (block (half r) (half c) M2)) by (apply (block_wf r c); [exact W2|lia|lia]).
      assert (B2' : wf (half r) (half c) (block (half r) (half c) X2)) by (apply (block_wf r c); [exact W2'|lia|lia]).
      rewrite !(set_block_get r c) by (try assumption; try lia; apply pureA_wf; assumption).
      destruct (Nat.ltb_spec i (half r)) as [Ci|Ci], (Nat.ltb_spec j (half c)) as [Cj|Cj]; cbn [andb];
        try (apply near_mono with (e + rho + rho)%R; [lra|apply N2; assumption]).
      replace (e + 2 * (INR k + 1) * rho)%R with (e + rho + rho + 2 * INR k * rho)%R by ring.
      apply (IH (e + rho + rho)%R (S (S n))); try assumption; try lia; try lra.
      + intros p q Hp Hq. rewrite (block_get r c) by (assumption || lia). apply G2; lia.
      + intros p q Hp Hq. rewrite !(block_get r c) by (assumption || lia). apply N2; lia.
  Qed.

  Lemma half_even h : half (2 * S h) = S h.
  Proof. unfold half. rewrite (Nat.mul_comm 2), Nat.div_mul by lia. lia. Qed.

  Lemma lift_S : forall k d n r c M X, adm k r -> adm k c -> wf r c M -> wf r c X -> n + 2 * k <= N -> (0 <= d)%R ->
    (d + INR k * (3 * d + 3 * sig) <= emax)%R -> mG n r c X -> mnear d r c M (pureA fB k r c X) ->
    mnear (d + INR k * (3 * d + 3 * sig)) r c (pureS gA k r c M) X.
  Proof.
    induction k as [|k IH]; intros d n r c M X Hr Hc HM HX Hn Hd Hm HG H i j Hi Hj.
    - apply near_mono with d; [cbn [INR]; lra|]. apply H; assumption.
    - cbn [pureS]. cbn [pureA] in H. destruct (adm_half _ _ Hr) as [Hr1 Hr2]. destruct (adm_half _ _ Hc) as [Hc1 Hc2]. rewrite S_INR in *.
      pose proof (pos_INR k) as Hk. assert (Hks : (0 <= INR k * (3 * d + 3 * sig))%R) by (apply Rmult_le_pos; lra).
      assert (W1' : wf r c (rows_if fB c X)) by (eapply rows_if_wf; eauto).
      assert (W2' : wf r c (cols_if fB r c (rows_if fB c X))) by (eapply cols_if_wf; eauto).
      assert (G1 : mG (S n) r c (rows_if fB c X)) by (apply (rows_G k n); try assumption; lia).
      assert (G2 : mG (S (S n)) r c (cols_if fB r c (rows_if fB c X))) by (apply (cols_G k (S n)); try assumption; lia).
      assert (X1 : forall i j, i < r -> j < c -> mget (cols_if fB r c (rows_if fB c X)) i j =
                    if 1 <? r then nth i (fB (col c (rows_if fB c X) j)) zero else mget (rows_if fB c X) i j)
        by (intros; apply (cols_get fB k); assumption).
      set (Y := rows_if fB c X) in *. set (X2 := cols_if fB r c Y) in *.
      assert (B2 : wf (half r) (half c) (block (half r) (half c) M)) by (apply (block_wf r c); [exact HM|lia|lia]).
      assert (B2' : wf (half r) (half c) (block (half r) (half c) X2)) by (apply (block_wf r c); [exact W2'|lia|lia]).
      set (E := (d + INR k * (3 * d + 3 * sig))%R) in *.
      assert (NB : mnear E (half r) (half c) (pureS gA k (half r) (half c) (block (half r) (half c) M)) (block (half r) (half c) X2)).
      { apply (IH d (S (S n))); try assumption; try lia; [unfold E in *; lra| |].
        - intros p q Hp Hq. rewrite (block_get r c) by (assumption || lia). apply G2; lia.
        - intros p q Hp Hq. specialize (H p q ltac:(lia) ltac:(lia)). rewrite (set_block_get r c) in H by (try assumption; try lia; apply pureA_wf; assumption).
          rewrite (block_get r c) by (assumption || lia).
          destruct (Nat.ltb_spec p (half r)), (Nat.ltb_spec q (half c)); cbn [andb] in H; try lia. exact H. }
      assert (WB : wf (half r) (half c) (pureS gA k (half r) (half c) (block (half r) (half c) M))) by (apply pureS_wf; assumption).
      set (M1 := set_block (half r) (half c) (pureS gA k (half r) (half c) (block (half r) (half c) M)) M).
      assert (W1 : wf r c M1) by (apply set_block_wf; try assumption; lia).
      assert (N1 : forall p q, p < r -> q < c -> near (if (p <? half r) && (q <? half c) then E else d) (mget M1 p q) (mget X2 p q)).
      { intros p q Hp Hq. unfold M1. rewrite (set_block_get r c) by (assumption || lia).
        destruct (Nat.ltb_spec p (half r)), (Nat.ltb_spec q (half c)); cbn [andb].
        - specialize (NB p q ltac:(lia) ltac:(lia)). rewrite (block_get r c) in NB by (assumption || lia). exact NB.
        - specialize (H p q Hp Hq). rewrite (set_block_get r c) in H by (try assumption; try lia; apply pureA_wf; assumption).
          destruct (Nat.ltb_spec p (half r)), (Nat.ltb_spec q (half c)); cbn [andb] in H; try lia. exact H.
        - specialize (H p q Hp Hq). rewrite (set_block_get r c) in H by (try assumption; try lia; apply pureA_wf; assumption).
          destruct (Nat.ltb_spec p (half r)), (Nat.ltb_spec q (half c)); cbn [andb] in H; try lia. exact H.
        - specialize (H p q Hp Hq). rewrite (set_block_get r c) in H by (try assumption; try lia; apply pureA_wf; assumption).
          destruct (Nat.ltb_spec p (half r)), (Nat.ltb_spec q (half c)); cbn [andb] in H; try lia. exact H. }
      assert (HE : (0 <= E <= emax)%R) by (unfold E; lra). assert (HDE : (d <= E)%R) by (unfold E; lra).
      assert (W3 : wf r c (cols_if gA r c M1)) by (eapply cols_if_wf; eauto).
      assert (N3 : forall p q, p < r -> q < c -> near (if q <? half c then E + d + sig else d + d + sig) (mget (cols_if gA r c M1) p q) (mget Y p q)).
      { intros p q Hp Hq. rewrite (cols_get gA k) by assumption. destruct (Nat.ltb_spec 1 r) as [C|C].
        - destruct (adm_even _ _ Hr) as [D|[h D]]; [lia|].
          assert (EX : forall s, s < r -> nth s (fB (col c Y q)) zero = mget X2 s q).
          { intros s Hs. rewrite X1 by assumption. destruct (Nat.ltb_spec 1 r); [reflexivity|lia]. }
          assert (Hh : half r = S h) by (rewrite D; apply half_even).
          assert (LC : length (col c M1 q) = 2 * S h) by (rewrite (col_length r); assumption).
          assert (LY : length (col c Y q) = 2 * S h) by (rewrite (col_length r); assumption).
          assert (GY : forall s, s < 2 * S h -> G (S n) (nth s (col c Y q) zero)).
          { intros s Hs. rewrite (col_nth r) by (assumption || lia). apply G1; lia. }
          rewrite <- (col_nth r c Y) by assumption.
          destruct (Nat.ltb_spec q (half c)) as [Cq|Cq].
          + apply (line_g E d (S n) _ _ h); try assumption; try lia; try lra.
            * intros s Hs. rewrite (col_nth r), EX by (assumption || lia). specialize (N1 s q ltac:(lia) Hq). rewrite Hh in N1.
              destruct (Nat.ltb_spec s (S h)), (Nat.ltb_spec q (half c)); cbn [andb] in N1; try lia. exact N1.
            * intros s Hs. rewrite (col_nth r), EX by (assumption || lia). specialize (N1 (S h + s) q ltac:(lia) Hq). rewrite Hh in N1.
              destruct (Nat.ltb_spec (S h + s) (S h)); [lia|]. cbn [andb] in N1. exact N1.
          + apply (line_g d d (S n) _ _ h); try assumption; try lia; try lra.
            * intros s Hs. rewrite (col_nth r), EX by (assumption || lia). specialize (N1 s q ltac:(lia) Hq). rewrite Hh in N1.
              destruct (Nat.ltb_spec q (half c)); [lia|]. rewrite andb_false_r in N1. exact N1.
            * intros s Hs. rewrite (col_nth r), EX by (assumption || lia). specialize (N1 (S h + s) q ltac:(lia) Hq).
              destruct (Nat.ltb_spec q (half c)); [lia|]. rewrite andb_false_r in N1. exact N1.
        - specialize (N1 p q Hp Hq). rewrite X1 in N1 by assumption. destruct (Nat.ltb_spec 1 r); [lia|].
          eapply near_mono; [|exact N1].
          destruct (p <? half r), (q <? half c); cbn [andb]; lra. }
      unfold mget. rewrite (rows_get gA r) by assumption. replace (d + (INR k + 1) * (3 * d + 3 * sig))%R with (E + d + sig + (d + d + sig) + sig)%R by (unfold E; ring).
      destruct (Nat.ltb_spec 1 c) as [C|C].
      + destruct (adm_even _ _ Hc) as [D|[h D]]; [lia|]. assert (Hh : half c = S h) by (rewrite D; apply half_even).
        assert (EX : forall s, s < c -> nth s (fB (nth i X [])) zero = mget Y i s).
        { intros s Hs. unfold mget, Y. rewrite (rows_get fB r) by assumption. destruct (Nat.ltb_spec 1 c); [reflexivity|lia]. }
        apply (line_g (E + d + sig) (d + d + sig) n _ _ h); try lia; try (unfold E in *; lra).
        * rewrite (wf_row r c); assumption.
        * rewrite (wf_row r c); assumption.
        * intros s Hs. apply HG; lia.
        * intros s Hs. rewrite EX by lia. specialize (N3 i s Hi ltac:(lia)). rewrite Hh in N3. destruct (Nat.ltb_spec s (S h)); [exact N3|lia].
        * intros s Hs. rewrite EX by lia. specialize (N3 i (S h + s) Hi ltac:(lia)). rewrite Hh in N3. destruct (Nat.ltb_spec (S h + s) (S h)); [lia|exact N3].
      + specialize (N3 i j Hi Hj). unfold mget, Y in N3. rewrite (rows_get fB r) in N3 by assumption. destruct (Nat.ltb_spec 1 c); [lia|].
        eapply near_mono; [|exact N3]. destruct (j <? half c); unfold E in *; lra.
  Qed.
End Lift.
