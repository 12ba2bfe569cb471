(** Properties C90, C92, C93 and C94: DiversityModel over a totally ordered arithmetic. *)
From Coq Require Import String List Arith ZArith Bool Lia Sorting Reals Lra QArith Qcanon.
From Verif Require Import Base BaseLemmas Instances PyString GaussModel DivModel DivProps.
Import ListNotations.
Set Asymmetric Patterns.
Local Open Scope nat_scope.

(** A total order without infinite elements. *)
Record Ordered (O : OArith) : Prop := mkOrdered {
  o_irrefl : forall a : O, oltb a a = false;
  o_trans : forall a b c : O, oltb a b = true -> oltb b c = true -> oltb a c = true;
  o_total : forall a b : O, oltb a b = false -> oltb b a = false -> a = b;
  o_finite : forall a : O, oltinf a = true
}.
Lemma RO_ordered : Ordered RO.
Proof.
  constructor; cbn.
  - intros a. destruct (Rltb a a) eqn:E; [apply Rltb_iff in E; lra|reflexivity].
  - intros a b c H1 H2. apply Rltb_iff in H1. apply Rltb_iff in H2. apply Rltb_iff. lra.
  - intros a b H1 H2. destruct (Rtotal_order a b) as [H|[H|H]]; [|exact H|]; apply Rltb_iff in H; congruence.
  - reflexivity.
Qed.
Lemma QO_ordered : Ordered QO.
Proof.
  assert (I : forall a b : Qc, Qcltb a b = true <-> (a < b)%Qc).
  { intros a b. unfold Qcltb, Qclt. rewrite Qlt_alt. destruct (this a ?= this b)%Q; split; congruence. }
  constructor; cbn.
  - intros a. destruct (Qcltb a a) eqn:E; [apply I in E; destruct (Qclt_not_eq _ _ E); reflexivity|reflexivity].
  - intros a b c H1 H2. apply I in H1. apply I in H2. apply I. eapply Qclt_trans; eassumption.
  - intros a b H1 H2. destruct (Qc_dec a b) as [[H|H]|H]; [| |exact H]; apply I in H; congruence.
  - reflexivity.
Qed.

(** u is the smallest distance between two rows of s; infinite when there are no two. *)
Definition is_min {O : OArith} (dist : list O -> list O -> O) (s : list (list O)) (u : ext O) : Prop :=
  match u with
  | Fin d => (exists i j, i < j < length s /\ dist (nth i s []) (nth j s []) = d) /\
             forall i j, i < j < length s -> oltb (dist (nth i s []) (nth j s [])) d = false
  | Inf => length s < 2
  end.
(** s' is s with row k replaced by x. *)
Definition swapped {A} (k : nat) (x : list A) (s s' : list (list A)) : Prop :=
  length s' = length s /\ forall i, i < length s -> nth i s' [] = if i =? k then x else nth i s [].

Lemma In_pairs cc i j : In (i, j) (pairs cc) <-> i < j < cc.
Proof.
  unfold pairs. rewrite in_flat_map. split.
  - intros (u & Hu & H). apply in_seq in Hu. apply in_map_iff in H. destruct H as (v & E & Hv). apply in_seq in Hv. injection E as -> ->. lia.
  - intros H. exists i. split; [apply in_seq; lia|]. apply in_map_iff. exists j. split; [reflexivity|]. apply in_seq. lia.
Qed.
Lemma swapped_set_row {A} k (x : list A) s : k < length s -> swapped k x s (set_row k x s).
Proof.
  intros H. split; [apply length_set_row|]. intros i Hi. rewrite nth_set_row. replace (k <? length s) with true by (symmetry; apply Nat.ltb_lt; exact H). rewrite andb_true_r. reflexivity.
Qed.
Lemma swapped_unique {A} k (x : list A) s s1 s2 : swapped k x s s1 -> swapped k x s s2 -> s1 = s2.
Proof. intros [L1 H1] [L2 H2]. apply nth_ext with (d := []) (d' := []); [congruence|]. intros i Hi. rewrite H1, H2 by lia. reflexivity. Qed.

Section Order.
  Context (O : OArith).
  Variable HO : Ordered O.
  Implicit Types (u v w : ext O).
  Lemma above_irrefl u : above u u = false.
  Proof. destruct u; cbn; [apply HO|reflexivity]. Qed.
  Lemma above_trans u v w : above u v = true -> above v w = true -> above u w = true.
  Proof. destruct u, v, w; cbn; try discriminate; intros; try apply HO. eapply (o_trans O HO); eassumption. Qed.
  Lemma above_total u v : above u v = false -> above v u = false -> u = v.
  Proof.
    destruct u, v; cbn; try reflexivity; rewrite ?(o_finite O HO); try discriminate. intros H1 H2. f_equal. apply (o_total O HO); assumption.
  Qed.
  Lemma above_asym u v : above u v = true -> above v u = false.
  Proof. intros H. destruct (above v u) eqn:E; [|reflexivity]. pose proof (above_trans _ _ _ H E) as T. rewrite above_irrefl in T. discriminate. Qed.
  (** not above, transitively *)
  Lemma nabove_trans u v w : above u v = false -> above v w = false -> above u w = false.
  Proof.
    intros H1 H2. destruct (above u w) eqn:E; [|reflexivity]. destruct (above v u) eqn:E2.
    - rewrite (above_trans _ _ _ E2 E) in H2. discriminate.
    - rewrite (above_total _ _ H1 E2) in E. congruence.
  Qed.
  Lemma below_above d u : below d u = above u (Fin d).
  Proof. destruct u; reflexivity. Qed.

  Variable dist : list O -> list O -> O.
  Lemma least_fold s ps : forall u0, let r := fold_left (fun u p => let d := dist (nth (fst p) s []) (nth (snd p) s []) in if below d u then Fin d else u) ps u0 in
    (r = u0 \/ exists p, In p ps /\ r = Fin (dist (nth (fst p) s []) (nth (snd p) s []))) /\
    above r u0 = false /\ forall p, In p ps -> above r (Fin (dist (nth (fst p) s []) (nth (snd p) s []))) = false.
  Proof.
    induction ps as [|p ps IH]; intros u0; cbn zeta; cbn [fold_left].
    - split; [auto|]. split; [apply above_irrefl|]. intros p [].
    - set (d := dist _ _). set (u1 := if below d u0 then Fin d else u0). specialize (IH u1). cbn zeta in IH. set (r := fold_left _ ps u1) in *.
      destruct IH as (I1 & I2 & I3). assert (A : above u1 u0 = false /\ above u1 (Fin d) = false).
      { unfold u1. rewrite below_above. destruct (above u0 (Fin d)) eqn:E; [split; [apply above_asym; exact E|apply above_irrefl]|split; [apply above_irrefl|exact E]]. }
      destruct A as [A1 A2]. split; [|split].
      + destruct I1 as [I1|(p' & Hp & I1)].
        * unfold u1 in I1. destruct (below d u0); [right; exists p; split; [left; reflexivity|exact I1]|left; exact I1].
        * right. exists p'. split; [right; exact Hp|exact I1].
      + eapply nabove_trans; eassumption.
      + intros p' [<-|Hp]; [eapply nabove_trans; eassumption|auto].
  Qed.
  Lemma least_ok s : is_min dist s (least dist s (length s)).
  Proof.
    unfold least. pose proof (least_fold s (pairs (length s)) Inf) as H. cbn zeta in H. set (r := fold_left _ _ Inf) in *. destruct H as (H1 & _ & H3).
    assert (B : forall i j, i < j < length s -> above r (Fin (dist (nth i s []) (nth j s []))) = false) by (intros i j Hij; apply (H3 (i, j)), In_pairs; exact Hij).
    destruct H1 as [H1|((i, j) & Hp & H1)]; rewrite H1 in B |- *; cbn [is_min].
    - destruct (Nat.lt_ge_cases (length s) 2) as [L|L]; [exact L|]. specialize (B 0 1 ltac:(lia)). cbn in B. rewrite (o_finite O HO) in B. discriminate.
    - cbn [fst snd] in *. apply In_pairs in Hp. split; [exists i, j; auto|]. intros i' j' H. apply B in H. exact H.
  Qed.
  Lemma is_min_unique s u v : is_min dist s u -> is_min dist s v -> u = v.
  Proof.
    destruct u as [a|], v as [b|]; cbn [is_min].
    - intros [(i & j & Hij & <-) A] [(i' & j' & Hij' & <-) B]. f_equal. apply (o_total O HO); [apply B|apply A]; assumption.
    - intros [(i & j & Hij & _) _] L. lia.
    - intros L [(i & j & Hij & _) _]. lia.
    - reflexivity.
  Qed.

  (** The first best of the single replacements. *)
  Lemma best_fold (f : nat -> ext O) ks : forall v j, let r := fold_left (fun a k => let u := f k in if above u (fst a) then (u, Some k) else a) ks (v, j) in
    StronglySorted lt ks ->
    (forall k, In k ks -> above (f k) (fst r) = false) /\
    (r = (v, j) \/ exists k, In k ks /\ r = (f k, Some k) /\ above (f k) v = true /\ forall k', In k' ks -> k' < k -> above (f k) (f k') = true).
  Proof.
    induction ks as [|k ks IH]; intros v j r S; [split; [intros k []|left; reflexivity]|]. unfold r. clear r. cbn [fold_left fst]. cbn zeta.
    apply StronglySorted_inv in S. destruct S as [S F]. rewrite Forall_forall in F. destruct (above (f k) v) eqn:E.
    - specialize (IH (f k) (Some k) S). set (r := fold_left _ ks (f k, Some k)) in *. destruct IH as [I1 I2].
      destruct I2 as [I2|(k1 & Hk1 & I2 & I3 & I4)].
      + split; [intros k' [<-|Hk']; [rewrite I2; apply above_irrefl|auto]|]. right. exists k. split; [left; reflexivity|]. split; [exact I2|]. split; [exact E|].
        intros k' [<-|Hk'] L; [lia|]. specialize (F k' Hk'). lia.
      + split; [intros k' [<-|Hk']; [rewrite I2; cbn [fst]; apply above_asym; exact I3|auto]|]. right. exists k1. split; [right; exact Hk1|]. split; [exact I2|]. split; [eapply above_trans; eassumption|].
        intros k' [<-|Hk'] L; [exact I3|auto].
    - specialize (IH v j S). set (r := fold_left _ ks (v, j)) in *. destruct IH as [I1 I2]. split.
      + intros k' [<-|Hk']; [|auto]. destruct I2 as [->|(k1 & _ & -> & I3 & _)]; [exact E|]. cbn [fst]. eapply nabove_trans; [exact E|]. apply above_asym. exact I3.
      + destruct I2 as [I2|(k1 & Hk1 & I2 & I3 & I4)]; [left; exact I2|]. right. exists k1. split; [right; exact Hk1|]. split; [exact I2|]. split; [exact I3|].
        intros k' [<-|Hk'] L; [|auto]. destruct (above (f k1) (f k)) eqn:E2; [reflexivity|]. exfalso. pose proof (nabove_trans _ _ _ E2 E) as N. congruence.
  Qed.
  Lemma seq_sorted n : forall a, StronglySorted lt (seq a n).
  Proof. induction n as [|n IH]; intros a; cbn; constructor; [apply IH|]. apply Forall_forall. intros b Hb. apply in_seq in Hb. lia. Qed.
End Order.

Section Exact.
  Context (O : OArith).
  Variable HO : Ordered O.
  Variable big : O.
  Variable isclose : O -> O -> bool.
  Variable Hb : isclose big big = true.
  Implicit Types (m : diversity O).
  Notation fit := (div_fit big isclose).
  Notation sample := (sample O big isclose).

  (** Every row holds a sample. *)
  Definition full (cols : nat) m : Prop := 0 < cols /\ dcols m = cols /\ Forall (sample cols) (drows m).
  Lemma filled_full cols m : full cols m -> filled big isclose (drows m) = length (drows m).
  Proof. intros (_ & _ & F). induction F as [|x s [_ Hx] F IH]; cbn; [reflexivity|]. rewrite Hx. f_equal. exact IH. Qed.

  Lemma step_swap m x : let n := length (drows m) in let a := fst (div_step (n, m) x) in
    fst a = n /\
    ((snd a = m /\ forall k s u, k < n -> swapped k x (drows m) s -> is_min (ddist m) s u -> above u (dvalue m) = false) \/
     (exists k, k < n /\ swapped k x (drows m) (drows (snd a)) /\ is_min (ddist m) (drows (snd a)) (dvalue (snd a)) /\
        above (dvalue (snd a)) (dvalue m) = true /\ dcols (snd a) = dcols m /\ ddist (snd a) = ddist m /\
        forall k' s u, k' < n -> swapped k' x (drows m) s -> is_min (ddist m) s u ->
          above u (dvalue (snd a)) = false /\ (k' < k -> above (dvalue (snd a)) u = true))).
  Proof.
    intros n a. unfold a, div_step. rewrite Nat.ltb_irrefl. unfold best.
    pose proof (best_fold O HO (fun k => least (ddist m) (set_row k x (drows m)) n) (seq 0 n) (dvalue m) None (seq_sorted n 0)) as (B1 & B2).
    change (length (drows m)) with n. set (r := fold_left _ _ _) in *.
    assert (M : forall k s u, k < n -> swapped k x (drows m) s -> is_min (ddist m) s u -> u = least (ddist m) (set_row k x (drows m)) n).
    { intros k s u Hk Hs Hu. rewrite (swapped_unique _ _ _ _ _ Hs (swapped_set_row k x (drows m) Hk)) in Hu.
      apply (is_min_unique O HO _ _ _ _ Hu). pose proof (least_ok O HO (ddist m) (set_row k x (drows m))) as L. rewrite length_set_row in L. exact L. }
    destruct B2 as [B2|(k & Hk & B2 & B3 & B4)].
    - rewrite B2 in B1 |- *. cbn [fst snd] in *. rewrite (above_irrefl O HO). cbn [fst snd]. split; [reflexivity|]. left. split; [reflexivity|].
      intros k s u Hk Hs Hu. rewrite (M k s u Hk Hs Hu). apply B1, in_seq. lia.
    - rewrite B2 in B1 |- *. cbn [fst snd] in *. rewrite B3. cbn [fst snd dvalue drows dcols ddist]. apply in_seq in Hk. split; [reflexivity|]. right. exists k.
      split; [lia|]. split; [apply swapped_set_row; unfold n in Hk; lia|]. split.
      { pose proof (least_ok O HO (ddist m) (set_row k x (drows m))) as L. rewrite length_set_row in L. exact L. }
      split; [exact B3|]. split; [reflexivity|]. split; [reflexivity|]. intros k' s u Hk' Hs Hu. rewrite (M k' s u Hk' Hs Hu). split; [apply B1, in_seq; lia|]. intros L. apply B4; [apply in_seq; lia|exact L].
  Qed.
  Lemma full_swapped cols m m' x k : full cols m -> sample cols x -> dcols m' = dcols m -> swapped k x (drows m) (drows m') -> full cols m'.
  Proof.
    intros (F1 & F2 & F3) Hx Hc [L S]. split; [exact F1|]. split; [congruence|]. apply Forall_forall. intros r Hr. destruct (In_nth _ _ [] Hr) as (i & Hi & <-).
    rewrite S by lia. destruct (i =? k); [exact Hx|]. rewrite Forall_forall in F3. apply F3, nth_In. lia.
  Qed.
  (** C92. *)
  Theorem C92_div_swap cols m x : full cols m ->
    let n := length (drows m) in
    exists m' v, fit m (X2 cols [x]) = (m', Ok [v]) /\ v = dvalue m' /\
      ((m' = m /\ forall k s u, k < n -> swapped k x (drows m) s -> is_min (ddist m) s u -> above u (dvalue m) = false) \/
       (exists k, k < n /\ swapped k x (drows m) (drows m') /\ is_min (ddist m) (drows m') (dvalue m') /\
          above (dvalue m') (dvalue m) = true /\
          forall k' s u, k' < n -> swapped k' x (drows m) s -> is_min (ddist m) s u ->
            above u (dvalue m') = false /\ (k' < k -> above (dvalue m') u = true))).
  Proof.
    intros F n. pose proof F as (F1 & F2 & F3). rewrite (fit_eval O big isclose m cols [x] F1) by (discriminate || auto). cbn zeta.
    replace (dcols m =? 0) with false by (symmetry; apply Nat.eqb_neq; lia). rewrite (filled_full cols m F). cbn [div_scan].
    pose proof (step_swap m x) as [_ S]. cbn zeta in S. pose proof (step_facts O (length (drows m)) m x) as (V & _). cbn zeta in V.
    destruct (div_step (length (drows m), m) x) as [[cc1 m1] y]. cbn [fst snd] in *. exists m1, y. split; [reflexivity|]. split; [exact V|].
    destruct S as [S|(k & S1 & S2 & S3 & S4 & _ & _ & S5)]; [left; exact S|right; exists k; auto].
  Qed.
  (** Both cases meet a smallest distance: it exists and is unique. *)
  Theorem C92_div_min_exists (dist : list O -> list O -> O) s : exists! u, is_min dist s u.
  Proof. exists (least dist s (length s)). split; [apply least_ok; exact HO|]. intros u Hu. eapply is_min_unique; [exact HO|apply least_ok; exact HO|exact Hu]. Qed.

  (** C93.  From the first replacement on the report is the actual smallest distance, and
      it never falls. *)
  Lemma scan_exact cols xs : Forall (sample cols) xs -> forall m, full cols m -> is_min (ddist m) (drows m) (dvalue m) ->
    let m' := snd (fst (div_scan (length (drows m), m) xs)) in
    full cols m' /\ is_min (ddist m') (drows m') (dvalue m') /\ above (dvalue m) (dvalue m') = false /\ ddist m' = ddist m /\ length (drows m') = length (drows m).
  Proof.
    induction 1 as [|x xs Hx F IH]; intros m Hf Hm; cbn zeta; cbn [div_scan].
    - cbn. repeat split; try apply Hf; auto. apply (above_irrefl O HO).
    - pose proof (step_swap m x) as [C S]. cbn zeta in C, S. destruct (div_step (length (drows m), m) x) as [[cc1 m1] y]. cbn [fst snd] in *. subst cc1.
      assert (G : full cols m1 /\ is_min (ddist m1) (drows m1) (dvalue m1) /\ above (dvalue m) (dvalue m1) = false /\ ddist m1 = ddist m /\ length (drows m1) = length (drows m)).
      { destruct S as [[-> _]|(k & S1 & S2 & S3 & S4 & S6 & S7 & _)].
        - repeat split; try apply Hf; auto. apply (above_irrefl O HO).
        - split; [eapply full_swapped; eassumption|]. rewrite S7. split; [exact S3|]. split; [apply (above_asym O HO); exact S4|]. split; [reflexivity|]. apply S2. }
      destruct G as (G1 & G2 & G3 & G4 & G5). specialize (IH m1 G1 G2). rewrite G5 in IH. cbn zeta in IH. destruct (div_scan (length (drows m), m1) xs) as [a2 ys]. cbn [fst snd] in *.
      destruct IH as (I1 & I2 & I3 & I4 & I5). repeat split; try apply I1; try congruence. eapply (nabove_trans O HO); eassumption.
  Qed.
  Lemma fit_guard m cols rows m' y : fit m (X2 cols rows) = (m', Ok y) -> rows <> [] /\ 0 < cols /\ (dcols m = 0 \/ dcols m = cols).
  Proof.
    intros E. unfold div_fit in E. destruct (Nat.eqb_spec (length rows) 0); [discriminate|]. destruct (Nat.eqb_spec cols 0); [discriminate|]. cbn [orb] in E.
    destruct (Nat.eqb_spec (dcols m) 0) as [E0|E0]; [|destruct (Nat.eqb_spec cols (dcols m)); [|discriminate]]; (split; [intros ->; auto|]; split; [lia|auto]).
  Qed.
  Theorem C93_div_kept cols m rows m' y : full cols m -> is_min (ddist m) (drows m) (dvalue m) -> Forall (sample cols) rows ->
    fit m (X2 cols rows) = (m', Ok y) ->
    full cols m' /\ is_min (ddist m') (drows m') (dvalue m') /\ above (dvalue m) (dvalue m') = false.
  Proof.
    intros Hf Hm F E. destruct (fit_guard _ _ _ _ _ E) as (G1 & G2 & G3). rewrite (fit_eval O big isclose m cols rows G2 G1 G3) in E. cbn zeta in E.
    pose proof Hf as (F1 & F2 & F3). replace (dcols m =? 0) with false in E by (symmetry; apply Nat.eqb_neq; lia). rewrite (filled_full cols m Hf) in E.
    pose proof (scan_exact cols rows F m Hf Hm) as (I1 & I2 & I3 & _). injection E as <- _. auto.
  Qed.

  (** Since a new model or the last clear there has been no replacement, or the report is
      exact. *)
  Lemma scan_phase cols xs : Forall (sample cols) xs -> forall cc m, dcols m = cols -> 0 < cols ->
    (exists u n, drows m = u ++ repeat (repeat big cols) n /\ Forall (sample cols) u /\ cc = length u) ->
    dvalue m = Fin zero \/ (full cols m /\ is_min (ddist m) (drows m) (dvalue m)) ->
    let m' := snd (fst (div_scan (cc, m) xs)) in
    dvalue m' = Fin zero \/ (full cols m' /\ is_min (ddist m') (drows m') (dvalue m')).
  Proof.
    induction 1 as [|x xs Hx F IH]; intros cc m Hc Hp Ht H; cbn zeta; cbn [div_scan]; [exact H|].
    pose proof (scan_tidy O big isclose [x] cc m) as T. rewrite Hc in T. specialize (T Hp Hb ltac:(constructor; [exact Hx|constructor]) Ht). cbn zeta in T. cbn [div_scan] in T.
    pose proof (step_facts O cc m x) as (_ & K2 & K3 & K4 & _ & _ & K7 & _). cbn zeta in K2, K3, K4, K7.
    assert (G : dvalue (snd (fst (div_step (cc, m) x))) = Fin zero \/ (full cols (snd (fst (div_step (cc, m) x))) /\ is_min (ddist (snd (fst (div_step (cc, m) x)))) (drows (snd (fst (div_step (cc, m) x)))) (dvalue (snd (fst (div_step (cc, m) x)))))).
    { destruct Ht as (u & n & E & Fu & ->). destruct n as [|n].
      - cbn in E. rewrite app_nil_r in E. assert (Hf : full cols m) by (split; [exact Hp|]; split; [exact Hc|]; rewrite E; exact Fu).
        pose proof (step_swap m x) as [_ S]. cbn zeta in S. replace (length u) with (length (drows m)) in * by (f_equal; exact E).
        destruct S as [[S _]|(k & S1 & S2 & S3 & S4 & S6 & S7 & _)].
        + rewrite S. exact H.
        + right. split; [eapply full_swapped; eassumption|]. rewrite S7. exact S3.
      - left. rewrite K7 by (rewrite E, app_length, repeat_length; lia). cbn [snd dvalue]. destruct H as [H|[(_ & _ & Hf) _]]; [exact H|]. exfalso.
        rewrite E in Hf. apply Forall_app in Hf. destruct Hf as [_ Hf]. cbn [repeat] in Hf. apply Forall_cons_iff in Hf. destruct Hf as [[_ Hf] _]. rewrite (hd_repeat_big O big cols Hp) in Hf. congruence. }
    destruct (div_step (cc, m) x) as [[cc1 m1] y]. cbn [fst snd] in *. specialize (IH cc1 m1 ltac:(congruence) Hp T G). cbn zeta in IH. destruct (div_scan (cc1, m1) xs) as [a2 ys]. exact IH.
  Qed.
  Theorem C93_div_phases m : reachable O big isclose m ->
    dvalue m = Fin zero \/ (full (dcols m) m /\ is_min (ddist m) (drows m) (dvalue m)).
  Proof.
    intros R. induction R as [dist style order m E|m cols rows m' y R IH F E|m _ IH].
    - left. unfold div_make in E. destruct (negb _); [discriminate|]. destruct (order <? 0)%Z; [discriminate|]. injection E as <-. reflexivity.
    - destruct (fit_guard _ _ _ _ _ E) as (G1 & G2 & G3). rewrite (fit_eval O big isclose m cols rows G2 G1 G3) in E. cbn zeta in E.
      set (m0 := if dcols m =? 0 then _ else m) in E.
      assert (C0 : dcols m0 = cols) by (unfold m0; destruct (Nat.eqb_spec (dcols m) 0); [reflexivity|lia]).
      assert (T0 : exists u n, drows m0 = u ++ repeat (repeat big cols) n /\ Forall (sample cols) u).
      { unfold m0. destruct (Nat.eqb_spec (dcols m) 0) as [Z|Z].
        - exists [], (length (drows m)). cbn. split; [reflexivity|constructor].
        - destruct (C94_div_reachable O big isclose m Hb R) as [Ht|(u & n & Eu & Fu)]; [contradiction|]. replace cols with (dcols m) by lia. exists u, n. auto. }
      assert (H0 : dvalue m0 = Fin zero \/ full cols m0 /\ is_min (ddist m0) (drows m0) (dvalue m0)).
      { unfold m0. destruct (Nat.eqb_spec (dcols m) 0) as [Z|Z]; [|replace cols with (dcols m) by lia; exact IH]. left. cbn. destruct IH as [IH|[(P & _ & _) _]]; [exact IH|lia]. }
      destruct T0 as (u & n & Eu & Fu).
      pose proof (scan_phase cols rows F (filled big isclose (drows m0)) m0 C0 G2) as S. specialize (S ltac:(exists u, n; rewrite Eu, filled_app by assumption; auto) H0). cbn zeta in S.
      pose proof (scan_facts O rows (filled big isclose (drows m0)) m0) as (_ & K1 & _). cbn zeta in K1. injection E as <- _. rewrite K1, C0. exact S.
    - left. reflexivity.
  Qed.
  (** So with a non-negative distance the report never exceeds the actual smallest
      distance of a full state. *)
  Theorem C93_div_lower m u : reachable O big isclose m -> (forall a b, oltb (ddist m a b) zero = false) ->
    is_min (ddist m) (drows m) u -> above (dvalue m) u = false.
  Proof.
    intros R Hd Hu. destruct (C93_div_phases m R) as [E|[_ H]].
    - rewrite E. destruct u as [d|]; [|reflexivity]. cbn. destruct Hu as [(i & j & _ & <-) _]. apply Hd.
    - rewrite (is_min_unique O HO _ _ _ _ H Hu). apply (above_irrefl O HO).
  Qed.

  (** C90.  Reports over any number of calls: a later one is never below an earlier one. *)
  Lemma climbs_global (v : ext O) ys : climbs v ys -> forall j i, i <= j -> j <= length ys -> above (nth i (v :: ys) v) (nth j (v :: ys) v) = false.
  Proof.
    intros H. induction j as [|j IH]; intros i Hij Hj; [replace i with 0 by lia; apply (above_irrefl O HO)|].
    destruct (Nat.eq_dec i (S j)) as [->|N]; [apply (above_irrefl O HO)|]. specialize (IH i ltac:(lia) ltac:(lia)). eapply (nabove_trans O HO); [exact IH|].
    destruct (H j ltac:(lia)) as [E|E]; [rewrite E; apply (above_irrefl O HO)|apply (above_asym O HO); exact E].
  Qed.
  Lemma last_default (l : list (ext O)) c d : l <> [] -> last l c = last l d.
  Proof. induction l as [|a l IH]; intros N; [contradiction|]. destruct l; [reflexivity|]. apply IH. discriminate. Qed.
  Lemma climbs_app (v : ext O) ys zs : climbs v ys -> climbs (last ys v) zs -> climbs v (ys ++ zs).
  Proof.
    revert v. induction ys as [|y ys IH]; intros v H1 H2; [exact H2|]. assert (A : @climbs O y ys).
    { intros i Hi. specialize (H1 (S i) ltac:(cbn; lia)). assert (N : forall j, j < S (length ys) -> nth j (y :: ys) v = nth j (y :: ys) y) by (intros; apply nth_indep; cbn; lia).
      change (nth (S i) (y :: ys) v = nth i (y :: ys) v \/ above (nth (S i) (y :: ys) v) (nth i (y :: ys) v) = true) in H1. rewrite !N in H1 by lia. exact H1. }
    assert (L : last (y :: ys) v = last ys y) by (destruct ys as [|a t]; [reflexivity|]; change (last (a :: t) v = last (a :: t) y); apply last_default; discriminate).
    rewrite L in H2. specialize (IH y A H2). cbn [app]. intros i Hi. destruct i as [|i]; [exact (H1 0 ltac:(cbn; lia))|]. cbn in Hi. specialize (IH i ltac:(lia)).
    assert (N : forall j, j < S (length (ys ++ zs)) -> nth j (y :: ys ++ zs) v = nth j (y :: ys ++ zs) y) by (intros; apply nth_indep; cbn; lia).
    change (nth (S i) (y :: ys ++ zs) v = nth i (y :: ys ++ zs) v \/ above (nth (S i) (y :: ys ++ zs) v) (nth i (y :: ys ++ zs) v) = true). rewrite !N by lia. exact IH.
  Qed.
  (** Any sequence of fit calls, failing ones included, and all that they report. *)
  Inductive fits : diversity O -> list (ext O) -> diversity O -> Prop :=
  | f_none m : fits m [] m
  | f_ok m x m1 y ys m' : fit m x = (m1, Ok y) -> fits m1 ys m' -> fits m (y ++ ys) m'
  | f_err m x m1 e ys m' : fit m x = (m1, Err e) -> fits m1 ys m' -> fits m ys m'.
  Lemma last_app2 (y ys : list (ext O)) v : last ys (last y v) = last (y ++ ys) v.
  Proof.
    destruct ys as [|a ys]; [rewrite app_nil_r; reflexivity|]. induction y as [|b y IH]; [reflexivity|]. cbn [app].
    rewrite (last_default (a :: ys) _ (last y v)) by discriminate. rewrite IH. destruct (y ++ a :: ys) eqn:Ey; [destruct y; discriminate|reflexivity].
  Qed.
  Theorem C90_div_monotone m ys m' : fits m ys m' ->
    (forall i j, i <= j -> j < length ys -> above (nth i ys Inf) (nth j ys Inf) = false) /\
    (forall i, i < length ys -> above (dvalue m) (nth i ys Inf) = false /\ above (nth i ys Inf) (dvalue m') = false) /\
    above (dvalue m) (dvalue m') = false.
  Proof.
    intros H. assert (G : climbs (dvalue m) ys /\ dvalue m' = last ys (dvalue m)).
    { induction H as [m|m x m1 y ys m' E _ [IH1 IH2]|m x m1 e ys m' E _ IH].
      - split; [intros i Hi; cbn in Hi; lia|reflexivity].
      - destruct x as [cols rows|n]; [|discriminate]. destruct (C90_div_climbs O big isclose m cols rows m1 y E) as (L & C & V). rewrite V in *. split; [apply climbs_app; assumption|].
        rewrite IH2. apply last_app2.
      - assert (m1 = m).
        { destruct x as [cols rows|n]; [|cbn in E; congruence]. unfold div_fit in E. destruct (_ || _)%bool; [congruence|]. destruct (Nat.eqb_spec (dcols m) 0) as [Z|Z].
          - cbn [dcols] in E. rewrite Nat.eqb_refl in E. cbn [negb] in E. destruct (div_scan _ _); discriminate.
          - destruct (negb _); [congruence|]. destruct (div_scan _ _); discriminate. }
        subst m1. exact IH. }
    destruct G as [C V]. pose proof (climbs_global _ _ C) as G.
    assert (N : forall i, i < length ys -> nth i ys Inf = nth (S i) (dvalue m :: ys) (dvalue m)) by (intros i Hi; cbn [nth]; apply nth_indep; exact Hi).
    assert (L : dvalue m' = nth (length ys) (dvalue m :: ys) (dvalue m)).
    { rewrite V. clear. generalize (dvalue m). intros v. induction ys as [|a ys IH]; [reflexivity|]. destruct ys as [|b ys]; [reflexivity|]. exact IH. }
    split; [|split].
    - intros i j Hij Hj. rewrite !N by lia. apply G; lia.
    - intros i Hi. rewrite N by exact Hi. split; [apply (G (S i) 0); lia|]. rewrite L. apply G; lia.
    - rewrite L. apply (G (length ys) 0); lia.
  Qed.
End Exact.
Print Assumptions C92_div_swap.
Print Assumptions C92_div_min_exists.
Print Assumptions C93_div_kept.
Print Assumptions C93_div_phases.
Print Assumptions C93_div_lower.
Print Assumptions C90_div_monotone.

(** C93.  The loss, with the Manhattan distance of the code on numbers: 0 and 10 are kept
    at distance 10, then 5 displaces 0 and the distance is 5. *)
Definition qbig : Qc := q 1000 1.
Definition qman (_ : string) : list Qc -> list Qc -> Qc := @manhattan QO.
Definition qnew : diversity QO := mkDiv (O := QO) (qman "Manhattan") (Fin (@zero QO)) 0 [[]; []].
Definition qfull : diversity QO := fst (div_fit qbig Qc_eq_bool qnew (X2 1 [[q 0 1]; [q 10 1]])).
Definition qafter : diversity QO := fst (div_fit qbig Qc_eq_bool qfull (X2 1 [[q 5 1]])).
Lemma qfull_rows : drows qfull = [[q 0 1]; [q 10 1]].
Proof. reflexivity. Qed.
Lemma qfull_ok : reachable QO qbig Qc_eq_bool qfull /\ full QO qbig Qc_eq_bool 1 qfull.
Proof.
  assert (F : Forall (sample QO qbig Qc_eq_bool 1) [[q 0 1]; [q 10 1]]) by (repeat constructor).
  split.
  - eapply (r_fit QO qbig Qc_eq_bool qnew 1 _ _ _); [eapply (r_make QO qbig Qc_eq_bool qman "manhattan" 1); reflexivity|exact F|reflexivity].
  - split; [lia|]. split; [reflexivity|]. rewrite qfull_rows. exact F.
Qed.
Theorem C93_div_loss_refuted :
  ~ forall (m m' : diversity QO) cols rows y u u',
      reachable QO qbig Qc_eq_bool m -> full QO qbig Qc_eq_bool cols m -> Forall (sample QO qbig Qc_eq_bool cols) rows ->
      div_fit qbig Qc_eq_bool m (X2 cols rows) = (m', Ok y) ->
      is_min (ddist m) (drows m) u -> is_min (ddist m') (drows m') u' -> above u u' = false.
Proof.
  intros H. assert (Y : exists y, div_fit qbig Qc_eq_bool qfull (X2 1 [[q 5 1]]) = (qafter, Ok y)) by (eexists; reflexivity). destruct Y as [y E].
  pose proof (H qfull qafter 1 [[q 5 1]] y _ _ (proj1 qfull_ok) (proj2 qfull_ok) ltac:(repeat constructor) E
    (least_ok QO QO_ordered (ddist qfull) (drows qfull)) (least_ok QO QO_ordered (ddist qafter) (drows qafter))) as B.
  clear E H. vm_compute in B. discriminate.
Qed.
Print Assumptions C93_div_loss_refuted.
(** The second replacement starts from the exact report of the first. *)
Example C93_example : full QO qbig Qc_eq_bool 1 qafter /\ is_min (ddist qafter) (drows qafter) (dvalue qafter) /\
  match dvalue qafter with Fin d => Qc_eq_bool d (q 5 1) = true | Inf => False end.
Proof.
  assert (R : reachable QO qbig Qc_eq_bool qafter).
  { assert (Y : exists y, div_fit qbig Qc_eq_bool qfull (X2 1 [[q 5 1]]) = (qafter, Ok y)) by (eexists; reflexivity). destruct Y as [y E].
    eapply (r_fit QO qbig Qc_eq_bool qfull 1); [apply qfull_ok| |exact E]. repeat constructor. }
  destruct (C93_div_phases QO QO_ordered qbig Qc_eq_bool eq_refl qafter R) as [Z|[F M]].
  - exfalso. assert (T : match dvalue qafter with Fin d => Qc_eq_bool d (@zero QO) = false | Inf => True end) by (vm_compute; reflexivity). rewrite Z in T. vm_compute in T. discriminate.
  - split; [exact F|]. split; [exact M|]. vm_compute. reflexivity.
Qed.

(** C94.  A sample that looks like the empty mark is overwritten by the next call. *)
Theorem C94_div_chunks_refuted :
  ~ forall (m : diversity QO) cols chunks, 0 < cols -> reachable QO qbig Qc_eq_bool m -> (dcols m = 0 \/ dcols m = cols) ->
      Forall (fun c => c <> [] /\ Forall (fun x => length x = cols) c) chunks -> chunks <> [] ->
      call_chunks (fun m c => div_fit qbig Qc_eq_bool m (X2 cols c)) m chunks = div_fit qbig Qc_eq_bool m (X2 cols (concat chunks)).
Proof.
  intros H. assert (R : reachable QO qbig Qc_eq_bool qnew) by (eapply (r_make QO qbig Qc_eq_bool qman "manhattan" 1); reflexivity).
  pose proof (H qnew 1 [[[qbig]]; [[q 3 1]]] ltac:(lia) R (or_introl eq_refl)
    ltac:(repeat constructor; discriminate) ltac:(discriminate)) as E.
  apply (f_equal (fun p => hd (q 0 1) (hd [] (drows (fst p))))) in E. apply (f_equal (fun a => Qc_eq_bool a (q 3 1))) in E. vm_compute in E. discriminate.
Qed.
Print Assumptions C94_div_chunks_refuted.
Example C94_example : tidy QO qbig Qc_eq_bool qfull /\ dcols qfull = 1 /\
  Forall (fun c => c <> [] /\ Forall (sample QO qbig Qc_eq_bool 1) c) [[[q 5 1]; [q 30 1]]; [[q 7 1]]].
Proof.
  split; [apply C94_div_reachable; [reflexivity|apply qfull_ok]|]. split; [reflexivity|]. repeat constructor; try discriminate.
Qed.
(** C90, C91, C96, C117, C118: hypotheses met. *)
Example C91_example : fresh QO 1 qnew /\ history QO qbig Qc_eq_bool 1 ([] ++ [[q 0 1]; [q 10 1]]) qfull /\ dcols qfull <> 1 + 1.
Proof.
  split; [repeat split|]. split; [|discriminate]. eapply (h_fit QO qbig Qc_eq_bool 1 [] qnew 1); [apply h_new; repeat split|repeat constructor|reflexivity].
Qed.
Example C90_example : exists ys m', fits QO qbig Qc_eq_bool qnew ys m' /\ length ys = 3 /\ above (dvalue m') (dvalue qnew) = true.
Proof.
  assert (Y : exists y, div_fit qbig Qc_eq_bool qfull (X2 1 [[q 5 1]]) = (qafter, Ok y) /\ length y = 1) by (eexists; split; reflexivity). destruct Y as (y & E & L).
  eexists. exists qafter. split; [|split].
  - eapply (f_ok QO qbig Qc_eq_bool qnew (X2 1 [[q 0 1]; [q 10 1]])); [reflexivity|]. eapply (f_err QO qbig Qc_eq_bool _ (XRank 3)); [reflexivity|]. eapply f_ok; [exact E|apply f_none].
  - rewrite app_length, app_length, L. reflexivity.
  - vm_compute. reflexivity.
Qed.
Example C117_example : fresh QO 0 (mkDiv (O := QO) (qman "Manhattan") (Fin (@zero QO)) 0 [[]]) /\ oltinf (zero : QO) = true /\ Qc_eq_bool qbig qbig = true.
Proof. repeat split. Qed.
Example C96_example : dcols qnew = 0 /\ length (drows (div_clear qnew)) = 0 /\ length (drows (div_clear qfull)) = 1.
Proof. repeat split. Qed.
