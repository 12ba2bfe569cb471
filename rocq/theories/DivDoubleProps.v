(** Property C172: DiversityModel in IEEE doubles, with NaN and infinite samples. *)
From Flocq Require Import Core BinarySingleNaN PrimFloat.
From Coq Require Import String List Arith ZArith Lia Bool Reals Lra Floats Uint63.
From Verif Require Import Base BaseLemmas Instances PyString GaussModel DivModel DivProps DivExactProps DoubleSpec DoubleProofs DoubleOps RankDoubleProps.
Import ListNotations.
Set Asymmetric Patterns.
Close Scope R_scope. Open Scope nat_scope.

(** ** Specification *)
Notation row := (list float) (only parsing).
(** Distances the search takes notice of: not NaN and not infinity. *)
Definition counts (d : float) : Prop := PrimFloat.ltb d infinity = true.
(** The smallest of the distances between rows that count; numpy.inf if none does. *)
Definition smallest (dist : row -> row -> float) (s : list row) (keep : nat -> Prop) (u : ext float) : Prop :=
  match u with
  | Fin d => counts d /\ (exists i j, i < j < length s /\ keep i /\ keep j /\ dist (nth i s []) (nth j s []) = d) /\
             forall i j, i < j < length s -> keep i -> keep j -> PrimFloat.ltb (dist (nth i s []) (nth j s [])) d = false
  | Inf => forall i j, i < j < length s -> keep i -> keep j -> ~ counts (dist (nth i s []) (nth j s []))
  end.
Definition every (i : nat) : Prop := True.
Definition but (k i : nat) : Prop := i <> k.
Definition rises (u v : ext float) : Prop :=
  match u, v with Fin a, Fin b => PrimFloat.ltb b a = true | Inf, Fin b => counts b | _, Inf => False end.
(** A row whose distance to every other row does not count. *)
Definition dead (dist : row -> row -> float) (cols : nat) (x : row) : Prop :=
  forall z, length z = cols -> ~ counts (dist x z) /\ ~ counts (dist z x).
(** The model in doubles. *)
Notation divF := (diversity FO).
Definition fitF (big : float) (close : float -> float -> bool) (m : divF) (cols : nat) (rows : list row) : divF * res (list (ext float)) := @div_fit FO big close m (X2 cols rows).
Definition rowsF (m : divF) : list row := drows m.
Definition valueF (m : divF) : ext float := dvalue m.
Definition distF (m : divF) : row -> row -> float := ddist m.
(** All rows are in use: fit no longer fills but replaces. *)
Definition in_use (big : float) (close : float -> float -> bool) (cols : nat) (m : divF) : Prop :=
  dcols m = cols /\ 0 < cols /\ Forall (fun r => length r = cols /\ close (hd 0%float r) big = false) (rowsF m).

(** ** Lemmas: comparisons *)
Lemma ltb_klt x y : PrimFloat.ltb x y = true <-> klt (key x) (key y) /\ PrimFloat.is_nan y = false.
Proof.
  rewrite <- nless_key. unfold nless. split.
  - intros H. rewrite H. split; [reflexivity|]. rewrite ltb_equiv in H. rewrite is_nan_equiv. destruct (Prim2B y) as [s|s| |s m e He]; try reflexivity.
    destruct (Prim2B x) as [sx|[|]| |[|] mx ex Hx]; discriminate.
  - intros [H N]. rewrite N, andb_false_l, orb_false_r in H. exact H.
Qed.
Lemma ltb_trans x y z : PrimFloat.ltb x y = true -> PrimFloat.ltb y z = true -> PrimFloat.ltb x z = true.
Proof.
  rewrite !ltb_klt. intros [A _] [B N]. split; [|exact N]. unfold klt in *. destruct A as [A|[A A']], B as [B|[B B']]; try (left; lia). right. split; [lia|lra].
Qed.
Lemma ltb_irrefl x : PrimFloat.ltb x x = false.
Proof. destruct (PrimFloat.ltb x x) eqn:E; [|reflexivity]. apply ltb_klt in E. destruct E as [E _]. unfold klt in E. destruct E as [E|[_ E]]; [lia|lra]. Qed.
Lemma ltb_counts x y : PrimFloat.ltb x y = true -> counts x.
Proof.
  intros H. unfold counts. rewrite ltb_equiv in *. change (Prim2B infinity) with (@B754_infinity 53 1024 false). destruct (Prim2B x) as [s|[|]| |s m e He]; try reflexivity;
  destruct (Prim2B y) as [sy|[|]| |sy my ey Hy]; try discriminate; destruct s; reflexivity.
Qed.
Lemma below_fin d v : @DivModel.below FO d (Fin v) = PrimFloat.ltb d v. Proof. reflexivity. Qed.
Lemma below_inf d : @DivModel.below FO d Inf = true <-> counts d. Proof. reflexivity. Qed.
Lemma above_rises (u v : ext float) : @above FO u v = true <-> rises u v.
Proof. destruct u, v; cbn; try reflexivity; split; intros H; try discriminate; contradiction. Qed.
Lemma rises_irrefl u : ~ rises u u.
Proof. destruct u; cbn; [rewrite ltb_irrefl; discriminate|auto]. Qed.
Lemma rises_trans u v w : rises u v -> rises v w -> rises u w.
Proof.
  destruct u as [a|], v as [b|], w as [c|]; cbn; try tauto.
  - intros A B. eapply ltb_trans; eassumption.
  - intros A B. eapply ltb_counts, B.
Qed.

Section Search.
  Variable dist : row -> row -> float.
  Lemma least_pairs s (ps : list (nat * nat)) : forall u0, (forall d, u0 = Fin d -> counts d) ->
    let r := fold_left (fun u p => let d := dist (nth (fst p) s []) (nth (snd p) s []) in if @DivModel.below FO d u then Fin d else u) ps u0 in
    (r = u0 \/ exists p, In p ps /\ r = Fin (dist (nth (fst p) s []) (nth (snd p) s []))) /\ (forall d, r = Fin d -> counts d) /\
    (r = u0 \/ rises u0 r) /\ forall p, In p ps -> @DivModel.below FO (dist (nth (fst p) s []) (nth (snd p) s [])) r = false.
  Proof.
    induction ps as [|p ps IH]; intros u0 H0; cbn zeta; cbn [fold_left].
    - split; [auto|]. split; [exact H0|]. split; [auto|]. intros p [].
    - set (d := dist (nth (fst p) s []) (nth (snd p) s [])). set (u1 := if @DivModel.below FO d u0 then Fin d else u0).
      assert (H1 : forall e, u1 = Fin e -> counts e).
      { unfold u1. intros e. destruct (@DivModel.below FO d u0) eqn:E; [|apply H0]. intros Q. injection Q as <-. destruct u0 as [b|]; [rewrite below_fin in E; eapply ltb_counts, E|exact E]. }
      assert (S1 : u1 = u0 \/ rises u0 u1).
      { unfold u1. destruct (@DivModel.below FO d u0) eqn:E; [right|left; reflexivity]. destruct u0 as [b|]; exact E. }
      assert (B1 : @DivModel.below FO d u1 = false).
      { unfold u1. destruct (@DivModel.below FO d u0) eqn:E; [|exact E]. rewrite below_fin. apply ltb_irrefl. }
      destruct (IH u1 H1) as (I1 & I2 & I3 & I4). match goal with |- context [fold_left ?f ps ?u] => change (fold_left f ps u) with (fold_left f ps u1) end.
      match type of I1 with ?e = _ \/ _ => set (r := e) in * end. split.
      { destruct I1 as [I1|(q & Hq & I1)]; [|right; exists q; split; [right; exact Hq|exact I1]]. unfold u1 in I1. destruct (@DivModel.below FO d u0); [right; exists p; split; [left; reflexivity|exact I1]|left; exact I1]. }
      split; [exact I2|]. split.
      { destruct I3 as [I3|I3]; [rewrite I3; exact S1|]. destruct S1 as [S1|S1]; [rewrite S1 in I3; right; exact I3|right; eapply rises_trans; eassumption]. }
      intros q [<-|Hq]; [|apply I4, Hq]. change (@DivModel.below FO d r = false). destruct I3 as [I3|I3]; [rewrite I3; exact B1|].
      destruct (@DivModel.below FO d r) eqn:E; [exfalso|reflexivity]. destruct r as [e|]; destruct u1 as [f|]; cbn in I3; try contradiction.
      + rewrite below_fin in *. rewrite (ltb_trans _ _ _ E I3) in B1. discriminate.
      + rewrite below_fin in E. apply ltb_counts in E. unfold counts in E. cbn in B1. congruence.
  Qed.
  Lemma least_smallest s : smallest dist s every (@least FO dist s (length s)).
  Proof.
    unfold least. destruct (least_pairs s (pairs (length s)) Inf ltac:(discriminate)) as (H1 & H2 & _ & H4). cbn zeta in H1, H2, H4. set (r := fold_left _ _ Inf) in *.
    assert (B : forall i j, i < j < length s -> @DivModel.below FO (dist (nth i s []) (nth j s [])) r = false) by (intros i j Hij; apply (H4 (i, j)), In_pairs; exact Hij).
    destruct r as [d|] eqn:Er; cbn [smallest].
    - split; [apply H2; reflexivity|]. destruct H1 as [H1|((i, j) & Hp & H1)]; [discriminate|]. apply In_pairs in Hp. injection H1 as ->. cbn [fst snd] in *. split.
      + exists i, j. repeat split; try apply I; apply Hp.
      + intros i' j' H _ _. apply B in H. exact H.
    - intros i j H _ _ C. apply B in H. unfold counts in C. cbn in H. congruence.
  Qed.
  (** With a dead row in place k, only the other rows matter. *)
  Lemma smallest_dead cols s k x u : k < length s -> Forall (fun r => length r = cols) s -> dead dist cols x -> smallest dist (set_row k x s) every u -> smallest dist s (but k) u.
  Proof.
    intros Hk Hs Hx H.
    assert (Same : forall i, but k i -> nth i (set_row k x s) [] = nth i s []) by (intros i Hi; rewrite nth_set_row; destruct (Nat.eqb_spec i k); [contradiction|reflexivity]).
    assert (At : nth k (set_row k x s) [] = x) by (rewrite nth_set_row, Nat.eqb_refl; apply Nat.ltb_lt in Hk; rewrite Hk; reflexivity).
    assert (Len : forall i, i < length s -> length (nth i s []) = cols) by (intros i Hi; rewrite Forall_forall in Hs; apply Hs, nth_In, Hi).
    destruct u as [d|]; cbn [smallest] in *; rewrite length_set_row in H.
    - destruct H as (C & (i & j & Hij & _ & _ & E) & M). split; [exact C|]. split.
      + assert (Ki : i <> k). { intros ->. rewrite At, Same in E by (intros ->; lia). destruct (Hx (nth j s []) (Len j ltac:(lia))) as [N _]. apply N. rewrite E. exact C. }
        assert (Kj : j <> k). { intros ->. rewrite At, Same in E by exact Ki. destruct (Hx (nth i s []) (Len i ltac:(lia))) as [_ N]. apply N. rewrite E. exact C. }
        exists i, j. rewrite !Same in E by assumption. repeat split; try assumption; apply Hij.
      + intros i' j' H Hi Hj. specialize (M i' j' H I I). rewrite !Same in M by assumption. exact M.
    - intros i j Hij Hi Hj. specialize (H i j Hij I I). rewrite !Same in H by assumption. exact H.
  Qed.
  Lemma smallest_unique s keep u v : smallest dist s keep u -> smallest dist s keep v -> ~ rises u v /\ ~ rises v u.
  Proof.
    assert (One : forall u v, smallest dist s keep u -> smallest dist s keep v -> ~ rises u v).
    { intros [a|] [b|]; cbn [smallest rises]; try tauto.
      - intros (_ & _ & A) (_ & (i & j & Hij & Ki & Kj & <-) & _). rewrite (A i j Hij Ki Kj). discriminate.
      - intros A (C & (i & j & Hij & Ki & Kj & <-) & _) _. exact (A i j Hij Ki Kj C). }
    intros A B. split; apply One; assumption.
  Qed.
  Lemma best_search (f : nat -> ext float) ks : forall v j,
    let r := fold_left (fun a k => let u := f k in if @above FO u (fst a) then (u, Some k) else a) ks (v, j) in
    (r = (v, j) \/ exists k, In k ks /\ r = (f k, Some k) /\ rises (f k) v) /\ forall k, In k ks -> ~ rises (f k) (fst r).
  Proof.
    induction ks as [|k ks IH]; intros v j; cbn zeta; cbn [fold_left fst]; [split; [auto|intros k []]|].
    destruct (@above FO (f k) v) eqn:E.
    - apply above_rises in E. destruct (IH (f k) (Some k)) as [[I1|(k1 & Hk & I1 & I2)] I3]; set (r := fold_left _ ks _) in *.
      + split; [right; exists k; split; [left; reflexivity|split; [exact I1|exact E]]|]. intros q [<-|Hq]; [rewrite I1; apply rises_irrefl|apply I3, Hq].
      + split; [right; exists k1; split; [right; exact Hk|split; [exact I1|eapply rises_trans; eassumption]]|]. intros q [<-|Hq]; [|apply I3, Hq].
        rewrite I1. cbn [fst]. intros C. exact (rises_irrefl _ (rises_trans _ _ _ I2 C)).
    - destruct (IH v j) as [I1 I3]. set (r := fold_left _ ks _) in *. split; [destruct I1 as [I1|(k1 & Hk & I1 & I2)]; [auto|right; exists k1; split; [right; exact Hk|auto]]|].
      intros q [<-|Hq]; [|apply I3, Hq]. intros C. assert (N : ~ rises (f k) v) by (rewrite <- above_rises; congruence). apply N.
      destruct I1 as [I1|(k1 & Hk & I1 & I2)]; rewrite I1 in C; cbn [fst] in C; [exact C|eapply rises_trans; eassumption].
  Qed.
End Search.

(** ** Lemmas: one sample *)
Definition stepF (m : divF) (x : row) : divF := snd (fst (@div_step FO (length (rowsF m), m) x)).
Lemma step_full (m : divF) (x : row) : exists v j, @best FO (distF m) (rowsF m) (length (rowsF m)) x (valueF m) = (v, j) /\
  @div_step FO (length (rowsF m), m) x = ((length (rowsF m), stepF m x), valueF (stepF m x)) /\
  ((stepF m x = m /\ forall k, k < length (rowsF m) -> ~ rises (@least FO (distF m) (set_row k x (rowsF m)) (length (rowsF m))) (valueF m)) \/
   exists k, k < length (rowsF m) /\ rowsF (stepF m x) = set_row k x (rowsF m) /\ distF (stepF m x) = distF m /\ dcols (stepF m x) = dcols m /\
     smallest (distF m) (rowsF (stepF m x)) every (valueF (stepF m x)) /\ rises (valueF (stepF m x)) (valueF m) /\
     forall k', k' < length (rowsF m) -> ~ rises (@least FO (distF m) (set_row k' x (rowsF m)) (length (rowsF m))) (valueF (stepF m x))).
Proof.
  destruct (@best FO (distF m) (rowsF m) (length (rowsF m)) x (valueF m)) as [v j] eqn:Eb. exists v, j. split; [reflexivity|].
  destruct (best_search (fun k => @least FO (distF m) (set_row k x (rowsF m)) (length (rowsF m))) (seq 0 (length (rowsF m))) (valueF m) None) as [B1 B2].
  cbn zeta in B1, B2. change (fold_left _ _ (valueF m, None)) with (@best FO (distF m) (rowsF m) (length (rowsF m)) x (valueF m)) in B1, B2. rewrite Eb in B1, B2. cbn [fst] in B2.
  assert (St : @div_step FO (length (rowsF m), m) x = if @above FO v (valueF m) then let m' := mkDiv (ddist m) v (dcols m) (set_row (match j with Some k => k | None => length (rowsF m) - 1 end) x (rowsF m)) in ((length (rowsF m), m'), v) else ((length (rowsF m), m), valueF m)).
  { unfold div_step. change (drows m) with (rowsF m). rewrite Nat.ltb_irrefl. change (ddist m) with (distF m). change (dvalue m) with (valueF m). rewrite Eb. destruct (@above FO v (valueF m)); reflexivity. }
  unfold stepF. rewrite St. destruct (@above FO v (valueF m)) eqn:Ea; cbn zeta; cbn [fst snd].
  - split; [reflexivity|]. apply above_rises in Ea. right. destruct B1 as [B1|(k & Hk & B1 & B3)]; [injection B1 as -> ->; destruct (rises_irrefl _ Ea)|]. injection B1 as -> ->.
    apply in_seq in Hk. exists k. split; [lia|]. unfold rowsF, distF, valueF in *. cbn [drows ddist dcols dvalue]. split; [reflexivity|]. split; [reflexivity|]. split; [reflexivity|]. split; [|split; [exact Ea|]].
    + pose proof (least_smallest (ddist m) (set_row k x (drows m))) as L. rewrite length_set_row in L. exact L.
    + intros k' Hk'. apply B2, in_seq. lia.
  - split; [reflexivity|]. left. split; [reflexivity|]. intros k Hk C. assert (N : ~ rises v (valueF m)) by (rewrite <- above_rises; congruence).
    destruct B1 as [B1|(k1 & _ & B1 & B3)]; injection B1 as E1 E2; subst.
    + apply (B2 k); [apply in_seq; lia|exact C].
    + contradiction.
Qed.
Lemma filled_use big close cols (m : divF) : in_use big close cols m -> @filled FO big close (rowsF m) = length (rowsF m).
Proof.
  intros (_ & _ & F). induction F as [|r l [_ Hr] _ IH]; [reflexivity|]. cbn [filled length]. change (@hd (carrier FO) zero r) with (hd 0%float r). rewrite Hr. f_equal. exact IH.
Qed.
Fixpoint stepsF (m : divF) (xs : list row) : divF := match xs with [] => m | x :: r => stepsF (stepF m x) r end.
Fixpoint valuesF (m : divF) (xs : list row) : list (ext float) := match xs with [] => [] | x :: r => valueF (stepF m x) :: valuesF (stepF m x) r end.
Lemma rows_step m x : length (rowsF (stepF m x)) = length (rowsF m).
Proof. destruct (step_full m x) as (v & j & _ & _ & [[-> _]|(k & _ & -> & _)]); [reflexivity|apply length_set_row]. Qed.
Lemma scan_steps xs : forall m, @div_scan FO (length (rowsF m), m) xs = ((length (rowsF m), stepsF m xs), valuesF m xs).
Proof.
  induction xs as [|x xs IH]; intros m; [reflexivity|]. cbn [div_scan stepsF valuesF]. destruct (step_full m x) as (v & j & _ & -> & _).
  rewrite <- (rows_step m x) at 1. rewrite IH. rewrite rows_step. reflexivity.
Qed.
Lemma fit_use big close cols (m : divF) xs : in_use big close cols m -> xs <> [] -> fitF big close m cols xs = (stepsF m xs, Ok (valuesF m xs)).
Proof.
  intros Hm Hx. pose proof Hm as (C & P & _). unfold fitF. etransitivity; [exact (fit_eval FO big close m cols xs P Hx (or_intror C))|]. replace (dcols m =? 0) with false by (symmetry; apply Nat.eqb_neq; lia).
  cbn zeta. change (drows m) with (rowsF m). rewrite (filled_use big close cols m Hm), scan_steps. reflexivity.
Qed.
(** Samples of the right width that fit does not mistake for an empty row. *)
Definition fits_model (big : float) (close : float -> float -> bool) (cols : nat) (x : row) : Prop := length x = cols /\ close (hd 0%float x) big = false.
Lemma use_step big close cols m x : in_use big close cols m -> fits_model big close cols x -> in_use big close cols (stepF m x).
Proof.
  intros (C & P & F) Hx. destruct (step_full m x) as (v & j & _ & _ & [[-> _]|(k & Hk & R & _ & D & _)]); [exact (conj C (conj P F))|]. split; [congruence|]. split; [exact P|].
  rewrite R. rewrite Forall_forall in *. intros r Hr. apply In_set_row in Hr. destruct Hr as [->|Hr]; [exact Hx|apply F, Hr].
Qed.

(** ** Lemmas: distances of rows that are not finite *)
(** NaN, or no minus sign. *)
Definition plain (v : float) : Prop := match Prim2B v with B754_nan => True | b => Bsign b = false end.
Lemma counts_cases v : ~ counts v <-> Prim2B v = B754_nan \/ Prim2B v = B754_infinity false.
Proof.
  unfold counts. rewrite ltb_equiv. change (Prim2B infinity) with (@B754_infinity 53 1024 false).
  destruct (Prim2B v) as [s|[|]| |s m e He]; cbn; split; intros H; try (left; reflexivity); try (right; reflexivity); try discriminate;
  try (exfalso; apply H; try destruct s; reflexivity); destruct H as [H|H]; discriminate.
Qed.
Lemma abs_plain v : plain (PrimFloat.abs v).
Proof. unfold plain. rewrite abs_equiv. destruct (Prim2B v); exact I || reflexivity. Qed.
Lemma sub_bad a b : ~ finite a \/ ~ finite b -> ~ finite (PrimFloat.sub a b).
Proof.
  unfold finite. rewrite !is_finite_equiv, sub_equiv. destruct (Prim2B a) as [sa|[|]| |sa ma ea Ha]; destruct (Prim2B b) as [sb|[|]| |sb mb eb Hb]; intros [H|H]; try (exfalso; apply H; reflexivity); cbn; discriminate.
Qed.
Lemma abs_bad v : ~ finite v -> ~ counts (PrimFloat.abs v).
Proof.
  unfold finite. rewrite is_finite_equiv, counts_cases, abs_equiv. destruct (Prim2B v) as [s|[|]| |s m e He]; intros H; try (exfalso; apply H; reflexivity); cbn; auto.
Qed.
Lemma square_bad v : ~ finite v -> ~ counts (PrimFloat.mul v v).
Proof.
  unfold finite. rewrite is_finite_equiv, counts_cases, mul_equiv. destruct (Prim2B v) as [s|[|]| |s m e He]; intros H; try (exfalso; apply H; reflexivity); cbn; auto.
Qed.
Lemma mult_sign x y : Bsign (Prim2B x) = Bsign (Prim2B y) \/ (Bsign (Prim2B x) = false /\ Bsign (Prim2B y) = false) -> plain (PrimFloat.mul x y).
Proof.
  intros H. assert (X : xorb (Bsign (Prim2B x)) (Bsign (Prim2B y)) = false) by (destruct H as [->|[-> ->]]; [apply xorb_nilpotent|reflexivity]).
  unfold plain. rewrite mul_equiv. pose proof (Bmult_correct prec emax Hprec Hmax mode_NE (Prim2B x) (Prim2B y)) as K. rewrite X in K.
  match goal with |- match ?b with B754_nan => _ | _ => _ end => set (r := b) in *; match type of K with context [B2R ?c] => change c with r in K | context [B2SF ?c] => change c with r in K end end.
  destruct (Rlt_bool _ _).
  - destruct K as (_ & _ & K). destruct r; try exact I; exact (K eq_refl).
  - destruct r; cbn in *; try exact I; congruence.
Qed.
Lemma square_plain v : plain (PrimFloat.mul v v).
Proof. apply mult_sign. auto. Qed.
Lemma mul_plain a b : plain a -> plain b -> plain (PrimFloat.mul a b).
Proof.
  intros Ha Hb. destruct (Prim2B a) as [sa|sa| |sa ma ea Ea] eqn:Pa; destruct (Prim2B b) as [sb|sb| |sb mb eb Eb] eqn:Pb; unfold plain in Ha, Hb; rewrite Pa in Ha; rewrite Pb in Hb;
  try (apply mult_sign; rewrite Pa, Pb; right; split; assumption); unfold plain; rewrite mul_equiv, Pa, Pb; exact I.
Qed.
Lemma B2R_plain (s : bool) m e (H : bounded prec emax m e = true) : s = false -> (0 < @B2R prec emax (B754_finite s m e H))%R.
Proof. intros ->. cbn. apply Rmult_lt_0_compat; [apply (IZR_lt 0); reflexivity|apply bpow_gt_0]. Qed.
Lemma add_plain a b : plain a -> plain b -> plain (PrimFloat.add a b).
Proof.
  unfold plain. rewrite add_equiv. pose proof (Bplus_correct prec emax Hprec Hmax mode_NE (Prim2B a) (Prim2B b)) as K. intros Ha Hb.
  destruct (Prim2B a) as [sa|sa| |sa ma ea Ea]; destruct (Prim2B b) as [sb|sb| |sb mb eb Eb]; try exact I; cbn [Bsign] in Ha, Hb; subst; try reflexivity.
  specialize (K eq_refl eq_refl). pose proof (B2R_plain false ma ea Ea eq_refl). pose proof (B2R_plain false mb eb Eb eq_refl).
  destruct (Rlt_bool _ _).
  - destruct K as (_ & _ & K). rewrite Rcompare_Gt in K by lra. destruct (Bplus mode_NE _ _) eqn:E; try exact I; exact K.
  - destruct K as [K _]. destruct (Bplus mode_NE _ _); cbn in *; try exact I; congruence.
Qed.
Lemma add_spoil a b : plain a -> plain b -> ~ counts a \/ ~ counts b -> ~ counts (PrimFloat.add a b).
Proof.
  unfold plain. rewrite !counts_cases, add_equiv. intros Ha Hb [[H|H]|[H|H]]; rewrite H in *; destruct (Prim2B a) as [sa|sa| |sa ma ea Ea] eqn:Pa; destruct (Prim2B b) as [sb|sb| |sb mb eb Eb] eqn:Pb;
  cbn [Bsign] in Ha, Hb; try discriminate; subst; cbn; auto.
Qed.
Lemma mul_spoil a b : plain a -> plain b -> ~ counts a \/ ~ counts b -> ~ counts (PrimFloat.mul a b).
Proof.
  unfold plain. rewrite !counts_cases, mul_equiv. intros Ha Hb [[H|H]|[H|H]]; rewrite H in *; destruct (Prim2B a) as [sa|sa| |sa ma ea Ea] eqn:Pa; destruct (Prim2B b) as [sb|sb| |sb mb eb Eb] eqn:Pb;
  cbn [Bsign] in Ha, Hb; try discriminate; subst; cbn; auto.
Qed.
Lemma fold_spoil (op : float -> float -> float) (Hp : forall a b, plain a -> plain b -> plain (op a b)) (Hs : forall a b, plain a -> plain b -> ~ counts a \/ ~ counts b -> ~ counts (op a b)) l :
  forall a, plain a -> Forall plain l -> (~ counts a \/ exists v, In v l /\ ~ counts v) -> ~ counts (fold_left op l a).
Proof.
  induction l as [|v l IH]; intros a Ha Hl H; cbn [fold_left].
  - destruct H as [H|(v & [] & _)]. exact H.
  - inversion Hl; subst. apply IH; [apply Hp; assumption|assumption|]. destruct H as [H|(w & [<-|Hw] & H)]; [left; apply Hs; auto|left; apply Hs; auto|right; exists w; auto].
Qed.
(** The distances of lines 80-85, in doubles. *)
Definition styleF (powf : float -> float -> float) (ofnat : nat -> float) (style : string) : list float -> list float -> float := @distance_of FO powf ofnat style.
(** What is assumed of x ** y: NaN and infinity are not turned into numbers by a positive exponent. *)
Definition keeps_bad (powf : float -> float -> float) : Prop := forall v e, ~ counts v -> PrimFloat.ltb 0 e = true -> ~ counts (powf v e).
Definition positive_root (ofnat : nat -> float) (n : nat) : Prop := PrimFloat.ltb 0 (1 / ofnat n)%float = true.
Definition bad (v : float) : Prop := ~ finite v.

Lemma map2_spoil (f : float -> float -> float) (Hf : forall a b, bad a \/ bad b -> ~ counts (f a b)) x : forall z, length x = length z -> Exists bad x \/ Exists bad z -> exists v, In v (map2 f x z) /\ ~ counts v.
Proof.
  induction x as [|a x IH]; intros [|b z] L H; cbn [length] in L; try discriminate; [destruct H as [H|H]; inversion H|]. injection L as L. cbn [map2].
  destruct H as [H|H]; inversion H as [? ? Hb|? ? Hb]; subst.
  - exists (f a b). split; [left; reflexivity|apply Hf; auto].
  - destruct (IH z L (or_introl Hb)) as (v & Hv & N). exists v. split; [right; exact Hv|exact N].
  - exists (f a b). split; [left; reflexivity|apply Hf; auto].
  - destruct (IH z L (or_intror Hb)) as (v & Hv & N). exists v. split; [right; exact Hv|exact N].
Qed.
Lemma map2_plain (f : float -> float -> float) (Hf : forall a b, plain (f a b)) x : forall z, Forall plain (map2 f x z).
Proof. induction x as [|a x IH]; intros [|b z]; cbn [map2]; constructor; auto. Qed.
Lemma gap_bad a b : bad a \/ bad b -> ~ counts (PrimFloat.abs (PrimFloat.sub a b)).
Proof. intros H. apply abs_bad, sub_bad, H. Qed.
Lemma first_stays l : forall d, ~ counts d -> fold_left (fun m d => if PrimFloat.ltb m d then d else m) l d = d.
Proof.
  induction l as [|e l IH]; intros d H; [reflexivity|]. cbn [fold_left]. destruct (PrimFloat.ltb d e) eqn:E; [destruct H; eapply ltb_counts, E|apply IH, H].
Qed.
Lemma style_bad powf ofnat style x z : keeps_bad powf -> positive_root ofnat (length x) -> length x = length z ->
  (style <> "Chebyshev"%string /\ (Exists bad x \/ Exists bad z)) \/ (x <> [] /\ (bad (hd 0%float x) \/ bad (hd 0%float z))) -> ~ counts (styleF powf ofnat style x z).
Proof.
  intros Hp Hn L H. unfold styleF, distance_of. destruct (String.eqb_spec style "Chebyshev") as [->|NC].
  - destruct H as [[H _]|[Nx H]]; [congruence|]. destruct x as [|a x]; [congruence|]. destruct z as [|b z]; [discriminate|]. cbn [hd] in H.
    unfold chebyshev, gaps. cbn [map2]. match goal with |- ~ counts ?t => change t with (fold_left (fun m d => if PrimFloat.ltb m d then d else m) (map2 (fun a b => PrimFloat.abs (PrimFloat.sub a b)) x z) (PrimFloat.abs (PrimFloat.sub a b))) end.
    rewrite first_stays; apply gap_bad, H.
  - assert (E : Exists bad x \/ Exists bad z).
    { destruct H as [[_ H]|[Nx H]]; [exact H|]. destruct x as [|a x]; [congruence|]. destruct z as [|b z]; [discriminate|]. cbn [hd] in H. destruct H as [H|H]; [left|right]; left; exact H. }
    destruct (style =? "Euclidean")%string; [|destruct (style =? "Geometric")%string].
    + apply Hp; [|reflexivity]. apply (fold_spoil PrimFloat.add add_plain add_spoil); [reflexivity|apply map2_plain; intros; apply square_plain|right]. apply map2_spoil; [|exact L|exact E]. intros a b Hb. apply square_bad, sub_bad, Hb.
    + apply Hp; [|exact Hn]. apply (fold_spoil PrimFloat.mul mul_plain mul_spoil); [reflexivity|apply map2_plain; intros; apply abs_plain|right]. apply map2_spoil; [|exact L|exact E]. exact gap_bad.
    + apply (fold_spoil PrimFloat.add add_plain add_spoil); [reflexivity|apply map2_plain; intros; apply abs_plain|right]. apply map2_spoil; [|exact L|exact E]. exact gap_bad.
Qed.

Lemma counts_num d : counts d -> PrimFloat.is_nan d = false.
Proof. unfold counts. rewrite ltb_equiv, is_nan_equiv. destruct (Prim2B d); try reflexivity. discriminate. Qed.
Lemma ltb_same a b c : counts a -> counts b -> PrimFloat.ltb a b = false -> PrimFloat.ltb b a = false -> PrimFloat.ltb c a = true -> PrimFloat.ltb c b = true.
Proof.
  intros Ca Cb AB BA CA. apply counts_num in Ca, Cb. apply ltb_klt. split; [|exact Cb]. apply ltb_klt in CA. destruct CA as [CA _].
  assert (N1 : ~ klt (key a) (key b)) by (intros K; assert (PrimFloat.ltb a b = true) by (apply ltb_klt; auto); congruence).
  assert (N2 : ~ klt (key b) (key a)) by (intros K; assert (PrimFloat.ltb b a = true) by (apply ltb_klt; auto); congruence).
  unfold klt in *. destruct CA as [CA|[CA CA']].
  - left. destruct (Nat.lt_trichotomy (fst (key a)) (fst (key b))) as [|[|]]; lia.
  - destruct (Nat.lt_trichotomy (fst (key a)) (fst (key b))) as [Q|[Q|Q]]; [left; lia| |exfalso; apply N2; left; lia].
    right. split; [lia|]. destruct (Rlt_le_dec (snd (key c)) (snd (key b))) as [|G]; [assumption|]. exfalso. apply N2. right. split; [lia|lra].
Qed.
Lemma rises_same dist s keep u l w : smallest dist s keep u -> smallest dist s keep l -> rises u w -> rises l w.
Proof.
  intros S L C. destruct (smallest_unique _ _ _ _ _ S L) as [U1 U2]. destruct u as [a|], l as [b|]; cbn in U1, U2.
  - destruct w as [c|]; cbn in *; [|contradiction]. destruct S as [S _], L as [L _]. apply (ltb_same a b c); auto; apply not_true_is_false; assumption.
  - destruct U2. apply S.
  - destruct U1. apply L.
  - exact C.
Qed.

(** ** Theorems *)
Section Theorems.
  Variables (big : float) (close : float -> float -> bool) (cols : nat).
  (** The rows kept after one sample, and the diversity reported.  Holds for every distance. *)
  Theorem C172_sample m x : in_use big close cols m ->
    exists m' v, fitF big close m cols [x] = (m', Ok [v]) /\ valueF m' = v /\
      ((m' = m /\ forall k u, k < length (rowsF m) -> smallest (distF m) (set_row k x (rowsF m)) every u -> ~ rises u (valueF m)) \/
       exists k, k < length (rowsF m) /\ rowsF m' = set_row k x (rowsF m) /\ distF m' = distF m /\
         smallest (distF m) (rowsF m') every v /\ rises v (valueF m) /\
         forall k' u, k' < length (rowsF m) -> smallest (distF m) (set_row k' x (rowsF m)) every u -> ~ rises u v).
  Proof.
    intros H. exists (stepF m x), (valueF (stepF m x)). split; [rewrite (fit_use _ _ _ _ [x] H ltac:(discriminate)); reflexivity|]. split; [reflexivity|].
    assert (T : forall k u w, smallest (distF m) (set_row k x (rowsF m)) every u -> ~ rises (@least FO (distF m) (set_row k x (rowsF m)) (length (rowsF m))) w -> ~ rises u w).
    { intros k u w S N C. pose proof (least_smallest (distF m) (set_row k x (rowsF m))) as L. rewrite length_set_row in L. exact (N (rises_same _ _ _ _ _ _ S L C)). }
    destruct (step_full m x) as (v & j & _ & _ & [[E N]|(k & Hk & R & D & _ & S & Up & N)]).
    - left. split; [exact E|]. intros k u Hk S. apply (T k u _ S), N, Hk.
    - right. exists k. repeat (split; [assumption|]). intros k' u Hk' S'. apply (T k' u _ S'), N, Hk'.
  Qed.
  (** Rows with NaN or infinity in them: no distance to any row counts. *)
  Theorem C172_bad_rows powf ofnat style x : keeps_bad powf -> positive_root ofnat cols -> length x = cols ->
    (style <> "Chebyshev"%string /\ Exists bad x) \/ (0 < cols /\ bad (hd 0%float x)) -> dead (styleF powf ofnat style) cols x.
  Proof.
    intros Hp Hn L H z Lz. split; apply style_bad; try assumption; try congruence.
    - destruct H as [[H1 H2]|[H1 H2]]; [left|right]; split; auto. destruct x; [cbn in L; lia|discriminate].
    - destruct H as [[H1 H2]|[H1 H2]]; [left|right]; split; auto. destruct z; [cbn in Lz; lia|discriminate].
  Qed.
  (** Chebyshev takes the first component as it comes and skips NaN in the others. *)
  Theorem C172_chebyshev powf ofnat x z : 0 < length x -> length x = length z -> let gap i := PrimFloat.abs (nth i x 0 - nth i z 0)%float in PrimFloat.is_nan (gap 0) = false ->
    exists i, i < length x /\ styleF powf ofnat "Chebyshev" x z = gap i /\ PrimFloat.is_nan (gap i) = false /\ forall j, j < length x -> PrimFloat.ltb (gap i) (gap j) = false.
  Proof.
    intros P L gap H.
    assert (Fold : forall l d, PrimFloat.is_nan d = false -> let r := fold_left (fun m d => if PrimFloat.ltb m d then d else m) l d in
      PrimFloat.is_nan r = false /\ In r (d :: l) /\ (r = d \/ PrimFloat.ltb d r = true) /\ forall e, In e (d :: l) -> PrimFloat.ltb r e = false).
    { induction l as [|e l IH]; intros d Hd; cbn zeta; cbn [fold_left].
      - split; [exact Hd|]. split; [left; reflexivity|]. split; [left; reflexivity|]. intros e [<-|[]]. apply ltb_irrefl.
      - destruct (PrimFloat.ltb d e) eqn:E.
        + assert (He : PrimFloat.is_nan e = false) by (apply ltb_klt in E; apply E). destruct (IH e He) as (I1 & I2 & I3 & I4). set (r := fold_left _ l e) in *.
          split; [exact I1|]. split; [right; exact I2|]. split; [right; destruct I3 as [->|I3]; [exact E|eapply ltb_trans; eassumption]|].
          intros f [<-|Hf]; [|apply I4, Hf]. destruct (PrimFloat.ltb r d) eqn:F; [|reflexivity]. exfalso. pose proof (ltb_trans _ _ _ F E) as G. rewrite (I4 e (or_introl eq_refl)) in G. discriminate.
        + destruct (IH d Hd) as (I1 & I2 & I3 & I4). set (r := fold_left _ l d) in *. split; [exact I1|]. split; [destruct I2 as [I2|I2]; [left; exact I2|right; right; exact I2]|]. split; [exact I3|].
          intros f [<-|[<-|Hf]]; [apply I4; left; reflexivity| |apply I4; right; exact Hf]. destruct I3 as [->|I3]; [exact E|]. destruct (PrimFloat.ltb r e) eqn:F; [|reflexivity]. rewrite (ltb_trans _ _ _ I3 F) in E. discriminate. }
    set (f := fun a b => PrimFloat.abs (PrimFloat.sub a b)).
    assert (G : forall i, i < length x -> nth i (map2 f x z) 0%float = gap i) by (intros i Hi; rewrite nth_map2 with (dx := 0%float) (dy := 0%float) by lia; reflexivity).
    assert (Lg : length (map2 f x z) = length x) by (rewrite length_map2; lia).
    assert (E : exists d l, map2 f x z = d :: l /\ styleF powf ofnat "Chebyshev" x z = fold_left (fun m d => if PrimFloat.ltb m d then d else m) l d).
    { destruct x as [|a x]; [cbn in P; lia|]. destruct z as [|b z]; [discriminate|]. exists (f a b), (map2 f x z). split; reflexivity. }
    destruct E as (d & l & E & E').
    assert (Hd : PrimFloat.is_nan d = false) by (rewrite <- (G 0 P) in H; rewrite E in H; exact H).
    destruct (Fold l d Hd) as (I1 & I2 & _ & I4). rewrite <- E', <- E in *. apply In_nth with (d := 0%float) in I2. destruct I2 as (i & Hi & Ei). rewrite Lg in Hi. rewrite G in Ei by exact Hi.
    exists i. split; [exact Hi|]. split; [symmetry; exact Ei|]. rewrite Ei. split; [exact I1|]. intros j Hj. apply I4. rewrite <- (G j Hj). apply nth_In. lia.
  Qed.
  (** A dead sample replaces a row exactly when the rows that remain are further apart. *)
  Theorem C172_dead m x : in_use big close cols m -> dead (distF m) cols x ->
    exists m' v, fitF big close m cols [x] = (m', Ok [v]) /\ valueF m' = v /\
      ((m' = m /\ forall k u, k < length (rowsF m) -> smallest (distF m) (rowsF m) (but k) u -> ~ rises u (valueF m)) \/
       exists k, k < length (rowsF m) /\ rowsF m' = set_row k x (rowsF m) /\ smallest (distF m) (rowsF m) (but k) v /\ rises v (valueF m)).
  Proof.
    intros H Hx. destruct (C172_sample m x H) as (m' & v & F & V & C). exists m', v. split; [exact F|]. split; [exact V|].
    assert (Ls : Forall (fun r => length r = cols) (rowsF m)) by (eapply Forall_impl; [|apply H]; intros r Hr; apply Hr). destruct C as [[E N]|(k & Hk & R & D & S & Up & N)].
    - left. split; [exact E|]. intros k u Hk S C. pose proof (least_smallest (distF m) (set_row k x (rowsF m))) as L.
      apply (N k _ Hk L). exact (rises_same _ _ _ _ _ _ S (smallest_dead _ _ _ _ _ _ Hk Ls Hx L) C).
    - right. exists k. split; [exact Hk|]. split; [exact R|]. split; [|exact Up]. rewrite R in S. exact (smallest_dead _ _ _ _ _ _ Hk Ls Hx S).
  Qed.
  (** A model whose diversity is numpy.inf never changes again. *)
  Theorem C172_stuck m xs : in_use big close cols m -> valueF m = Inf -> xs <> [] -> fitF big close m cols xs = (m, Ok (repeat Inf (length xs))).
  Proof.
    intros H V Hx. rewrite (fit_use _ _ _ _ xs H Hx).
    assert (St : forall x, stepF m x = m). { intros x. destruct (step_full m x) as (v & j & _ & _ & [[E _]|(k & _ & _ & _ & _ & _ & Up & _)]); [exact E|]. rewrite V in Up. destruct (valueF (stepF m x)); destruct Up. }
    assert (E : stepsF m xs = m) by (clear Hx; induction xs as [|x xs IH]; [reflexivity|]; cbn [stepsF]; rewrite St; exact IH).
    assert (E' : valuesF m xs = repeat Inf (length xs)) by (clear Hx E; induction xs as [|x xs IH]; [reflexivity|]; cbn [valuesF length repeat]; rewrite St, V; f_equal; exact IH).
    rewrite E, E'. reflexivity.
  Qed.
  (** With two rows, one dead sample is enough for that. *)
  Theorem C172_two_rows m b x xs : in_use big close cols m -> length (rowsF m) = 2 -> valueF m = Fin b -> counts b -> dead (distF m) cols x -> fits_model big close cols x ->
    exists k m', k < 2 /\ rowsF m' = set_row k x (rowsF m) /\ fitF big close m cols (x :: xs) = (m', Ok (repeat Inf (S (length xs)))).
  Proof.
    intros H L2 V Cb Hx Fx. destruct (C172_dead m x H Hx) as (m' & v & F & Vm & C). rewrite (fit_use _ _ _ _ [x] H ltac:(discriminate)) in F. cbn [stepsF valuesF] in F. injection F as F1 F2.
    assert (None2 : forall k, k < 2 -> smallest (distF m) (rowsF m) (but k) Inf) by (intros k Hk i j Hij Hi Hj; unfold but in *; lia).
    destruct C as [[_ N]|(k & Hk & R & S & Up)].
    - exfalso. apply (N 0 Inf); [lia|apply None2; lia|]. rewrite V. exact Cb.
    - exists k, m'. split; [lia|]. split; [exact R|].
      assert (Vi : v = Inf). { destruct v as [d|]; [|reflexivity]. destruct S as (_ & (i & j & Hij & Ki & Kj & _) & _). unfold but in *. lia. }
      rewrite (fit_use _ _ _ _ (x :: xs) H ltac:(discriminate)). cbn [stepsF valuesF]. rewrite F1.
      assert (U : in_use big close cols m') by (rewrite <- F1; apply use_step; assumption). rewrite Vm, Vi.
      destruct xs as [|y ys]; [reflexivity|]. assert (K := C172_stuck m' (y :: ys) U ltac:(congruence) ltac:(discriminate)). rewrite (fit_use _ _ _ _ (y :: ys) U ltac:(discriminate)) in K.
      pose proof (f_equal fst K) as K1. pose proof (f_equal snd K) as K2. cbn [fst snd] in K1, K2. apply (f_equal (fun r => match r with Ok l => l | Err _ => [] end)) in K2.
      rewrite K1, K2. reflexivity.
  Qed.
  (** A dead row that is in place stays there, whatever is fitted later. *)
  Theorem C172_stays m k r xs : in_use big close cols m -> smallest (distF m) (rowsF m) every (valueF m) -> k < length (rowsF m) -> nth k (rowsF m) [] = r -> dead (distF m) cols r ->
    Forall (fits_model big close cols) xs -> xs <> [] ->
    exists m' vs, fitF big close m cols xs = (m', Ok vs) /\ nth k (rowsF m') [] = r /\ smallest (distF m) (rowsF m') every (valueF m').
  Proof.
    intros H S Hk Hr Hd Hx Nx. exists (stepsF m xs), (valuesF m xs). split; [apply fit_use with (cols := cols); assumption|]. clear Nx.
    revert m H S Hk Hr Hd. induction Hx as [|x xs Fx _ IH]; intros m H S Hk Hr Hd; cbn [stepsF]; [split; assumption|].
    assert (Ls : Forall (fun r => length r = cols) (rowsF m)) by (eapply Forall_impl; [|apply H]; intros q Hq; apply Hq).
    pose proof (use_step _ _ _ _ x H Fx) as U. destruct (step_full m x) as (v & j & _ & _ & [[E N]|(k' & Hk' & R & D & _ & S' & Up & N)]).
    - rewrite E. apply IH; assumption.
    - assert (Nk : k' <> k).
      { intros ->. rewrite R in S'. assert (B : smallest (distF m) (rowsF m) (but k) (valueF m)).
        { apply (smallest_dead _ cols _ k r); try assumption. replace (set_row k r (rowsF m)) with (rowsF m); [exact S|]. apply nth_ext with (d := []) (d' := []); [rewrite length_set_row; reflexivity|].
          intros n Hn. rewrite nth_set_row. destruct (Nat.eqb_spec n k) as [->|]; [|reflexivity]. match goal with |- context [if ?b then _ else _] => destruct b end; [exact Hr|reflexivity]. }
        assert (Same : forall i, but k i -> nth i (set_row k x (rowsF m)) [] = nth i (rowsF m) []) by (intros i Hi; rewrite nth_set_row; destruct (Nat.eqb_spec i k); [contradiction|reflexivity]).
        destruct (valueF m) as [b|]; destruct (valueF (stepF m x)) as [a|]; cbn [rises] in Up; try contradiction.
        - destruct B as (_ & (i & j' & Hij & Ki & Kj & <-) & _), S' as (_ & _ & S'). rewrite length_set_row in S'. specialize (S' i j' Hij I I). rewrite !Same in S' by assumption. congruence.
        - destruct B as (_ & (i & j' & Hij & Ki & Kj & <-) & _). cbn [smallest] in S'. rewrite length_set_row in S'. specialize (S' i j' Hij I I). rewrite !Same in S' by assumption. contradiction. }
      rewrite <- D in *. apply IH; try assumption; [rewrite rows_step; exact Hk|]. rewrite R, nth_set_row. destruct (Nat.eqb_spec k k'); [congruence|exact Hr].
  Qed.
End Theorems.

(** ** Examples and the refutation *)
Definition bigF : float := 0x1.fffffffffffffp1023%float.
(** numpy.isclose with its default tolerances *)
Definition closeF (a b : float) : bool := PrimFloat.leb (PrimFloat.abs (a - b)) (0x1.5798ee2308c3ap-27 + 0x1.4f8b588e368f1p-17 * PrimFloat.abs b)%float.
Definition rootF (v e : float) : float := PrimFloat.sqrt v.          (* x ** 0.5 *)
Definition countF (n : nat) : float := PrimFloat.of_uint63 (Uint63.of_Z (Z.of_nat n)).
Definition manhF : row -> row -> float := styleF rootF countF "Manhattan".
(** the values reported and the rows kept by one fit of a new model, for a look at them *)
Definition freshF (style : string) (order : Z) : option divF := match @div_make FO (styleF rootF countF) style order with Ok m => Some m | Err _ => None end.
Definition heldF (rows : list row) (v : ext float) : divF := mkDiv (O := FO) manhF v (length (hd [] rows)) rows.
Lemma rootF_bad : keeps_bad rootF.
Proof. intros v e. unfold rootF. rewrite !counts_cases, sqrt_equiv. intros [H|H] _; rewrite H; cbn; auto. Qed.

Lemma nan_bad : bad PrimFloat.nan.
Proof. intros B. vm_compute in B. discriminate. Qed.
Lemma inf_bad : bad infinity.
Proof. intros B. vm_compute in B. discriminate. Qed.

(** It is not so that samples with NaN in them are left out of a full model. *)
Theorem C172_refuted : ~ forall (m : divF) (x : row), distF m = manhF -> in_use bigF closeF 1 m -> length x = 1 -> Exists bad x -> rowsF (fst (fitF bigF closeF m 1 [x])) = rowsF m.
Proof.
  intros H. specialize (H (heldF [[0%float]; [1%float]] (Fin 0%float)) [PrimFloat.nan] eq_refl).
  assert (U : in_use bigF closeF 1 (heldF [[0%float]; [1%float]] (Fin 0%float))) by (split; [reflexivity|]; split; [lia|]; repeat constructor).
  specialize (H U eq_refl (Exists_cons_hd _ _ _ nan_bad)).
  apply (f_equal (fun s => existsb PrimFloat.is_nan (concat s))) in H. vm_compute in H. discriminate.
Qed.

Definition fitted (style : string) (order : Z) (cols : nat) (xs : list row) : option (list (ext float) * list row) :=
  match freshF style order with
  | None => None
  | Some m => let (m', r) := fitF bigF closeF m cols xs in match r with Ok vs => Some (vs, rowsF m') | Err _ => None end
  end.
(** C172_two_rows and C172_refuted on a whole run: NaN goes in, and then nothing changes any more *)
Example C172_run : fitted "Manhattan" 1 1 [[0]; [1]; [PrimFloat.nan]; [7]; [-400]]%float = Some ([Fin 0; Fin 0; Inf; Inf; Inf], [[PrimFloat.nan]; [1]])%float.
Proof. vm_compute. reflexivity. Qed.
(** three rows: NaN goes in for 1/8, as 0 and 5 are further apart than 0 and 1/8 *)
Example C172_run3 : fitted "Euclidean" 2 1 [[0]; [0.125]; [5]; [PrimFloat.nan]; [9]; [-1]]%float =
  Some ([Fin 0; Fin 0; Fin 0; Fin 5; Fin 9; Fin 10], [[-1]; [PrimFloat.nan]; [9]])%float.
Proof. vm_compute. reflexivity. Qed.
Definition heldE : divF := heldF [[0]; [0.125]; [5]]%float (Fin 0.125%float).
Lemma heldE_use : in_use bigF closeF 1 heldE.
Proof. split; [reflexivity|]. split; [lia|]. repeat constructor. Qed.
Lemma nan_dead : dead manhF 1 [PrimFloat.nan].
Proof. apply (C172_bad_rows 1); [exact rootF_bad|reflexivity|reflexivity|]. left. split; [discriminate|]. left. exact nan_bad. Qed.
Example C172_sample_ex : exists m' v, fitF bigF closeF heldE 1 [[2]%float] = (m', Ok [v]) /\ valueF m' = v.
Proof. destruct (C172_sample _ _ _ heldE [2%float] heldE_use) as (m' & v & A & B & _). exists m', v. auto. Qed.
Example C172_dead_ex : exists m' v, fitF bigF closeF heldE 1 [[PrimFloat.nan]] = (m', Ok [v]) /\ valueF m' = v.
Proof. destruct (C172_dead _ _ _ heldE [PrimFloat.nan] heldE_use nan_dead) as (m' & v & A & B & _). exists m', v. auto. Qed.
(** infinity in the first of two columns, all four styles *)
Example C172_bad_ex : forall style, dead (styleF rootF countF style) 2 [infinity; 3]%float.
Proof. intros style. apply C172_bad_rows; [exact rootF_bad|reflexivity|reflexivity|]. right. split; [lia|exact inf_bad]. Qed.
(** Chebyshev skips NaN in the second column, so such a row is not dead *)
Example C172_cheb_ex : styleF rootF countF "Chebyshev" [1; PrimFloat.nan; 3]%float [0; 0; 7]%float = 4%float /\ styleF rootF countF "Manhattan" [1; PrimFloat.nan; 3]%float [0; 0; 7]%float = PrimFloat.nan /\
  exists i, i < 3 /\ styleF rootF countF "Chebyshev" [1; PrimFloat.nan; 3]%float [0; 0; 7]%float = PrimFloat.abs (nth i [1; PrimFloat.nan; 3] 0 - nth i [0; 0; 7] 0)%float.
Proof.
  split; [reflexivity|]. split; [reflexivity|]. destruct (C172_chebyshev rootF countF [1; PrimFloat.nan; 3]%float [0; 0; 7]%float) as (i & H1 & H2 & _); [cbn; lia|reflexivity|reflexivity|]. exists i. split; [exact H1|exact H2].
Qed.
Definition heldN : divF := heldF [[0]; [PrimFloat.nan]; [5]]%float (Fin 5%float).
Lemma heldN_use : in_use bigF closeF 1 heldN.
Proof. split; [reflexivity|]. split; [lia|]. repeat constructor. Qed.
Lemma heldN_least : smallest (distF heldN) (rowsF heldN) every (valueF heldN).
Proof. exact (least_smallest (distF heldN) (rowsF heldN)). Qed.
Example C172_stays_ex : exists m' vs, fitF bigF closeF heldN 1 [[9]; [-1]; [infinity]]%float = (m', Ok vs) /\ nth 1 (rowsF m') [] = [PrimFloat.nan].
Proof.
  destruct (C172_stays bigF closeF 1 heldN 1 [PrimFloat.nan] [[9]; [-1]; [infinity]]%float heldN_use heldN_least) as (m' & vs & A & B & _);
    [cbn; lia|reflexivity|exact nan_dead|repeat constructor|discriminate|]. exists m', vs. auto.
Qed.
Example C172_stuck_ex : fitF bigF closeF (heldF [[0]; [PrimFloat.nan]]%float Inf) 1 [[9]; [-1]]%float = (heldF [[0]; [PrimFloat.nan]]%float Inf, Ok [Inf; Inf]).
Proof. apply (C172_stuck bigF closeF 1 (heldF [[0]; [PrimFloat.nan]]%float Inf) [[9]; [-1]]%float); [split; [reflexivity|]; split; [lia|]; repeat constructor|reflexivity|discriminate]. Qed.
Example C172_two_ex : exists k m', k < 2 /\ rowsF m' = set_row k [PrimFloat.nan] [[0]; [1]]%float /\ fitF bigF closeF (heldF [[0]; [1]]%float (Fin 1%float)) 1 [[PrimFloat.nan]; [8]]%float = (m', Ok [Inf; Inf]).
Proof. apply (C172_two_rows bigF closeF 1 (heldF [[0]; [1]]%float (Fin 1%float)) 1%float [PrimFloat.nan] [[8%float]]); [split; [reflexivity|]; split; [lia|]; repeat constructor|reflexivity|reflexivity|reflexivity|exact nan_dead|split; reflexivity]. Qed.
Print Assumptions C172_sample.
Print Assumptions C172_bad_rows.
Print Assumptions C172_chebyshev.
Print Assumptions C172_dead.
Print Assumptions C172_stuck.
Print Assumptions C172_two_rows.
Print Assumptions C172_stays.
Print Assumptions C172_refuted.
