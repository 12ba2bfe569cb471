(** Properties C90, C91, C94, C96, C117 and C118: DiversityModel, for every arithmetic and
    every distance. *)
From Coq Require Import String List Arith ZArith Bool Lia Reals.
From Verif Require Import Base BaseLemmas Instances PyString GaussModel DivModel.
Import ListNotations.
Set Asymmetric Patterns.
Local Open Scope nat_scope.

Lemma length_set_row {A} (r : A) s : forall k, length (set_row k r s) = length s.
Proof. induction s as [|a s IH]; intros [|k]; cbn; congruence. Qed.
Lemma nth_set_row {A} (r d : A) s : forall k i, nth i (set_row k r s) d = if (i =? k) && (k <? length s) then r else nth i s d.
Proof.
  induction s as [|a s IH]; intros [|k] [|i]; try reflexivity; cbn [set_row nth length]; rewrite ?IH; try reflexivity.
  - cbn. destruct (i =? k); reflexivity.
Qed.
Lemma set_row_app {A} (r : A) u v a : set_row (length u) r (u ++ a :: v) = u ++ r :: v.
Proof. induction u as [|b u IH]; cbn; [reflexivity|]. f_equal. exact IH. Qed.
Lemma In_set_row {A} (r a : A) s : forall k, In a (set_row k r s) -> a = r \/ In a s.
Proof. induction s as [|b s IH]; intros [|k] H; cbn in H; [contradiction..| |]; destruct H as [->|H]; cbn; auto. destruct (IH _ H); auto. Qed.

(** Adjacent values never fall. *)
Definition climbs {O : OArith} (v : ext O) (ys : list (ext O)) : Prop :=
  forall i, i < length ys -> nth (S i) (v :: ys) v = nth i (v :: ys) v \/ above (nth (S i) (v :: ys) v) (nth i (v :: ys) v) = true.

Section AnyArith.
  Context (O : OArith).
  Variable big : O.
  Variable isclose : O -> O -> bool.
  Implicit Types (m : diversity O) (x : list O).
  Notation fit := (div_fit big isclose).

  (** A row fit can use. *)
  Definition sample (cols : nat) x : Prop := length x = cols /\ isclose (hd zero x) big = false.

  Lemma step_facts cc m x : let r := div_step (cc, m) x in let a := fst r in
    snd r = dvalue (snd a) /\ dcols (snd a) = dcols m /\ ddist (snd a) = ddist m /\
    length (drows (snd a)) = length (drows m) /\
    (dvalue (snd a) = dvalue m \/ above (dvalue (snd a)) (dvalue m) = true) /\
    (exists k, drows (snd a) = set_row k x (drows m) \/ drows (snd a) = drows m) /\
    (cc < length (drows m) -> a = (S cc, mkDiv (ddist m) (dvalue m) (dcols m) (set_row cc x (drows m)))) /\
    (length (drows m) <= cc -> fst a = cc).
  Proof.
    cbn zeta. unfold div_step. destruct (Nat.ltb_spec cc (length (drows m))) as [H|H]; cbn [fst snd dvalue dcols ddist drows].
    - repeat split; try (rewrite length_set_row; reflexivity); auto; try lia. exists cc. auto.
    - destruct (best _ _ _ _ _) as [v j]. destruct (above v (dvalue m)) eqn:E; cbn [fst snd dvalue dcols ddist drows].
      + repeat split; try (rewrite length_set_row; reflexivity); auto; try lia. eexists. left. reflexivity.
      + repeat split; auto; try lia. exists 0. auto.
  Qed.

  Lemma scan_facts xs : forall cc m, let r := div_scan (cc, m) xs in
    length (snd r) = length xs /\ dcols (snd (fst r)) = dcols m /\ ddist (snd (fst r)) = ddist m /\ length (drows (snd (fst r))) = length (drows m) /\
    climbs (dvalue m) (snd r) /\ dvalue (snd (fst r)) = last (snd r) (dvalue m).
  Proof.
    induction xs as [|x xs IH]; intros cc m; cbn zeta; cbn [div_scan].
    - cbn. repeat split. intros i Hi; cbn in Hi; lia.
    - pose proof (step_facts cc m x) as (F1 & F2 & F3 & F4 & F5 & _). destruct (div_step (cc, m) x) as [[cc1 m1] y]. cbn [fst snd] in *. subst y.
      specialize (IH cc1 m1). cbn zeta in IH. destruct (div_scan (cc1, m1) xs) as [[cc2 m2] ys]. cbn [fst snd] in *.
      destruct IH as (I1 & I2 & I3 & I4 & I5 & I6). cbn [length]. repeat split; try congruence.
      + intros [|i] Hi; [exact F5|]. cbn in Hi. specialize (I5 i ltac:(lia)).
        assert (N : forall j, j < S (length ys) -> nth j (dvalue m1 :: ys) (dvalue m) = nth j (dvalue m1 :: ys) (dvalue m1)) by (intros; apply nth_indep; cbn; lia).
        change (nth (S i) (dvalue m1 :: ys) (dvalue m) = nth i (dvalue m1 :: ys) (dvalue m) \/ above (nth (S i) (dvalue m1 :: ys) (dvalue m)) (nth i (dvalue m1 :: ys) (dvalue m)) = true).
        rewrite !N by lia. exact I5.
      + rewrite I6. destruct ys; [reflexivity|]. cbn [last]. clear. revert e. induction ys as [|b ys IH]; intros e; [reflexivity|apply IH].
  Qed.

  Lemma fit_eval m cols rows : 0 < cols -> rows <> [] -> (dcols m = 0 \/ dcols m = cols) ->
    let m0 := if dcols m =? 0 then mkDiv (ddist m) (dvalue m) cols (repeat (repeat big cols) (length (drows m))) else m in
    let r := div_scan (filled big isclose (drows m0), m0) rows in
    fit m (X2 cols rows) = (snd (fst r), Ok (snd r)).
  Proof.
    intros Hc Hr Hm m0 r. assert (C0 : (cols =? dcols m0) = true).
    { apply Nat.eqb_eq. unfold m0. destruct (Nat.eqb_spec (dcols m) 0); [reflexivity|lia]. }
    unfold div_fit. replace (length rows =? 0) with false by (symmetry; apply Nat.eqb_neq; destruct rows; [contradiction|discriminate]).
    replace (cols =? 0) with false by (symmetry; apply Nat.eqb_neq; lia). cbn [orb]. fold m0. rewrite C0. cbn [negb]. fold r. destruct r as [a y]. reflexivity.
  Qed.

  (** C118.  fit raises ValueError, and changes nothing, exactly when x is not a non-empty
      matrix or has another number of columns than the rows already kept. *)
  Theorem C118_div_rejects m (x : xarr O) :
    let good := exists cols rows, x = X2 cols rows /\ rows <> [] /\ 0 < cols /\ (dcols m = 0 \/ dcols m = cols) in
    (good -> is_ok (snd (fit m x)) = true) /\ (~ good -> fit m x = (m, Err ValueError)).
  Proof.
    intros good. split.
    - intros (cols & rows & -> & Hr & Hc & Hm). rewrite fit_eval by assumption. reflexivity.
    - intros N. destruct x as [cols rows|n]; [|reflexivity]. unfold div_fit. destruct (Nat.eqb_spec (length rows) 0) as [|Hr]; [reflexivity|]. destruct (Nat.eqb_spec cols 0) as [|Hc]; [reflexivity|]. cbn [orb].
      destruct (Nat.eqb_spec (dcols m) 0) as [E|E].
      + destruct N. exists cols, rows. repeat split; [|lia|auto]. intros ->. auto.
      + destruct (Nat.eqb_spec cols (dcols m)) as [Z|Z]; [|reflexivity]. destruct N. exists cols, rows. repeat split; [|lia|auto]. intros ->. auto.
  Qed.
  Theorem C118_div_make dist style order :
    let good := (exists t, In t div_styles /\ py_lower style = py_lower t) /\ (0 <= order)%Z in
    (good -> exists t m, In t div_styles /\ py_lower style = py_lower t /\ div_make dist style order = Ok m /\
       ddist m = dist t /\ length (drows m) = Z.to_nat (order + 1) /\ dcols m = 0 /\ dvalue m = Fin zero) /\
    (~ good -> div_make dist style order = @Err (diversity O) ValueError).
  Proof.
    assert (T : forall t, In t div_styles -> py_title t = t) by (intros t [<-|[<-|[<-|[<-|[]]]]]; reflexivity).
    pose proof (mem_title_iff style div_styles T) as M. intros good. unfold div_make. split.
    - intros [H1 H2]. pose proof H1 as H1'. apply M in H1'. rewrite H1'. cbn [negb]. destruct (Z.ltb_spec order 0); [lia|].
      destruct H1 as (t & It & Et). exists t. eexists. split; [exact It|]. split; [exact Et|]. split; [reflexivity|]. cbn [ddist drows dcols dvalue].
      rewrite repeat_length. repeat split. f_equal. rewrite <- (T t It). apply py_title_eq_iff. exact Et.
    - intros N. destruct (mem_str (py_title style) div_styles) eqn:E; [|reflexivity]. cbn [negb]. pose proof (proj1 M eq_refl) as E1.
      destruct (Z.ltb_spec order 0); [reflexivity|]. destruct N. split; assumption.
  Qed.

  (** C90.  In one call. *)
  Theorem C90_div_climbs m cols rows m' y : fit m (X2 cols rows) = (m', Ok y) ->
    length y = length rows /\ climbs (dvalue m) y /\ dvalue m' = last y (dvalue m).
  Proof.
    intros E. destruct (Nat.eq_dec (length rows) 0) as [Z|Hr]; [destruct rows; [discriminate|discriminate]|].
    assert (G : rows <> [] /\ 0 < cols /\ (dcols m = 0 \/ dcols m = cols)).
    { unfold div_fit in E. destruct (Nat.eqb_spec (length rows) 0); [discriminate|]. destruct (Nat.eqb_spec cols 0); [discriminate|]. cbn [orb] in E.
      destruct (Nat.eqb_spec (dcols m) 0) as [E0|E0]; [|destruct (Nat.eqb_spec cols (dcols m)); [|discriminate]]; (split; [intros ->; auto|]; split; [lia|auto]). }
    destruct G as (G1 & G2 & G3). rewrite (fit_eval m cols rows G2 G1 G3) in E. cbn zeta in E.
    set (m0 := if dcols m =? 0 then _ else m) in E. assert (V : dvalue m0 = dvalue m) by (unfold m0; destruct (dcols m =? 0); reflexivity).
    pose proof (scan_facts rows (filled big isclose (drows m0)) m0) as (F1 & _ & _ & _ & F5 & F6). rewrite V in F5, F6.
    injection E as <- <-. auto.
  Qed.
  Theorem C90_div_clear m : dvalue (div_clear m) = Fin zero.
  Proof. reflexivity. Qed.

  (** C91.  One sample changes at most one row, and to that sample. *)
  Theorem C91_div_one_row m cols x m' y : dcols m = cols -> fit m (X2 cols [x]) = (m', Ok y) ->
    length (drows m') = length (drows m) /\
    exists k, forall i, nth i (drows m') [] = nth i (drows m) [] \/ (i = k /\ nth i (drows m') [] = x).
  Proof.
    intros Hc E. assert (Hp : 0 < cols) by (unfold div_fit in E; destruct cols; [discriminate|lia]).
    rewrite (fit_eval m cols [x] Hp) in E by (discriminate || auto). cbn zeta in E. replace (dcols m =? 0) with false in E by (symmetry; apply Nat.eqb_neq; lia).
    cbn [div_scan] in E. pose proof (step_facts (filled big isclose (drows m)) m x) as (_ & _ & _ & F4 & _ & (k & F6) & _).
    destruct (div_step _ x) as [[cc1 m1] y1]. cbn [fst snd] in *. injection E as <- <-. split; [exact F4|]. exists k. intros i.
    destruct F6 as [F6|F6]; rewrite F6; [|auto]. rewrite nth_set_row. destruct (Nat.eqb_spec i k); [|auto]. destruct (k <? length (drows m)); cbn [andb]; auto.
  Qed.

  (** The rows kept at first: order + 1 empty ones. *)
  Definition fresh (order : nat) m : Prop := dcols m = 0 /\ dvalue m = Fin zero /\ length (drows m) = order + 1.

  Lemma scan_fill xs : forall u m n, drows m = u ++ repeat (repeat big (dcols m)) (length xs + n) ->
    div_scan (length u, m) xs = ((length u + length xs, mkDiv (ddist m) (dvalue m) (dcols m) (u ++ xs ++ repeat (repeat big (dcols m)) n)), repeat (dvalue m) (length xs)).
  Proof.
    induction xs as [|x xs IH]; intros u m n E; cbn [div_scan].
    - cbn [length] in *. rewrite Nat.add_0_r. cbn in *. rewrite <- E. destruct m; reflexivity.
    - pose proof (step_facts (length u) m x) as (F1 & _ & _ & _ & _ & _ & F7 & _). cbn zeta in F1, F7.
      rewrite F7 in F1 by (rewrite E, app_length, repeat_length; cbn; lia). specialize (F7 ltac:(rewrite E, app_length, repeat_length; cbn; lia)).
      destruct (div_step (length u, m) x) as [a y]. cbn [fst snd dvalue] in F1, F7. subst a y.
      assert (E' : set_row (length u) x (drows m) = (u ++ [x]) ++ repeat (repeat big (dcols m)) (length xs + n)).
      { rewrite E. cbn [length Nat.add repeat]. rewrite set_row_app, <- app_assoc. reflexivity. }
      pose proof (IH (u ++ [x]) (mkDiv (ddist m) (dvalue m) (dcols m) (set_row (length u) x (drows m))) n E') as I.
      rewrite app_length in I. cbn [length] in I. rewrite Nat.add_1_r in I. rewrite I. cbn [ddist dvalue dcols length repeat].
      f_equal. f_equal; [lia|]. f_equal. rewrite <- !app_assoc. reflexivity.
  Qed.
  Lemma filled_repeat r n : isclose (hd zero r) big = true -> filled big isclose (repeat r n) = 0.
  Proof. intros H. destruct n; [reflexivity|]. cbn. rewrite H. reflexivity. Qed.
  Lemma hd_repeat_big cols : 0 < cols -> hd zero (repeat big cols) = big.
  Proof. destruct cols; [lia|reflexivity]. Qed.
  Lemma filled_app u n cols : 0 < cols -> isclose big big = true -> Forall (sample cols) u ->
    filled big isclose (u ++ repeat (repeat big cols) n) = length u.
  Proof.
    intros Hc Hb F. induction F as [|x u [_ Hx] F IH]; cbn [app filled length].
    - apply filled_repeat. rewrite hd_repeat_big; assumption.
    - rewrite Hx. f_equal. exact IH.
  Qed.

  (** The first order + 1 samples fill the rows in order and are reported as zero. *)
  Theorem C91_div_fills order m cols xs : isclose big big = true -> 0 < cols -> fresh order m ->
    xs <> [] -> length xs <= order + 1 ->
    exists m', fit m (X2 cols xs) = (m', Ok (repeat (Fin zero) (length xs))) /\
      drows m' = xs ++ repeat (repeat big cols) (order + 1 - length xs) /\ dcols m' = cols /\ dvalue m' = Fin zero.
  Proof.
    intros Hb Hc (F1 & F2 & F3) Hx Hl. rewrite (fit_eval m cols xs Hc Hx (or_introl F1)). cbn zeta. rewrite F1. cbn [Nat.eqb].
    set (m0 := mkDiv _ _ _ _). assert (E : drows m0 = [] ++ repeat (repeat big (dcols m0)) (length xs + (order + 1 - length xs))).
    { cbn [m0 drows dcols app]. f_equal. lia. }
    replace (filled big isclose (drows m0)) with (@length (list O) []) by (symmetry; apply filled_repeat; rewrite hd_repeat_big; assumption).
    rewrite (scan_fill xs [] m0 _ E). cbn [fst snd m0 dvalue dcols ddist]. rewrite F2. eexists. split; [reflexivity|]. repeat split.
  Qed.

  (** Every row is the empty mark or one of the samples presented since the last clear. *)
  Inductive history (order : nat) : list (list O) -> diversity O -> Prop :=
  | h_new m : fresh order m -> history order [] m
  | h_fit seen m cols rows m' y : history order seen m -> Forall (fun x => length x = cols) rows ->
      fit m (X2 cols rows) = (m', Ok y) -> history order (seen ++ rows) m'.
  Lemma scan_rows (P : list O -> Prop) xs : Forall P xs -> forall a, Forall P (drows (snd a)) -> Forall P (drows (snd (fst (div_scan a xs)))).
  Proof.
    induction 1 as [|x xs Hx F IH]; intros [cc m] H; cbn [div_scan]; [exact H|].
    pose proof (step_facts cc m x) as (_ & _ & _ & _ & _ & (k & F6) & _). destruct (div_step (cc, m) x) as [a1 y]. cbn [fst snd] in *.
    specialize (IH a1). destruct (div_scan a1 xs) as [a2 ys]. cbn [fst snd] in *. apply IH. destruct F6 as [->| ->]; [|exact H].
    apply Forall_forall. intros r Hr. destruct (In_set_row _ _ _ _ Hr) as [->|Hr']; [exact Hx|]. rewrite Forall_forall in H. auto.
  Qed.
  Theorem C91_div_observed order seen m : history order seen m -> length (drows m) = order + 1 /\
    (0 < dcols m -> forall r, In r (drows m) -> r = repeat big (dcols m) \/ In r seen).
  Proof.
    induction 1 as [m (F1 & F2 & F3)|seen m cols rows m' y _ [IL IH] Hrows E].
    - split; [exact F3|lia].
    - assert (G : rows <> [] /\ 0 < cols /\ (dcols m = 0 \/ dcols m = cols)).
      { pose proof (C118_div_rejects m (X2 cols rows)) as [_ N]. unfold div_fit in E. destruct (Nat.eqb_spec (length rows) 0); [discriminate|]. destruct (Nat.eqb_spec cols 0); [discriminate|]. cbn [orb] in E.
        destruct (Nat.eqb_spec (dcols m) 0) as [E0|E0]; [|destruct (Nat.eqb_spec cols (dcols m)); [|discriminate]]; (split; [intros ->; auto|]; split; [lia|auto]). }
      destruct G as (G1 & G2 & G3). rewrite (fit_eval m cols rows G2 G1 G3) in E. cbn zeta in E. set (m0 := if dcols m =? 0 then _ else m) in E.
      assert (C0 : dcols m0 = cols) by (unfold m0; destruct (Nat.eqb_spec (dcols m) 0); [reflexivity|lia]).
      assert (L0 : length (drows m0) = length (drows m)) by (unfold m0; destruct (dcols m =? 0); [apply repeat_length|reflexivity]).
      pose proof (scan_facts rows (filled big isclose (drows m0)) m0) as (_ & K1 & _ & K2 & _).
      pose proof (scan_rows (fun r => r = repeat big cols \/ In r (seen ++ rows)) rows) as R.
      specialize (R ltac:(apply Forall_forall; intros r Hr; right; apply in_or_app; auto)
                    (filled big isclose (drows m0), m0)).
      injection E as <- <-. cbn [snd] in R. rewrite K1, K2, C0, L0. split; [exact IL|]. intros _ r Hr.
      assert (R0 : Forall (fun r => r = repeat big cols \/ In r (seen ++ rows)) (drows m0)).
      { apply Forall_forall. intros s Hs. unfold m0 in Hs. destruct (Nat.eqb_spec (dcols m) 0) as [Z|Z].
        - cbn in Hs. apply repeat_spec in Hs. auto.
        - destruct (IH ltac:(lia) s Hs) as [->|I]; [left; f_equal; lia|right; apply in_or_app; auto]. }
      specialize (R R0). rewrite Forall_forall in R. apply R. exact Hr.
  Qed.

  (** C94.  States in which no kept sample looks like the empty mark. *)
  Definition tidy m : Prop := dcols m = 0 \/ exists u n, drows m = u ++ repeat (repeat big (dcols m)) n /\ Forall (sample (dcols m)) u.
  Lemma scan_tidy xs : forall cc m, 0 < dcols m -> isclose big big = true -> Forall (sample (dcols m)) xs ->
    (exists u n, drows m = u ++ repeat (repeat big (dcols m)) n /\ Forall (sample (dcols m)) u /\ cc = length u) ->
    let a := fst (div_scan (cc, m) xs) in
    exists u n, drows (snd a) = u ++ repeat (repeat big (dcols m)) n /\ Forall (sample (dcols m)) u /\ fst a = length u.
  Proof.
    induction xs as [|x xs IH]; intros cc m Hc Hb F H; cbn zeta; cbn [div_scan]; [exact H|].
    apply Forall_cons_iff in F. destruct F as [Fx Fxs]. pose proof (step_facts cc m x) as (_ & F2 & _ & F4 & _ & (k & F6) & F7 & F8).
    assert (H' : exists u n, drows (snd (fst (div_step (cc, m) x))) = u ++ repeat (repeat big (dcols m)) n /\ Forall (sample (dcols m)) u /\ fst (fst (div_step (cc, m) x)) = length u).
    { destruct H as (u & n & E & Fu & ->). destruct n as [|n].
      - cbn in E. rewrite app_nil_r in E. assert (L : length (drows m) = length u) by congruence. exists (drows (snd (fst (div_step (length u, m) x)))), 0. cbn [repeat]. rewrite app_nil_r.
        split; [reflexivity|]. split; [|rewrite F4, F8; lia]. destruct F6 as [->| ->]; rewrite E; [|exact Fu].
        apply Forall_forall. intros r Hr. destruct (In_set_row _ _ _ _ Hr) as [->|Hr']; [exact Fx|]. rewrite Forall_forall in Fu. auto.
      - cbn zeta in F7. rewrite F7 by (rewrite E, app_length, repeat_length; lia). cbn [fst snd drows]. exists (u ++ [x]), n.
        rewrite E. cbn [repeat]. rewrite set_row_app, <- app_assoc, app_length. cbn [app length]. split; [reflexivity|]. split; [|lia].
        apply Forall_app. split; [exact Fu|constructor; [exact Fx|constructor]]. }
    destruct (div_step (cc, m) x) as [[cc1 m1] y]. cbn [fst snd] in *. specialize (IH cc1 m1). rewrite F2 in IH. specialize (IH Hc Hb Fxs H').
    cbn zeta in IH. destruct (div_scan (cc1, m1) xs) as [a2 ys]. exact IH.
  Qed.
  Lemma scan_app xs ys : forall (a : nat * diversity O), div_scan a (xs ++ ys) =
    let (a1, v) := div_scan a xs in let (a2, w) := div_scan a1 ys in (a2, v ++ w).
  Proof.
    induction xs as [|x xs IH]; intros a; cbn [app div_scan]; [destruct (div_scan a ys); reflexivity|].
    destruct (div_step a x) as [a1 y]. rewrite IH. destruct (div_scan a1 xs) as [a2 v]. destruct (div_scan a2 ys). reflexivity.
  Qed.
  Lemma tidy_fit m cols rows : isclose big big = true -> 0 < cols -> tidy m -> (dcols m = 0 \/ dcols m = cols) -> rows <> [] -> Forall (sample cols) rows ->
    let m0 := if dcols m =? 0 then mkDiv (ddist m) (dvalue m) cols (repeat (repeat big cols) (length (drows m))) else m in
    let r := div_scan (filled big isclose (drows m0), m0) rows in
    fit m (X2 cols rows) = (snd (fst r), Ok (snd r)) /\ tidy (snd (fst r)) /\ dcols (snd (fst r)) = cols /\
    filled big isclose (drows (snd (fst r))) = fst (fst r).
  Proof.
    intros Hb Hc Ht Hm Hr F m0 r. split; [apply fit_eval; assumption|].
    assert (C0 : dcols m0 = cols) by (unfold m0; destruct (Nat.eqb_spec (dcols m) 0); [reflexivity|lia]).
    assert (T0 : exists u n, drows m0 = u ++ repeat (repeat big cols) n /\ Forall (sample cols) u).
    { unfold m0. destruct (Nat.eqb_spec (dcols m) 0) as [Z|Z].
      - exists [], (length (drows m)). cbn. split; [reflexivity|constructor].
      - destruct Ht as [Ht|(u & n & E & Fu)]; [contradiction|]. replace cols with (dcols m) by lia. exists u, n. auto. }
    pose proof (scan_facts rows (filled big isclose (drows m0)) m0) as (_ & K1 & _). fold r in K1. cbn zeta in K1.
    assert (T : exists u n, drows (snd (fst r)) = u ++ repeat (repeat big (dcols m0)) n /\ Forall (sample (dcols m0)) u /\ fst (fst r) = length u).
    { apply (scan_tidy rows); [lia|exact Hb|rewrite C0; exact F|]. rewrite C0. destruct T0 as (u & n & E & Fu). exists u, n. rewrite E, filled_app by assumption. auto. }
    rewrite C0 in *. destruct T as (u & n & E & Fu & L). split; [right; exists u, n; fold r; rewrite K1; auto|]. split; [exact K1|]. rewrite E, filled_app by assumption. auto.
  Qed.
  Theorem C94_div_chunks m cols chunks : isclose big big = true -> 0 < cols -> tidy m -> (dcols m = 0 \/ dcols m = cols) ->
    chunks <> [] -> Forall (fun c => c <> [] /\ Forall (sample cols) c) chunks ->
    call_chunks (fun m c => fit m (X2 cols c)) m chunks = fit m (X2 cols (concat chunks)).
  Proof.
    intros Hb Hc Ht Hm Hn F. revert m Ht Hm Hn. induction F as [|c cs [Hc0 Fc] F IH]; intros m Ht Hm Hn; [contradiction|].
    cbn [call_chunks concat]. destruct (tidy_fit m cols c Hb Hc Ht Hm Hc0 Fc) as (E & T1 & C1 & L1). rewrite E.
    set (m0 := if dcols m =? 0 then _ else m) in *. set (r := div_scan _ c) in *.
    destruct cs as [|c1 cs].
    - cbn [call_chunks concat]. rewrite !app_nil_r. rewrite E. reflexivity.
    - rewrite (IH (snd (fst r)) T1 (or_intror C1)) by discriminate.
      assert (Hne : concat (c1 :: cs) <> []).
      { apply Forall_cons_iff in F. destruct F as [[Hc1 _] _]. cbn. destruct c1; [contradiction|discriminate]. }
      rewrite (fit_eval (snd (fst r)) cols _ Hc Hne (or_intror C1)). cbn zeta. replace (dcols (snd (fst r)) =? 0) with false by (symmetry; apply Nat.eqb_neq; lia). rewrite L1.
      rewrite (fit_eval m cols (c ++ concat (c1 :: cs)) Hc) by (exact Hm || (destruct c; [contradiction|discriminate])). cbn zeta. fold m0. rewrite scan_app.
      fold r. destruct r as [[cc mm] v]. cbn [fst snd]. destruct (div_scan (cc, mm) (concat (c1 :: cs))) as [a2 w]. reflexivity.
  Qed.
  (** Every state reached from a new model by fitting such samples and clearing is tidy. *)
  Inductive reachable : diversity O -> Prop :=
  | r_make dist style order m : div_make dist style order = Ok m -> reachable m
  | r_fit m cols rows m' y : reachable m -> Forall (sample cols) rows -> fit m (X2 cols rows) = (m', Ok y) -> reachable m'
  | r_clear m : reachable m -> reachable (div_clear m).
  Theorem C94_div_reachable m : isclose big big = true -> reachable m -> tidy m.
  Proof.
    intros Hb. induction 1 as [dist style order m E|m cols rows m' y _ IH F E|m _ IH].
    - left. unfold div_make in E. destruct (negb _); [discriminate|]. destruct (order <? 0)%Z; [discriminate|]. injection E as <-. reflexivity.
    - assert (G : rows <> [] /\ 0 < cols /\ (dcols m = 0 \/ dcols m = cols)).
      { unfold div_fit in E. destruct (Nat.eqb_spec (length rows) 0); [discriminate|]. destruct (Nat.eqb_spec cols 0); [discriminate|]. cbn [orb] in E.
        destruct (Nat.eqb_spec (dcols m) 0) as [E0|E0]; [|destruct (Nat.eqb_spec cols (dcols m)); [|discriminate]]; (split; [intros ->; auto|]; split; [lia|auto]). }
      destruct G as (G1 & G2 & G3). destruct (tidy_fit m cols rows Hb G2 IH G3 G1 F) as (E' & T & _). rewrite E' in E. injection E as <- _. exact T.
    - left. reflexivity.
  Qed.

  (** C96. *)
  Theorem C96_div_clear m : length (drows (div_clear m)) = dcols m /\ dcols (div_clear m) = 0.
  Proof. cbn. rewrite repeat_length. auto. Qed.
  (** So the order is kept exactly when the dimension is order + 1. *)
  Theorem C96_div_order order seen m : history order seen m ->
    (length (drows (div_clear m)) = length (drows m) <-> dcols m = order + 1).
  Proof. intros H. destruct (C91_div_observed _ _ _ H) as [L _]. rewrite L. cbn. rewrite repeat_length. lia. Qed.
  (** A model cleared before any fit keeps nothing, ever. *)
  Theorem C96_div_dead m cols rows : dcols m = 0 -> 0 < cols -> rows <> [] ->
    exists m', fit (div_clear m) (X2 cols rows) = (m', Ok (repeat (Fin zero) (length rows))) /\ drows m' = [] /\ dvalue m' = Fin zero.
  Proof.
    intros Hd Hc Hr. assert (E0 : div_clear m = mkDiv (ddist m) (Fin zero) 0 []) by (unfold div_clear; rewrite Hd; reflexivity). rewrite E0.
    rewrite (fit_eval (mkDiv (ddist m) (Fin zero) 0 []) cols rows Hc Hr (or_introl eq_refl)). cbn zeta. cbn [dcols Nat.eqb drows dvalue ddist length repeat filled].
    set (m0 := mkDiv _ _ _ _).
    assert (A : forall v : ext O, dvalue m0 = v -> above v v = false -> div_scan (0, m0) rows = ((0, m0), repeat v (length rows))).
    { intros v Hv Ha. clear Hr. induction rows as [|x rows IH]; [reflexivity|]. cbn [div_scan]. unfold div_step at 1. cbn [m0 drows length Nat.ltb Nat.leb best seq fold_left]. fold m0. rewrite Hv, Ha.
      cbn [snd]. rewrite IH. cbn [length repeat snd]. rewrite Hv. reflexivity. }
    destruct (above (Fin zero) (Fin zero : ext O)) eqn:Ha.
    - exists m0. assert (B : div_scan (0, m0) rows = ((0, m0), repeat (Fin zero) (length rows))).
      { clear A Hr. induction rows as [|x rows IH]; [reflexivity|]. cbn [div_scan]. unfold div_step at 1. cbn [m0 drows length Nat.ltb Nat.leb best seq fold_left dvalue]. rewrite Ha.
        match goal with |- context [mkDiv ?a ?b ?c ?d] => change (mkDiv a b c d) with m0 end. rewrite IH. reflexivity. }
      rewrite B. auto.
    - exists m0. rewrite (A (Fin zero) eq_refl Ha). auto.
  Qed.

  (** C117.  Order zero: the second sample displaces the first with an infinite report,
      and nothing is kept after that. *)
  Theorem C117_div_order_zero m cols x1 x2 rows : oltinf (zero : O) = true -> isclose big big = true -> 0 < cols -> fresh 0 m ->
    exists m', fit m (X2 cols (x1 :: x2 :: rows)) = (m', Ok (Fin zero :: repeat Inf (S (length rows)))) /\ drows m' = [x2].
  Proof.
    intros Hi Hb Hc (F1 & F2 & F3). rewrite (fit_eval m cols (x1 :: x2 :: rows) Hc) by (discriminate || auto). cbn zeta. rewrite F1. cbn [Nat.eqb].
    rewrite F3, F2. cbn [Nat.add repeat drows]. replace (filled big isclose [repeat big cols]) with 0 by (cbn [filled]; rewrite (hd_repeat_big cols Hc), Hb; reflexivity).
    set (m0 := mkDiv _ _ _ _). set (m1 := mkDiv (ddist m) (Fin zero) cols [x1]). set (m2 := mkDiv (ddist m) Inf cols [x2]).
    assert (S1 : div_step (0, m0) x1 = ((1, m1), Fin zero)) by reflexivity.
    assert (S2 : div_step (1, m1) x2 = ((1, m2), Inf)).
    { unfold div_step. cbn [m1 drows length Nat.ltb Nat.leb best seq fold_left dvalue ddist dcols]. change (least (ddist m) (set_row 0 x2 [x1]) 1) with (@Inf O).
      cbn [fst above]. rewrite Hi. cbn [above]. rewrite Hi. reflexivity. }
    assert (S3 : forall l, div_scan (1, m2) l = ((1, m2), repeat Inf (length l))).
    { induction l as [|x l IH]; [reflexivity|]. cbn [div_scan]. assert (S : div_step (1, m2) x = ((1, m2), Inf)) by reflexivity. rewrite S, IH. reflexivity. }
    cbn [div_scan]. rewrite S1, S2, S3. exists m2. split; reflexivity.
  Qed.
End AnyArith.
Print Assumptions C118_div_rejects.
Print Assumptions C118_div_make.
Print Assumptions C90_div_climbs.
Print Assumptions C90_div_clear.
Print Assumptions C91_div_one_row.
Print Assumptions C91_div_fills.
Print Assumptions C91_div_observed.
Print Assumptions C94_div_chunks.
Print Assumptions C94_div_reachable.
Print Assumptions C96_div_clear.
Print Assumptions C96_div_order.
Print Assumptions C96_div_dead.
Print Assumptions C117_div_order_zero.
