(** Properties C53-C57: PolynomialRateFilter. *)
From Coq Require Import List Arith ZArith Lia Bool Reals Lra.
From Verif Require Import Base BaseLemmas Instances CalculusModel CalculusProps Rounding PolyphaseModel PolyphaseProps PolynomialModel.
Import ListNotations.
Set Asymmetric Patterns.
Open Scope R_scope.

(** Python's int(.) on an exact number. *)
Definition truncZ (x : R) : Z := if Rleb 0 x then Int_part x else (- Int_part (- x))%Z.

(** Value of a polynomial, highest power first (an independent definition: sum of
    coefficient times power). *)
Fixpoint pval (b : list R) (t : R) : R :=
  match b with [] => 0 | c :: b' => c * t ^ length b' + pval b' t end.

(** ** Contract of numpy.polyfit: least squares *)
Fixpoint sq_err (b us xs : list R) : R :=
  match us, xs with u :: us', x :: xs' => (pval b u - x) ^ 2 + sq_err b us' xs' | _, _ => 0 end.
(** Abscissae of every fit (line 103). *)
Definition grid : list R := [-1; 0; 1; 2].
(** At order k, the fit to four points has k+1 coefficients and the least squared error. *)
Definition is_lsq (fit : list R -> list R -> Z -> list R) (k : Z) : Prop :=
  forall xs, length xs = 4%nat ->
    length (fit grid xs k) = S (Z.to_nat k) /\
    forall c, length c = S (Z.to_nat k) -> sq_err (fit grid xs k) grid xs <= sq_err c grid xs.

Definition mkP (r : R) (k : Z) : prate RO := @mkPrate RO r k.
Definition prateR (fit : list R -> list R -> Z -> list R) : prate RO -> list R -> res (list R) :=
  @prate_filter RO rheR truncZ fit.
Definition prmake (r : R) (k : Z) : res (prate RO) := @prate_make RO r k.

Section Loop.
  Variable fit : list R -> list R -> Z -> list R.
  Definition pvR : list R -> R -> R := @polyval RO.
  Definition innerR : nat -> list R -> R -> R -> nat * R * list R := @prate_inner RO.
  Definition outerR : list R -> Z -> nat -> list R -> nat -> R -> R -> list R := @prate_outer RO fit.

  Lemma pvR_pval b t : pvR b t = pval b t.
  Proof.
    unfold pvR, polyval. change (@add RO) with Rplus. change (@mul RO) with Rmult. change (@zero RO) with 0.
    assert (H : forall (b : list R) a, fold_left (fun y c => y * t + c) b a = a * t ^ length b + pval b t).
    { induction b0 as [|c b0 IH]; intros a; cbn [fold_left length pow pval]; [ring|]. rewrite IH. ring. }
    transitivity (0 * t ^ length b + pval b t); [apply H|ring].
  Qed.

  Lemma innerR_S ny b v i : innerR (S ny) b v i =
    if Rltb i 1 then let '(n, i', ys) := innerR ny b v (i + v) in (n, i', pvR b i :: ys) else (S ny, i, []).
  Proof. reflexivity. Qed.
  Lemma outerR_S u k c xs ny v i : outerR u k (S c) xs ny v i =
    let '(ny', i', ys) := if Rltb i 1 then innerR ny (fit u (firstn 4 xs) k) v i else (ny, i, []) in
    ys ++ outerR u k c (tl xs) ny' v (i' - 1).
  Proof. reflexivity. Qed.

  Lemma inner_spec b v : 0 < v -> forall ny i, exists n i' ys, innerR ny b v i = (n, i', ys) /\
    (n + length ys = ny)%nat /\ i' = i + INR (length ys) * v /\ (n = 0%nat \/ 1 <= i') /\
    forall m, (m < length ys)%nat -> i + INR m * v < 1 /\ nth m ys 0 = pval b (i + INR m * v).
  Proof.
    intros Hv. induction ny as [|ny IH]; intros i.
    - exists 0%nat, i, []. split; [reflexivity|]. cbn [length INR]. split; [lia|]. split; [lra|]. split; [left; reflexivity|intros; lia].
    - rewrite innerR_S. destruct (Rltb i 1) eqn:E.
      + apply Rltb_iff in E. destruct (IH (i + v)) as (n & i' & ys & H1 & H2 & H3 & H4 & H5). rewrite H1.
        exists n, i', (pvR b i :: ys). split; [reflexivity|]. cbn [length]. rewrite S_INR. split; [lia|]. split; [lra|]. split; [exact H4|].
        intros m Hm. destruct m as [|m]; cbn [nth].
        * cbn [INR]. split; [lra|]. rewrite pvR_pval. f_equal. ring.
        * rewrite S_INR. destruct (H5 m) as [H6 H7]; [lia|]. split; [lra|]. rewrite H7. f_equal. ring.
      + exists (S ny), i, []. split; [reflexivity|]. cbn [length INR]. split; [lia|]. split; [lra|]. split; [|intros; lia].
        right. destruct (Rle_dec 1 i) as [C|C]; [exact C|]. assert (Rltb i 1 = true) by (apply Rltb_iff; lra). congruence.
  Qed.

  Lemma outer_spec u k v X : 0 < v -> forall c ii ny i j0, (0 <= i \/ ny = 0%nat) -> INR ii + i = INR j0 * v ->
    exists ys, outerR u k c (skipn ii X) ny v i = ys /\ (length ys <= ny)%nat /\
      ((length ys < ny)%nat -> INR (ii + c) <= INR (j0 + length ys) * v) /\
      forall n, (n < length ys)%nat -> exists m, (ii <= m < ii + c)%nat /\
        INR m <= INR (j0 + n) * v < INR (S m) /\
        nth n ys 0 = pval (fit u (firstn 4 (skipn m X)) k) (INR (j0 + n) * v - INR m).
  Proof.
    intros Hv. induction c as [|c IH]; intros ii ny i j0 Hi Ht.
    - exists []. split; [reflexivity|]. cbn [length]. rewrite !Nat.add_0_r. split; [lia|]. split; [|intros; lia].
      intros Hn. destruct Hi as [Hi|Hi]; [lra|lia].
    - rewrite outerR_S.
      assert (Hstep : exists n i' ys, (if Rltb i 1 then innerR ny (fit u (firstn 4 (skipn ii X)) k) v i else (ny, i, [])) = (n, i', ys) /\
        (n + length ys = ny)%nat /\ i' = i + INR (length ys) * v /\ (n = 0%nat \/ 1 <= i') /\
        forall m, (m < length ys)%nat -> i + INR m * v < 1 /\ nth m ys 0 = pval (fit u (firstn 4 (skipn ii X)) k) (i + INR m * v)).
      { destruct (Rltb i 1) eqn:E; [apply inner_spec, Hv|]. exists ny, i, []. split; [reflexivity|]. cbn [length INR].
        split; [lia|]. split; [lra|]. split; [|intros; lia].
        right. destruct (Rle_dec 1 i) as [C|C]; [exact C|]. assert (Rltb i 1 = true) by (apply Rltb_iff; lra). congruence. }
      destruct Hstep as (n & i' & ys & H1 & H2 & H3 & H4 & H5). rewrite H1.
      assert (Htl : tl (skipn ii X) = skipn (S ii) X).
      { clear. revert X. induction ii as [|ii IH]; intros X; [destruct X; reflexivity|]. destruct X; [reflexivity|]. cbn [skipn]. apply IH. }
      rewrite Htl.
      destruct (IH (S ii) n (i' - 1) (j0 + length ys)%nat) as (zs & Z1 & Z2 & Z3 & Z4).
      { destruct H4 as [H4|H4]; [right; exact H4|left; lra]. }
      { rewrite S_INR, plus_INR. lra. }
      rewrite Z1. exists (ys ++ zs). split; [reflexivity|]. rewrite app_length. split; [lia|]. split.
      + intros Hn. replace (ii + S c)%nat with (S ii + c)%nat by lia. rewrite Nat.add_assoc. apply Z3. lia.
      + intros q Hq. destruct (le_lt_dec (length ys) q) as [C|C].
        * rewrite app_nth2 by exact C. destruct (Z4 (q - length ys)%nat) as (m & M1 & M2 & M3); [lia|].
          replace (j0 + length ys + (q - length ys))%nat with (j0 + q)%nat in * by lia. exists m. split; [lia|]. split; assumption.
        * rewrite app_nth1 by exact C. destruct (H5 q C) as [Q1 Q2]. exists ii. split; [lia|].
          rewrite plus_INR, S_INR. assert (0 <= INR q * v) by (apply Rmult_le_pos; [apply pos_INR|lra]).
          destruct Hi as [Hi|Hi]; [|lia]. split; [split; lra|]. rewrite Q2. f_equal. lra.
  Qed.
End Loop.

(** The padded signal of the higher orders. *)
Definition xpad (x : list R) : list R :=
  (2 * nth 0 x 0 - nth 1 x 0) :: x ++ [2 * nth (length x - 1) x 0 - nth (length x - 2) x 0; 3 * nth (length x - 1) x 0 - 2 * nth (length x - 2) x 0].
Definition window (x : list R) (m : nat) : list R := firstn 4 (skipn m (xpad x)).

Lemma prate_higher fit r k x : 0 < r -> (k > 1)%Z -> (2 <= length x)%nat ->
  exists y, prateR fit (mkP r k) x = Ok y /\ Z.of_nat (length y) = rheR (INR (length x) * r) /\
    forall j, (j < length y)%nat -> exists m, (m < length x)%nat /\ INR m <= INR j / r < INR (S m) /\
      nth j y 0 = pval (fit grid (window x m) k) (INR j / r - INR m).
Proof.
  intros Hr Hk Hl. unfold prateR, prate_filter. change (@length (carrier RO) x) with (length x). cbn [qrate qorder mkP].
  destruct (Nat.ltb_spec (length x) 2); [lia|]. destruct (Z.eqb_spec k 1); [lia|]. rewrite of_nat_R.
  change (mul (INR (length x)) r) with (INR (length x) * r).
  pose proof (rheR_nonneg (INR (length x) * r)) as HN. assert (0 <= INR (length x) * r) by (apply Rmult_le_pos; [apply pos_INR|lra]).
  specialize (HN H0). destruct (Z.ltb_spec (rheR (INR (length x) * r)) 0); [lia|].
  change (@eqb RO r zero) with (Reqb r 0). destruct (Reqb r 0) eqn:E; [apply Reqb_iff in E; lra|].
  match goal with |- context [@prate_outer RO fit ?u k ?c ?X ?n ?v ?i] =>
    change (@prate_outer RO fit u k c X n v i) with (outerR fit u k c X n v i);
    assert (EX : X = xpad x); [|assert (Eu : u = grid); [|assert (Ev : v = 1 / r) by reflexivity; assert (Ei : i = 0) by reflexivity]] end.
  { unfold xpad, last1, last2. rewrite !(of_Z_IZR : forall z, @of_Z RO z = IZR z). reflexivity. }
  { unfold grid. rewrite !(of_Z_IZR : forall z, @of_Z RO z = IZR z). reflexivity. }
  rewrite EX, Eu, Ev, Ei. clear EX Eu Ev Ei.
  assert (Hv : 0 < 1 / r) by (apply Rdiv_lt_0_compat; lra).
  destruct (outer_spec fit grid k (1 / r) (xpad x) Hv (length x) 0 (Z.to_nat (rheR (INR (length x) * r))) 0 0) as (ys & Y1 & Y2 & Y3 & Y4).
  { left; lra. } { cbn [INR]. ring. }
  cbn [skipn] in Y1. rewrite Y1. exists ys. split; [reflexivity|]. cbn [Nat.add] in *.
  assert (HL : (length ys = Z.to_nat (rheR (INR (length x) * r)))%nat).
  { destruct (Nat.eq_dec (length ys) (Z.to_nat (rheR (INR (length x) * r)))) as [C|C]; [exact C|exfalso].
    assert (Hlt : (length ys < Z.to_nat (rheR (INR (length x) * r)))%nat) by lia. specialize (Y3 Hlt).
    assert (Hb : IZR (Z.of_nat (length ys)) < INR (length x) * r) by (apply below_rheR; lia). rewrite <- INR_IZR_INZ in Hb.
    apply Rmult_le_compat_r with (r := r) in Y3; [|lra]. replace (INR (length ys) * (1 / r) * r) with (INR (length ys)) in Y3 by (field; lra). lra. }
  split; [rewrite HL; lia|]. intros j Hj. destruct (Y4 j Hj) as (m & M1 & M2 & M3). exists m. split; [lia|].
  replace (INR j / r) with (INR j * (1 / r)) by (unfold Rdiv; ring). split; [exact M2|exact M3].
Qed.

(** ** Order one *)
Definition interpR : list (R * R) -> R -> R := @np_interp RO.
Lemma interp_from_grid : forall (f : list R) (a : nat) (y0 : R) (v : R), INR a <= v ->
  v < INR (a + length f) ->
  @interp_from RO (INR a) y0 (combine (map INR (seq (S a) (length f))) f) v =
  (let k := Z.to_nat (Int_part v) in
   nth (k - a) (y0 :: f) 0 + (v - INR k) * (nth (S k - a) (y0 :: f) 0 - nth (k - a) (y0 :: f) 0)).
Proof.
  induction f as [|y1 f IH]; intros a y0 v H1 H2; [rewrite Nat.add_0_r in H2; lra|].
  cbn [length seq map combine interp_from]. change (@oltb RO) with Rltb. destruct (Rltb v (INR (S a))) eqn:E.
  - apply Rltb_iff in E. rewrite S_INR in E. assert (Ek : Z.to_nat (Int_part v) = a).
    { rewrite (Int_part_unique v (Z.of_nat a)); [apply Nat2Z.id|]. rewrite <- INR_IZR_INZ. lra. }
    cbv zeta. rewrite Ek. replace (a - a)%nat with 0%nat by lia. replace (S a - a)%nat with 1%nat by lia. cbn [nth].
    change (@add RO) with Rplus. change (@mul RO) with Rmult. change (@sub RO) with Rminus. change (@div RO) with Rdiv.
    rewrite S_INR. match goal with |- @eq _ ?a ?b => change (@eq R a b) end. field. lra.
  - assert (Hge : INR (S a) <= v). { destruct (Rle_dec (INR (S a)) v) as [C|C]; [exact C|]. assert (Rltb v (INR (S a)) = true) by (apply Rltb_iff; lra). congruence. }
    etransitivity; [apply (IH (S a) y1 v Hge)|]. { replace (S a + length f)%nat with (a + length (y1 :: f))%nat by (cbn [length]; lia). exact H2. }
    cbv zeta. set (k := Z.to_nat (Int_part v)).
    assert (Hk : (S a <= k)%nat).
    { unfold k. pose proof (Int_part_bounds v) as Bd. assert (IZR (Z.of_nat (S a)) < IZR (Int_part v + 1)) by (rewrite plus_IZR, <- INR_IZR_INZ; lra).
      apply lt_IZR in H. lia. }
    replace (k - a)%nat with (S (k - S a)) by lia. replace (S k - a)%nat with (S (S k - S a)) by lia. reflexivity.
Qed.

(** The signal extended linearly by one sample. *)
Definition xext (x : list R) : list R := x ++ [2 * nth (length x - 1) x 0 - nth (length x - 2) x 0].

Lemma truncZ_pos x : 0 <= x -> truncZ x = Int_part x.
Proof. intros H. unfold truncZ. replace (Rleb 0 x) with true by (symmetry; apply Rleb_iff, H). reflexivity. Qed.

Lemma Int_part_ge x z : IZR z <= x -> (z <= Int_part x)%Z.
Proof.
  intros H. pose proof (Int_part_bounds x). assert (IZR z < IZR (Int_part x + 1)) by (rewrite plus_IZR; lra). apply lt_IZR in H1. lia.
Qed.

Lemma prate_one fit r x : 0 < r -> (2 <= length x)%nat ->
  exists y, prateR fit (mkP r 1) x = Ok y /\ Z.of_nat (length y) = rheR (INR (length x) * r) /\
    forall j, (j < length y)%nat ->
      let t := INR j / r in let k := Z.to_nat (Int_part t) in
      (k < length x)%nat /\ INR k <= t < INR (S k) /\
      nth j y 0 = nth k (xext x) 0 + (t - INR k) * (nth (S k) (xext x) 0 - nth k (xext x) 0).
Proof.
  intros Hr Hl. unfold prateR, prate_filter. change (@length (carrier RO) x) with (length x). cbn [qrate qorder mkP].
  destruct (Nat.ltb_spec (length x) 2); [lia|]. cbn [Z.eqb Pos.eqb].
  match goal with |- context [(?x ++ [?e])] => assert (EX : x ++ [e] = xext x) end.
  { unfold xext, last1, last2. rewrite !(of_Z_IZR : forall z, @of_Z RO z = IZR z). reflexivity. }
  change (@app (carrier RO)) with (@app R). rewrite EX. clear EX.
  assert (HL : length (xext x) = S (length x)) by (unfold xext; rewrite app_length; cbn; lia).
  change (@length (carrier RO) (xext x)) with (length (xext x)). rewrite HL. rewrite !of_nat_R.
  rewrite (of_Z_IZR 2 : @of_Z RO 2 = 2).
  change (add (mul (INR (S (length x))) r) (div one 2)) with (INR (S (length x)) * r + 1 / 2).
  change (mul (INR (length x)) r) with (INR (length x) * r).
  assert (Hp : 0 <= INR (length x) * r) by (apply Rmult_le_pos; [apply pos_INR|lra]).
  pose proof (rheR_nonneg _ Hp) as HN. set (N := rheR (INR (length x) * r)) in *.
  assert (Hn : (N <= truncZ (INR (S (length x)) * r + 1 / 2))%Z).
  { rewrite S_INR, truncZ_pos by lra. apply Int_part_ge. unfold N. destruct (rheR_spec (INR (length x) * r)) as [A _].
    pose proof (Rle_abs (IZR (rheR (INR (length x) * r)) - INR (length x) * r)). lra. }
  set (n := truncZ (INR (S (length x)) * r + 1 / 2)) in *. destruct (Z.ltb_spec n 0); [lia|].
  eexists. split; [reflexivity|]. rewrite !map_length, seq_length.
  assert (Hmin : Z.to_nat (Z.min N (Z.of_nat (Z.to_nat n))) = Z.to_nat N) by lia. rewrite Hmin.
  assert (Hlen : length (firstn (Z.to_nat N) (map (interpR (combine (map INR (seq 0 (S (length x)))) (xext x)))
     (map (fun j => INR j / r) (seq 0 (Z.to_nat n))))) = Z.to_nat N).
  { rewrite firstn_length, !map_length, seq_length. lia. }
  assert (EE : firstn (Z.to_nat N) (map (@np_interp RO (combine (map (@of_nat RO) (seq 0 (S (length x)))) (xext x)))
     (map (fun j : nat => div (of_nat j) r) (seq 0 (Z.to_nat n)))) =
     firstn (Z.to_nat N) (map (interpR (combine (map INR (seq 0 (S (length x)))) (xext x)))
     (map (fun j => INR j / r) (seq 0 (Z.to_nat n))))).
  { f_equal. replace (map (@of_nat RO) (seq 0 (S (length x)))) with (map INR (seq 0 (S (length x)))) by (apply map_ext; intros; symmetry; apply of_nat_R).
    replace (map (fun j : nat => @div RO (of_nat j) r) (seq 0 (Z.to_nat n))) with (map (fun j => INR j / r) (seq 0 (Z.to_nat n))); [reflexivity|].
    apply map_ext. intros a. rewrite of_nat_R. reflexivity. }
  change (@nth R) with (@nth (carrier RO)). change (@length R) with (@length (carrier RO)).
  match goal with |- Z.of_nat (length ?l) = _ /\ _ => replace l with (firstn (Z.to_nat N) (map (interpR (combine (map INR (seq 0 (S (length x)))) (xext x)))
     (map (fun j => INR j / r) (seq 0 (Z.to_nat n))))) by (symmetry; exact EE) end.
  change (@length (carrier RO)) with (@length R). rewrite Hlen. split; [lia|]. intros j Hj.
  set (t := INR j / r). set (k := Z.to_nat (Int_part t)).
  assert (Ht : 0 <= t) by (unfold t; apply Rmult_le_pos; [apply pos_INR|left; apply Rinv_0_lt_compat, Hr]).
  assert (Htl : t < INR (length x)).
  { unfold t. apply Rmult_lt_reg_r with r; [exact Hr|]. unfold Rdiv. rewrite Rmult_assoc, Rinv_l, Rmult_1_r by lra.
    rewrite INR_IZR_INZ. apply below_rheR. fold N. lia. }
  pose proof (Int_part_bounds t) as Bt. assert (Hip : (0 <= Int_part t)%Z) by (apply Int_part_ge; exact Ht).
  assert (Hkt : INR k = IZR (Int_part t)) by (unfold k; rewrite INR_IZR_INZ, Z2Nat.id by exact Hip; reflexivity).
  split; [apply INR_lt; lra|]. split; [rewrite S_INR; lra|].
  change (@nth (carrier RO)) with (@nth R). rewrite nth_firstn by exact Hj. rewrite map_map.
  rewrite (nth_map_seq (fun j => interpR (combine (map INR (seq 0 (S (length x)))) (xext x)) (INR j / r))) by lia. fold t.
  destruct (xext x) as [|y0 f] eqn:Ex; [cbn in HL; lia|]. cbn [length] in HL. cbn [seq map combine]. unfold interpR. cbn [np_interp].
  change (@oltb RO) with Rltb. change (INR 0) with 0. destruct (Rltb t 0) eqn:Et; [apply Rltb_iff in Et; lra|].
  replace (length x) with (length f) by lia.
  etransitivity; [apply (interp_from_grid f 0 y0 t)|].
  - cbn [INR]. exact Ht.
  - cbn [Nat.add]. replace (length f) with (length x) by lia. exact Htl.
  - cbv zeta. fold k. rewrite !Nat.sub_0_r. reflexivity.
Qed.

(** C53. *)
Theorem C53_polynomial_length (fit : list R -> list R -> Z -> list R) (r : R) (k : Z) (f : prate RO) (x : list R) :
  prmake r k = Ok f -> 0 < r -> (2 <= length x)%nat ->
  exists y, prateR fit f x = Ok y /\ Z.of_nat (length y) = rheR (INR (length x) * r).
Proof.
  unfold prmake, prate_make. intros E Hr Hl. change (@oltb RO r zero) with (Rltb r 0) in E.
  destruct (Rltb r 0) eqn:E1; [discriminate|]. destruct (Z.leb_spec k 0); [discriminate|]. injection E as E. subst f.
  change (@mkPrate RO r k) with (mkP r k). destruct (Z.eq_dec k 1) as [C|C].
  - subst k. destruct (prate_one fit r x Hr Hl) as (y & Y1 & Y2 & _). exists y. split; assumption.
  - destruct (prate_higher fit r k x Hr ltac:(lia) Hl) as (y & Y1 & Y2 & _). exists y. split; assumption.
Qed.
Print Assumptions C53_polynomial_length.
Example C53_example : (exists f, prmake (5 / 4) 3 = Ok f) /\ rheR (INR 2 * (5 / 4)) = 2%Z.
Proof.
  split.
  - unfold prmake, prate_make. change (@oltb RO (5 / 4) zero) with (Rltb (5 / 4) 0). destruct (Rltb (5 / 4) 0) eqn:E; [apply Rltb_iff in E; lra|].
    eexists. reflexivity.
  - apply rheR_unique; cbn [INR]; [rewrite Rabs_left by lra; lra|reflexivity].
Qed.

(** C54. *)
Theorem C54_polynomial_linear (fit : list R -> list R -> Z -> list R) (r : R) (x : list R) :
  0 < r -> (2 <= length x)%nat ->
  exists y, prateR fit (mkP r 1) x = Ok y /\
    forall j, (j < length y)%nat ->
      let t := INR j / r in let k := Z.to_nat (Int_part t) in
      (k < length x)%nat /\ INR k <= t < INR (S k) /\
      nth j y 0 = nth k (xext x) 0 + (t - INR k) * (nth (S k) (xext x) 0 - nth k (xext x) 0).
Proof.
  intros Hr Hl. destruct (prate_one fit r x Hr Hl) as (y & Y1 & _ & Y3). exists y. split; assumption.
Qed.
Print Assumptions C54_polynomial_linear.
Example C54_example : xext [1; 4; 9] = [1; 4; 9; 14].
Proof. unfold xext. cbn. f_equal. f_equal. f_equal. f_equal. lra. Qed.

(** ** Windows *)
Lemma nth_xpad x n : (2 <= length x)%nat -> (n < length x + 3)%nat ->
  nth n (xpad x) 0 =
  if Nat.eqb n 0 then 2 * nth 0 x 0 - nth 1 x 0
  else if Nat.leb n (length x) then nth (n - 1) x 0
  else if Nat.eqb n (S (length x)) then 2 * nth (length x - 1) x 0 - nth (length x - 2) x 0
  else 3 * nth (length x - 1) x 0 - 2 * nth (length x - 2) x 0.
Proof.
  intros Hl Hn. unfold xpad. destruct n as [|n]; [reflexivity|]. cbn [nth Nat.eqb].
  destruct (Nat.leb_spec (S n) (length x)).
  - rewrite app_nth1 by lia. f_equal. lia.
  - rewrite app_nth2 by lia. destruct (Nat.eqb_spec n (length x)).
    + subst n. rewrite Nat.sub_diag. reflexivity.
    + replace (n - length x)%nat with 1%nat by lia. reflexivity.
Qed.

Lemma window_eq x m : (2 <= length x)%nat -> (m < length x)%nat ->
  window x m = [nth m (xpad x) 0; nth (m + 1) (xpad x) 0; nth (m + 2) (xpad x) 0; nth (m + 3) (xpad x) 0].
Proof.
  intros Hl Hm. unfold window. assert (HL : length (xpad x) = (length x + 3)%nat) by (unfold xpad; cbn [length]; rewrite app_length; cbn; lia).
  apply (nth_ext _ _ 0 0).
  - rewrite firstn_length, skipn_length, HL. cbn [length]. lia.
  - intros n Hn. rewrite firstn_length, skipn_length, HL in Hn. rewrite nth_firstn by lia. rewrite nth_skipn_add.
    destruct n as [|[|[|[|n]]]]; [rewrite Nat.add_0_r| | | |lia]; reflexivity.
Qed.

Lemma sq_err_nonneg c : forall us xs, 0 <= sq_err c us xs.
Proof.
  induction us as [|u us IH]; intros [|x xs]; cbn [sq_err]; try lra. pose proof (pow2_ge_0 (pval c u - x)). specialize (IH xs). lra.
Qed.

(** If some polynomial of the right degree passes through the data, so does the fit. *)
Lemma fit_exact fit k xs c : is_lsq fit k -> (0 <= k)%Z -> length c = S (Z.to_nat k) -> length xs = 4%nat ->
  (forall i, (i < 4)%nat -> pval c (nth i grid 0) = nth i xs 0) ->
  length (fit grid xs k) = S (Z.to_nat k) /\ forall i, (i < 4)%nat -> pval (fit grid xs k) (nth i grid 0) = nth i xs 0.
Proof.
  intros Hf Hk Hc Hl Hx. destruct (Hf xs Hl) as [H1 H2]. split; [exact H1|].
  specialize (H2 c Hc). set (b := fit grid xs k) in *.
  destruct xs as [|x0 [|x1 [|x2 [|x3 [|]]]]]; try discriminate Hl.
  pose proof (Hx 0%nat ltac:(lia)) as E0. pose proof (Hx 1%nat ltac:(lia)) as E1.
  pose proof (Hx 2%nat ltac:(lia)) as E2. pose proof (Hx 3%nat ltac:(lia)) as E3.
  unfold grid in *. cbn [sq_err nth] in *. rewrite E0, E1, E2, E3 in H2.
  assert (Z : forall a : R, (a - a) ^ 2 = 0) by (intros; ring). rewrite !Z in H2.
  pose proof (pow2_ge_0 (pval b (-1) - x0)). pose proof (pow2_ge_0 (pval b 0 - x1)).
  pose proof (pow2_ge_0 (pval b 1 - x2)). pose proof (pow2_ge_0 (pval b 2 - x3)).
  assert (Sq : forall a : R, a ^ 2 = 0 -> a = 0). { intros a Ha. destruct (Req_dec a 0) as [C|C]; [exact C|]. exfalso. apply (pow_nonzero a 2); assumption. }
  intros i Hi. destruct i as [|[|[|[|i]]]]; [| | | |lia]; cbn [nth]; apply Rminus_diag_uniq, Sq; lra.
Qed.

Lemma pval_zeros m b t : pval (repeat 0 m ++ b) t = pval b t.
Proof. induction m as [|m IH]; [reflexivity|]. cbn [repeat app pval]. rewrite IH. ring. Qed.

(** A polynomial of degree at most three is determined by its values at -1, 0, 1, 2. *)
Lemma pval4 a b c d t : pval [a; b; c; d] t = a * (t * t * t) + b * (t * t) + c * t + d.
Proof. cbn. ring. Qed.
Lemma cubic_determined l a b c d : (length l = 3 \/ length l = 4)%nat ->
  (forall i, (i < 4)%nat -> pval l (nth i grid 0) = pval [a; b; c; d] (nth i grid 0)) ->
  forall t, pval l t = pval [a; b; c; d] t.
Proof.
  intros Hl H t. rewrite pval4.
  pose proof (H 0%nat ltac:(lia)) as E0. pose proof (H 1%nat ltac:(lia)) as E1.
  pose proof (H 2%nat ltac:(lia)) as E2. pose proof (H 3%nat ltac:(lia)) as E3. unfold grid in *. cbn [nth] in *.
  rewrite pval4 in *.
  destruct Hl as [Hl|Hl].
  - destruct l as [|q [|r [|s [|]]]]; try discriminate Hl. cbn in E0, E1, E2, E3. cbn.
    assert (a = 0) by lra. assert (q = b) by lra. assert (r = c) by lra. assert (s = d) by lra. subst. ring.
  - destruct l as [|p [|q [|r [|s [|]]]]]; try discriminate Hl. cbn in E0, E1, E2, E3. cbn.
    assert (p = a) by lra. assert (q = b) by lra. assert (r = c) by lra. assert (s = d) by lra. subst. ring.
Qed.

(** C55. *)
Theorem C55_polynomial_affine (fit : list R -> list R -> Z -> list R) (r al be : R) (k : Z) (L : nat) :
  is_lsq fit k -> 0 < r -> (1 <= k <= 3)%Z -> (2 <= L)%nat ->
  exists y, prateR fit (mkP r k) (map (fun n => al + be * INR n) (seq 0 L)) = Ok y /\
    Z.of_nat (length y) = rheR (INR L * r) /\
    forall j, (j < length y)%nat -> nth j y 0 = al + be * (INR j / r).
Proof.
  intros Hf Hr Hk HL. set (x := map (fun n => al + be * INR n) (seq 0 L)).
  assert (Hlx : length x = L) by (unfold x; rewrite map_length, seq_length; reflexivity).
  assert (Hnx : forall n, (n < L)%nat -> nth n x 0 = al + be * INR n) by (intros n Hn; unfold x; apply (nth_map_seq (fun n => al + be * INR n)); exact Hn).
  destruct (Z.eq_dec k 1) as [C|C].
  - subst k. destruct (prate_one fit r x Hr ltac:(lia)) as (y & Y1 & Y2 & Y3). cbv zeta in Y3. exists y. split; [exact Y1|].
    split; [rewrite <- Hlx; exact Y2|]. intros j Hj. destruct (Y3 j Hj) as (K1 & K2 & K3). rewrite K3.
    set (t := INR j / r) in *. set (m := Z.to_nat (Int_part t)) in *.
    assert (Hext : forall n, (n <= L)%nat -> nth n (xext x) 0 = al + be * INR n).
    { intros n Hn. unfold xext. destruct (Nat.eq_dec n L) as [D|D].
      - rewrite app_nth2 by lia. subst n. rewrite Hlx, Nat.sub_diag. cbn [nth]. rewrite !Hnx by lia. rewrite !minus_INR by lia. cbn [INR]. ring.
      - rewrite app_nth1 by lia. apply Hnx. lia. }
    rewrite !Hext by lia. rewrite S_INR. ring.
  - destruct (prate_higher fit r k x Hr ltac:(lia) ltac:(lia)) as (y & Y1 & Y2 & Y3). exists y. split; [exact Y1|].
    split; [rewrite <- Hlx; exact Y2|]. intros j Hj. destruct (Y3 j Hj) as (m & K1 & K2 & K3). rewrite K3.
    set (t := INR j / r) in *.
    assert (Hpad : forall n, (n < L + 3)%nat -> nth n (xpad x) 0 = al + be * (INR n - 1)).
    { intros n Hn. rewrite nth_xpad by lia. rewrite Hlx. destruct (Nat.eqb_spec n 0); [subst n; rewrite !Hnx by lia; cbn [INR]; ring|].
      destruct (Nat.leb_spec n L); [rewrite Hnx, minus_INR by lia; cbn [INR]; ring|].
      destruct (Nat.eqb_spec n (S L)).
      - subst n. rewrite !Hnx by lia. rewrite !minus_INR, (S_INR L) by lia. cbn [INR]. ring.
      - replace n with (L + 2)%nat by lia. rewrite !Hnx by lia. rewrite !minus_INR, plus_INR by lia. cbn [INR]. ring. }
    assert (Hwin : forall i, (i < 4)%nat -> nth i (window x m) 0 = al + be * (INR m + nth i grid 0)).
    { intros i Hi. rewrite window_eq by lia. rewrite !Hpad by lia. unfold grid.
      destruct i as [|[|[|[|i]]]]; [| | | |lia]; cbn [nth]; rewrite ?plus_INR; cbn [INR]; ring. }
    assert (Hcand : forall l, (l = [0; be; al + be * INR m] \/ l = [0; 0; be; al + be * INR m]) -> forall i, (i < 4)%nat -> pval l (nth i grid 0) = nth i (window x m) 0).
    { intros l Hl i Hi. rewrite Hwin by exact Hi. destruct Hl; subst l; cbn [pval length pow]; ring. }
    assert (Hw4 : length (window x m) = 4%nat) by (rewrite window_eq by lia; reflexivity).
    assert (HE : (length (fit grid (window x m) k) = 3 \/ length (fit grid (window x m) k) = 4)%nat /\
                 forall i, (i < 4)%nat -> pval (fit grid (window x m) k) (nth i grid 0) = nth i (window x m) 0).
    { destruct (Z.eq_dec k 2) as [D|D].
      - subst k. destruct (fit_exact fit 2 (window x m) [0; be; al + be * INR m] Hf ltac:(lia) eq_refl Hw4) as [F1 F2]; [apply Hcand; auto|].
        split; [left; exact F1|exact F2].
      - assert (k = 3%Z) by lia. subst k. destruct (fit_exact fit 3 (window x m) [0; 0; be; al + be * INR m] Hf ltac:(lia) eq_refl Hw4) as [F1 F2]; [apply Hcand; auto|].
        split; [right; exact F1|exact F2]. }
    destruct HE as [HE1 HE2]. rewrite (cubic_determined _ 0 0 be (al + be * INR m) HE1).
    + rewrite pval4. ring.
    + intros i Hi. rewrite HE2 by exact Hi. symmetry. apply Hcand; auto.
Qed.
Print Assumptions C55_polynomial_affine.

(** A least-squares fit exists as a function (so the contract is not vacuous): for the four
    grid points and order 3, the interpolating cubic. *)
Definition cubic_fit (x0 x1 x2 x3 : R) : list R :=
  [(x3 - 3 * x2 + 3 * x1 - x0) / 6; (x0 - 2 * x1 + x2) / 2; (6 * x2 - 3 * x1 - 2 * x0 - x3) / 6; x1].
Lemma cubic_fit_ok x0 x1 x2 x3 i : (i < 4)%nat -> pval (cubic_fit x0 x1 x2 x3) (nth i grid 0) = nth i [x0; x1; x2; x3] 0.
Proof. intros Hi. unfold cubic_fit, grid. destruct i as [|[|[|[|i]]]]; [| | | |lia]; cbn [nth]; rewrite pval4; field. Qed.
Example C55_example : sq_err (cubic_fit 1 4 9 16) grid [1; 4; 9; 16] = 0 /\ pval (cubic_fit 1 4 9 16) (1 / 2) = 25 / 4.
Proof. split; unfold cubic_fit, grid; [cbn; field|rewrite pval4; field]. Qed.

(** Orders above three do not reproduce straight lines: with the minimum-norm solution (in the
    column scaling of numpy.polyfit) order 4 misses the midpoint of 0, 1. *)
Fixpoint wnorm (c us : list R) : R :=
  match c with [] => 0 | a :: c' => a ^ 2 * fold_left (fun s u => s + (u ^ length c') ^ 2) us 0 + wnorm c' us end.
Definition is_minnorm (fit : list R -> list R -> Z -> list R) (k : Z) : Prop :=
  is_lsq fit k /\ forall xs c, length xs = 4%nat -> length c = S (Z.to_nat k) ->
    sq_err c grid xs <= sq_err (fit grid xs k) grid xs -> wnorm (fit grid xs k) grid <= wnorm c grid.

Theorem C55_polynomial_order4_refuted (fit : list R -> list R -> Z -> list R) : is_minnorm fit 4 ->
  exists y, prateR fit (mkP 2 4) [0; 1] = Ok y /\ length y = 4%nat /\ nth 1 y 0 <> 1 / 2.
Proof.
  intros [Hf Hm]. destruct (prate_higher fit 2 4 [0; 1]) as (y & Y1 & Y2 & Y3); [lra|lia|cbn; lia|].
  exists y. split; [exact Y1|]. assert (HN : rheR (INR (length [0; 1]) * 2) = 4%Z).
  { cbn [length INR]. replace ((1 + 1) * 2) with (IZR 4) by lra. apply rheR_IZR. }
  rewrite HN in Y2. assert (Hly : length y = 4%nat) by lia. split; [exact Hly|].
  destruct (Y3 1%nat ltac:(lia)) as (m & K1 & K2 & K3). cbn [INR] in K2.
  assert (m = 0%nat). { destruct m as [|m]; [reflexivity|]. rewrite S_INR in K2. pose proof (pos_INR m). lra. } subst m. rewrite K3. clear K3 K2 K1 Y3.
  assert (HW : window [0; 1] 0 = [-1; 0; 1; 2]).
  { rewrite window_eq by (cbn; lia). unfold xpad. cbn. repeat f_equal; lra. }
  rewrite HW. destruct (fit_exact fit 4 [-1; 0; 1; 2] [0; 0; 0; 1; 0] Hf ltac:(lia) eq_refl eq_refl) as [F1 F2].
  { intros i Hi. unfold grid. destruct i as [|[|[|[|i]]]]; [| | | |lia]; cbn; ring. }
  set (b := fit grid [-1; 0; 1; 2] 4%Z) in *.
  specialize (Hm [-1; 0; 1; 2] [- (1 / 50); 1 / 25; 1 / 50; 1 - 1 / 25; 0] eq_refl eq_refl). fold b in Hm.
  pose proof (F2 0%nat ltac:(lia)) as E0. pose proof (F2 1%nat ltac:(lia)) as E1.
  pose proof (F2 2%nat ltac:(lia)) as E2. pose proof (F2 3%nat ltac:(lia)) as E3. clear F2.
  destruct b as [|p [|q [|r [|s [|t [|]]]]]]; try discriminate F1. unfold grid in *. cbn [nth] in *.
  assert (Hm' : wnorm [p; q; r; s; t] [-1; 0; 1; 2] <= wnorm [- (1 / 50); 1 / 25; 1 / 50; 1 - 1 / 25; 0] [-1; 0; 1; 2]).
  { apply Hm. cbn [sq_err]. rewrite E0, E1, E2, E3. cbn. lra. }
  clear Hm. cbn in E0, E1, E2, E3, Hm'. cbn [INR]. cbn.
  assert (Ht : t = 0) by lra. assert (Hq : q = - 2 * p) by lra. assert (Hr : r = - p) by lra. assert (Hs : s = 1 + 2 * p) by lra. subst t q r s.
  intros C. assert (Hp : p = 0) by lra. subst p. lra.
Qed.
Print Assumptions C55_polynomial_order4_refuted.

(** The contracts can be met at every order used: explicit least-squares fits. *)
Definition quad_fit (x0 x1 x2 x3 : R) : list R :=
  let c0 := (x0 + x1 + x2 + x3) / 4 in let c1 := (3 * x3 + x2 - x1 - 3 * x0) / 10 in
  let c2 := (x0 - x1 - x2 + x3) / 4 in [c2; c1 - c2; c0 - c1 / 2 - c2].
Definition quartic_fit (x0 x1 x2 x3 : R) : list R :=
  match cubic_fit x0 x1 x2 x3 with
  | [a; b; c; d] => let l := (2 * 66 * a + 18 * b - 2 * 6 * c) / 564 in [l; a - 2 * l; b - l; c + 2 * l; d]
  | _ => []
  end.
Definition some_fit (us xs : list R) (k : Z) : list R :=
  match xs with
  | [x0; x1; x2; x3] =>
      if Z.eqb k 2 then quad_fit x0 x1 x2 x3 else if Z.eqb k 3 then cubic_fit x0 x1 x2 x3 else quartic_fit x0 x1 x2 x3
  | _ => []
  end.
Lemma len4 (xs : list R) : length xs = 4%nat -> exists a b c d, xs = [a; b; c; d].
Proof. intros H. destruct xs as [|a [|b [|c [|d [|]]]]]; try discriminate H. exists a, b, c, d. reflexivity. Qed.
Example some_fit_lsq : is_lsq some_fit 2 /\ is_lsq some_fit 3 /\ is_minnorm some_fit 4.
Proof.
  assert (L4 : is_lsq some_fit 4).
  { intros xs H. destruct (len4 xs H) as (x0 & x1 & x2 & x3 & ->). split; [reflexivity|]. intros c _.
    pose proof (sq_err_nonneg c grid [x0; x1; x2; x3]).
    replace (sq_err (some_fit grid [x0; x1; x2; x3] 4) grid [x0; x1; x2; x3]) with 0; [assumption|]. cbn. field. }
  split; [|split; [|split; [exact L4|]]].
  - intros xs H. destruct (len4 xs H) as (x0 & x1 & x2 & x3 & ->). split; [reflexivity|]. intros c Hc.
    destruct c as [|p [|q [|r [|]]]]; try discriminate Hc. cbn [some_fit Z.eqb Pos.eqb]. set (f := quad_fit x0 x1 x2 x3).
    assert (E : sq_err [p; q; r] grid [x0; x1; x2; x3] = sq_err f grid [x0; x1; x2; x3] + sq_err [p; q; r] grid (map (pval f) grid)).
    { unfold f. cbn. field. }
    rewrite E. pose proof (sq_err_nonneg [p; q; r] grid (map (pval f) grid)). lra.
  - intros xs H. destruct (len4 xs H) as (x0 & x1 & x2 & x3 & ->). split; [reflexivity|]. intros c _.
    pose proof (sq_err_nonneg c grid [x0; x1; x2; x3]).
    replace (sq_err (some_fit grid [x0; x1; x2; x3] 3) grid [x0; x1; x2; x3]) with 0; [assumption|]. cbn. field.
  - intros xs c H Hc. destruct (len4 xs H) as (x0 & x1 & x2 & x3 & ->).
    replace (sq_err (some_fit grid [x0; x1; x2; x3] 4) grid [x0; x1; x2; x3]) with 0 by (cbn; field). intros Hle.
    destruct c as [|p [|q [|r [|s [|t [|]]]]]]; try discriminate Hc.
    assert (Sq : forall a : R, a ^ 2 <= 0 -> a = 0). { intros a Ha. pose proof (pow2_ge_0 a). destruct (Req_dec a 0) as [C|C]; [exact C|]. exfalso. apply (pow_nonzero a 2); [exact C|lra]. }
    set (b := [p; q; r; s; t]) in *. unfold grid in Hle. cbn [sq_err] in Hle.
    pose proof (pow2_ge_0 (pval b (-1) - x0)). pose proof (pow2_ge_0 (pval b 0 - x1)).
    pose proof (pow2_ge_0 (pval b 1 - x2)). pose proof (pow2_ge_0 (pval b 2 - x3)).
    assert (E0 : pval b (-1) - x0 = 0) by (apply Sq; lra). assert (E1 : pval b 0 - x1 = 0) by (apply Sq; lra).
    assert (E2 : pval b 1 - x2 = 0) by (apply Sq; lra). assert (E3 : pval b 2 - x3 = 0) by (apply Sq; lra).
    unfold b in *. cbn in E0, E1, E2, E3. clear - E0 E1 E2 E3.
    assert (x0 = p - q + r - s + t) by lra. assert (x1 = t) by lra. assert (x2 = p + q + r + s + t) by lra.
    assert (x3 = 16 * p + 8 * q + 4 * r + 2 * s + t) by lra. subst x0 x1 x2 x3. clear.
    set (x0 := p - q + r - s + t). set (x2 := p + q + r + s + t). set (x3 := 16 * p + 8 * q + 4 * r + 2 * s + t).
    assert (K : wnorm [p; q; r; s; t] grid = wnorm (some_fit grid [x0; t; x2; x3] 4) grid + 564 * (p - hd 0 (quartic_fit x0 t x2 x3)) ^ 2).
    { unfold x0, x2, x3. cbn. field. }
    rewrite K. pose proof (pow2_ge_0 (p - hd 0 (quartic_fit x0 t x2 x3))). lra.
Qed.

(** C56. *)
Theorem C56_polynomial_interpolates (fit : list R -> list R -> Z -> list R) (r : R) (k : Z) (x y : list R) :
  is_lsq fit k -> 0 < r -> (3 <= k)%Z -> (2 <= length x)%nat -> prateR fit (mkP r k) x = Ok y ->
  forall j m, (j < length y)%nat -> INR j / r = INR m -> (m < length x)%nat /\ nth j y 0 = nth m x 0.
Proof.
  intros Hf Hr Hk Hl E j m Hj Ht. destruct (prate_higher fit r k x Hr ltac:(lia) Hl) as (y2 & Y1 & Y2 & Y3).
  rewrite E in Y1. injection Y1 as Y1. subst y2. destruct (Y3 j Hj) as (m2 & K1 & K2 & K3). rewrite Ht in *.
  assert (m2 = m). { destruct K2 as [K2 K2']. apply INR_le in K2. apply INR_lt in K2'. lia. } subst m2. split; [exact K1|]. rewrite K3.
  replace (INR m - INR m) with (nth 1 grid 0) by (unfold grid; cbn; ring).
  assert (Hw := window_eq x m Hl K1).
  destruct (fit_exact fit k (window x m) (repeat 0 (Z.to_nat k - 3) ++ cubic_fit (nth m (xpad x) 0) (nth (m + 1) (xpad x) 0) (nth (m + 2) (xpad x) 0) (nth (m + 3) (xpad x) 0)) Hf ltac:(lia)) as [_ F2].
  - rewrite app_length, repeat_length. cbn [cubic_fit length]. lia.
  - rewrite Hw. reflexivity.
  - intros i Hi. rewrite pval_zeros, Hw. apply cubic_fit_ok, Hi.
  - rewrite F2 by lia. rewrite Hw. cbn [nth]. rewrite nth_xpad by lia.
    destruct (Nat.eqb_spec (m + 1) 0); [lia|]. destruct (Nat.leb_spec (m + 1) (length x)); [|lia]. f_equal. lia.
Qed.
Print Assumptions C56_polynomial_interpolates.

Theorem C56_polynomial_cubic (fit : list R -> list R -> Z -> list R) (r a b c d : R) (L : nat) (y : list R) :
  is_lsq fit 3 -> 0 < r -> (2 <= L)%nat ->
  let p t := a * t ^ 3 + b * t ^ 2 + c * t + d in
  prateR fit (mkP r 3) (map (fun n => p (INR n)) (seq 0 L)) = Ok y ->
  forall j, (j < length y)%nat -> 1 <= INR j / r -> INR j / r < INR L - 2 -> nth j y 0 = p (INR j / r).
Proof.
  intros Hf Hr HL p E j Hj H1 H2. set (x := map (fun n => p (INR n)) (seq 0 L)) in *.
  assert (Hlx : length x = L) by (unfold x; rewrite map_length, seq_length; reflexivity).
  assert (Hnx : forall n, (n < L)%nat -> nth n x 0 = p (INR n)) by (intros n Hn; unfold x; apply (nth_map_seq (fun n => p (INR n))); exact Hn).
  destruct (prate_higher fit r 3 x Hr ltac:(lia) ltac:(lia)) as (y2 & Y1 & Y2 & Y3).
  rewrite E in Y1. injection Y1 as Y1. subst y2. destruct (Y3 j Hj) as (m & K1 & K2 & K3). rewrite K3. set (t := INR j / r) in *.
  assert (Hm1 : (1 <= m)%nat). { destruct m as [|m]; [|lia]. cbn [INR] in K2. lra. }
  assert (Hm2 : (m + 2 < L)%nat). { apply INR_lt. rewrite plus_INR. cbn [INR]. lra. }
  assert (Hpad : forall i, (i < 4)%nat -> nth (m + i) (xpad x) 0 = p (INR m + nth i grid 0)).
  { intros i Hi. rewrite nth_xpad by lia. rewrite Hlx. destruct (Nat.eqb_spec (m + i) 0); [lia|]. destruct (Nat.leb_spec (m + i) L); [|lia].
    rewrite Hnx by lia. f_equal. unfold grid. rewrite minus_INR, plus_INR by lia. destruct i as [|[|[|[|i]]]]; [| | | |lia]; cbn [nth INR]; ring. }
  assert (Hw : forall i, (i < 4)%nat -> nth i (window x m) 0 = p (INR m + nth i grid 0)).
  { intros i Hi. rewrite window_eq by lia. rewrite <- Hpad by exact Hi. destruct i as [|[|[|[|i]]]]; [rewrite Nat.add_0_r| | | |lia]; reflexivity. }
  set (co := [a; b + 3 * a * INR m; c + 2 * b * INR m + 3 * a * INR m ^ 2; p (INR m)]).
  assert (Hco : forall u, pval co u = p (INR m + u)) by (intros u; unfold co, p; rewrite pval4; ring).
  destruct (fit_exact fit 3 (window x m) co Hf ltac:(lia) eq_refl) as [F1 F2].
  - rewrite window_eq by lia. reflexivity.
  - intros i Hi. rewrite Hco, Hw by exact Hi. reflexivity.
  - unfold co in *. rewrite (cubic_determined _ a (b + 3 * a * INR m) (c + 2 * b * INR m + 3 * a * INR m ^ 2) (p (INR m)) (or_intror F1)).
    + rewrite Hco. f_equal. ring.
    + intros i Hi. rewrite F2 by exact Hi. rewrite Hco, Hw by exact Hi. reflexivity.
Qed.
Print Assumptions C56_polynomial_cubic.
Example C56_example : INR 6 / 2 = INR 3 /\ 1 <= INR 3 / 2 /\ INR 3 / 2 < INR 5 - 2.
Proof. cbn. lra. Qed.

(** C57. *)
Theorem C57_polynomial_rate_zero (O : OArith) (rnd trunc : O -> Z) (fit : list O -> list O -> Z -> list O) (k : Z) (x : list O) :
  (2 <= length x)%nat -> (1 < k)%Z -> oltb (@zero O) zero = false -> eqb (@zero O) zero = true -> (0 <= rnd (mul (of_nat (length x)) zero))%Z ->
  prate_make (@zero O) k = Ok (mkPrate zero k) /\
  prate_filter rnd trunc fit (mkPrate zero k) x = Err ZeroDivisionError.
Proof.
  intros Hl Hk Hz He Hr. split.
  - unfold prate_make. rewrite Hz. destruct (Z.leb_spec k 0); [lia|reflexivity].
  - unfold prate_filter. cbn [qrate qorder]. destruct (Nat.ltb_spec (length x) 2); [lia|]. destruct (Z.eqb_spec k 1); [lia|].
    destruct (Z.ltb_spec (rnd (mul (of_nat (length x)) zero)) 0); [lia|]. rewrite He. reflexivity.
Qed.
Print Assumptions C57_polynomial_rate_zero.
Theorem C57_polynomial_rate_zero_order1 (fit : list R -> list R -> Z -> list R) (x : list R) :
  (2 <= length x)%nat -> prmake 0 1 = Ok (mkP 0 1) /\ prateR fit (mkP 0 1) x = Ok [].
Proof.
  intros Hl. split.
  - unfold prmake, prate_make. change (@oltb RO 0 zero) with (Rltb 0 0). destruct (Rltb 0 0) eqn:E; [apply Rltb_iff in E; lra|]. reflexivity.
  - unfold prateR, prate_filter. change (@length (carrier RO) x) with (length x). cbn [qrate qorder mkP].
    destruct (Nat.ltb_spec (length x) 2); [lia|]. cbn [Z.eqb Pos.eqb].
    rewrite (of_Z_IZR 2 : @of_Z RO 2 = 2). rewrite !of_nat_R.
    match goal with |- context [add (mul (INR ?n) 0) (div one 2)] =>
      change (add (mul (INR n) 0) (div one 2)) with (INR n * 0 + 1 / 2) end. rewrite Rmult_0_r, Rplus_0_l.
    assert (E : truncZ (1 / 2) = 0%Z) by (rewrite truncZ_pos by lra; apply Int_part_unique; cbn; lra).
    rewrite E. cbn [Z.ltb Z.compare Z.to_nat seq map]. rewrite firstn_nil. reflexivity.
Qed.
Print Assumptions C57_polynomial_rate_zero_order1.
Example C57_example : oltb (@zero RO) zero = false /\ eqb (@zero RO) zero = true /\ (0 <= rheR (INR 2 * 0))%Z.
Proof.
  change (Rltb 0 0 = false /\ Reqb 0 0 = true /\ (0 <= rheR (INR 2 * 0))%Z). repeat split.
  - destruct (Rltb 0 0) eqn:E; [apply Rltb_iff in E; lra|reflexivity].
  - apply Reqb_iff. reflexivity.
  - apply rheR_nonneg. lra.
Qed.
