(** Properties C48-C52: PolyphaseRateFilter. *)
From Coq Require Import List Arith ZArith Lia Bool Reals Lra.
From Verif Require Import Base BaseLemmas Instances CalculusModel CalculusProps RankModel Rounding PolyphaseModel.
Import ListNotations.
Set Asymmetric Patterns.
Open Scope R_scope.

(** ** Termination, in any arithmetic whose comparisons are total (no NaN) *)
Lemma poly_consume_length (O : OArith) rr : forall (xs : list O) index s i2 s2 xs2,
  @poly_consume O rr xs index s = (i2, s2, Ok xs2) ->
  (length xs2 <= length xs)%nat /\ (xs <> [] -> oleb (of_nat rr) index = true -> length xs2 < length xs)%nat.
Proof.
  induction xs as [|x xs IH]; intros index s i2 s2 xs2 H; cbn [poly_consume] in H.
  - injection H as _ _ H. subst xs2. split; [lia|congruence].
  - destruct (oleb (of_nat rr) index) eqn:E.
    + destruct (np_set0 s x) as [s1|e]; [|discriminate]. apply IH in H. destruct H as [H _]. cbn [length]. split; lia.
    + injection H as _ _ H. subst xs2. split; [lia|congruence].
Qed.

Lemma poly_loop_terminates (O : OArith) (rnd : O -> Z) (B : bank O) rate :
  (forall a b : O, oltb a b = false -> oleb b a = true) ->
  forall fuel (xs : list O) ny index s, (length xs + ny <= fuel)%nat ->
  poly_loop rnd B rate fuel xs ny index s <> None.
Proof.
  intros Htot. induction fuel as [|fuel IH]; intros xs ny index s Hf H.
  - destruct xs as [|x xs]; [discriminate H|]. destruct ny as [|ny]; [discriminate H|]. cbn [length] in Hf. lia.
  - destruct xs as [|x xs]; [discriminate H|]. destruct ny as [|ny]; [discriminate H|]. cbn [poly_loop] in H.
    destruct (oltb index (of_nat (length B))) eqn:E.
    + destruct (np_set0 s x) as [s1|e]; [|discriminate]. destruct (bind _ _) as [y|e]; [|discriminate].
      destruct (poly_consume _ _ _ _) as [[i2 s2] [xs2|e]] eqn:Ec; [|discriminate].
      apply poly_consume_length in Ec. destruct Ec as [Ec _].
      destruct (poly_loop rnd B rate fuel xs2 ny i2 s2) as [[[i3 s3] [ys|e]]|] eqn:El; try discriminate.
      revert El. apply IH. lia.
    + destruct (poly_consume _ _ _ _) as [[i2 s2] [xs2|e]] eqn:Ec; [|discriminate].
      apply poly_consume_length in Ec. destruct Ec as [_ Ec]. specialize (Ec ltac:(discriminate) (Htot _ _ E)).
      revert H. apply IH. lia.
Qed.

(** ** Exact arithmetic *)
Definition consumeR : nat -> list R -> R -> list R -> R * list R * res (list R) := @poly_consume RO.
Definition loopR : list (list R) -> R -> nat -> list R -> nat -> R -> list R -> option (R * list R * res (list R)) :=
  @poly_loop RO rheR.
Definition filterR : list (list R) -> poly RO -> list R -> option (poly RO * res (list R)) := @poly_filter RO rheR.
Definition idx (f : poly RO) : R := pindex f.
Definition rate (f : poly RO) : R := prate f.
Definition st (f : poly RO) : list R := ps f.

(** A bank of rr >= 1 rows of cc >= 1 taps. *)
Definition bank_ok (cc : nat) (B : list (list R)) : Prop := B <> [] /\ (0 < cc)%nat /\ Forall (fun row => length row = cc) B.
Definition poly_ok (cc : nat) (B : list (list R)) (f : poly RO) : Prop :=
  0 <= idx f /\ 0 <= rate f <= INR (length B) /\ length (st f) = cc.

(** The i-th most recent sample when the newest is x[m]; before the signal, the state. *)
Definition recent (x s : list R) (m i : nat) : R :=
  if (i <=? m)%nat then nth (m - i) x 0 else nth (i - m) s 0.

Lemma of_nat_R n : @of_nat RO n = INR n.
Proof. unfold of_nat. etransitivity; [apply of_Z_IZR|]. symmetry. apply INR_IZR_INZ. Qed.

Lemma consumeR_cons rr x xs i s :
  consumeR rr (x :: xs) i s =
  if Rleb (INR rr) i then match s with [] => (i, s, Err IndexError) | _ :: t => consumeR rr xs (i - INR rr) (np_shift (x :: t)) end
  else (i, s, Ok (x :: xs)).
Proof.
  unfold consumeR at 1. cbn [poly_consume]. rewrite of_nat_R. change (@oleb RO) with Rleb.
  destruct (Rleb (INR rr) i); [|reflexivity]. destruct s; reflexivity.
Qed.

Definition rdot (a b : list R) : res R := @np_dot RA a b.
Lemma loopR_cons B r fuel (x : R) xs ny (p : R) s :
  loopR B r (S fuel) (x :: xs) (S ny) p s =
  if Rltb p (INR (length B)) then
    match s with
    | [] => Some (p + INR (length B) / r, s, Err IndexError)
    | _ :: t =>
        match bind (py_nth B (Z.min (rheR p) (Z.of_nat (length B) - 1))) (fun row => rdot row (x :: t)) with
        | Err e => Some (p + INR (length B) / r, x :: t, Err e)
        | Ok y =>
            match consumeR (length B) (x :: xs) (p + INR (length B) / r) (x :: t) with
            | (i2, s2, Err e) => Some (i2, s2, Err e)
            | (i2, s2, Ok xs2) =>
                match loopR B r fuel xs2 ny i2 s2 with
                | None => None
                | Some (i3, s3, Err e) => Some (i3, s3, Err e)
                | Some (i3, s3, Ok ys) => Some (i3, s3, Ok (y :: ys))
                end
            end
        end
    end
  else match consumeR (length B) (x :: xs) p s with
       | (i2, s2, Err e) => Some (i2, s2, Err e)
       | (i2, s2, Ok xs2) => loopR B r fuel xs2 (S ny) i2 s2
       end.
Proof.
  unfold loopR at 1. cbn [poly_loop]. rewrite !of_nat_R. change (@oltb RO) with Rltb.
  change (@length (list (carrier RO)) B) with (@length (list R) B).
  destruct (Rltb p (INR (length B))); [|reflexivity]. destruct s; reflexivity.
Qed.

Section Loop.
  Variable cc : nat.
  Variable B : list (list R).
  Variable x s0 : list R.
  Hypothesis HB : bank_ok cc B.
  Notation L := (length x).
  Notation RR := (INR (length B)).

  (** State after [ii] samples were consumed (element 0 is overwritten before it is read). *)
  Definition consumed (ii : nat) (s : list R) : Prop :=
    length s = cc /\ forall i, (1 <= i < cc)%nat -> nth i s 0 = recent x s0 ii i.

  Lemma RR_pos : 0 < RR.
  Proof. destruct HB as [H _]. destruct B; [congruence|]. apply lt_0_INR. cbn; lia. Qed.

  Lemma consumed_step ii (v : R) t : (ii < L)%nat -> nth ii x 0 = v -> (exists u, consumed ii (u :: t)) ->
    consumed (S ii) (np_shift (v :: t)).
  Proof.
    intros Hi Hv [u [Hl H]]. cbn [length] in Hl. split.
    - cbn [np_shift]. cbn [length]. rewrite length_removelast. cbn [length]. lia.
    - intros i Hi2. cbn [np_shift]. destruct i as [|i]; [lia|]. cbn [nth]. rewrite removelast_firstn_eq. cbn [length].
      rewrite nth_firstn by lia.
      destruct i as [|i].
      + cbn [nth]. unfold recent. cbn [Nat.leb]. replace (S ii - 1)%nat with ii by lia. symmetry; exact Hv.
      + change (nth (S i) (v :: t) 0) with (nth (S i) (u :: t) 0). rewrite H by lia. unfold recent.
        destruct (Nat.leb_spec (S i) ii), (Nat.leb_spec (S (S i)) (S ii)); try lia; f_equal; lia.
  Qed.

  Lemma skipn_cons_nth ii (v : R) xs : skipn ii x = v :: xs -> (ii < L)%nat /\ nth ii x 0 = v /\ skipn (S ii) x = xs.
  Proof.
    revert ii. induction x as [|a l IH]; intros ii H; [destruct ii; discriminate|].
    destruct ii as [|ii]; cbn [skipn] in H.
    - injection H as H1 H2. subst. cbn. repeat split; lia.
    - apply IH in H. destruct H as (H1 & H2 & H3). cbn [length nth]. repeat split; [lia|exact H2|exact H3].
  Qed.

  Lemma consume_spec : forall xs ii (p : R) s, skipn ii x = xs -> (ii <= L)%nat -> 0 <= p -> consumed ii s -> s <> [] ->
    exists ii' p' s', consumeR (length B) xs p s = (p', s', Ok (skipn ii' x)) /\ (ii <= ii' <= L)%nat /\
      p' + INR ii' * RR = p + INR ii * RR /\ 0 <= p' /\ (p' < RR \/ ii' = L) /\ consumed ii' s' /\ s' <> [].
  Proof.
    pose proof RR_pos as HR.
    induction xs as [|v xs IH]; intros ii p s Hx Hi Hp Hc Hs.
    - exists ii, p, s. assert (ii = L).
      { apply (f_equal (@length R)) in Hx. rewrite skipn_length in Hx. cbn in Hx. lia. }
      split; [rewrite Hx; reflexivity|]. split; [lia|]. repeat split; auto; apply Hc.
    - rewrite consumeR_cons. destruct (skipn_cons_nth _ _ _ Hx) as (H1 & H2 & H3). destruct (Rleb RR p) eqn:E.
      + apply Rleb_iff in E. destruct s as [|u t]; [congruence|].
        destruct (IH (S ii) (p - RR) (np_shift (v :: t)) H3) as (ii' & p' & s' & E1 & E2 & E3 & E4 & E5 & E6 & E7);
          [lia|lra|apply consumed_step; eauto|discriminate|].
        exists ii', p', s'. split; [exact E1|]. split; [lia|]. rewrite S_INR in E3. repeat split; auto; try lra; apply E6.
      + exists ii, p, s. split; [rewrite Hx; reflexivity|]. split; [lia|].
        assert (~ RR <= p) by (intros C; apply Rleb_iff in C; congruence).
        repeat split; auto; try lra; apply Hc.
  Qed.

  Variable r : R.
  Hypothesis Hr : 0 < r.

  (** What the j-th output of a loop at total position [t] is. *)
  Definition output_at (t y : R) : Prop :=
    exists m : nat, (m < L)%nat /\ INR m * RR <= t < INR (S m) * RR /\
      y = @bigsum RA cc (fun i => nth i (nth (Z.to_nat (Z.min (rheR (t - INR m * RR)) (Z.of_nat (length B) - 1))) B []) 0
                                 * recent x s0 m i).

  Lemma row_ok (p : R) : 0 <= p ->
    let kk := Z.min (rheR p) (Z.of_nat (length B) - 1) in
    (0 <= kk < Z.of_nat (length B))%Z /\ py_nth B kk = Ok (nth (Z.to_nat kk) B []) /\
    length (nth (Z.to_nat kk) B []) = cc.
  Proof.
    intros Hp kk. destruct HB as (H0 & _ & HF). assert (Hl : (0 < length B)%nat) by (destruct B; [congruence|cbn; lia]).
    pose proof (rheR_nonneg p Hp) as H1. assert (Hk : (0 <= kk < Z.of_nat (length B))%Z) by (unfold kk; lia).
    split; [exact Hk|]. split.
    - unfold py_nth. destruct (Z.ltb_spec kk 0); [lia|].
      replace ((0 <=? kk) && (kk <? Z.of_nat (length B)))%Z%bool with true by (symmetry; apply andb_true_intro; split; [apply Z.leb_le|apply Z.ltb_lt]; lia).
      rewrite (nth_error_nth' B []) by lia. reflexivity.
    - rewrite Forall_forall in HF. apply HF. apply nth_In. lia.
  Qed.

  Lemma loop_spec (p0 : R) : forall fuel ii j ny (p : R) s, (L - ii + ny <= fuel)%nat -> (ii <= L)%nat -> 0 <= p ->
    p + INR ii * RR = p0 + INR j * (RR / r) -> consumed ii s -> s <> [] ->
    exists ii' p' s' ys, loopR B r fuel (skipn ii x) ny p s = Some (p', s', Ok ys) /\
      (ii <= ii' <= L)%nat /\ (length ys <= ny)%nat /\
      p' + INR ii' * RR = p0 + INR (j + length ys) * (RR / r) /\ 0 <= p' /\ consumed ii' s' /\ s' <> [] /\
      (length ys < ny -> ii' = L)%nat /\
      (ny <> 0%nat -> p' < RR \/ ii' = L) /\
      (ny = 0%nat -> p' = p /\ s' = s /\ ii' = ii) /\
      forall n, (n < length ys)%nat -> output_at (p0 + INR (j + n) * (RR / r)) (nth n ys 0).
  Proof.
    pose proof RR_pos as HR.
    induction fuel as [|fuel IH]; intros ii j ny p s Hf Hi Hp Ht Hc Hs.
    - assert (ny = 0%nat) by lia. assert (ii = L) by lia. subst ny ii. exists L, p, s, [].
      split; [unfold loopR; rewrite skipn_all; reflexivity|]. cbn [length]. rewrite Nat.add_0_r.
      repeat split; auto; try lia; try apply Hc; intros; lia.
    - destruct (skipn ii x) as [|v xs] eqn:Hx.
      + assert (ii = L). { apply (f_equal (@length R)) in Hx. rewrite skipn_length in Hx. cbn in Hx. lia. }
        subst ii. exists L, p, s, []. split; [reflexivity|]. cbn [length]. rewrite Nat.add_0_r.
        repeat split; auto; try lia; try apply Hc; intros; lia.
      + destruct (skipn_cons_nth _ _ _ Hx) as (H1 & H2 & H3). destruct ny as [|ny].
        { exists ii, p, s, []. split; [reflexivity|]. cbn [length]. rewrite Nat.add_0_r.
          repeat split; auto; try lia; try apply Hc; intros; lia. }
        rewrite loopR_cons. destruct (Rltb p RR) eqn:E.
        * apply Rltb_iff in E. destruct s as [|u t]; [congruence|].
          destruct (row_ok p Hp) as (K1 & K2 & K3). set (kk := Z.min (rheR p) (Z.of_nat (length B) - 1)) in *.
          rewrite K2. cbn [bind]. destruct Hc as [Hl Hc]. cbn [length] in Hl.
          assert (Hdot : rdot (nth (Z.to_nat kk) B []) (v :: t) = Ok (@bigsum RA cc (fun i => nth i (nth (Z.to_nat kk) B []) 0 * recent x s0 ii i))).
          { unfold rdot, np_dot. change (@length (carrier RA) (nth (Z.to_nat kk) B [])) with (@length R (nth (Z.to_nat kk) B [])).
            rewrite K3. replace (cc =? @length (carrier RA) (v :: t))%nat with true by (symmetry; apply Nat.eqb_eq; symmetry; exact Hl). f_equal.
            rewrite (law_dot RA_laws) by (change (@length (carrier RA) (nth (Z.to_nat kk) B [])) with (@length R (nth (Z.to_nat kk) B [])); rewrite K3; symmetry; exact Hl).
            change (@length (carrier RA) (nth (Z.to_nat kk) B [])) with (@length R (nth (Z.to_nat kk) B [])). rewrite K3.
            apply bigsum_ext. intros i Hi2. destruct i as [|i].
            - cbn [nth]. unfold recent. cbn [Nat.leb]. rewrite Nat.sub_0_r, H2. reflexivity.
            - rewrite <- Hc by lia. reflexivity. }
          rewrite Hdot.
          assert (Hq : 0 < RR / r) by (apply Rdiv_lt_0_compat; assumption).
          destruct (consume_spec (v :: xs) ii (p + RR / r) (v :: t)) as (i2 & p2 & s2 & C1 & C2 & C3 & C4 & C5 & C6 & C7);
            [exact Hx|lia|lra| |discriminate|].
          { split; [exact Hl|]. intros i Hi2. destruct i as [|i]; [lia|]. change (nth (S i) (v :: t) 0) with (nth (S i) (u :: t) 0). apply Hc, Hi2. }
          rewrite C1.
          destruct (Nat.eq_dec ny 0) as [Eny|Eny].
          { subst ny. assert (El : loopR B r fuel (skipn i2 x) 0 p2 s2 = Some (p2, s2, Ok [])).
            { unfold loopR. destruct fuel; destruct (skipn i2 x); reflexivity. }
            rewrite El. exists i2, p2, s2. eexists. split; [reflexivity|]. cbn [length].
            repeat split; auto; try lia; try apply C6.
            - rewrite C3. rewrite plus_INR. cbn [INR]. rewrite Ht || idtac. lra.
            - intros n Hn. assert (n = 0%nat) by lia. subst n. rewrite Nat.add_0_r. rewrite <- Ht.
              exists ii. split; [exact H1|]. split; [rewrite S_INR; lra|].
              replace (p + INR ii * RR - INR ii * RR) with p by ring. fold kk. reflexivity. }
          destruct (IH i2 (S j) ny p2 s2) as (ii' & p' & s' & ys & G1 & G2 & G3 & G4 & G5 & G6 & G7 & G8 & G9 & G10 & G11); auto; try lia.
          { rewrite C3, S_INR. lra. }
          rewrite G1. exists ii', p', s'. eexists. split; [reflexivity|]. cbn [length].
          replace (j + S (length ys))%nat with (S j + length ys)%nat by lia.
          repeat split; auto; try lia; try apply G6; try (intros; discriminate).
          intros n Hn. destruct n as [|n].
          -- rewrite Nat.add_0_r, <- Ht. exists ii. split; [exact H1|]. split; [rewrite S_INR; lra|].
             replace (p + INR ii * RR - INR ii * RR) with p by ring. fold kk. reflexivity.
          -- replace (j + S n)%nat with (S j + n)%nat by lia. apply G11. cbn in Hn. lia.
        * assert (Hge : RR <= p) by (destruct (Rle_dec RR p) as [G|G]; [exact G|]; assert (Rltb p RR = true) by (apply Rltb_iff; lra); congruence).
          destruct (consume_spec (v :: xs) ii p s) as (i2 & p2 & s2 & C1 & C2 & C3 & C4 & C5 & C6 & C7); auto; try lia.
          rewrite C1.
          assert (Hlt : (ii < i2)%nat).
          { destruct C5 as [C5|C5]; [|lia]. destruct (Nat.eq_dec i2 ii) as [E2|E2]; [|lia]. subst i2. lra. }
          destruct (IH i2 j (S ny) p2 s2) as (ii' & p' & s' & ys & G1 & G2 & G3 & G4 & G5 & G6 & G7 & G8 & G9 & G10 & G11); auto; try lia.
          { lra. }
          exists ii', p', s', ys. split; [exact G1|]. repeat split; auto; try lia; try apply G6; intros; discriminate.
  Qed.
End Loop.

Lemma consumed_0 cc x s : length s = cc -> consumed cc x s 0 s.
Proof. intros H. split; [exact H|]. intros i Hi. unfold recent. destruct i; [lia|]. cbn [Nat.leb]. f_equal. Qed.

(** Everything about one call, for a positive rate. *)
Lemma filter_spec cc B f x : bank_ok cc B -> poly_ok cc B f -> 0 < rate f -> x <> [] ->
  exists f' ys ii, filterR B f x = Some (f', Ok ys) /\ poly_ok cc B f' /\ rate f' = rate f /\
    (ii <= length x)%nat /\ (Z.of_nat (length ys) <= rheR (INR (length x) * rate f))%Z /\
    idx f' + INR ii * INR (length B) = idx f + INR (length ys) * (INR (length B) / rate f) /\
    consumed cc x (st f) ii (st f') /\
    ((Z.of_nat (length ys) < rheR (INR (length x) * rate f))%Z -> ii = length x) /\
    (rheR (INR (length x) * rate f) <> 0%Z -> idx f' < INR (length B) \/ ii = length x) /\
    (rheR (INR (length x) * rate f) = 0%Z -> f' = f /\ ii = 0%nat) /\
    forall n, (n < length ys)%nat ->
      output_at cc B x (st f) (idx f + INR n * (INR (length B) / rate f)) (nth n ys 0).
Proof.
  intros HB (H1 & H2 & H3) Hr Hx. unfold filterR, poly_filter.
  change (@length (carrier RO) x) with (@length R x).
  destruct (Nat.eqb_spec (length x) 0) as [E|E]; [destruct x; [congruence|discriminate]|].
  rewrite of_nat_R. change (mul (INR (length x)) (prate f)) with (INR (length x) * rate f).
  set (N := rheR (INR (length x) * rate f)).
  assert (HN : (0 <= N)%Z) by (apply rheR_nonneg, Rmult_le_pos; [apply pos_INR|lra]).
  destruct (Z.ltb_spec N 0); [lia|].
  assert (Hs : st f <> []) by (destruct HB as (_ & Hc & _); destruct (st f); [cbn in H3; lia|discriminate]).
  destruct (loop_spec cc B x (st f) HB (rate f) Hr (idx f) (length x + Z.to_nat N) 0 0 (Z.to_nat N) (idx f) (st f))
    as (ii & p' & s' & ys & G1 & G2 & G3 & G4 & G5 & G6 & G7 & G8 & G9 & G10 & G11); try lia; auto.
  { cbn [INR]. ring. }
  { apply consumed_0, H3. }
  change (@poly_loop RO rheR) with loopR. cbn [skipn] in G1.
  change (prate f) with (rate f). change (pindex f) with (idx f). change (ps f) with (st f). rewrite G1.
  exists (@mkPoly RO p' (rate f) s'), ys, ii. split; [reflexivity|]. unfold poly_ok, idx, rate, st in *. cbn [pindex prate ps].
  split; [repeat split; try lra; apply G6|]. split; [reflexivity|]. split; [lia|]. split; [lia|]. split; [exact G4|].
  split; [exact G6|]. split; [intros; apply G8; lia|]. split; [intros; apply G9; lia|]. split; [|exact G11].
  intros HN0. destruct G10 as (E1 & E2 & E3); [lia|]. split; [|exact E3]. subst p' s'. destruct f; reflexivity.
Qed.

Lemma filter_rate0 B f x : x <> [] -> rate f = 0 -> filterR B f x = Some (f, Ok []).
Proof.
  intros Hx Hr. unfold filterR, poly_filter. change (@length (carrier RO) x) with (@length R x).
  destruct (Nat.eqb_spec (length x) 0) as [E|E]; [destruct x; [congruence|discriminate]|].
  rewrite of_nat_R. change (mul (INR (length x)) (prate f)) with (INR (length x) * rate f). rewrite Hr, Rmult_0_r.
  rewrite (rheR_IZR 0). cbn [Z.ltb Z.compare Z.to_nat]. rewrite Nat.add_0_r.
  destruct x as [|v x]; [congruence|]. cbn [length poly_loop]. destruct f; reflexivity.
Qed.

(** C48. *)
Theorem C48_polyphase_terminates (O : OArith) (rnd : O -> Z) (B : bank O) (f : poly O) (x : list O) :
  (forall a b : O, oltb a b = false -> oleb b a = true) ->
  poly_filter rnd B f x <> None.
Proof.
  intros Ht. unfold poly_filter. destruct (Nat.eqb _ _); [discriminate|]. destruct (_ <? _)%Z; [discriminate|].
  pose proof (poly_loop_terminates O rnd B (prate f) Ht (length x + Z.to_nat (rnd (mul (of_nat (length x)) (prate f)))) x
    (Z.to_nat (rnd (mul (of_nat (length x)) (prate f)))) (pindex f) (ps f) (le_n _)) as H.
  destruct (poly_loop _ _ _ _ _ _ _ _) as [[[i s] y]|]; [discriminate|congruence].
Qed.
Print Assumptions C48_polyphase_terminates.
Example C48_total_R : forall a b : RO, oltb a b = false -> oleb b a = true.
Proof.
  intros a b H. change (Rltb a b = false) in H. change (Rleb b a = true). apply Rleb_iff.
  destruct (Rle_dec b a) as [C|C]; [exact C|]. assert (Rltb a b = true) by (apply Rltb_iff; lra). congruence.
Qed.

(** No row outside the bank is selected (which would raise IndexError), the number of outputs
    is bounded and the position stays non-negative, along any history of calls. *)
Inductive poly_op : Type := PFilter (x : list R) | PRate (r : R) | PReset (v : option R).
Definition poly_exec (close : R -> R -> bool) (B : list (list R)) (f : poly RO) (o : poly_op) : poly RO :=
  match o with
  | PFilter x => match filterR B f x with Some (f', _) => f' | None => f end
  | PRate r => fst (@poly_set_rate RO close (length B) f r)
  | PReset v => fst (@poly_reset RO f v)
  end.

Lemma prate_bad_iff rr r : @prate_bad RO rr r = false <-> 0 <= r <= INR rr.
Proof.
  unfold prate_bad. rewrite of_nat_R. change (@oltb RO) with Rltb. change (@zero RO) with 0.
  rewrite orb_false_iff, <- !not_true_iff_false, !Rltb_iff. lra.
Qed.

Lemma poly_exec_ok close cc B f o : bank_ok cc B -> poly_ok cc B f -> poly_ok cc B (poly_exec close B f o).
Proof.
  intros HB Hf. destruct o as [x|r|v]; cbn [poly_exec].
  - destruct x as [|v x]; [exact Hf|]. destruct Hf as (H1 & H2 & H3). destruct (Req_dec (rate f) 0) as [E|E].
    + rewrite filter_rate0 by (auto; discriminate). repeat split; auto; lra.
    + destruct (filter_spec cc B f (v :: x) HB) as (f' & ys & ii & G1 & G2 & _); [repeat split; auto; lra|lra|discriminate|].
      rewrite G1. exact G2.
  - unfold poly_set_rate. destruct (prate_bad (length B) r) eqn:E; [exact Hf|]. apply prate_bad_iff in E. cbn [fst].
    destruct Hf as (H1 & H2 & H3). unfold poly_ok, idx, rate, st in *. cbn [pindex prate ps].
    split; [|split; [exact E|exact H3]]. destruct (close (prate f) r); [exact H1|]. right. reflexivity.
  - unfold poly_reset. destruct v as [v|]; [|exact Hf]. destruct Hf as (H1 & H2 & H3). unfold poly_ok, idx, rate, st in *. cbn [fst pindex prate ps].
    split; [exact H1|]. split; [exact H2|]. rewrite map_length. exact H3.
Qed.

Theorem C48_polyphase_safe (close : R -> R -> bool) (cc : nat) (B : list (list R)) (r0 : R) (f0 : poly RO)
    (ops : list poly_op) (x : list R) :
  bank_ok cc B -> @poly_make RO (length B) cc r0 = Ok f0 -> x <> [] ->
  let f := fold_left (poly_exec close B) ops f0 in
  0 <= idx f /\
  exists f' y, filterR B f x = Some (f', Ok y) /\
    (Z.of_nat (length y) <= rheR (INR (length x) * rate f))%Z /\ 0 <= idx f'.
Proof.
  intros HB E Hx f. assert (Hf : poly_ok cc B f).
  { assert (H0 : poly_ok cc B f0).
    { unfold poly_make in E. destruct (prate_bad (length B) r0) eqn:Eb; [discriminate|]. injection E as E. subst f0.
      apply prate_bad_iff in Eb. unfold poly_ok, idx, rate, st. cbn [pindex prate ps]. split; [right; reflexivity|]. split; [exact Eb|].
      unfold zeros. apply repeat_length. }
    unfold f. clear f E. revert f0 H0. induction ops as [|o ops IH]; intros f0 H0; [exact H0|]. cbn [fold_left].
    apply IH, poly_exec_ok; assumption. }
  split; [apply Hf|]. destruct (Req_dec (rate f) 0) as [Er|Er].
  - exists f, []. split; [apply filter_rate0; assumption|]. split; [|apply Hf]. rewrite Er, Rmult_0_r, (rheR_IZR 0). cbn. lia.
  - destruct (filter_spec cc B f x HB Hf) as (f' & ys & ii & G1 & G2 & _ & _ & G3 & _); [destruct Hf as (_ & ? & _); lra|exact Hx|].
    exists f', ys. split; [exact G1|]. split; [exact G3|]. apply G2.
Qed.
Print Assumptions C48_polyphase_safe.
Definition B_ex : list (list R) := [[1 / 2; 1 / 2]; [1; 0]; [1 / 4; 3 / 4]].
Lemma B_ex_ok : bank_ok 2 B_ex.
Proof. split; [discriminate|]. split; [lia|]. repeat constructor. Qed.
Example C48_example : exists f, @poly_make RO (length B_ex) 2 (7 / 4) = Ok f /\ bank_ok 2 B_ex.
Proof.
  unfold poly_make. replace (prate_bad (length B_ex) (7 / 4)) with false by (symmetry; apply prate_bad_iff; cbn; lra).
  eexists. split; [reflexivity|apply B_ex_ok].
Qed.

(** C49. *)
Theorem C49_polyphase_positions (cc : nat) (B : list (list R)) (f f' : poly RO) (x y : list R) :
  bank_ok cc B -> poly_ok cc B f -> 0 < rate f -> x <> [] -> filterR B f x = Some (f', Ok y) ->
  forall j, (j < length y)%nat ->
  let t := idx f + INR j * (INR (length B) / rate f) in
  let m := Z.to_nat (Int_part (t / INR (length B))) in
  let row := Z.to_nat (Z.min (rheR (t - INR m * INR (length B))) (Z.of_nat (length B) - 1)) in
  (m < length x)%nat /\ (row < length B)%nat /\
  nth j y 0 = @bigsum RA cc (fun i => nth i (nth row B []) 0 * recent x (st f) m i).
Proof.
  intros HB Hf Hr Hx E j Hj t m row.
  destruct (filter_spec cc B f x HB Hf Hr Hx) as (f2 & ys & ii & G1 & _ & _ & _ & _ & _ & _ & _ & _ & _ & G).
  rewrite E in G1. injection G1 as G1 G2. subst f2 ys. destruct (G j Hj) as (k & K1 & K2 & K3). fold t in K2, K3.
  pose proof (RR_pos cc B HB) as HR.
  assert (Em : m = k).
  { unfold m. rewrite (Int_part_unique _ (Z.of_nat k)); [apply Nat2Z.id|]. rewrite <- INR_IZR_INZ. rewrite S_INR in K2. split.
    - apply Rmult_le_reg_r with (INR (length B)); [exact HR|]. replace (t / INR (length B) * INR (length B)) with t by (field; lra). lra.
    - apply Rmult_lt_reg_r with (INR (length B)); [exact HR|]. replace (t / INR (length B) * INR (length B)) with t by (field; lra). lra. }
  split; [lia|]. split; [|unfold row; rewrite Em; exact K3].
  unfold row. destruct (row_ok cc B HB (t - INR m * INR (length B))) as [Q _]; [rewrite Em; lra|]. cbv zeta in Q. lia.
Qed.
Print Assumptions C49_polyphase_positions.
Example C49_example : exists f f' y, @poly_make RO (length B_ex) 2 (7 / 4) = Ok f /\ poly_ok 2 B_ex f /\ 0 < rate f /\
  filterR B_ex f [1; 2; 3] = Some (f', Ok y).
Proof.
  unfold poly_make. replace (prate_bad (length B_ex) (7 / 4)) with false by (symmetry; apply prate_bad_iff; cbn; lra).
  eexists. destruct (filter_spec 2 B_ex (@mkPoly RO 0 (7 / 4) [0; 0]) [1; 2; 3] B_ex_ok) as (f' & ys & ii & G & _).
  - unfold poly_ok, idx, rate, st. cbn. repeat split; lra.
  - unfold rate. cbn. lra.
  - discriminate.
  - exists f', ys. split; [reflexivity|]. split; [unfold poly_ok, idx, rate, st; cbn; repeat split; lra|].
    split; [unfold rate; cbn; lra|exact G].
Qed.

(** C50. The number of outputs: as many grid positions as fall before the end of the signal,
    at most round(len*rate); all of round(len*rate) from position zero. *)
Theorem C50_polyphase_count (cc : nat) (B : list (list R)) (f f' : poly RO) (x y : list R) :
  bank_ok cc B -> poly_ok cc B f -> 0 < rate f -> x <> [] -> filterR B f x = Some (f', Ok y) ->
  let t j := idx f + INR j * (INR (length B) / rate f) in
  (forall j, (j < length y)%nat <->
     (Z.of_nat j < rheR (INR (length x) * rate f))%Z /\ t j < INR (length x) * INR (length B)) /\
  (idx f = 0 -> Z.of_nat (length y) = rheR (INR (length x) * rate f)).
Proof.
  intros HB Hf Hr Hx E t.
  destruct (filter_spec cc B f x HB Hf Hr Hx) as (f2 & ys & ii & G1 & F2 & _ & G2 & G3 & G4 & _ & G5 & _ & _ & G).
  rewrite E in G1. injection G1 as G1 G1'. subst f2 ys. pose proof (RR_pos cc B HB) as HR.
  assert (Hq : 0 < INR (length B) / rate f) by (apply Rdiv_lt_0_compat; assumption).
  assert (Iff : forall j, (j < length y)%nat <->
     (Z.of_nat j < rheR (INR (length x) * rate f))%Z /\ t j < INR (length x) * INR (length B)).
  { intros j. split.
    - intros Hj. split; [lia|]. destruct (G j Hj) as (k & K1 & K2 & _). fold (t j) in K2. apply Rlt_le_trans with (1 := proj2 K2).
      apply Rmult_le_compat_r; [lra|]. apply le_INR. lia.
    - intros [J1 J2]. destruct (le_lt_dec (length y) j) as [C|C]; [exfalso|exact C].
      assert (Ei : ii = length x) by (apply G5; lia). subst ii. destruct F2 as (F2 & _).
      assert (t (length y) <= t j). { unfold t. apply Rplus_le_compat_l, Rmult_le_compat_r; [lra|]. apply le_INR. exact C. }
      unfold t in *. lra. }
  split; [exact Iff|]. intros H0. apply Z.le_antisymm; [exact G3|].
  destruct (Z_le_gt_dec (rheR (INR (length x) * rate f)) (Z.of_nat (length y))) as [C|C]; [exact C|exfalso].
  assert (Hlt : (length y < length y)%nat); [|lia]. apply Iff. split; [lia|]. unfold t. rewrite H0.
  assert (Hb : IZR (Z.of_nat (length y)) < INR (length x) * rate f) by (apply below_rheR; lia).
  rewrite <- INR_IZR_INZ in Hb. rewrite Rplus_0_l. unfold Rdiv. rewrite <- Rmult_assoc, (Rmult_comm (INR (length y))).
  apply Rmult_lt_reg_r with (rate f); [exact Hr|]. rewrite Rmult_assoc, Rinv_l by lra.
  apply Rmult_lt_compat_l with (r := INR (length B)) in Hb; [|exact HR]. lra.
Qed.
Print Assumptions C50_polyphase_count.
Example C50_example : rheR (INR 10 * (1 / 4)) = 2%Z /\ rheR (INR 14 * (1 / 4)) = 4%Z.
Proof.
  split; apply rheR_unique; cbn [INR].
  - rewrite Rabs_left by lra. lra.
  - reflexivity.
  - rewrite Rabs_pos_eq by lra. lra.
  - reflexivity.
Qed.

(** C51. *)
Lemma bigsum_scale (c : R) n (g : nat -> R) : @bigsum RA n (fun i => g i * c) = @bigsum RA n g * c.
Proof. induction n as [|n IH]; cbn [bigsum]; [rr; ring|]. rewrite IH. rr. ring. Qed.

Lemma fold_left_bigsum (l : list R) (a : R) : fold_left Rplus l a = a + @bigsum RA (length l) (fun i => nth i l 0).
Proof.
  revert a. induction l as [|v l IH]; intros a; cbn [fold_left length]; [cbn; ring|]. rewrite IH.
  rewrite (bigsum_S_l RA RA_laws). cbn [nth]. change (@add RA) with Rplus. ring.
Qed.

Theorem C51_polyphase_constant (cc : nat) (B : list (list R)) (f : poly RO) (c : R) (n : nat) :
  bank_ok cc B -> poly_ok cc B f -> (0 < n)%nat ->
  (forall row, In row B -> @bigsum RA cc (fun i => nth i row 0) = 1) ->
  exists f1 f' m, @poly_reset RO f (Some c) = (f1, Ok tt) /\
    filterR B f1 (repeat c n) = Some (f', Ok (repeat c m)) /\ Forall (fun v => v = c) (skipn 1 (st f')).
Proof.
  intros HB Hf Hn Hrow. destruct Hf as (H1 & H2 & H3). set (f1 := @mkPoly RO (pindex f) (prate f) (map (fun _ => c) (ps f))). exists f1.
  assert (Hx : repeat c n <> []) by (destruct n; [lia|discriminate]).
  assert (Hs1 : forall i, (i < cc)%nat -> nth i (st f1) 0 = c).
  { intros i Hi. unfold f1, st. cbn [ps]. change (map (fun _ : R => c) (st f)) with (map (fun _ : R => c) (st f)).
    rewrite <- H3 in Hi. clear -Hi. unfold st in *. revert i Hi. induction (ps f) as [|v l IH]; intros i Hi; [cbn in Hi; lia|].
    destruct i; cbn [map nth]; [reflexivity|]. apply IH. cbn in Hi. lia. }
  destruct (Req_dec (rate f) 0) as [Er|Er].
  - exists f1, 0%nat. split; [reflexivity|]. split; [apply filter_rate0; [exact Hx|exact Er]|].
    apply Forall_forall. intros v Hv. apply (In_nth _ _ 0) in Hv. destruct Hv as (i & Hi & Hv). rewrite skipn_length in Hi.
    rewrite nth_skipn_add in Hv. rewrite <- Hv. apply Hs1. 
    assert (Hl : length (st f1) = cc) by (unfold f1, st in *; cbn [ps]; rewrite map_length; exact H3). rewrite Hl in Hi. lia.
  - assert (Hf1 : poly_ok cc B f1).
    { unfold poly_ok, f1, idx, rate, st in *. cbn [pindex prate ps]. rewrite map_length. repeat split; try lra; exact H3. }
    assert (Hrate : 0 < rate f1) by (unfold f1, rate in *; cbn [prate]; lra).
    destruct (filter_spec cc B f1 (repeat c n) HB Hf1 Hrate Hx) as (f' & ys & ii & G1 & G2 & _ & Gi & _ & _ & Gc & _ & _ & _ & G).
    rewrite repeat_length in Gi.
    assert (Hrec : forall m i, (m <= n)%nat -> (m < n \/ 1 <= i)%nat -> (i < cc)%nat -> recent (repeat c n) (st f1) m i = c).
    { intros m i Hm Hmi Hi. unfold recent. destruct (Nat.leb_spec i m).
      - apply nth_repeat_lt. lia.
      - apply Hs1. lia. }
    exists f', (length ys). split; [reflexivity|]. split.
    + rewrite G1. do 2 f_equal. f_equal. apply (nth_ext _ _ 0 0); [rewrite repeat_length; reflexivity|]. intros j Hj.
      rewrite nth_repeat_lt by exact Hj. destruct (G j Hj) as (m & K1 & K2 & K3). rewrite repeat_length in K1. rewrite K3.
      destruct (row_ok cc B HB (idx f1 + INR j * (INR (length B) / rate f1) - INR m * INR (length B))) as (Q1 & Q2 & Q3); [lra|].
      cbv zeta in *. set (row := nth (Z.to_nat _) B []) in *.
      transitivity (@bigsum RA cc (fun i => nth i row 0 * c)).
      * apply bigsum_ext. intros i Hi. rewrite Hrec by lia. reflexivity.
      * rewrite bigsum_scale, Hrow; [ring|]. apply nth_In. lia.
    + apply Forall_forall. intros v Hv. apply (In_nth _ _ 0) in Hv. destruct Hv as (i & Hi & Hv). rewrite skipn_length in Hi.
      rewrite nth_skipn_add in Hv. rewrite <- Hv. destruct Gc as [Gl Gc]. rewrite Gc by lia. apply Hrec; lia.
Qed.
Print Assumptions C51_polyphase_constant.

(** The constructor builds such a bank from any prototype whose polyphase components have
    non-zero sums, and keeps a bank that was already built. *)
Theorem C51_polyphase_bank (rr cc : nat) (B0 : list (list R)) (h : list R) :
  (0 < rr)%nat -> (0 < cc)%nat -> Forall (Forall (fun v => v = 0)) B0 ->
  (forall i, (i < rr)%nat -> @bigsum RA cc (fun j => nth (i + rr * j) h 0) <> 0) ->
  let B : list (list R) := @bank_init RO rr cc B0 h in
  bank_ok cc B /\ length B = rr /\
  (forall i j, (i < rr)%nat -> (j < cc)%nat ->
     nth j (nth i B []) 0 = nth (i + rr * j) h 0 / @bigsum RA cc (fun j => nth (i + rr * j) h 0)) /\
  (forall row, In row B -> @bigsum RA cc (fun i => nth i row 0) = 1) /\
  (forall h', @bank_init RO rr cc B h' = B).
Proof.
  intros Hrr Hcc HB0 Hsum B.
  assert (EB : B = map (@bank_row RO rr cc h) (seq 0 rr)).
  { unfold B, bank_init. replace (existsb _ B0) with false; [reflexivity|]. symmetry. apply not_true_iff_false. intros C.
    apply existsb_exists in C. destruct C as (row & Hrow & C). apply existsb_exists in C. destruct C as (v & Hv & C).
    rewrite Forall_forall in HB0. specialize (HB0 row Hrow). rewrite Forall_forall in HB0. specialize (HB0 v Hv).
    subst v. change (negb (Reqb 0 0) = true) in C. replace (Reqb 0 0) with true in C by (symmetry; apply Reqb_iff; reflexivity). discriminate. }
  assert (Hsm : forall i, fold_left Rplus (map (fun j => nth (i + rr * j) h 0) (seq 0 cc)) 0 = @bigsum RA cc (fun j => nth (i + rr * j) h 0)).
  { intros i. rewrite fold_left_bigsum, map_length, seq_length, Rplus_0_l. apply bigsum_ext. intros j Hj. apply (nth_map_seq (fun j => nth (i + rr * j) h 0)). exact Hj. }
  assert (Hrowlen : forall i, @length R (@bank_row RO rr cc h i) = cc).
  { intros i. unfold bank_row. rewrite !map_length, seq_length. reflexivity. }
  assert (Hent : forall i j, (i < rr)%nat -> (j < cc)%nat ->
     nth j (@bank_row RO rr cc h i) 0 = nth (i + rr * j) h 0 / @bigsum RA cc (fun j => nth (i + rr * j) h 0)).
  { intros i j Hi Hj. unfold bank_row. rewrite map_map. change (@add RO) with Rplus. change (@zero RO) with 0.
    etransitivity; [apply (nth_map_seq (fun x0 => div (nth (i + rr * x0) h 0) (fold_left Rplus (map (fun j0 => nth (i + rr * j0) h 0) (seq 0 cc)) 0)) cc j); exact Hj|].
    change (@div RO) with Rdiv. rewrite Hsm. reflexivity. }
  assert (HlB : length B = rr) by (rewrite EB, map_length, seq_length; reflexivity).
  assert (HiB : forall i, (i < rr)%nat -> nth i B [] = @bank_row RO rr cc h i).
  { intros i Hi. rewrite EB. apply nth_map_seq. exact Hi. }
  assert (Hone : forall row, In row B -> @bigsum RA cc (fun i => nth i row 0) = 1).
  { intros row Hrow. apply (In_nth _ _ []) in Hrow. destruct Hrow as (i & Hi & Hrow). rewrite HlB in Hi. rewrite HiB in Hrow by exact Hi. subst row.
    transitivity (@bigsum RA cc (fun j => nth (i + rr * j) h 0 * / @bigsum RA cc (fun j => nth (i + rr * j) h 0))).
    - apply bigsum_ext. intros j Hj. etransitivity; [apply Hent; assumption|]. reflexivity.
    - rewrite bigsum_scale. apply Rinv_r. apply Hsum. exact Hi. }
  assert (Hok : bank_ok cc B).
  { split; [intros C; rewrite C in HlB; cbn in HlB; lia|]. split; [exact Hcc|]. rewrite EB. apply Forall_forall. intros row Hrow.
    apply in_map_iff in Hrow. destruct Hrow as (i & Hi & _). subst row. apply Hrowlen. }
  split; [exact Hok|]. split; [exact HlB|]. split; [intros i j Hi Hj; rewrite HiB by exact Hi; apply Hent; assumption|].
  split; [exact Hone|]. intros h'. unfold bank_init at 1.
  replace (existsb _ B) with true; [reflexivity|]. symmetry.
  destruct Hok as (Hne & _ & HF). destruct B as [|row B']; [congruence|]. apply existsb_exists. exists row. split; [left; reflexivity|].
  destruct (existsb (fun v : RO => negb (eqb v zero)) row) eqn:E; [reflexivity|exfalso].
  assert (Hz : @bigsum RA cc (fun i => nth i row 0) = 0).
  { assert (Hz : forall i, nth i row 0 = 0).
    { intros i. destruct (le_lt_dec (length row) i) as [C|C]; [apply nth_overflow, C|].
      destruct (Req_dec (nth i row 0) 0) as [D|D]; [exact D|exfalso]. apply not_true_iff_false in E. apply E. apply existsb_exists.
      exists (nth i row 0). split; [apply nth_In, C|]. change (negb (Reqb (nth i row 0) 0) = true).
      destruct (Reqb (nth i row 0) 0) eqn:F; [apply Reqb_iff in F; contradiction|reflexivity]. }
    induction cc as [|k IHk]; [reflexivity|]. clear -Hz. induction (S k) as [|m IHm]; [reflexivity|]. cbn [bigsum]. rewrite IHm, Hz. rr. ring. }
  rewrite (Hone row) in Hz by (left; reflexivity). lra.
Qed.
Print Assumptions C51_polyphase_bank.
Example C51_example : @bigsum RA 2 (fun j => nth (1 + 3 * j) [1; 2; 3; 4; 5; 6] 0) <> 0 /\
  (forall row, In row B_ex -> @bigsum RA 2 (fun i => nth i row 0) = 1).
Proof.
  split; [cbn; lra|]. intros row H. cbn in H. destruct H as [H|[H|[H|[]]]]; subst row; cbn; lra.
Qed.

(** C52. What a call consumes, and what it loses. *)
Theorem C52_polyphase_consumed (cc : nat) (B : list (list R)) (f f' : poly RO) (x y : list R) :
  bank_ok cc B -> poly_ok cc B f -> 0 < rate f -> x <> [] -> filterR B f x = Some (f', Ok y) ->
  exists ii, (ii <= length x)%nat /\
    (* conservation of position, and the state holds the consumed samples *)
    idx f' + INR ii * INR (length B) = idx f + INR (length y) * (INR (length B) / rate f) /\
    (forall i, (1 <= i < cc)%nat -> nth i (st f') 0 = recent x (st f) ii i) /\
    (* how many: none if round(len*rate) = 0, else all samples before the next position *)
    (rheR (INR (length x) * rate f) = 0%Z -> ii = 0%nat /\ y = [] /\ f' = f) /\
    (rheR (INR (length x) * rate f) <> 0%Z ->
       ii = Nat.min (length x) (Z.to_nat (Int_part ((idx f + INR (length y) * (INR (length B) / rate f)) / INR (length B))))).
Proof.
  intros HB Hf Hr Hx E.
  destruct (filter_spec cc B f x HB Hf Hr Hx) as (f2 & ys & ii & G1 & F2 & _ & G2 & G3 & G4 & Gc & G5 & G6 & G7 & G).
  rewrite E in G1. injection G1 as G1 G1'. subst f2 ys. pose proof (RR_pos cc B HB) as HR. exists ii.
  split; [exact G2|]. split; [exact G4|]. split; [apply Gc|]. split.
  - intros H0. destruct (G7 H0) as [-> ->]. split; [reflexivity|]. split; [|reflexivity]. destruct y; [reflexivity|]. cbn [length] in G3. lia.
  - intros H0. rewrite <- G4. destruct F2 as (F2 & _).
    assert (Hq : (idx f' + INR ii * INR (length B)) / INR (length B) = idx f' / INR (length B) + INR ii) by (field; lra).
    rewrite Hq. set (u := idx f' / INR (length B)).
    assert (Hu : 0 <= u) by (apply Rmult_le_pos; [exact F2|left; apply Rinv_0_lt_compat, HR]).
    pose proof (Int_part_bounds (u + INR ii)) as Hb.
    assert (Hge : (Z.of_nat ii <= Int_part (u + INR ii))%Z).
    { assert (IZR (Z.of_nat ii) < IZR (Int_part (u + INR ii) + 1)) by (rewrite plus_IZR, <- INR_IZR_INZ; lra). apply lt_IZR in H. lia. }
    destruct (G6 H0) as [H1|H1]; [|lia].
    assert (Hu1 : u < 1). { unfold u. apply Rmult_lt_reg_r with (INR (length B)); [exact HR|]. unfold Rdiv. rewrite Rmult_assoc, Rinv_l by lra. lra. }
    rewrite (Int_part_unique _ (Z.of_nat ii)) by (rewrite <- INR_IZR_INZ; lra). rewrite Nat2Z.id. lia.
Qed.
Print Assumptions C52_polyphase_consumed.

(** From position zero, when len*rate rounds down, the last samples are not consumed: the
    state keeps only the samples before [ii] < len. *)
Theorem C52_polyphase_loses (cc : nat) (B : list (list R)) (f f' : poly RO) (x y : list R) :
  bank_ok cc B -> poly_ok cc B f -> 0 < rate f -> x <> [] -> filterR B f x = Some (f', Ok y) ->
  idx f = 0 -> IZR (rheR (INR (length x) * rate f)) < INR (length x) * rate f ->
  exists ii, (ii < length x)%nat /\ INR ii <= INR (length y) / rate f /\
    forall i, (1 <= i < cc)%nat -> nth i (st f') 0 = recent x (st f) ii i.
Proof.
  intros HB Hf Hr Hx E H0 Hdown. pose proof (RR_pos cc B HB) as HR.
  destruct (C52_polyphase_consumed cc B f f' x y HB Hf Hr Hx E) as (ii & H1 & H2 & H3 & H4 & H5).
  destruct (C50_polyphase_count cc B f f' x y HB Hf Hr Hx E) as [_ Hc]. specialize (Hc H0). rewrite <- Hc, <- INR_IZR_INZ in Hdown.
  assert (Hq : INR (length y) / rate f < INR (length x)).
  { apply Rmult_lt_reg_r with (rate f); [exact Hr|]. unfold Rdiv. rewrite Rmult_assoc, Rinv_l by lra. lra. }
  assert (Hle : INR ii <= INR (length y) / rate f).
  { assert (Hi0 : 0 <= idx f').
    { destruct (filter_spec cc B f x HB Hf Hr Hx) as (f2 & ys & i2 & G1 & F2 & _). rewrite E in G1. injection G1 as G1 G1'. subst f2. apply F2. }
    rewrite H0, Rplus_0_l in H2. apply Rmult_le_reg_r with (INR (length B)); [exact HR|].
    replace (INR (length y) / rate f * INR (length B)) with (INR (length y) * (INR (length B) / rate f)) by (field; lra). lra. }
  exists ii. split; [|split; [exact Hle|exact H3]]. apply INR_lt. lra.
Qed.
Print Assumptions C52_polyphase_loses.

(** When a call consumed everything, the next call continues on the same grid of positions
    with the same history, as if the two signals had been one. *)
Theorem C49_polyphase_continues (cc : nat) (B : list (list R)) (f f1 f2 : poly RO) (x1 x2 y1 y2 : list R) :
  bank_ok cc B -> poly_ok cc B f -> 0 < rate f -> x1 <> [] -> x2 <> [] ->
  filterR B f x1 = Some (f1, Ok y1) -> filterR B f1 x2 = Some (f2, Ok y2) ->
  idx f1 + INR (length x1) * INR (length B) = idx f + INR (length y1) * (INR (length B) / rate f) ->
  forall f' y, filterR B f (x1 ++ x2) = Some (f', Ok y) ->
  forall j, (j < length y)%nat -> (j < length (y1 ++ y2))%nat -> nth j y 0 = nth j (y1 ++ y2) 0.
Proof.
  intros HB Hf Hr Hx1 Hx2 E1 E2 Hcons f' y E j Hj Hj2. pose proof (RR_pos cc B HB) as HR.
  destruct (filter_spec cc B f x1 HB Hf Hr Hx1) as (g1 & z1 & ii & G1 & F1 & R1 & A1 & A2 & A3 & A4 & _ & _ & _ & A5).
  rewrite E1 in G1. injection G1 as G1 G1'. subst g1 z1.
  assert (Eii : ii = length x1).
  { apply INR_eq. apply Rmult_eq_reg_r with (INR (length B)); lra. }
  subst ii. rewrite <- R1 in Hr.
  destruct (filter_spec cc B f1 x2 HB F1 Hr Hx2) as (g2 & z2 & i2 & G2 & _ & _ & _ & _ & _ & _ & _ & _ & _ & B5).
  rewrite E2 in G2. injection G2 as G2 G2'. subst g2 z2. rewrite R1 in Hr.
  destruct (filter_spec cc B f (x1 ++ x2) HB Hf Hr) as (g3 & z3 & i3 & G3 & _ & _ & _ & _ & _ & _ & _ & _ & _ & C5); [destruct x1; [congruence|discriminate]|].
  rewrite E in G3. injection G3 as G3 G3'. subst g3 z3.
  destruct (C5 j Hj) as (m & M1 & M2 & M3). rewrite M3. rewrite app_length in Hj2.
  assert (Huniq : forall (a b : nat) t, INR a * INR (length B) <= t < INR (S a) * INR (length B) ->
                  INR b * INR (length B) <= t < INR (S b) * INR (length B) -> a = b).
  { intros a b t Ha Hb. rewrite S_INR in Ha, Hb.
    assert (Hab : INR a < INR (S b)) by (rewrite S_INR; apply Rmult_lt_reg_r with (INR (length B)); lra).
    assert (Hba : INR b < INR (S a)) by (rewrite S_INR; apply Rmult_lt_reg_r with (INR (length B)); lra).
    apply INR_lt in Hab, Hba. lia. }
  destruct (le_lt_dec (length y1) j) as [C|C].
  - rewrite app_nth2 by exact C. destruct (B5 (j - length y1)%nat ltac:(lia)) as (k & K1 & K2 & K3).
    rewrite K3. rewrite R1 in *.
    assert (Et : idx f1 + INR (j - length y1) * (INR (length B) / rate f) =
                 idx f + INR j * (INR (length B) / rate f) - INR (length x1) * INR (length B)).
    { rewrite minus_INR by exact C. lra. }
    rewrite Et in *. assert (Em : m = (length x1 + k)%nat).
    { apply (Huniq m (length x1 + k)%nat (idx f + INR j * (INR (length B) / rate f))); [exact M2|].
      rewrite S_INR, plus_INR. rewrite S_INR in K2. lra. }
    subst m. rewrite plus_INR.
    replace (idx f + INR j * (INR (length B) / rate f) - INR (length x1) * INR (length B) - INR k * INR (length B))
      with (idx f + INR j * (INR (length B) / rate f) - (INR (length x1) + INR k) * INR (length B)) by ring.
    apply bigsum_ext. intros i Hi. f_equal. unfold recent at 2. destruct (Nat.leb_spec i k) as [D|D].
    + unfold recent. destruct (Nat.leb_spec i (length x1 + k)); [|lia]. rewrite app_nth2 by lia. f_equal. lia.
    + destruct A4 as [A4 A4']. rewrite A4' by lia. unfold recent. destruct (Nat.leb_spec i (length x1 + k)), (Nat.leb_spec (i - k) (length x1)); try lia.
      * rewrite app_nth1 by lia. f_equal. lia.
      * f_equal. lia.
  - rewrite app_nth1 by exact C. destruct (A5 j C) as (k & K1 & K2 & K3). rewrite K3.
    assert (Em : m = k) by (apply (Huniq m k (idx f + INR j * (INR (length B) / rate f))); assumption). subst m.
    apply bigsum_ext. intros i Hi. f_equal. unfold recent. destruct (Nat.leb_spec i k); [|reflexivity]. rewrite app_nth1 by lia. reflexivity.
Qed.
Print Assumptions C49_polyphase_continues.

(** One-sample calls at a rate of at most one half: never any output, nothing is kept; one
    call on the same samples does produce outputs. *)
Fixpoint one_by_one (B : list (list R)) (f : poly RO) (x : list R) : option (poly RO * list R) :=
  match x with
  | [] => Some (f, [])
  | v :: x' =>
      match filterR B f [v] with
      | Some (f1, Ok y) => match one_by_one B f1 x' with Some (f2, ys) => Some (f2, y ++ ys) | None => None end
      | _ => None
      end
  end.

Theorem C52_polyphase_chunks_refuted (cc : nat) (B : list (list R)) (f : poly RO) :
  bank_ok cc B -> poly_ok cc B f -> 0 < rate f <= 1 / 2 ->
  (forall x, one_by_one B f x = Some (f, [])) /\
  (idx f = 0 -> forall x, 1 < 2 * (INR (length x) * rate f) ->
     exists f' y, filterR B f x = Some (f', Ok y) /\ y <> []).
Proof.
  intros HB Hf Hr. split.
  - induction x as [|v x IH]; [reflexivity|]. cbn [one_by_one].
    destruct (filter_spec cc B f [v] HB Hf) as (f' & ys & ii & G1 & _ & _ & _ & G3 & _ & _ & _ & _ & G7 & _); [lra|discriminate|].
    assert (H0 : rheR (INR (length [v]) * rate f) = 0%Z).
    { cbn [length INR]. rewrite Rmult_1_l. apply Z.le_antisymm; [|apply rheR_nonneg; lra]. apply rheR_le; [cbn; lra|left; reflexivity]. }
    destruct (G7 H0) as [-> _]. rewrite H0 in G3. assert (ys = []) by (destruct ys; [reflexivity|cbn [length] in G3; lia]). subst ys.
    rewrite G1, IH. reflexivity.
  - intros H0 x Hx. assert (Hne : x <> []) by (intros C; subst x; cbn in Hx; lra).
    destruct (filter_spec cc B f x HB Hf) as (f' & ys & ii & G1 & _); [lra|exact Hne|]. exists f', ys. split; [exact G1|].
    destruct (C50_polyphase_count cc B f f' x ys HB Hf ltac:(lra) Hne G1) as [_ Hc]. specialize (Hc H0). intros C. subst ys. cbn [length Z.of_nat] in Hc.
    destruct (rheR_spec (INR (length x) * rate f)) as [A _]. rewrite <- Hc in A. rewrite Rminus_0_l, Rabs_Ropp in A.
    pose proof (Rle_abs (INR (length x) * rate f)). lra.
Qed.
Print Assumptions C52_polyphase_chunks_refuted.
Example C52_example : exists f, @poly_make RO (length B_ex) 2 (1 / 3) = Ok f /\ poly_ok 2 B_ex f /\ 0 < rate f <= 1 / 2 /\
  idx f = 0 /\ 1 < 2 * (INR (length [5; 5]) * rate f).
Proof.
  unfold poly_make. replace (prate_bad (length B_ex) (1 / 3)) with false by (symmetry; apply prate_bad_iff; cbn; lra).
  eexists. split; [reflexivity|]. unfold poly_ok, idx, rate, st. cbn. repeat split; lra.
Qed.

Example C52_loses_example : IZR (rheR (INR 4 * (1 / 3))) < INR 4 * (1 / 3).
Proof.
  assert (E : rheR (INR 4 * (1 / 3)) = 1%Z).
  { apply rheR_unique; cbn [INR]; rewrite Rabs_left by lra; [lra|intros; lra]. }
  rewrite E. cbn [INR]. lra.
Qed.
