(** Property C127: IirFilter.delay. *)
From Coq Require Import String List Arith ZArith Bool Reals Lra Lia.
From Coquelicot Require Import Complex.
From Verif Require Import Base BaseLemmas PyString Instances FirModel FirDesignProofs IirModel PolyC ZModel ZProofs IirDesignProofs AnalysisModel AnalysisProofs AnalysisProps.
Import ListNotations.
Set Asymmetric Patterns.
Open Scope R_scope.

(** ** Specification *)
(** y is u, or u with every magnitude replaced by the smallest one; the latter exactly if
    the largest magnitude is more than ten times the smallest. *)
Definition levelled (u y : list R) : Prop :=
  exists m, In m (map Rabs u) /\ (forall x, In x u -> m <= Rabs x) /\
    (((forall x, In x u -> Rabs x <= 10 * m) /\ y = u) \/
     ((exists x, In x u /\ 10 * m < Rabs x) /\ Forall2 (fun x v => Rabs v = m /\ 0 <= x * v) u y)).

(** ** Lemmas *)
Lemma least_spec y : y <> [] -> In (least y) (map Rabs y) /\ forall x, In x y -> least y <= Rabs x.
Proof.
  destruct y as [|v r]; [congruence|]. intros _. unfold least.
  assert (G : forall r m, let r' := fold_left (fun m v => Rmin m (Rabs v)) r m in
    (r' = m \/ In r' (map Rabs r)) /\ r' <= m /\ forall x, In x r -> r' <= Rabs x).
  { clear. induction r as [|a r IH]; intros m; cbn [fold_left map In]; [split; [left; reflexivity|]; split; [lra|intros x []]|].
    destruct (IH (Rmin m (Rabs a))) as (H1 & H2 & H3). pose proof (Rmin_l m (Rabs a)). pose proof (Rmin_r m (Rabs a)).
    split; [|split; [lra|]].
    - destruct H1 as [H1|H1]; [|right; right; exact H1]. rewrite H1. unfold Rmin. destruct (Rle_dec m (Rabs a)); [left; reflexivity|right; left; reflexivity].
    - intros x [<-|Hx]; [lra|apply H3, Hx]. }
  destruct (G r (Rabs v)) as (H1 & H2 & H3). split.
  - cbn [map In]. destruct H1 as [H1|H1]; [left; symmetry; exact H1|right; exact H1].
  - intros x [<-|Hx]; [exact H2|apply H3, Hx].
Qed.
Lemma most_spec y : y <> [] -> In (most y) (map Rabs y) /\ forall x, In x y -> Rabs x <= most y.
Proof.
  destruct y as [|v r]; [congruence|]. intros _. unfold most.
  assert (G : forall r m, let r' := fold_left (fun m v => Rmax m (Rabs v)) r m in
    (r' = m \/ In r' (map Rabs r)) /\ m <= r' /\ forall x, In x r -> Rabs x <= r').
  { clear. induction r as [|a r IH]; intros m; cbn [fold_left map In]; [split; [left; reflexivity|]; split; [lra|intros x []]|].
    destruct (IH (Rmax m (Rabs a))) as (H1 & H2 & H3). pose proof (Rmax_l m (Rabs a)). pose proof (Rmax_r m (Rabs a)).
    split; [|split; [lra|]].
    - destruct H1 as [H1|H1]; [|right; right; exact H1]. rewrite H1. unfold Rmax. destruct (Rle_dec m (Rabs a)); [right; left; reflexivity|left; reflexivity].
    - intros x [<-|Hx]; [lra|apply H3, Hx]. }
  destruct (G r (Rabs v)) as (H1 & H2 & H3). split.
  - cbn [map In]. destruct H1 as [H1|H1]; [left; symmetry; exact H1|right; exact H1].
  - intros x [<-|Hx]; [exact H2|apply H3, Hx].
Qed.
Lemma length_level_end y : length (level_end y) = length y.
Proof. unfold level_end. destruct (Rltb _ _); [apply map_length|reflexivity]. Qed.
Lemma level_end_spec y : y <> [] -> levelled y (level_end y).
Proof.
  intros N. destruct (least_spec y N) as [L1 L2]. destruct (most_spec y N) as [M1 M2]. exists (least y). split; [exact L1|]. split; [exact L2|].
  unfold level_end. destruct (Rltb (least y * 10) (most y)) eqn:E.
  - right. apply Rltb_iff in E. split.
    + apply in_map_iff in M1. destruct M1 as (x & Ex & Hx). exists x. split; [exact Hx|rewrite Ex; lra].
    + assert (P : 0 <= least y) by (apply in_map_iff in L1; destruct L1 as (x & <- & _); apply Rabs_pos).
      revert L2. generalize dependent (least y). intros m _ _ P L2. clear N M1 M2.
      induction y as [|x y IH]; cbn [map]; [constructor|]. constructor; [|apply IH; intros x' Hx'; apply L2; right; exact Hx'].
      specialize (L2 x (or_introl eq_refl)). unfold sign. destruct (Rltb 0 x) eqn:E1; [apply Rltb_iff in E1|].
      * rewrite Rmult_1_l, Rabs_pos_eq by exact P. split; [reflexivity|nra].
      * assert (~ 0 < x) by (intros Q; apply Rltb_iff in Q; congruence). destruct (Rltb x 0) eqn:E2; [apply Rltb_iff in E2|].
        -- replace (-1 * m) with (- m) by ring. rewrite Rabs_Ropp, Rabs_pos_eq by exact P. split; [reflexivity|nra].
        -- assert (~ x < 0) by (intros Q; apply Rltb_iff in Q; congruence). assert (x = 0) by lra. subst x. rewrite Rabs_R0 in L2.
           assert (m = 0) by lra. subst m. replace (0 * 0) with 0 by ring. rewrite Rabs_R0. split; [reflexivity|lra].
  - left. split; [|reflexivity]. intros x Hx. specialize (M2 x Hx).
    destruct (Rle_lt_dec (Rabs x) (10 * least y)) as [Q|Q]; [exact Q|]. exfalso.
    assert (Q2 : least y * 10 < most y) by lra. apply Rltb_iff in Q2. congruence.
Qed.

(** C127.  IirFilter.delay: the values r are count times the negative slope of the phase
    of the filter's response; for length > 6 the first six of r, and then the last six of
    the result, are levelled; everything else is returned as is. *)
Theorem C127_iir_delay singular tol (f : iir CA) (L c : Z) y ax : only_small singular tol ->
  iir_delay singular f L c = Ok (y, ax) ->
  let n := Z.to_nat L in
  (0 < c)%Z /\ length y = n /\ length ax = n /\
  exists r m, length r = n /\ length m = n /\
    (forall k, (k < n)%nat -> nth k ax 0 = -1 + 2 * INR k / IZR L /\
      let w := PI * sampled_at L (nth k ax 0) in
      iir_den (ia f) w <> RtoC 0 -> tol <= Cmod (fir_at (ib f) w) * Cmod (iir_den (ia f) w) ->
      exists t, phase_slope (iir_at (ia f) (ib f)) w t /\ nth k r 0 = IZR c * t) /\
    ((L <= 6)%Z -> y = r) /\
    ((6 < L)%Z -> levelled (firstn 6 r) (firstn 6 m) /\ skipn 6 m = skipn 6 r /\
      firstn (n - 6) y = firstn (n - 6) m /\ levelled (skipn (n - 6) m) (skipn (n - 6) y)).
Proof.
  intros Hs. unfold iir_delay. destruct (Z.leb_spec L 0) as [|HL]; [discriminate|]. destruct (Z.leb_spec c 0) as [|Hc]; [discriminate|].
  intros E. injection E as Ey Ex. cbv zeta. split; [exact Hc|].
  set (r := map (fun v => v * IZR c) (rotate_half (group_delay singular (ib f) (denominator (ia f)) (Z.to_nat L)))) in *.
  assert (Lr : length r = Z.to_nat L) by (unfold r, group_delay; rewrite map_length, length_rotate_half, map_length, length_unit_points; reflexivity).
  set (m := level_end (firstn 6 r) ++ skipn 6 r).
  assert (Lm : length m = Z.to_nat L) by (unfold m; rewrite app_length, length_level_end, firstn_length, skipn_length; lia).
  assert (Ly : length y = Z.to_nat L).
  { rewrite <- Ey. destruct (Z.ltb_spec 6 L); [|exact Lr]. unfold level_ends. fold m. rewrite app_length, length_level_end, firstn_length, skipn_length. lia. }
  split; [exact Ly|]. split; [rewrite <- Ex; apply length_linspace|]. exists r, m. split; [exact Lr|]. split; [exact Lm|]. split; [|split].
  - intros k Hk. destruct (axis_bin L k HL Hk) as [Ea Eb]. rewrite <- Ex, Ea. split; [reflexivity|]. cbv zeta. rewrite <- Eb. intros HA Hm.
    destruct (gd_bin singular tol (ib f) (denominator (ia f)) (Z.to_nat L) c k Hs Hk) as (t & P & V).
    + rewrite pe_denominator. exact HA.
    + rewrite pe_denominator. exact Hm.
    + exists t. split; [|exact V]. revert P. apply phase_slope_ext. intros u. rewrite pe_denominator. reflexivity.
  - intros H6. rewrite <- Ey. destruct (Z.ltb_spec 6 L); [lia|reflexivity].
  - intros H6. rewrite (proj2 (Z.ltb_lt 6 L) H6) in Ey. unfold level_ends in Ey. fold m in Ey. rewrite Lm in Ey.
    assert (Lf : length (level_end (firstn 6 r)) = 6%nat) by (rewrite length_level_end, firstn_length; lia).
    assert (Ff : firstn 6 m = level_end (firstn 6 r)) by (unfold m; rewrite firstn_app, Lf, firstn_all2 by lia; cbn [Nat.sub firstn]; apply app_nil_r).
    assert (Sf : skipn 6 m = skipn 6 r) by (unfold m; rewrite skipn_app, Lf, skipn_all2 by lia; reflexivity).
    assert (Lg : length (firstn (Z.to_nat L - 6) m) = (Z.to_nat L - 6)%nat) by (rewrite firstn_length; lia).
    split; [rewrite Ff; apply level_end_spec; intros Q; apply (f_equal (@length R)) in Q; rewrite firstn_length in Q; cbn [length] in Q; lia|].
    split; [exact Sf|]. rewrite <- Ey. split.
    + rewrite firstn_app, Lg, Nat.sub_diag. cbn [firstn]. rewrite app_nil_r, firstn_firstn. f_equal. lia.
    + rewrite skipn_app, Lg, Nat.sub_diag. rewrite (skipn_all2 (firstn _ m)) by lia. cbn [skipn app].
      apply level_end_spec. intros Q. apply (f_equal (@length R)) in Q. rewrite skipn_length in Q. cbn [length] in Q. lia.
Qed.
Print Assumptions C127_iir_delay.

(** The values between the two ends are the group delay. *)
Theorem C127_iir_delay_middle singular tol (f : iir CA) (L c : Z) y ax k : only_small singular tol ->
  iir_delay singular f L c = Ok (y, ax) -> (6 <= k)%nat -> (Z.of_nat k < L - 6)%Z ->
  let w := PI * sampled_at L (nth k ax 0) in
  nth k ax 0 = -1 + 2 * INR k / IZR L /\
  (iir_den (ia f) w <> RtoC 0 -> tol <= Cmod (fir_at (ib f) w) * Cmod (iir_den (ia f) w) ->
   exists t, phase_slope (iir_at (ia f) (ib f)) w t /\ nth k y 0 = IZR c * t).
Proof.
  intros Hs Hd Hk6 Hk. destruct (C127_iir_delay singular tol f L c y ax Hs Hd) as (_ & Ly & _ & r & m & Lr & Lm & V & _ & G).
  destruct (G ltac:(lia)) as (_ & Em & Ef & _). cbv zeta. destruct (V k ltac:(lia)) as [Ea W]. split; [exact Ea|]. intros HA Hm.
  destruct (W HA Hm) as (t & P & E). exists t. split; [exact P|]. rewrite <- E.
  transitivity (nth k m 0).
  - rewrite <- (firstn_skipn (Z.to_nat L - 6) y), <- (firstn_skipn (Z.to_nat L - 6) m), Ef. rewrite !app_nth1 by (rewrite firstn_length; lia). reflexivity.
  - rewrite <- (firstn_skipn 6 m), <- (firstn_skipn 6 r), Em. rewrite !app_nth2 by (rewrite firstn_length; lia). f_equal. rewrite !firstn_length. lia.
Qed.
Print Assumptions C127_iir_delay_middle.

Theorem C127_iir_delay_rejects singular (f : iir CA) (L c : Z) :
  ((0 < L)%Z /\ (0 < c)%Z -> exists y ax, iir_delay singular f L c = Ok (y, ax)) /\
  (~ ((0 < L)%Z /\ (0 < c)%Z) -> iir_delay singular f L c = Err ValueError).
Proof.
  unfold iir_delay. destruct (Z.leb_spec L 0); [split; [lia|reflexivity]|]. destruct (Z.leb_spec c 0); [split; [lia|reflexivity]|].
  split; [|lia]. intros _. do 2 eexists. reflexivity.
Qed.
Print Assumptions C127_iir_delay_rejects.

(** Witnesses: y[n] = y[n-1] / 2 + 2 x[n] + x[n-1]. *)
Definition half_iir : iir CA := mkIir DComplex [RtoC 0; RtoC (1 / 2)] [RtoC 2; RtoC 1] [RtoC 0; RtoC 0].
Lemma half_den w : 1 / 2 <= Cmod (iir_den [RtoC 0; RtoC (1 / 2)] w).
Proof.
  eapply Rle_trans; [|eapply Rle_trans; [apply Rmax_l|apply Rmax_Cmod]]. unfold iir_den. cbn [tl pe]. unfold cis. rewrite cos_neg. unfold Re, Cminus, Cplus, Cmult, Copp, RtoC. cbn [fst snd].
  pose proof (COS_bound w). eapply Rle_trans; [|apply Rle_abs]. lra.
Qed.
Example C127_example : exists y ax, only_small zero_test (1 / 2) /\ iir_delay zero_test half_iir 20 3 = Ok (y, ax) /\
  forall k, (k < 20)%nat -> let w := PI * sampled_at 20 (nth k ax 0) in
    iir_den (ia half_iir) w <> RtoC 0 /\ 1 / 2 <= Cmod (fir_at (ib half_iir) w) * Cmod (iir_den (ia half_iir) w).
Proof.
  do 2 eexists. split; [apply zero_test_small; lra|]. split; [reflexivity|]. intros k _. cbv zeta. generalize (PI * sampled_at 20 (nth k (linspace (-1) (1 - 2 / INR (Z.to_nat 20)) (Z.to_nat 20)) 0)). intros w.
  pose proof (half_den w) as D. pose proof (two_one_mod w) as B. unfold half_iir. cbn [ia ib]. split; [intros Q; rewrite Q, Cmod_0 in D; lra|]. nra.
Qed.

(** The claim that every bin holds the group delay fails in the ends. *)
Definition plain_iir : iir CA := mkIir DComplex [RtoC 0] [RtoC 2; RtoC 1] [RtoC 0; RtoC 0].
Lemma plain_at u : iir_at [RtoC 0] [RtoC 2; RtoC 1] u = fir_at [RtoC 2; RtoC 1] u.
Proof. unfold iir_at. cbn [tl]. change (pe [] (cis (- u))) with (RtoC 0). unfold fir_at, Cdiv. replace (RtoC 1 - cis (- u) * RtoC 0)%C with (RtoC 1) by ring. field. intros Q; apply RtoC_inj in Q; lra. Qed.
Lemma zero_magnitudes u v : Forall2 (fun x v => Rabs v = 0 /\ 0 <= x * v) u v -> Forall (fun v => v = 0) v.
Proof.
  intros Q. induction Q as [|x v1 u1 v2 [Q1 _] _ IH]; constructor; [|exact IH].
  destruct (Req_dec v1 0) as [Q0|Q0]; [exact Q0|]. apply Rabs_no_R0 in Q0. congruence.
Qed.
Theorem C127_iir_delay_ends_refuted : exists (f : iir CA) y ax,
  iir_delay zero_test f 12 1 = Ok (y, ax) /\
  1 <= Cmod (fir_at (ib f) (PI * sampled_at 12 (nth 0 ax 0))) /\ Cmod (iir_den (ia f) (PI * sampled_at 12 (nth 0 ax 0))) = 1 /\
  phase_slope (iir_at (ia f) (ib f)) (PI * sampled_at 12 (nth 0 ax 0)) (-1) /\ forall k, (k < 6)%nat -> nth k y 0 = 0.
Proof.
  exists plain_iir. do 2 eexists. split; [reflexivity|]. set (y := if (6 <? 12)%Z then _ else _). set (ax := linspace _ _ _).
  assert (S : only_small zero_test 1) by (apply zero_test_small; lra).
  assert (D : forall w, iir_den (ia plain_iir) w = RtoC 1) by (intros w; unfold iir_den, plain_iir; cbn [ia tl pe]; ring).
  assert (N : forall w, fir_at [RtoC 2; RtoC 1] w <> RtoC 0) by (intros w Q; pose proof (two_one_mod w) as M; rewrite Q, Cmod_0 in M; lra).
  destruct (C127_iir_delay zero_test 1 plain_iir 12 1 y ax S eq_refl) as (_ & Ly & _ & r & m & Lr & Lm & V & _ & G).
  change (Z.to_nat 12) with 12%nat in *.
  split; [apply two_one_mod|]. split; [rewrite D; apply Cmod_1|].
  assert (T : forall k, (k < 12)%nat -> nth k r 0 = (1 + 2 * cos (PI * (-1 + 2 * INR k / 12))) / (5 + 4 * cos (PI * (-1 + 2 * INR k / 12)))).
  { intros k Hk. destruct (V k Hk) as [Ea W]. cbv zeta in W.
    assert (Q : sampled_at 12 (nth k ax 0) = -1 + 2 * INR k / 12) by (rewrite Ea; unfold sampled_at; change (12 mod 2)%Z with 0%Z; lra). rewrite Q in W.
    destruct W as (t & P & ->); [rewrite D; intros X; apply RtoC_inj in X; lra|rewrite D, Cmod_1, Rmult_1_r; apply two_one_mod|].
    rewrite Rmult_1_l. apply (phase_slope_unique (fir_at [RtoC 2; RtoC 1]) (PI * (-1 + 2 * INR k / 12))); [apply N| |apply two_one_slope].
    revert P. apply phase_slope_ext. apply plain_at. }
  split.
  - apply (phase_slope_ext (fir_at [RtoC 2; RtoC 1])); [intros u; symmetry; apply plain_at|].
    destruct (V 0%nat ltac:(lia)) as [Ea _]. rewrite Ea. cbn [INR].
    set (w := PI * _). assert (Ew : cos w = -1).
    { unfold w, sampled_at. change (12 mod 2)%Z with 0%Z. replace (PI * (-1 + 2 * 0 / 12 - 0 / 12)) with (- PI) by field. rewrite cos_neg. apply cos_PI. }
    replace (-1) with ((1 + 2 * cos w) / (5 + 4 * cos w)) by (rewrite Ew; field). apply two_one_slope.
  - destruct (G ltac:(lia)) as (Lv & _ & Ef & _). change (12 - 6)%nat with 6%nat in Ef.
    assert (Z2 : nth 2 r 0 = 0).
    { rewrite T by lia. cbn [INR]. replace (PI * (-1 + 2 * (1 + 1) / 12)) with (- (2 * (PI / 3))) by field. rewrite cos_neg, cos_2PI3. field. }
    assert (Z0 : nth 0 r 0 = -1).
    { rewrite T by lia. cbn [INR]. replace (PI * (-1 + 2 * 0 / 12)) with (- PI) by field. rewrite cos_neg, cos_PI. field. }
    destruct r as [|r0 [|r1 [|r2 [|r3 [|r4 [|r5 r]]]]]]; try discriminate Lr. cbn [nth] in Z2, Z0. cbn [firstn] in Lv.
    destruct Lv as (mm & I & Lo & Q). assert (mm = 0).
    { apply in_map_iff in I. destruct I as (x & Ex & _). pose proof (Rabs_pos x). specialize (Lo r2 ltac:(cbn; tauto)). rewrite Z2, Rabs_R0 in Lo. lra. }
    subst mm. destruct Q as [[Q _]|[_ Q]].
    + exfalso. specialize (Q r0 ltac:(cbn; tauto)). rewrite Z0 in Q. rewrite Rabs_left in Q by lra. lra.
    + assert (Fz : Forall (fun v => v = 0) (firstn 6 m)).
      { apply (zero_magnitudes _ _ Q). }
      intros k Hk. rewrite <- (firstn_skipn 6 y). rewrite app_nth1 by (rewrite firstn_length; lia). rewrite Ef.
      apply (proj1 (Forall_forall _ _) Fz). apply nth_In. rewrite firstn_length. lia.
Qed.
Print Assumptions C127_iir_delay_ends_refuted.
