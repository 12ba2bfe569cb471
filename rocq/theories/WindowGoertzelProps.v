(** Property C164: GoertzelFilter with the weights of a WindowFilter, as in the example of
    goertzel_filter.py:38-46 (window_filter.py:68-88, goertzel_filter.py:76-127). *)
From Coq Require Import List Arith ZArith Lia Bool Reals Lra String.
From Coquelicot Require Import Complex.
From Verif Require Import Base BaseLemmas PyString Instances Sums FirModel IirModel CalculusModel CalculusProps WindowModel WindowProps GoertzelModel GoertzelProps DftModel DftProofs GoertzelToneProps.
Import ListNotations.
Set Asymmetric Patterns.
Close Scope nat_scope. Close Scope string_scope. Open Scope R_scope. Open Scope C_scope.

(** ** Specification *)
(** The contract of scipy's get_window for the two styles used here (C33). *)
Definition cosine_contract (gw : string -> nat -> list R) : Prop :=
  forall w n, In w ["hann"; "hamming"; "blackman"]%string -> gw w n = cosine_window w n.
(** The share of a tone [m] bins away that is left; a bin is 2 / order wide. *)
Definition lobe (style : string) (m : Z) : R :=
  if String.eqb style "Hann" then match Z.abs m with 0%Z => 1 | 1%Z => 1 / 2 | _ => 0 end
  else match Z.abs m with 0%Z => 1 | 1%Z => 25 / 42 | 2%Z => 2 / 21 | _ => 0 end.

(** ** Weights *)
Definition coefs (style : string) : R * R * R := if String.eqb style "Hann" then (1 / 2, 1 / 2, 0)%R else (42 / 100, 1 / 2, 8 / 100)%R.
Lemma point_coefs style a : In style ["Hann"; "Blackman"]%string -> cosine_point (py_lower style) a =
  (fst (fst (coefs style)) + snd (fst (coefs style)) * cos a + snd (coefs style) * cos (2 * a))%R.
Proof.
  intros [<-|[<-|[]]]; unfold coefs, cosine_point; cbn [String.eqb Ascii.eqb Bool.eqb fst snd].
  - change (String.eqb (py_lower "Hann") "hann") with true. cbv iota. ring.
  - change (String.eqb (py_lower "Blackman") "hann") with false. change (String.eqb (py_lower "Blackman") "hamming") with false. cbv iota. ring.
Qed.
Lemma cos_RtoC_root M (n : nat) (c : Z) : RtoC (cos (2 * PI * IZR (c * Z.of_nat n) / INR M)) =
  (root M (c * Z.of_nat n) + root M (- c * Z.of_nat n)) / RtoC 2.
Proof.
  rewrite cos_cis. unfold root. do 3 f_equal. rewrite !mult_IZR, opp_IZR. unfold Rdiv. ring.
Qed.
Lemma cos_angle M n : (0 < M)%nat -> cos (cosine_angle (S M) n) = (- cos (2 * PI * IZR (1 * Z.of_nat n) / INR M))%R /\
  cos (2 * cosine_angle (S M) n) = cos (2 * PI * IZR (2 * Z.of_nat n) / INR M).
Proof.
  intros HM. assert (HI : (0 < INR M)%R) by (apply lt_0_INR; exact HM). unfold cosine_angle. replace (S M - 1)%nat with M by lia. split.
  - rewrite Z.mul_1_l, <- INR_IZR_INZ. replace (- PI + 2 * PI * INR n / INR M)%R with (2 * PI * INR n / INR M - PI)%R by ring.
    rewrite cos_minus, cos_PI, sin_PI. ring.
  - rewrite mult_IZR, <- INR_IZR_INZ.
    replace (2 * (- PI + 2 * PI * INR n / INR M))%R with (2 * PI * (2 * INR n) / INR M + 2 * IZR (-1) * PI)%R by (cbn; field; lra).
    rewrite cos_plus. replace (2 * IZR (-1) * PI)%R with (- (2 * PI))%R by ring. rewrite cos_neg, sin_neg, cos_2PI, sin_2PI. ring.
Qed.
Lemma two_C : RtoC 2 = RtoC 1 + RtoC 1. Proof. rewrite <- RtoC_plus. reflexivity. Qed.

(** The spectrum of the window at whole bins. *)
Lemma window_bins (style : string) (M : nat) (k : R) (m : Z) : In style ["Hann"; "Blackman"]%string -> (Z.abs m + 2 < Z.of_nat M)%Z ->
  kernel (map RtoC (map (fun v => (v * k)%R) (cosine_window (py_lower style) (S M)))) (2 * IZR m / INR M) =
  RtoC (k * INR M * (let '(a0, a1, a2) := coefs style in
    match Z.abs m with 0%Z => a0 | 1%Z => - a1 / 2 | 2%Z => a2 / 2 | _ => 0 end))%R.
Proof.
  intros Hs Hm. assert (HM : (2 < M)%nat) by lia. assert (HI : (0 < INR M)%R) by (apply lt_0_INR; lia).
  assert (H2 : RtoC 2 <> 0) by (intros C; apply RtoC_inj in C; lra).
  unfold kernel. rewrite !map_length, cosine_window_length.
  unfold cosine_window. destruct (Nat.leb_spec (S M) 1); [lia|].
  pose proof (point_coefs style) as Hp. destruct (coefs style) as [[a0 a1] a2] eqn:Ec. cbn [fst snd] in Hp.
  assert (Hn : forall n, (n < S M)%nat -> nth n (map RtoC (map (fun v => (v * k)%R) (map (fun i => cosine_point (py_lower style) (cosine_angle (S M) i)) (seq 0 (S M))))) 0 =
    RtoC k * (RtoC a0 - RtoC a1 * ((root M (1 * Z.of_nat n) + root M (- (1) * Z.of_nat n)) / RtoC 2) + RtoC a2 * ((root M (2 * Z.of_nat n) + root M (- (2) * Z.of_nat n)) / RtoC 2))).
  { intros n Hn. rewrite !map_map. rewrite (nth_gen (fun i => RtoC (cosine_point (py_lower style) (cosine_angle (S M) i) * k))) by exact Hn.
    rewrite (Hp _ Hs). destruct (cos_angle M n ltac:(lia)) as (E1 & E2). rewrite E1, E2, <- !cos_RtoC_root.
    rewrite !RtoC_mult, !RtoC_plus, !RtoC_mult, RtoC_opp. ring. }
  cbn [csumn].
  assert (Hend : nth M (map RtoC (map (fun v => (v * k)%R) (map (fun i => cosine_point (py_lower style) (cosine_angle (S M) i)) (seq 0 (S M))))) 0 = 0).
  { rewrite Hn by lia.
    assert (Hr : forall c, root M (c * Z.of_nat M) = 1).
    { intros c. rewrite <- (root_0 M). rewrite <- (root_period M 0 c) by lia. f_equal. ring. }
    rewrite !Hr. clear - Ec Hs H2.
    assert (E : (a0 - a1 + a2 = 0)%R) by (destruct Hs as [<-|[<-|[]]]; unfold coefs in Ec; cbn [String.eqb Ascii.eqb Bool.eqb] in Ec; injection Ec as <- <- <-; field).
    assert (E2 : (1 + 1) / RtoC 2 = 1) by (rewrite <- two_C; unfold Cdiv; apply Cinv_r, H2). rewrite !E2.
    transitivity (RtoC k * RtoC (a0 - a1 + a2)); [rewrite RtoC_plus, RtoC_minus; ring|rewrite E; ring]. }
  rewrite Hend, Cmult_0_l, Cplus_0_r.
  rewrite (csumn_ext M _ (fun n => RtoC k * RtoC a0 * root M (Z.of_nat n * m) - RtoC k * RtoC a1 / RtoC 2 * root M (Z.of_nat n * (m + 1))
     - RtoC k * RtoC a1 / RtoC 2 * root M (Z.of_nat n * (m - 1)) + RtoC k * RtoC a2 / RtoC 2 * root M (Z.of_nat n * (m + 2)) + RtoC k * RtoC a2 / RtoC 2 * root M (Z.of_nat n * (m - 2)))).
  2: { intros n Hlt. rewrite Hn by lia.
    replace (cis (PI * (2 * IZR m / INR M) * INR n)) with (root M (Z.of_nat n * m)).
    2: { unfold root. f_equal. rewrite mult_IZR, <- INR_IZR_INZ. field. lra. }
    replace (Z.of_nat n * (m + 1))%Z with (Z.of_nat n * m + 1 * Z.of_nat n)%Z by ring.
    replace (Z.of_nat n * (m - 1))%Z with (Z.of_nat n * m + - (1) * Z.of_nat n)%Z by ring.
    replace (Z.of_nat n * (m + 2))%Z with (Z.of_nat n * m + 2 * Z.of_nat n)%Z by ring.
    replace (Z.of_nat n * (m - 2))%Z with (Z.of_nat n * m + - (2) * Z.of_nat n)%Z by ring.
    rewrite !root_add. field. exact H2. }
  rewrite !csumn_add. unfold Cminus at 1 2. rewrite !csumn_add.
  assert (Hneg : forall f : nat -> C, csumn M (fun i => - f i) = - csumn M f).
  { intros f. rewrite (csumn_ext M _ (fun i => - (1) * f i)) by (intros; ring). rewrite csumn_scal. ring. }
  rewrite !Hneg, !csumn_scal, !orth by lia.
  assert (Hc : (m = 0 \/ m = 1 \/ m = -1 \/ m = 2 \/ m = -2 \/ 3 <= Z.abs m)%Z) by lia.
  destruct Hc as [->|[->|[->|[->|[->|Hc]]]]].
  1-5: cbn [Z.eqb Z.add Z.sub Z.opp Pos.add Pos.eqb Z.pos_sub Z.double Pos.pred_double Z.abs Pos.succ];
    rewrite ?RtoC_mult; unfold Rdiv; rewrite ?RtoC_mult, ?RtoC_opp; rewrite ?RtoC_inv by lra; field; exact H2.
  destruct (Z.eqb_spec m 0); [lia|]. destruct (Z.eqb_spec (m + 1) 0); [lia|]. destruct (Z.eqb_spec (m - 1) 0); [lia|].
  destruct (Z.eqb_spec (m + 2) 0); [lia|]. destruct (Z.eqb_spec (m - 2) 0); [lia|].
  destruct (Z.abs m) as [|[p|p|]|p] eqn:Ea; try lia; [|destruct p; try lia];
  rewrite Rmult_0_r; ring.
Qed.

(** All three cosine windows are non-negative. *)
Lemma point_nonneg w a : In w ["hann"; "hamming"; "blackman"]%string -> (0 <= cosine_point w a)%R.
Proof.
  pose proof (COS_bound a) as [C1 C2]. intros [<-|[<-|[<-|[]]]]; unfold cosine_point; cbn [String.eqb Ascii.eqb Bool.eqb].
  - lra. - lra. - rewrite cos_2a_cos. nra.
Qed.
Lemma window_nonneg w n : In w ["hann"; "hamming"; "blackman"]%string -> Forall (fun v => (0 <= v)%R) (cosine_window w n).
Proof.
  intros Hw. apply Forall_forall. intros v Hv. unfold cosine_window in Hv. destruct (n <=? 1)%nat.
  - apply repeat_spec in Hv. subst v. lra.
  - apply in_map_iff in Hv. destruct Hv as (i & <- & _). apply point_nonneg, Hw.
Qed.
Lemma csum_list (b : list R) : csumn (length (map RtoC b)) (fun n => nth n (map RtoC b) 0) = RtoC (fold_right Rplus 0%R b).
Proof.
  rewrite map_length. rewrite (csumn_ext _ _ (fun n => RtoC (nth n b 0%R))).
  - rewrite csumn_RtoC. f_equal. rewrite <- bigsum_rsum. etransitivity; [symmetry; apply (law_sum RA_laws b)|apply sum_RA].
  - intros n Hn. rewrite nth_map_lt with (d := 0%R) by exact Hn. reflexivity.
Qed.
Lemma fold_nonneg (b : list R) : Forall (fun v => (0 <= v)%R) b -> fold_right Rplus 0%R (map Rabs b) = fold_right Rplus 0%R b.
Proof. induction 1 as [|v b Hv _ IH]; [reflexivity|]. cbn. rewrite IH, Rabs_pos_eq by exact Hv. reflexivity. Qed.

(** Every normalised window is accepted by GoertzelFilter. *)
Lemma weights_report (b : list R) (f : R) cplx (x : list C) : mean_magnitude b = 1%R -> (-1 <= f <= 1)%R -> x <> [] ->
  exists y, reports (map RtoC b) f cplx x y /\ length y = (length x / length b)%nat.
Proof.
  intros Hm Hf Hx. assert (Hb : b <> []) by (intros ->; unfold mean_magnitude in Hm; cbn in Hm; unfold Rdiv in Hm; lra).
  assert (Hn : (0 < INR (length b))%R) by (apply lt_0_INR; destruct b; [congruence|cbn; lia]).
  assert (Hc : forallb isclose0C (map RtoC b) = false).
  { destruct (forallb isclose0C (map RtoC b)) eqn:E; [|reflexivity]. exfalso. rewrite forallb_forall in E.
    assert (B : forall l : list R, (forall v, In v l -> (Rabs v <= 1 / 100000000)%R) -> (fold_right Rplus 0 (map Rabs l) <= INR (length l) * (1 / 100000000))%R).
    { induction l as [|v l IH]; intros H; [cbn; lra|]. cbn [map fold_right Datatypes.length]. rewrite S_INR.
      specialize (IH (fun u Hu => H u (or_intror Hu))). specialize (H v (or_introl eq_refl)). lra. }
    specialize (B b). unfold mean_magnitude in Hm.
    assert (B' : (fold_right Rplus 0 (map Rabs b) <= INR (length b) * (1 / 100000000))%R).
    { apply B. intros v Hv. specialize (E (RtoC v) (in_map RtoC b v Hv)). unfold isclose0C in E. apply Rleb_iff in E. rewrite Cmod_R in E. exact E. }
    apply (f_equal (fun r => (r * INR (length b))%R)) in Hm. unfold Rdiv in Hm. rewrite Rmult_assoc, Rinv_l in Hm by lra. lra. }
  assert (E : exists g, @goertzel_make CA cos2C exnC isclose0C (map RtoC b) f = Ok g).
  { unfold goertzel_make. set (cl := forallb _ _). assert (Ecl : cl = false) by exact Hc. rewrite Ecl. clear cl Ecl.
    rewrite map_length. destruct (Nat.eqb_spec (length b) 0) as [C|_]; [destruct b; [congruence|discriminate C]|].
    cbn [orb]. unfold freq_bad. destruct (Rltb f (-1)) eqn:E1; [apply Rltb_iff in E1; lra|].
    destruct (Rltb 1 f) eqn:E2; [apply Rltb_iff in E2; lra|]. cbn [orb].
    unfold iir_make. cbn [els adt Datatypes.length]. change (@zero CA) with (RtoC 0).
    assert (E0 : eqb (RtoC 0 : CA) (RtoC 0) = true) by (apply (law_eqb CA_laws); reflexivity).
    cbn [pad app Datatypes.length Nat.max Nat.sub zeros repeat els adt Nat.ltb Nat.leb]. rewrite E0. eexists. reflexivity. }
  destruct E as (g & E). destruct (C34_goertzel_block_dft _ x f g cplx E Hx) as (g' & y & F & Ly & _). rewrite map_length in Ly.
  exists y. split; [exists g, g'; split; assumption|exact Ly].
Qed.

(** ** A tone at the frequency of the filter is reported as it is *)
(** For every window with non-negative points that are not all zero, built with
    normalisation: the value of a block is the last sample of the block. *)
Theorem C164_matched_exact (gw : string -> nat -> list R) (style : string) (order : Z) (b : list R) (f : R) (A : C) (L : nat) (y : list C) :
  @window_sized RO gw -> @window_make RO gw style order true = Ok b ->
  let raw := gw (py_lower (py_title style)) (Z.to_nat (order + 1)) in
  Forall (fun v => (0 <= v)%R) raw -> ~ Forall (fun v => v = 0%R) raw ->
  reports (map RtoC b) f true (ctone A f L) y ->
  length y = (L / Z.to_nat (order + 1))%nat /\
  forall k, (k < length y)%nat -> nth k y (RtoC 0) = nth (k * Z.to_nat (order + 1) + Z.to_nat order) (ctone A f L) 0.
Proof.
  intros Hsz E raw Hp Hnz H. destruct (C33_window_mean_one gw style order b Hsz E Hnz) as (Hm & Hl & c & Hc & Eb).
  destruct (reports_nth _ _ _ _ _ H) as (Hw & _). destruct (C162_complex_tone _ _ _ _ _ _ H) as (Ly & _).
  rewrite map_length, (Hl : @Datatypes.length R b = _) in Ly. split; [exact Ly|]. intros k Hk. rewrite (C162_matched _ _ _ _ _ H k Hk). rewrite csum_list, map_length, (Hl : @Datatypes.length R b = _).
  assert (Ho : (0 <= order)%Z).
  { unfold window_make in E. destruct (negb _); [discriminate|]. destruct (Z.ltb_spec order 0); [discriminate|assumption]. }
  assert (HN : (0 < INR (Z.to_nat (order + 1)))%R) by (apply lt_0_INR; lia).
  assert (Hb : Forall (fun v => (0 <= v)%R) b).
  { rewrite Eb. apply Forall_forall. intros v Hv. apply in_map_iff in Hv. destruct Hv as (u & <- & Hu).
    apply Rmult_le_pos; [|lra]. rewrite Forall_forall in Hp. apply Hp, Hu. }
  unfold mean_magnitude in Hm. rewrite (fold_nonneg b Hb), (Hl : @Datatypes.length R b = _) in Hm.
  assert (Hf : fold_right Rplus 0%R b = INR (Z.to_nat (order + 1))).
  { apply (f_equal (fun r => (r * INR (Z.to_nat (order + 1)))%R)) in Hm. field_simplify in Hm; lra. }
  rewrite Hf. replace (Z.to_nat (order + 1) - 1)%nat with (Z.to_nat order) by lia. unfold Cdiv. rewrite Cinv_r by (intros C; apply RtoC_inj in C; lra). ring.
Qed.
Print Assumptions C164_matched_exact.
(** Hann and Blackman from order 2, Hamming from order 0 meet the hypotheses. *)
Example C164_matched_example (gw : string -> nat -> list R) : cosine_contract gw ->
  let raw := gw (py_lower (py_title "hANN")) (Z.to_nat (8 + 1)) in
  (exists b, @window_make RO gw "hANN" 8 true = Ok b) /\ Forall (fun v => (0 <= v)%R) raw /\ ~ Forall (fun v => v = 0%R) raw.
Proof.
  intros Hg. cbv zeta. change (py_lower (py_title "hANN")) with "hann"%string. rewrite Hg by (cbn; tauto). split; [eexists; reflexivity|]. split.
  - apply window_nonneg. cbn. tauto.
  - intros H. apply (zero_windows (Z.to_nat (8 + 1)) ltac:(cbn; lia)) in H. discriminate H.
Qed.

(** ** Tones whole bins away *)
Theorem C164_bins (gw : string -> nat -> list R) (style : string) (order : Z) (b : list R) (m : Z) (f : R) (A : C) (L : nat) (y : list C) :
  cosine_contract gw -> In (py_title style) ["Hann"; "Blackman"]%string -> @window_make RO gw style order true = Ok b ->
  (Z.abs m + 2 < order)%Z -> reports (map RtoC b) f true (ctone A (f + 2 * IZR m / IZR order) L) y ->
  Forall (fun v => Cmod v = (Cmod A * lobe (py_title style) m)%R) y.
Proof.
  intros Hg Hs E Hm H. set (M := Z.to_nat order). assert (HM : Z.of_nat M = order) by (unfold M; lia).
  assert (HMI : IZR order = INR M) by (rewrite INR_IZR_INZ, HM; reflexivity).
  assert (EN : Z.to_nat (order + 1) = S M) by lia.
  set (raw := cosine_window (py_lower (py_title style)) (S M)).
  assert (Hin : In (py_lower (py_title style)) ["hann"; "hamming"; "blackman"]%string) by (destruct Hs as [<-|[<-|[]]]; cbn; tauto).
  assert (HI : (0 < INR M)%R) by (apply lt_0_INR; lia).
  set (a0 := fst (fst (coefs (py_title style)))).
  assert (Ha0 : (0 < a0)%R) by (unfold a0, coefs; destruct (String.eqb _ _); cbn; lra).
  (* the sum of the raw window is its spectrum at zero *)
  assert (Hsum : fold_right Rplus 0%R (map Rabs raw) = (INR M * a0)%R).
  { rewrite (fold_nonneg raw (window_nonneg _ _ Hin)). apply RtoC_inj. rewrite <- csum_list, <- kernel_zero.
    pose proof (window_bins (py_title style) M 1 0 Hs ltac:(lia)) as K. replace (2 * 0 / INR M)%R with 0%R in K by (unfold Rdiv; ring).
    fold raw in K. rewrite (map_ext _ (fun v => v)) in K by (intros; ring). rewrite map_id in K. rewrite K. cbn [Z.abs]. unfold a0.
    destruct (coefs (py_title style)) as [[c0 c1] c2]. cbn [fst]. f_equal. ring. }
  assert (Eb : b = map (fun v => (v * (INR (S M) / (INR M * a0)))%R) raw).
  { unfold window_make in E. destruct (negb _); [discriminate|]. destruct (Z.ltb_spec order 0); [discriminate|].
    injection E as E. rewrite EN, (Hg _ _ Hin) in E. fold raw in E. rewrite <- E. unfold window_normal. apply map_ext. intros v.
    cbn [mul RO oa RA]. f_equal. cbn [div RA oa RO]. f_equal.
    - etransitivity; [apply of_Z_IZR|]. rewrite INR_IZR_INZ. f_equal. lia.
    - etransitivity; [apply sum_RA|exact Hsum]. }
  destruct (reports_nth _ _ _ _ _ H) as (Hw & _). destruct (C162_complex_tone _ _ _ _ _ _ H) as (Ly & Hy).
  assert (Lb : length (map RtoC b) = S M) by (rewrite map_length, Eb, map_length; apply cosine_window_length).
  apply Forall_nth. intros k d Hk. rewrite (nth_indep _ d (RtoC 0) Hk), (Hy k Hk). rewrite Lb.
  replace (f + 2 * IZR m / IZR order - f)%R with (2 * IZR m / INR M)%R by (rewrite HMI; ring).
  assert (HS : (0 < INR (S M))%R) by (apply lt_0_INR; lia).
  rewrite Eb. unfold raw. rewrite window_bins by (try assumption; lia).
  rewrite Cmod_div by (intros C; apply RtoC_inj in C; lra). rewrite !Cmod_mult, !Cmod_cis, !Cmod_R, (Rabs_pos_eq (INR (S M))) by lra.
  replace (INR (S M) / (INR M * a0) * INR M)%R with (INR (S M) / a0)%R by (field; lra).
  rewrite Rabs_mult, (Rabs_pos_eq (INR (S M) / a0)) by (apply Rlt_le, Rdiv_lt_0_compat; lra).
  assert (V : (Rabs (let '(c0, c1, c2) := coefs (py_title style) in match Z.abs m with 0%Z => c0 | 1%Z => - c1 / 2 | 2%Z => c2 / 2 | _ => 0 end) = a0 * lobe (py_title style) m)%R).
  { unfold a0, lobe, coefs. destruct Hs as [<-|[<-|[]]]; cbn [String.eqb Ascii.eqb Bool.eqb fst snd];
      destruct (Z.abs m) as [|[p|[p|p|]|]|p]; try (rewrite Rabs_R0; ring);
      first [rewrite Rabs_pos_eq by lra; field | rewrite Rabs_left1 by lra; field]. }
  rewrite V. field. lra.
Qed.
Print Assumptions C164_bins.
(** The window of the documentation's example has 129 points. *)
Definition scipy_window (w : string) (n : nat) : list R := if String.eqb w "kaiser" then repeat 1%R n else cosine_window w n.
Lemma scipy_sized : @window_sized RO scipy_window.
Proof. intros w n. unfold scipy_window. destruct (String.eqb w "kaiser"); [apply repeat_length|apply cosine_window_length]. Qed.
Lemma scipy_cosine : cosine_contract scipy_window.
Proof. intros w n [<-|[<-|[<-|[]]]]; reflexivity. Qed.
Example C164_bins_example : (Z.abs 3 + 2 < 128)%Z /\ lobe "Hann" 3 = 0%R /\
  exists b y, @window_make RO scipy_window "Hann" 128 true = Ok b /\
    reports (map RtoC b) (1 / 10) true (ctone (RtoC 3) (1 / 10 + 2 * IZR 3 / IZR 128) 1024) y /\ length y = 7%nat.
Proof.
  split; [lia|]. split; [reflexivity|].
  assert (E : exists b, @window_make RO scipy_window "Hann" 128 true = Ok b) by (eexists; reflexivity). destruct E as (b & E). exists b.
  destruct (C33_window_mean_one scipy_window "Hann" 128 b scipy_sized E) as (Hm & Hl & _).
  { change (py_lower (py_title "Hann")) with "hann"%string. intros H. apply (zero_windows (Z.to_nat (128 + 1)) ltac:(lia)) in H. lia. }
  destruct (weights_report b (1 / 10) true (ctone (RtoC 3) (1 / 10 + 2 * IZR 3 / IZR 128) 1024) Hm) as (y & H & Ly); [lra|discriminate|].
  exists y. split; [exact E|]. split; [exact H|]. rewrite Ly, length_ctone, (Hl : @Datatypes.length R b = _). reflexivity.
Qed.

(** ** Refuted: N = 2 / R, the resolution is two over the number of weights *)
(** With five Hann weights a tone two such steps (2 * 2 / 5) away is not rejected, although
    two steps of 2 / 4 would be. *)
Theorem C164_resolution_refuted (A : C) (L : nat) : (5 <= L)%nat -> A <> 0 ->
  exists b y, @window_make RO scipy_window "Hann" 4 true = Ok b /\ length b = 5%nat /\
    reports (map RtoC b) 0 true (ctone A (0 + 2 * IZR 2 / INR 5) L) y /\ nth 0 y (RtoC 0) <> 0.
Proof.
  intros HL HA. assert (E : exists b, @window_make RO scipy_window "Hann" 4 true = Ok b) by (eexists; reflexivity). destruct E as (b & E).
  destruct (C33_window_mean_one scipy_window "Hann" 4 b scipy_sized E) as (Hm & Hl & c & Hc & Eb).
  { change (py_lower (py_title "Hann")) with "hann"%string. intros H. apply (zero_windows (Z.to_nat (4 + 1)) ltac:(cbn; lia)) in H. discriminate H. }
  change (Z.to_nat (4 + 1)) with 5%nat in *. change (py_lower (py_title "Hann")) with "hann"%string in *.
  destruct (weights_report b 0 true (ctone A (0 + 2 * IZR 2 / INR 5) L) Hm) as (y & H & Ly); [lra|destruct L; [lia|discriminate]|].
  exists b, y. split; [exact E|]. split; [exact Hl|]. split; [exact H|].
  destruct (C162_complex_tone _ _ _ _ _ _ H) as (_ & Hy). rewrite length_ctone, (Hl : @Datatypes.length R b = _) in Ly.
  assert (H0 : (0 < length y)%nat) by (rewrite Ly; apply Nat.div_str_pos; lia). rewrite (Hy 0%nat H0).
  rewrite map_length, (Hl : @Datatypes.length R b = _).
  assert (K : kernel (map RtoC b) (0 + 2 * IZR 2 / INR 5 - 0) = RtoC c * (cis (8 * PI / 5) * RtoC (1 + cos (4 * PI / 5)))).
  { rewrite Eb. unfold scipy_window. cbn [String.eqb Ascii.eqb Bool.eqb]. unfold cosine_window. cbn [Nat.leb seq map].
    unfold cosine_point. cbn [String.eqb Ascii.eqb Bool.eqb]. unfold cosine_angle. cbn [Nat.sub INR].
    replace (- PI + 2 * PI * 0 / (1 + 1 + 1 + 1))%R with (- PI)%R by field.
    replace (- PI + 2 * PI * 1 / (1 + 1 + 1 + 1))%R with (- (PI / 2))%R by field.
    replace (- PI + 2 * PI * (1 + 1) / (1 + 1 + 1 + 1))%R with 0%R by field.
    replace (- PI + 2 * PI * (1 + 1 + 1) / (1 + 1 + 1 + 1))%R with (PI / 2)%R by field.
    replace (- PI + 2 * PI * (1 + 1 + 1 + 1) / (1 + 1 + 1 + 1))%R with PI by field.
    rewrite !cos_neg, cos_PI, cos_PI2, cos_0. unfold kernel. cbn [Datatypes.length csumn nth INR].
    replace (PI * (0 + 2 * 2 / (1 + 1 + 1 + 1 + 1) - 0) * 1)%R with (8 * PI / 5 + - (4 * PI / 5))%R by field.
    replace (PI * (0 + 2 * 2 / (1 + 1 + 1 + 1 + 1) - 0) * (1 + 1))%R with (8 * PI / 5)%R by field.
    replace (PI * (0 + 2 * 2 / (1 + 1 + 1 + 1 + 1) - 0) * (1 + 1 + 1))%R with (8 * PI / 5 + 4 * PI / 5)%R by field.
    rewrite !cis_add, RtoC_plus, cos_cis.
    replace (1 / 2 + 1 / 2 * -1)%R with 0%R by field. replace (1 / 2 + 1 / 2 * 0)%R with (/ 2)%R by field. replace (1 / 2 + 1 / 2 * 1)%R with 1%R by field.
    rewrite !RtoC_mult, RtoC_inv by lra. field. intros C. apply RtoC_inj in C. lra. }
  rewrite K. assert (Hcos : (-1 < cos (4 * PI / 5))%R).
  { pose proof PI_RGT_0. rewrite <- cos_PI. apply cos_decreasing_1; lra. }
  assert (H5 : RtoC (INR 5) <> 0) by (intros C; apply RtoC_inj in C; cbn in C; lra).
  unfold Cdiv. repeat apply Cmult_neq_0; try apply cis_neq_0; try exact HA.
  - intros C. apply RtoC_inj in C. lra.
  - intros C. apply RtoC_inj in C. lra.
  - intros C. apply H5. transitivity (RtoC (INR 5) * (RtoC (INR 5) * / RtoC (INR 5))); [rewrite Cinv_r by exact H5; ring|rewrite C; ring].
Qed.
Print Assumptions C164_resolution_refuted.
Example C164_refuted_example : (5 <= 20)%nat /\ RtoC 3 <> 0.
Proof. split; [lia|]. intros C. apply RtoC_inj in C. lra. Qed.
