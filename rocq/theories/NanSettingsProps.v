(** Which doubles the adaptive filters accept as frequency and rate, and what a NaN setting
    does: it is accepted, and a single call with a NaN frequency leaves a
    ComplexBandpassFilter that no public member repairs. *)
From Flocq Require Import Core BinarySingleNaN PrimFloat.
From Coq Require Import List Arith ZArith Lia Bool Reals Lra Floats.
From Verif Require Import Base Instances CalculusModel CExpModel CExpDoubleProps DoubleSpec DoubleProofs DoubleOps AdaptDoubleModel AdaptDoubleProps.
Import ListNotations.
Set Asymmetric Patterns.
Close Scope R_scope. Open Scope nat_scope.

(** A NaN, or a number in the range. *)
Definition admitted_double (lo hi : R) (v : float) : Prop := nonnumber v \/ (finite v /\ lo <= val v <= hi)%R.

Lemma ltb_nan_l a b : nonnumber a -> (a <? b)%float = false.
Proof. unfold nonnumber. rewrite is_nan_equiv, ltb_equiv. destruct (Prim2B a); try discriminate. reflexivity. Qed.
Lemma ltb_nan_r a b : nonnumber b -> (a <? b)%float = false.
Proof. unfold nonnumber. rewrite is_nan_equiv, ltb_equiv. destruct (Prim2B b); try discriminate. destruct (Prim2B a); reflexivity. Qed.
Lemma abs_nan a : nonnumber a -> nonnumber (abs a).
Proof. unfold nonnumber. rewrite !is_nan_equiv, abs_equiv. destruct (Prim2B a); try discriminate. reflexivity. Qed.
Lemma range_bad lo hi v (l h : R) : finite lo -> val lo = l -> finite hi -> val hi = h ->
  (hi <? infinity)%float = true -> (neg_infinity <? lo)%float = true ->
  ((v <? lo) || (hi <? v))%float = false <-> admitted_double l h v.
Proof.
  intros Fl El Fh Eh Ih Il. unfold admitted_double. destruct (PrimFloat.is_finite v) eqn:F.
  - rewrite orb_false_iff, <- !not_true_iff_false, !ltb_val by assumption. rewrite El, Eh. split.
    + intros [H1 H2]. right. split; [exact F|lra].
    + intros [H|[_ H]]; [exfalso; apply (nan_nonfinite _ H), F|lra].
  - assert (Nf : ~ finite v) by (unfold finite; congruence). destruct (nonfinite_cases v Nf) as [N|HI].
    + rewrite ltb_nan_l, ltb_nan_r by exact N. tauto.
    + split.
      * intros H. exfalso. apply orb_false_iff in H. destruct H as [H1 H2]. destruct HI as [-> | ->]; congruence.
      * intros [H|[H _]]; [|contradiction]. exfalso. destruct HI as [-> | ->]; discriminate H.
Qed.
Lemma freq_double f : freq_badF f = false <-> admitted_double (-1) 1 f.
Proof.
  unfold freq_badF. apply range_bad; try reflexivity; [unfold val|unfold val]; vm_compute Prim2B; unfold B2R, F2R; cbn; lra.
Qed.
Lemma rate_double r : rate_badF r = false <-> admitted_double 0 1 r.
Proof.
  unfold rate_badF. apply range_bad; try reflexivity; unfold val; vm_compute Prim2B; unfold B2R, F2R; cbn; lra.
Qed.

(** ** What the constructors and setters accept *)
Theorem C188_band_settings f r (g : bandF) :
  ((exists h, bandF_make f r = Ok h) <-> admitted_double (-1) 1 f /\ admitted_double 0 1 r) /\
  (forall e, bandF_make f r = Err e -> e = ValueError) /\
  (admitted_double (-1) 1 f -> bandF_set_frequency g f = (mkBandF (bb g) (bph g) f (brt g), Ok tt)) /\
  (~ admitted_double (-1) 1 f -> bandF_set_frequency g f = (g, Err ValueError)) /\
  (admitted_double 0 1 r -> bandF_set_rate g r = (mkBandF (bb g) (bph g) (bfr g) r, Ok tt)) /\
  (~ admitted_double 0 1 r -> bandF_set_rate g r = (g, Err ValueError)).
Proof.
  rewrite <- freq_double, <- rate_double. unfold bandF_make, bandF_set_frequency, bandF_set_rate.
  destruct (freq_badF f), (rate_badF r); repeat split; try congruence; try tauto; try (intros [h H]; discriminate); try (intros [H1 H2]; discriminate);
    try (intros e H; injection H; congruence); try (intros; eexists; reflexivity); destruct H as [? H]; discriminate.
Qed.
Print Assumptions C188_band_settings.
Theorem C188_frequency_settings expj f r (g : freqF) :
  ((exists h, freqF_make f r = Ok h) <-> admitted_double (-1) 1 f /\ admitted_double 0 1 r) /\
  (forall e, freqF_make f r = Err e -> e = ValueError) /\
  (admitted_double (-1) 1 f -> freqF_set_frequency expj g f = (mkFreqF (expj f) (qs_ g) f (qr g), Ok tt)) /\
  (~ admitted_double (-1) 1 f -> freqF_set_frequency expj g f = (g, Err ValueError)) /\
  (admitted_double 0 1 r -> freqF_set_rate g r = (mkFreqF (qb g) (qs_ g) (qf g) r, Ok tt)) /\
  (~ admitted_double 0 1 r -> freqF_set_rate g r = (g, Err ValueError)).
Proof.
  rewrite <- freq_double, <- rate_double. unfold freqF_make, freqF_set_frequency, freqF_set_rate.
  destruct (freq_badF f), (rate_badF r); repeat split; try congruence; try tauto; try (intros [h H]; discriminate); try (intros [H1 H2]; discriminate);
    try (intros e H; injection H; congruence); try (intros; eexists; reflexivity); destruct H as [? H]; discriminate.
Qed.
Print Assumptions C188_frequency_settings.

(** numpy.iscomplex: the Hilbert transform is used exactly when every imaginary part is a
    zero; a NaN or infinite imaginary part counts as complex. *)
Theorem C188_hilbert hilbert d :
  (Forall (fun v => finite (snd v) /\ val (snd v) = 0%R) d -> analyticF hilbert d = hilbert d) /\
  (Exists (fun v => ~ finite (snd v) \/ val (snd v) <> 0%R) d -> analyticF hilbert d = d).
Proof.
  assert (Z : forall v : float, (v =? 0)%float = true <-> finite v /\ val v = 0%R).
  { intros v. unfold finite, val. rewrite is_finite_equiv, eqb_equiv. change (Prim2B 0) with (@B754_zero 53 1024 false). destruct (Prim2B v) as [s|[]| |s m e p]; cbn; split; try tauto; try discriminate; try (intros [H _]; discriminate).
    - destruct s; discriminate.
    - intros [_ H]. exfalso. revert H. unfold F2R. cbn. intros H. apply Rmult_integral in H. destruct H as [H|H]; [destruct s; apply eq_IZR in H; discriminate|pose proof (bpow_gt_0 radix2 e); lra]. }
  unfold analyticF, any_complexF. split; intros H.
  - replace (existsb _ d) with false; [reflexivity|]. symmetry. apply not_true_iff_false. intros E. apply existsb_exists in E. destruct E as (v & Hi & Hv).
    rewrite Forall_forall in H. apply negb_true_iff in Hv. rewrite (proj2 (Z _) (H v Hi)) in Hv. discriminate.
  - replace (existsb _ d) with true; [reflexivity|]. symmetry. apply existsb_exists. apply Exists_exists in H. destruct H as (v & Hi & Hv). exists v. split; [exact Hi|].
    apply negb_true_iff, not_true_iff_false. intros E. apply Z in E. tauto.
Qed.
Print Assumptions C188_hilbert.

(** ** NaN settings *)
(** numpy.fmod and numpy.exp(1j pi .) of NaN are NaN; scipy.signal.hilbert keeps the length. *)
Definition fmod_nan (fmod2 : float -> float) : Prop := forall p, nonnumber p -> nonnumber (fmod2 p).
Definition exp_nan (expj : float -> cf) : Prop := forall p, nonnumber p -> nanc (expj p).
Definition keeps_length (hilbert : list cf -> list cf) : Prop := forall d, length (hilbert d) = length d.

Lemma one_mul v : finite v -> finite (1 * v)%float /\ val (1 * v)%float = val v.
Proof.
  intros F. assert (V1 : val 1%float = 1%R) by (unfold val; vm_compute Prim2B; unfold B2R, F2R; cbn; lra).
  destruct (mul_fin 1 v eq_refl F) as [G1 G2].
  - rewrite V1, Rmult_1_l, nearest_val. unfold val, huge. apply abs_B2R_lt_emax.
  - split; [exact G1|]. rewrite G2, V1, Rmult_1_l. apply nearest_val.
Qed.
Lemma in_range f : admitted_double (-1) 1 f -> @oltb FO (of_Z 1) (oabs (1 * f)%float) = false.
Proof.
  intros [N|[F H]]; change (@oltb FO) with PrimFloat.ltb; change (@oabs FO) with PrimFloat.abs.
  - apply ltb_nan_r, abs_nan, mul_nan. right. exact N.
  - destruct (one_mul f F) as [G1 G2]. destruct (abs_fin _ G1) as [A1 A2]. apply not_true_iff_false. rewrite ltb_val by (apply val_1 || exact A1).
    rewrite A2, G2. change (@of_Z FO 1) with (@of_Z FA 1). rewrite (proj2 val_1). apply Rle_not_lt, Rabs_le. exact H.
Qed.

Section Dead.
  Variable hilbert : list cf -> list cf.
  Variables (fmod2 sgn : float -> float) (expj : float -> cf).
  Hypotheses (Hm : fmod_nan fmod2) (He : exp_nan expj) (Hh : keeps_length hilbert).

  Lemma analytic_length d : length (analyticF hilbert d) = length d.
  Proof. unfold analyticF. destruct (any_complexF d); [reflexivity|apply Hh]. Qed.
  Lemma loop_nan x : forall p, nonnumber p -> nonnumber (fst (@cexp_loop FO cf expj p x)) /\ Forall nanc (snd (@cexp_loop FO cf expj p x)).
  Proof.
    induction x as [|v x IH]; intros p Hp; [split; [exact Hp|constructor]|]. cbn [cexp_loop].
    assert (Hq : nonnumber (p + v)%float) by (apply add_nan; left; exact Hp). specialize (IH _ Hq). change (@add FO p v) with (p + v)%float.
    destruct (@cexp_loop FO cf expj (p + v)%float x) as [p' ys]. cbn [fst snd] in *. split; [apply IH|]. constructor; [apply He, Hp|apply IH].
  Qed.
  Lemma loop_len x : forall p, length (snd (@cexp_loop FO cf expj p x)) = length x.
  Proof. induction x as [|v x IH]; intros p; [reflexivity|]. cbn [cexp_loop]. specialize (IH (@add FO p v)). destruct (@cexp_loop FO cf expj (@add FO p v) x). cbn [snd length] in *. lia. Qed.
  Lemma wrap_nan p : nonnumber p -> nonnumber (@cexp_wrap FO fmod2 sgn p) /\ @phase_bad FO (@cexp_wrap FO fmod2 sgn p) = false.
  Proof.
    intros Hp. assert (W : @cexp_wrap FO fmod2 sgn p = fmod2 p).
    { unfold cexp_wrap. cbv zeta. change (@oltb FO) with PrimFloat.ltb. rewrite ltb_nan_r; [reflexivity|]. apply abs_nan, Hm, Hp. }
    rewrite W. split; [apply Hm, Hp|]. unfold phase_bad. change (@oltb FO) with PrimFloat.ltb. rewrite ltb_nan_l, ltb_nan_r by (apply Hm, Hp). reflexivity.
  Qed.
  (** A call of the oscillator that ends in a NaN phase. *)
  Lemma oscillator s f n : admitted_double (-1) 1 f -> 0 < n -> nonnumber (fst (@cexp_loop FO cf expj s (repeat (1 * f)%float n))) ->
    exists p, @cexp_filter FO cf fmod2 sgn expj s (@mkFsig FO (repeat (1 * f)%float n) false false) = (p, Ok (snd (@cexp_loop FO cf expj s (repeat (1 * f)%float n)))) /\ nonnumber p.
  Proof.
    intros Hf Hn Hp. unfold cexp_filter. cbn [fre fimag fcomplex orb]. rewrite repeat_length.
    destruct (Nat.eqb_spec n 0) as [->|_]; [lia|]. cbn [orb].
    assert (X : existsb (fun v => @oltb FO (of_Z 1) (oabs v)) (repeat (1 * f)%float n) = false).
    { apply not_true_iff_false. intros Q. apply existsb_exists in Q. destruct Q as (v & Hi & Hv). apply repeat_spec in Hi. subst v. rewrite (in_range f Hf) in Hv. discriminate. }
    match goal with |- context [existsb ?F ?l] => replace (existsb F l) with false by (symmetry; exact X) end.
    destruct (@cexp_loop FO cf expj s (repeat (1 * f)%float n)) as [p ys]. cbn [fst snd] in *. destruct (wrap_nan p Hp) as [W1 W2].
    unfold cexp_set_phase. rewrite W2. eexists. split; [reflexivity|exact W1].
  Qed.

  Definition ruined (t : cf * cf * cf) : Prop := nanc (fst (fst t)) /\ nanc (snd (fst t)).
  Lemma band_loop_ruined r xs : forall ds b, Forall nanc xs -> Forall ruined (snd (bandF_loop r b xs ds)).
  Proof.
    induction xs as [|x xs IH]; intros [|d ds] b HF; try constructor. cbn [bandF_loop]. cbv zeta. inversion HF as [|? ? F1 F2]; subst.
    match goal with |- context [bandF_loop r ?b' xs ds] => specialize (IH ds b' F2); destruct (bandF_loop r b' xs ds) as [b2 out] end.
    cbn [snd] in *. constructor; [|exact IH]. assert (Y : nanc (cmulF x b)) by (apply cmul_nan; left; apply nanc_part, F1). split; [exact Y|apply csub_nan_r, Y].
  Qed.

  (** Everything a caller can do: the methods, the setters, and the setter of b. *)
  Inductive public_op : Type := PCall (o : band_op) | PSetB (b : cf).
  Definition public_exec (g : bandF) (o : public_op) : bandF :=
    match o with PCall o => band_exec hilbert fmod2 sgn expj g o | PSetB b => bandF_set_b g b end.
  Lemma call_frequency g d : bfr (fst (bandF_filter hilbert fmod2 sgn expj g d)) = bfr g.
  Proof.
    unfold bandF_filter. destruct (_ =? 0); [reflexivity|]. cbv zeta. destruct (cexp_filter _ _ _ _ _) as [p [x|e]]; [|reflexivity].
    destruct (bandF_loop _ _ _ _); reflexivity.
  Qed.
  Lemma public_frequency g o : admitted_double (-1) 1 (bfr g) -> admitted_double (-1) 1 (bfr (public_exec g o)).
  Proof.
    intros H. destruct o as [[d|f|r|x]|b]; cbn [public_exec band_exec]; [rewrite call_frequency; exact H| | |exact H|exact H].
    - unfold bandF_set_frequency. destruct (freq_badF f) eqn:E; [exact H|]. apply freq_double, E.
    - unfold bandF_set_rate. destruct (rate_badF r); exact H.
  Qed.
  Definition dead (g : bandF) : Prop := nonnumber (bph g) /\ admitted_double (-1) 1 (bfr g).
  Lemma dead_call g d : dead g -> d <> [] -> exists g' out, bandF_filter hilbert fmod2 sgn expj g d = (g', Ok out) /\ length out = length d /\ Forall ruined out /\ dead g'.
  Proof.
    intros [D1 D2] Hd. assert (L : length (analyticF hilbert d) = length d) by apply analytic_length. assert (N : 0 < length d) by (destruct d; [congruence|cbn; lia]).
    unfold bandF_filter. destruct (Nat.eqb_spec (length d) 0) as [E|_]; [lia|]. cbv zeta. rewrite L.
    destruct (loop_nan (repeat (1 * bfr g)%float (length d)) (bph g) D1) as [G1 G2].
    destruct (oscillator (bph g) (bfr g) (length d) D2 N G1) as (p & E & Hp). rewrite E.
    set (xs := snd (@cexp_loop FO cf expj (bph g) _)) in *. pose proof (band_loop_ruined (brt g) xs (analyticF hilbert d) (bb g) G2) as R.
    assert (Lx : length xs = length (analyticF hilbert d)) by (unfold xs; rewrite loop_len, repeat_length; congruence).
    pose proof (band_loop_length (brt g) (bb g) xs _ Lx) as R2.
    destruct (bandF_loop (brt g) (bb g) xs (analyticF hilbert d)) as [b2 out]. cbn [snd] in *. eexists _, _. split; [reflexivity|]. split; [congruence|]. split; [exact R|]. split; [exact Hp|exact D2].
  Qed.
  Lemma dead_exec g o : dead g -> dead (public_exec g o).
  Proof.
    intros D. split; [|apply public_frequency, D]. destruct o as [[d|f|r|x]|b]; cbn [public_exec band_exec]; try apply D.
    - destruct d as [|v d]; [apply D|]. destruct (dead_call g (v :: d) D ltac:(discriminate)) as (g' & out & E & _ & _ & D'). rewrite E. apply D'.
    - unfold bandF_set_frequency. destruct (freq_badF f); apply D.
    - unfold bandF_set_rate. destruct (rate_badF r); apply D.
  Qed.

  (** One call with a NaN frequency: all outputs but the first are NaN; afterwards every
      output of every call is NaN, whatever is assigned or reset in between. *)
  Theorem C188_band_dead g f d : nonnumber f -> d <> [] ->
    exists g1 g2 out, bandF_set_frequency g f = (g1, Ok tt) /\
      bandF_filter hilbert fmod2 sgn expj g1 d = (g2, Ok out) /\ length out = length d /\
      (forall j, 0 < j < length d -> ruined (nth j out triple1)) /\
      forall ops2 z, z <> [] -> exists g3 out3, bandF_filter hilbert fmod2 sgn expj (fold_left public_exec ops2 g2) z = (g3, Ok out3) /\
        length out3 = length z /\ Forall ruined out3.
  Proof.
    intros Hf Hd. unfold bandF_set_frequency. rewrite (proj2 (freq_double f) (or_introl Hf)).
    set (g1 := mkBandF (bb g) (bph g) f (brt g)). exists g1.
    assert (L : length (analyticF hilbert d) = length d) by apply analytic_length. destruct d as [|d0 d]; [congruence|]. set (n := length d) in *.
    assert (K : exists g2 out, bandF_filter hilbert fmod2 sgn expj g1 (d0 :: d) = (g2, Ok out) /\ length out = S n /\
                (forall j, 0 < j < S n -> ruined (nth j out triple1)) /\ dead g2).
    { unfold bandF_filter. cbn [length Nat.eqb]. cbv zeta. rewrite L. cbn [length]. fold n.
      assert (D2 : admitted_double (-1) 1 (bfr g1)) by (left; exact Hf).
      assert (Np : nonnumber (bph g1 + 1 * bfr g1)%float) by (apply add_nan; right; apply mul_nan; right; exact Hf).
      destruct (loop_nan (repeat (1 * bfr g1)%float n) _ Np) as [G1 G2].
      assert (EL : @cexp_loop FO cf expj (bph g1) (repeat (1 * bfr g1)%float (S n)) =
        (fst (@cexp_loop FO cf expj (bph g1 + 1 * bfr g1)%float (repeat (1 * bfr g1)%float n)), expj (bph g1) :: snd (@cexp_loop FO cf expj (bph g1 + 1 * bfr g1)%float (repeat (1 * bfr g1)%float n)))).
      { cbn [repeat cexp_loop]. change (@add FO (bph g1) (1 * bfr g1)%float) with (bph g1 + 1 * bfr g1)%float. destruct (@cexp_loop FO cf expj (bph g1 + 1 * bfr g1)%float _); reflexivity. }
      destruct (oscillator (bph g1) (bfr g1) (S n) D2 ltac:(lia)) as (p & E & Hp); [rewrite EL; exact G1|]. rewrite EL in E. cbn [snd] in E. rewrite E.
      set (xs := snd (@cexp_loop FO cf expj (bph g1 + 1 * bfr g1)%float _)) in *.
      assert (Lx : length (expj (bph g1) :: xs) = length (analyticF hilbert (d0 :: d))) by (cbn [length]; unfold xs; rewrite loop_len, repeat_length, L; reflexivity).
      pose proof (band_loop_length (brt g1) (bb g1) _ _ Lx) as R2. rewrite L in R2.
      destruct (analyticF hilbert (d0 :: d)) as [|a0 a]; [discriminate L|]. revert R2. cbn [bandF_loop]. cbv zeta.
      match goal with |- context [bandF_loop _ ?b' xs a] => pose proof (band_loop_ruined (brt g1) xs a b' G2) as R; destruct (bandF_loop (brt g1) b' xs a) as [b2 out] end.
      cbn [snd] in *. intros R2. eexists _, _. split; [reflexivity|]. split; [exact R2|]. split; [|split; [exact Hp|exact D2]].
      intros [|j] [J1 J2]; [lia|]. cbn [nth]. apply (proj1 (Forall_forall _ _) R), nth_In. cbn [length] in R2. unfold cf in *. lia. }
    destruct K as (g2 & out & K1 & K2 & K3 & K4). exists g2, out. split; [reflexivity|]. split; [exact K1|]. split; [exact K2|]. split; [exact K3|].
    intros ops2 z Hz. assert (D : dead (fold_left public_exec ops2 g2)).
    { clear K1. revert g2 K4. induction ops2 as [|o ops2 IH]; intros g2 K4; [exact K4|]. cbn [fold_left]. apply IH, dead_exec, K4. }
    destruct (dead_call _ z D Hz) as (g3 & out3 & Q1 & Q2 & Q3 & _). exists g3, out3. auto.
  Qed.

  (** A NaN rate: the coefficient is NaN after the first sample, and stays NaN through every
      call and setting until b is assigned, even when the rate is put right. *)
  Lemma update_rate r b e c : nonnumber r -> nanc (caddF b (cmulF (cmulF (creal r) e) c)).
  Proof. intros H. apply cadd_nan. right. apply cmul_nan. left. apply nanc_part, cmul_nan. left. left. exact H. Qed.
  Theorem C188_band_rate g r d g2 out ops z g3 out3 : nonnumber r ->
    bandF_filter hilbert fmod2 sgn expj (fst (bandF_set_rate g r)) d = (g2, Ok out) ->
    bandF_filter hilbert fmod2 sgn expj (fold_left (band_exec hilbert fmod2 sgn expj) ops g2) z = (g3, Ok out3) ->
    snd (bandF_set_rate g r) = Ok tt /\ nanc (bb g2) /\ (forall j, 0 < j < length d -> all_nanb (nth j out triple1)) /\
    length out3 = length z /\ Forall all_nanb out3.
  Proof.
    intros Hr E1 E2. unfold bandF_set_rate in *. rewrite (proj2 (rate_double r) (or_introl Hr)) in *. cbn [fst snd] in *. split; [reflexivity|].
    assert (Hd : d <> []) by (intros ->; discriminate E1). pose proof (analytic_length d) as L.
    destruct (band_run hilbert fmod2 sgn expj (mkBandF (bb g) (bph g) (bfr g) r) d Hd) as [(p & e & R)|(p & x & Lx & R)]; rewrite R in E1; [discriminate|]. injection E1 as <- <-. cbn [bb bfr brt].
    destruct x as [|x0 x]; [destruct d; [congruence|]; rewrite L in Lx; discriminate Lx|]. pose proof (band_loop_length r (bb g) _ _ Lx) as LL. revert E2 R LL.
    destruct (analyticF hilbert d) as [|a0 a]; [discriminate Lx|]. cbn [bandF_loop brt bb]. cbv zeta.
    match goal with |- context [bandF_loop _ ?b' x a] => pose proof (band_loop_nan r b' x a (update_rate r _ _ _ Hr)) as [B1 B2]; destruct (bandF_loop r b' x a) as [b2 o2] end.
    cbn [fst snd] in *. intros E2 R LL. split; [exact B1|]. split.
    { intros [|j] [J1 J2]; [lia|]. cbn [nth]. apply (proj1 (Forall_forall _ _) B2), nth_In. cbn [length] in *. unfold cf in *. lia. }
    assert (K : forall ops g1, nanc (bb g1) -> nanc (bb (fold_left (band_exec hilbert fmod2 sgn expj) ops g1))).
    { clear. induction ops as [|o ops IH]; intros g1 N; [exact N|]. cbn [fold_left]. apply IH. destruct o as [e|f|r|x]; cbn [band_exec].
      - destruct e as [|v e]; [exact N|]. destruct (band_run hilbert fmod2 sgn expj g1 (v :: e) ltac:(discriminate)) as [(p & er & R)|(p & x & L & R)]; rewrite R; cbn [fst bb]; [exact N|apply band_loop_nan, N].
      - unfold bandF_set_frequency. destruct (freq_badF f); exact N.
      - unfold bandF_set_rate. destruct (rate_badF r); exact N.
      - exact N. }
    specialize (K ops (mkBandF b2 p (bfr g) r) B1). set (g4 := fold_left _ ops _) in *.
    assert (Hz : z <> []) by (intros ->; discriminate E2). destruct (band_run hilbert fmod2 sgn expj g4 z Hz) as [(p' & e & R')|(p' & x' & L' & R')]; rewrite R' in E2; [discriminate|]. injection E2 as <- <-.
    split; [rewrite <- (analytic_length z); apply band_loop_length, L'|apply band_loop_nan, K].
  Qed.
End Dead.
Print Assumptions C188_band_dead. Print Assumptions C188_band_rate.

(** ComplexFrequencyFilter: a NaN frequency, or a call under a NaN rate, makes every later
    output NaN until frequency is assigned; an admitted frequency then gives back the
    coefficient it always gives. *)
Theorem C188_frequency_nan hilbert expj cabs close0 ang g s ops z f :
  exp_nan expj -> angle_ok ang -> keeps_length hilbert -> z <> [] ->
  (exists v, nonnumber v /\ (s = [FFrequency v] \/ exists d, d <> [] /\ s = [FRate v; FFilter d])) ->
  Forall no_frequency ops ->
  let run := fold_left (freq_exec hilbert expj cabs close0 ang) in
  (exists g2 out, freqF_filter hilbert cabs close0 ang (run ops (run s g)) z = (g2, Ok out) /\ length out = length z /\ Forall all_nan out) /\
  (freq_badF f = false -> qb (run [FFrequency f] (run ops (run s g))) = expj f).
Proof.
  intros Hx Ha Hh Hz (v & Hv & Hs) Ho run.
  assert (FR : forall h d, d <> [] -> freqF_filter hilbert cabs close0 ang h d =
    (let '(b2, s2, out) := freqF_loop ang (qr h) (qb h) (qs_ h) (map (normaliseF cabs close0) (analyticF hilbert d)) in (mkFreqF b2 s2 (qf h) (qr h), Ok out))).
  { intros h [|? d] H; [congruence|]. reflexivity. }
  assert (AL : forall d, length (analyticF hilbert d) = length d) by (intros d; unfold analyticF; destruct (any_complexF d); [reflexivity|apply Hh]).
  assert (N0 : nanc (qb (run s g))).
  { destruct Hs as [-> |(d & Hd & ->)]; unfold run; cbn [fold_left freq_exec].
    - unfold freqF_set_frequency. rewrite (proj2 (freq_double v) (or_introl Hv)). cbn [fst qb]. apply Hx, Hv.
    - unfold freqF_set_rate. rewrite (proj2 (rate_double v) (or_introl Hv)). cbn [fst]. rewrite FR by exact Hd. cbn [qr qb qs_].
      assert (L : length (map (normaliseF cabs close0) (analyticF hilbert d)) = length d) by (rewrite map_length; apply AL).
      destruct (map (normaliseF cabs close0) (analyticF hilbert d)) as [|x xs]; [destruct d; [congruence|discriminate L]|]. cbn [freqF_loop]. cbv zeta.
      match goal with |- context [freqF_loop ang v ?b' x xs] => assert (B : nanc b') by (apply cadd_nan; right; apply cmul_nan; left; apply nanc_part, cmul_nan; left; left; exact Hv);
        pose proof (freq_loop_nan ang v b' x xs Ha B) as [Q _]; destruct (freqF_loop ang v b' x xs) as [[b2 s2] out] end. exact Q. }
  assert (N1 : nanc (qb (run ops (run s g)))).
  { revert N0. generalize (run s g). clear Hs s g. intros g N. revert g N. induction ops as [|o ops IH]; intros g N; [exact N|]. inversion Ho as [|? ? O1 O2]; subst. unfold run in *. cbn [fold_left]. apply IH; [exact O2|].
    destruct o as [e|f1|r|x]; cbn [freq_exec].
    - destruct e as [|w e]; [exact N|]. rewrite FR by discriminate. match goal with |- context [freqF_loop ang ?a ?b ?c ?l] => pose proof (freq_loop_nan ang a b c l Ha N) as [Q _]; destruct (freqF_loop ang a b c l) as [[b2 s2] out] end. exact Q.
    - unfold freqF_set_frequency. cbn [no_frequency] in O1. rewrite O1. exact N.
    - unfold freqF_set_rate. destruct (rate_badF r); exact N.
    - exact N. }
  split.
  - rewrite FR by exact Hz. match goal with |- context [freqF_loop ang ?a ?b ?c ?l] => pose proof (freq_loop_nan ang a b c l Ha N1) as [_ Q]; pose proof (freq_loop_length ang a b c l) as LL; destruct (freqF_loop ang a b c l) as [[b2 s2] out] end.
    eexists _, _. split; [reflexivity|]. cbn [snd] in *. rewrite map_length, AL in LL. split; [exact LL|exact Q].
  - intros Hf. unfold run. cbn [fold_left freq_exec]. unfold freqF_set_frequency. rewrite Hf. reflexivity.
Qed.
Print Assumptions C188_frequency_nan.

(** ** Examples *)
Definition fm188 (p : float) : float := p.
Lemma exp182_nan : exp_nan exp182.
Proof.
  intros p H. unfold exp182. split; cbn [fst snd]; [apply sub_nans; right|]; apply mul_nan; right; exact H.
Qed.
Definition z188 : list cf := [(1, 1); (2, 1); (1, -1)]%float.
(** Bandpass: NaN frequency, a call, then frequency, rate, reset and b put right. *)
Example C188_band_example : exists g, bandF_make 0.125 0.5 = Ok g /\ fmod_nan fm188 /\ exp_nan exp182 /\ keeps_length (fun d => d) /\ nonnumber nan /\
  let run := fold_left (public_exec (fun d => d) fm188 fm188 exp182) in
  let call h z := match bandF_filter (fun d => d) fm188 fm188 exp182 h z with (_, Ok o) => map (fun t => (nanb (fst (fst t)) && nanb (snd (fst t)))%bool) o | _ => [] end in
  call g z188 = [false; false; false] /\
  call (run [PCall (BFrequency nan)] g) z188 = [false; true; true] /\
  call (run [PCall (BFrequency nan); PCall (BFrequency 0.125)] g) z188 = [false; false; false] /\
  call (run [PCall (BFrequency nan); PCall (BFilter z188); PCall (BFrequency 0.125); PCall (BRate 0.5); PCall (BReset (1, 0)%float); PSetB (1, 0)%float] g) z188 = [true; true; true] /\
  call (run [PCall (BRate nan); PCall (BFilter z188); PCall (BRate 0.5)] g) z188 = [true; true; true] /\
  call (run [PCall (BRate nan); PCall (BFilter z188); PCall (BRate 0.5); PSetB (1, 0)%float] g) z188 = [false; false; false].
Proof.
  eexists. split; [reflexivity|]. split; [intros p H; exact H|]. split; [exact exp182_nan|]. split; [intros d; reflexivity|]. split; [reflexivity|]. cbv zeta.
  repeat split; vm_compute; reflexivity.
Qed.
Example C188_frequency_example : exists g, freqF_make nan 0.5 = Ok g /\ qb g = (1, 0)%float /\
  freqF_make infinity 0.5 = Err ValueError /\ freqF_make 0.5 nan <> Err ValueError /\
  let run := fold_left (freq_exec (fun d => d) exp182 cabs182 close182 ang182) in
  let call h z := match freqF_filter (fun d => d) cabs182 close182 ang182 h z with (_, Ok o) => map nant o | _ => [] end in
  call g z188 = [false; false; false] /\
  call (run [FFrequency nan; FRate 0.5; FReset (1, 1)%float] g) z188 = [true; true; true] /\
  call (run [FRate nan; FFilter z188; FRate 0.5] g) z188 = [true; true; true] /\
  call (run [FRate nan; FFilter z188; FRate 0.5; FFrequency 0.25] g) z188 = [false; false; false].
Proof. eexists. split; [reflexivity|]. split; [reflexivity|]. split; [reflexivity|]. split; [discriminate|]. cbv zeta. repeat split; vm_compute; reflexivity. Qed.
Example C188_hilbert_example : any_complexF [(1, 0); (2, nan)]%float = true /\ any_complexF [(1, 0); (infinity, -0)]%float = false.
Proof. split; reflexivity. Qed.
