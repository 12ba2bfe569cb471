(** Property C175: FirFilter and DerivativeFilter in IEEE doubles on fixed-point data. *)
From Flocq Require Import Core BinarySingleNaN PrimFloat.
From Coq Require Import List Arith ZArith Lia Bool Reals Lra Floats Permutation.
From Coquelicot Require Import Derive.
From Verif Require Import Base BaseLemmas Instances FirModel FirSpec FirProofs FirProps CalculusModel CalculusSpec CalculusProps.
From Verif Require Import DoubleSpec DoubleProofs DoubleOps DoubleProps WaveletDoubleProofs.
Import ListNotations.
Set Asymmetric Patterns.
Local Open Scope R_scope.

(** [v] is a finite double, a multiple of 2^e. *)
Definition multiple (e : Z) (v : float) : Prop := finite v /\ exists z, val v = IZR z * bpow radix2 e.

Lemma on_grid_mult a g x y : on_grid a x -> on_grid g y -> on_grid (a + g) (x * y).
Proof. intros [m ->] [n ->]. exists (m * n)%Z. rewrite mult_IZR, bpow_plus. ring. Qed.

(** Coefficients multiples of 2^a and samples multiples of 2^g: as long as the magnitudes of
    the products add up to at most 2^(53+a+g), the output is the exact convolution, in whatever
    order the dot product is evaluated. *)
Theorem C175_fir_exact d (b s : arr (FAd d)) ops (f : fir (FAd d)) (x : list float) (a g : Z) :
  any_order d -> fir_used b s ops f -> fdt f <> DInt -> x <> [] -> (-1074 <= a + g <= 970)%Z -> Forall (multiple a) (fb f) ->
  exists f' y, fir_filter f x = (f', Ok y) /\ length y = length x /\
    forall n, (n < length x)%nat ->
      (forall i, (i < length (fb f))%nat -> multiple g (@sig (FAd d) (fs f) x (Z.of_nat n - Z.of_nat i))) ->
      @convolution RA (map aval (fb f)) (map aval (fs f)) (map aval x) n <= bpow radix2 (53 + (a + g)) ->
      finite (nth n y 0%float) /\
      val (nth n y 0%float) = @convolution RA (map val (fb f)) (map val (fs f)) (map val x) n.
Proof.
  intros Hd Hu Ht Hx Hag Hb. set (N := length (fb f)).
  destruct (C01_fir_window_any_arithmetic (FAd d) b s ops f x Hu Hx) as (f' & y & E & Hl & H).
  exists f', y. split; [exact E|]. split; [exact Hl|]. intros n Hn Hw Hm.
  assert (C : forall v : float, @cast (FAd d) (fdt f) v = v) by (intros v; destruct (fdt f); [congruence|reflexivity|reflexivity]).
  assert (Cm : forall l : list float, map (@cast (FAd d) (fdt f)) l = l) by (intros l; rewrite <- (map_id l) at 2; apply map_ext, C).
  set (w := map (fun i => @sig FA (fs f) x (Z.of_nat n - Z.of_nat i)) (seq 0 N)).
  assert (Lw : length w = N) by (unfold w; rewrite map_length, seq_length; reflexivity).
  assert (Ev : nth n y 0%float = d (fb f) w) by (specialize (H n Hn); rewrite C, Cm in H; exact H).
  assert (Dw : dots (combine (fb f) w) (d (fb f) w)) by (apply Hd; symmetry; exact Lw).
  assert (Em : mags (combine (fb f) w) = @convolution RA (map aval (fb f)) (map aval (fs f)) (map aval x) n) by (apply (window_conv aval); exact aval_zero).
  assert (Ee : exact (combine (fb f) w) = @convolution RA (map val (fb f)) (map val (fs f)) (map val x) n) by (apply (window_conv val); exact val_zero).
  rewrite Ev. destruct (dots_grid (a + g) _ _ Dw Hag) as [G1 G2].
  - apply Forall_forall. intros [p q] Hin. pose proof (in_combine_l _ _ _ _ Hin) as Hp. apply in_combine_r in Hin. unfold w in Hin.
    apply in_map_iff in Hin. destruct Hin as (i & <- & Hi). apply in_seq in Hi. destruct (Hw i ltac:(lia)) as [F1 F2].
    rewrite Forall_forall in Hb. destruct (Hb p Hp) as [F3 F4]. split; [exact F3|]. split; [exact F1|]. cbn [fst snd]. apply on_grid_mult; assumption.
  - rewrite Em. exact Hm.
  - split; [exact G1|]. rewrite G2. exact Ee.
Qed.
Print Assumptions C175_fir_exact.

(** ** DerivativeFilter *)
(** The table entries whose coefficients are dyadic fractions. *)
Definition dyadic (der o : Z) : Prop := In (der, o) [(1, 1); (1, 2); (2, 2); (2, 4); (3, 4); (3, 6)]%Z.
Definition derivative_usedF d (der o : Z) ops (f : fir (FAd d)) : Prop :=
  exists f0, @derivative_make (FAd d) der o = Ok f0 /\ f = fold_left fir_exec ops f0.

Ltac litval := unfold val; vm_compute Prim2B; cbn [B2R SF2R]; unfold F2R; cbn; try lra.
Lemma val_lits : val 1%float = 1 /\ val (-1)%float = -1 /\ val 2%float = 2 /\ val (-2)%float = -2 /\ val 0.5%float = / 2 /\ val (-0.5)%float = - / 2 /\
  val 0.25%float = / 4 /\ val 0.125%float = / 8 /\ val (-0.125)%float = - / 8 /\ val 0.375%float = 3 / 8 /\ val (-0.375)%float = - (3 / 8) /\ val 0%float = 0 /\ val (-0)%float = 0.
Proof. repeat split; litval. Qed.

Definition magsum (row : list float) : R := fold_right (fun v r => aval v + r) 0 row.
Lemma multiple_lit e v z : finite v -> val v = IZR z * bpow radix2 e -> multiple e v.
Proof. intros F E. split; [exact F|]. exists z. exact E. Qed.

Lemma dyadic_row d der o : dyadic der o -> exists (row : list float) (k : Z),
  @derivative_B (FAd d) der o = Some (Some row) /\ @derivative_B RA der o = Some (Some (map val row)) /\ (0 <= k <= 3)%Z /\
  Forall (multiple (- k)) row /\ magsum row <= 8 * bpow radix2 (- k) /\ length row = S (Z.to_nat o).
Proof.
  intros H. destruct val_lits as (V1 & V2 & V3 & V4 & V5 & V6 & V7 & V8 & V9 & V10 & V11 & V12 & V13).
  assert (B1 : bpow radix2 (-1) = / 2) by (cbn; lra). assert (B2 : bpow radix2 (-2) = / 4) by (cbn; lra). assert (B3 : bpow radix2 (-3) = / 8) by (cbn; lra).
  assert (Go : forall (row : list float) ns den k, (0 <= k <= 3)%Z -> den <> 0%Z -> / IZR den = bpow radix2 (- k) ->
     Forall2 (fun v n => finite v /\ val v = IZR n / IZR den) row ns -> (fold_right (fun n r => Z.abs n + r) 0 ns <= 8)%Z ->
     rrow ns den = map val row /\ Forall (multiple (- k)) row /\ magsum row <= 8 * bpow radix2 (- k)).
  { intros row ns den k Hk Hden Ek F HS. assert (P : 0 < bpow radix2 (- k)) by apply bpow_gt_0. split; [|split].
    - clear HS. induction F as [|v n row ns [_ E] _ IH]; [reflexivity|]. cbn. rewrite E. f_equal. exact IH.
    - clear HS. induction F as [|v n row ns [Fv E] _ IH]; [constructor|]. constructor; [|exact IH]. apply (multiple_lit _ _ n Fv). rewrite E, <- Ek. reflexivity.
    - assert (Em : magsum row = IZR (fold_right (fun n r => Z.abs n + r) 0 ns)%Z * bpow radix2 (- k)).
      { clear HS. induction F as [|v n row ns [_ E] _ IH]; [cbn; ring|]. cbn [magsum fold_right]. change (fold_right _ 0 row) with (magsum row). rewrite IH, plus_IZR. unfold aval.
        rewrite E. unfold Rdiv. rewrite Ek, Rabs_mult, (Rabs_pos_eq (bpow _ _)) by lra. rewrite abs_IZR. ring. }
      rewrite Em. apply Rmult_le_compat_r; [lra|]. apply IZR_le, HS. }
  assert (Ln : forall (ns : list Z) den, length (@table_row (FAd d) ns den) = length ns) by (intros; apply map_length).
  unfold dyadic in H. cbn [In] in H. repeat match type of H with _ \/ _ => destruct H as [H|H] end; try contradiction; injection H as <- <-;
    cbn [derivative_B]; rewrite table_row_R;
    [exists [1; -1]%float, 0%Z; destruct (Go [1; -1]%float [1; -1]%Z 1%Z 0%Z) as (E1 & E2 & E3)
    |exists [0.5; 0; -0.5]%float, 1%Z; destruct (Go [0.5; 0; -0.5]%float [1; 0; -1]%Z 2%Z 1%Z) as (E1 & E2 & E3)
    |exists [1; -2; 1]%float, 0%Z; destruct (Go [1; -2; 1]%float [1; -2; 1]%Z 1%Z 0%Z) as (E1 & E2 & E3)
    |exists [0.25; 0; -0.5; 0; 0.25]%float, 2%Z; destruct (Go [0.25; 0; -0.5; 0; 0.25]%float [1; 0; -2; 0; 1]%Z 4%Z 2%Z) as (E1 & E2 & E3)
    |exists [0.5; -1; 0; 1; -0.5]%float, 1%Z; destruct (Go [0.5; -1; 0; 1; -0.5]%float [1; -2; 0; 2; -1]%Z 2%Z 1%Z) as (E1 & E2 & E3)
    |exists [0.125; 0; -0.375; 0; 0.375; 0; -0.125]%float, 3%Z; destruct (Go [0.125; 0; -0.375; 0; 0.375; 0; -0.125]%float [1; 0; -3; 0; 3; 0; -1]%Z 8%Z 3%Z) as (E1 & E2 & E3)];
    try lia; try (cbn; lra); try (cbn; lia);
    try (repeat apply Forall2_cons; [..|apply Forall2_nil]; (split; [reflexivity|]); rewrite ?V1, ?V2, ?V3, ?V4, ?V5, ?V6, ?V7, ?V8, ?V9, ?V10, ?V11, ?V12; lra);
    (split; [apply (f_equal (fun l => Some (Some l))); vm_compute; reflexivity|]; split; [apply (f_equal (fun l => Some (Some l))); exact E1|]; split; [lia|]; split; [exact E2|]; split; [exact E3|reflexivity]).
Qed.
Lemma derivative_usedF_fir d der o ops (f : fir (FAd d)) (row : list float) : @derivative_B (FAd d) der o = Some (Some row) -> derivative_usedF d der o ops f ->
  fir_used (@mkArr (FAd d) DFloat row) (mkArr DFloat []) ops f /\ fb f = row /\ fdt f = DFloat.
Proof.
  intros EB (f0 & E & ->). unfold derivative_make in E. rewrite EB in E.
  assert (Hu : fir_used (@mkArr (FAd d) DFloat row) (mkArr DFloat []) ops (fold_left fir_exec ops f0)) by (exists f0; auto).
  split; [exact Hu|]. destruct (fir_used_b _ _ _ _ Hu) as (f1 & E1 & -> & ->).
  unfold fir_make in E1. cbn [els adt length] in E1. destruct (Nat.eqb _ _); [discriminate|].
  rewrite (proj2 (Nat.ltb_ge _ 0)) in E1 by lia. injection E1 as <-. split; reflexivity.
Qed.

(** A sample: a multiple of 2^g of magnitude at most 2^(50+g). *)
Definition sample (g : Z) (v : float) : Prop := multiple g v /\ Rabs (val v) <= bpow radix2 (50 + g).
Lemma sample_zero g : sample g 0%float.
Proof. split; [split; [reflexivity|exists 0%Z; rewrite val_zero; ring]|]. rewrite val_zero, Rabs_R0. apply bpow_ge_0. Qed.
Lemma nth_sample g (l : list float) i : Forall (sample g) l -> sample g (nth i l 0%float).
Proof. intros H. destruct (Nat.lt_ge_cases i (length l)) as [L|L]; [apply (proj1 (Forall_forall _ _) H), nth_In, L|]. rewrite nth_overflow by exact L. apply sample_zero. Qed.
Lemma sig_sample d g (s x : list float) k : Forall (sample g) s -> Forall (sample g) x -> sample g (@sig (FAd d) s x k).
Proof. intros Hs Hx. unfold sig. destruct (k <? 0)%Z; apply (nth_sample g); assumption. Qed.

Lemma bigsum_le n (f g : nat -> R) : (forall i, (i < n)%nat -> f i <= g i) -> @bigsum RA n f <= @bigsum RA n g.
Proof.
  induction n as [|n IH]; intros H; [right; reflexivity|]. cbn [bigsum]. change (@add RA) with Rplus.
  pose proof (IH ltac:(intros i Hi; apply H; lia)). pose proof (H n ltac:(lia)). lra.
Qed.
Lemma conv_bound d (b s x : list float) n M : (forall k, aval (@sig (FAd d) s x k) <= M) -> @convolution RA (map aval b) (map aval s) (map aval x) n <= magsum b * M.
Proof.
  intros H. unfold convolution. rewrite map_length.
  apply Rle_trans with (@bigsum RA (length b) (fun i => aval (nth i b 0%float) * M)).
  - apply bigsum_le. intros i Hi. change (@mul RA) with Rmult. change (@zero RA) with 0. rewrite <- aval_zero at 1. rewrite map_nth.
    rewrite <- (sig_val aval s x _ aval_zero). apply Rmult_le_compat_l; [apply Rabs_pos|apply H].
  - right. clear H s x n. induction b as [|v b IH]; [cbn; ring|]. change (length (v :: b)) with (S (length b)).
    rewrite (bigsum_S_l RA RA_laws). cbn [nth]. change (@add RA) with Rplus. rewrite IH. unfold magsum. cbn [fold_right]. ring.
Qed.

Lemma fir_make_full {A : Arith} dt dt' (b s : list A) : b <> [] -> length s = length b -> fir_make (mkArr dt b) (mkArr dt' s) = Ok (mkFir dt b (map (cast dt) s)).
Proof.
  intros Nb L. unfold fir_make. cbn [els adt]. rewrite L, Nat.ltb_irrefl. destruct b as [|b0 b]; [congruence|]. cbn [els adt length Nat.eqb] in *. rewrite Nat.ltb_irrefl. reflexivity.
Qed.
Lemma conv_real d der o ops (f : fir (FAd d)) (fR : fir RA) (row : list float) (x : list float) :
  @derivative_B (FAd d) der o = Some (Some row) -> @derivative_B RA der o = Some (Some (map val row)) -> derivative_usedF d der o ops f ->
  @derivative_make RA der o = Ok fR -> x <> [] ->
  exists y', snd (fir_filter (with_s fR (map val (fs f))) (map val x)) = Ok y' /\ length y' = length x /\
    forall n, (n < length x)%nat -> nth n y' 0 = @convolution RA (map val (fb f)) (map val (fs f)) (map val x) n.
Proof.
  intros EB ER Hu HR Hx. destruct (derivative_usedF_fir _ _ _ _ _ _ EB Hu) as (U & Eb & Ed).
  destruct (fir_used_inv _ _ _ _ U) as [Nb Ls].
  assert (Er : fb fR = map val row /\ fdt fR = DFloat).
  { unfold derivative_make in HR. rewrite ER in HR. unfold fir_make in HR. cbn [els adt length] in HR. destruct (Nat.eqb _ _); [discriminate|].
    rewrite (proj2 (Nat.ltb_ge _ 0)) in HR by lia. injection HR as <-. split; reflexivity. }
  destruct Er as [Er Edr].
  assert (UR : fir_used (@mkArr RA DFloat (map val row)) (mkArr DFloat (map val (fs f))) [] (with_s fR (map val (fs f)))).
  { exists (with_s fR (map val (fs f))). split; [|reflexivity]. etransitivity; [apply (fir_make_full DFloat DFloat)|].
    - intros Z. apply Nb. rewrite Eb. destruct row; [reflexivity|discriminate Z].
    - exact (eq_trans (map_length val (fs f)) (eq_trans Ls (eq_trans (f_equal (@length float) Eb) (eq_sym (map_length val row))))).
    - unfold with_s. rewrite Er, Edr. do 2 f_equal. apply map_id. }
  destruct (C01_fir_convolution RA RA_laws _ _ _ _ (map val x) (Forall_RA_float _ : arr_ok (mkArr DFloat _)) UR) as (f' & y & E & Hly & Hy & _).
  { destruct x; [congruence|discriminate]. }
  { cbn [with_s fdt]. rewrite Edr. apply Forall_RA_float. }
  exists y. rewrite E. split; [reflexivity|]. rewrite map_length in Hly, Hy. split; [exact Hly|]. intros n Hn. etransitivity; [exact (Hy n Hn)|]. cbn [with_s fb fs]. rewrite Er, Eb. reflexivity.
Qed.

(** The table entries with dyadic coefficients: on samples that are multiples of 2^g of
    at most 51 bits the outputs are those of the filter with real numbers, exactly. *)
Theorem C175_derivative_exact d der o ops (f : fir (FAd d)) (fR : fir RA) (x : list float) (g : Z) :
  any_order d -> dyadic der o -> derivative_usedF d der o ops f -> @derivative_make RA der o = Ok fR -> x <> [] -> (-1071 <= g <= 970)%Z ->
  Forall (sample g) (fs f) -> Forall (sample g) x ->
  exists f' y y', fir_filter f x = (f', Ok y) /\ snd (fir_filter (with_s fR (map val (fs f))) (map val x)) = Ok y' /\
    length y = length x /\ length y' = length x /\
    forall n, (n < length x)%nat -> finite (nth n y 0%float) /\ val (nth n y 0%float) = nth n y' 0.
Proof.
  intros Hd Hdy Hu HR Hx Hg Hs Hxs. destruct (dyadic_row d der o Hdy) as (row & k & EB & ER & Hk & Hm & Hsum & _).
  destruct (derivative_usedF_fir _ _ _ _ _ _ EB Hu) as (U & Eb & Ed).
  assert (Hm' : Forall (multiple (- k)) (fb f)) by (rewrite Eb; exact Hm).
  destruct (C175_fir_exact d _ _ ops f x (- k) g Hd U ltac:(rewrite Ed; discriminate) Hx ltac:(lia) Hm') as (f' & y & E & Ly & Hy).
  destruct (conv_real _ _ _ _ _ _ _ x EB ER Hu HR Hx) as (y' & E' & Ly' & Hy').
  exists f', y, y'. split; [exact E|]. split; [exact E'|]. split; [exact Ly|]. split; [exact Ly'|]. intros n Hn. rewrite (Hy' n Hn). apply (Hy n Hn).
  - intros i _. apply (sig_sample d g (fs f) x); assumption.
  - eapply Rle_trans; [apply (conv_bound d _ _ _ _ (bpow radix2 (50 + g)))|].
    + intros z. apply (sig_sample d g (fs f) x); assumption.
    + rewrite Eb. apply Rle_trans with (8 * bpow radix2 (- k) * bpow radix2 (50 + g)); [apply Rmult_le_compat_r; [apply bpow_ge_0|exact Hsum]|].
      right. change 8 with (bpow radix2 3). rewrite <- !bpow_plus. f_equal. lia.
Qed.
Print Assumptions C175_derivative_exact.

(** So on the samples of a polynomial they return its derivative itself. *)
Theorem C175_derivative_polynomial d der o deg ops (f : fir (FAd d)) (c : list R) (t0 : R) (x : list float) (g : Z) :
  any_order d -> dyadic der o -> exact_degree der o = Some deg -> derivative_usedF d der o ops f -> x <> [] -> (-1071 <= g <= 970)%Z ->
  Forall (sample g) (fs f) -> Forall (sample g) x -> (length c <= S deg)%nat -> samples_of (peval c) t0 (map val x) ->
  exists f' y, fir_filter f x = (f', Ok y) /\ length y = length x /\
    forall n, (Z.to_nat o <= n < length x)%nat ->
      finite (nth n y 0%float) /\ is_derive_n (peval c) (Z.to_nat der) (t0 + INR n - IZR o / 2) (val (nth n y 0%float)).
Proof.
  intros Hd Hdy Hdeg Hu Hx Hg Hs Hxs Hc Hp. destruct (exact_degree_cases _ _ _ Hdeg) as (ns & den & EB & Hl & _ & Hex).
  destruct (proj2 (C22_derivative_pairs RA der o) ltac:(congruence)) as (fR & HR & _).
  destruct (dyadic_row d der o Hdy) as (row & k & EBF & ER & _).
  destruct (C175_derivative_exact d der o ops f fR x g Hd Hdy Hu HR Hx Hg Hs Hxs) as (f' & y & y' & E & E' & Ly & Ly' & Hy).
  destruct (conv_real _ _ _ _ _ _ _ x EBF ER Hu HR Hx) as (y2 & E2 & _ & Hy2). rewrite E' in E2. injection E2 as <-.
  destruct (derivative_usedF_fir _ _ _ _ _ _ EBF Hu) as (U & Eb & Ed).
  exists f', y. split; [exact E|]. split; [exact Ly|]. intros n [Hn1 Hn2]. destruct (Hy n Hn2) as [Fy Vy]. split; [exact Fy|]. rewrite Vy, (Hy2 n Hn2).
  match goal with |- is_derive_n _ _ _ ?v => replace v with (peval (Nat.iter (Z.to_nat der) pderiv c) (t0 + INR n - IZR o / 2)); [apply is_derive_n_peval|] end.
  rewrite <- Hex by exact Hc. rewrite ER in EB. injection EB as EB. unfold convolution. rewrite Eb, map_length.
  assert (Lr : length row = S (Z.to_nat o)) by (rewrite <- (map_length val), EB; unfold rrow; rewrite map_length; exact Hl).
  rewrite Lr, EB. apply (@bigsum_ext RA). intros i Hi. unfold sig. destruct (Z.ltb_spec (Z.of_nat n - Z.of_nat i) 0%Z); [lia|].
  replace (Z.to_nat (Z.of_nat n - Z.of_nat i)) with (n - i)%nat by lia.
  pose proof (Hp (n - i)%nat ltac:(rewrite map_length; lia)) as Hsi. change (nth i (rrow ns den) 0 * peval c (t0 + INR n - INR i) = nth i (rrow ns den) 0 * @nth R (n - i) (map val x) 0). rewrite Hsi. rewrite minus_INR by lia. f_equal. f_equal. ring.
Qed.
Print Assumptions C175_derivative_polynomial.

(** *** Constants *)
Section Units.
  Variable u : R.
  Hypothesis u0 : 0 <= u.
  Hypothesis u1 : nearest u = u /\ u < huge.
  Hypothesis u2 : nearest (2 * u) = 2 * u /\ 2 * u < huge.
  Definition on_unit (x : R) : Prop := exists z, x = IZR z * u.
  Lemma on_unit_add x y : on_unit x -> on_unit y -> on_unit (x + y).
  Proof. intros [a ->] [b ->]. exists (a + b)%Z. rewrite plus_IZR. ring. Qed.
  Lemma unit_nearest x : on_unit x -> - (2 * u) <= x <= 2 * u -> nearest x = x /\ Rabs (nearest x) < huge.
  Proof.
    intros [z ->] [H1 H2]. destruct (Rle_lt_or_eq_dec 0 u u0) as [P|E].
    - assert (Z1 : (-2 <= z)%Z) by (apply le_IZR; apply Rmult_le_reg_r with u; [exact P|lra]).
      assert (Z2 : (z <= 2)%Z) by (apply le_IZR; apply Rmult_le_reg_r with u; [exact P|lra]).
      assert (C : z = (-2)%Z \/ z = (-1)%Z \/ z = 0%Z \/ z = 1%Z \/ z = 2%Z) by lia. destruct u1 as [E1 L1]. destruct u2 as [E2 L2].
      assert (N0 : nearest 0 = 0) by (apply round_0; apply valid_rnd_N). assert (0 < huge) by apply bpow_gt_0.
      destruct C as [->|[->|[->|[->| ->]]]].
      + replace (-2 * u) with (- (2 * u)) by ring. rewrite nearest_opp, E2, Rabs_Ropp, Rabs_pos_eq by lra. split; [reflexivity|exact L2].
      + replace (-1 * u) with (- u) by ring. rewrite nearest_opp, E1, Rabs_Ropp, Rabs_pos_eq by lra. split; [reflexivity|exact L1].
      + rewrite Rmult_0_l, N0, Rabs_R0. split; [reflexivity|assumption].
      + rewrite Rmult_1_l, E1, Rabs_pos_eq by lra. split; [reflexivity|exact L1].
      + rewrite E2, Rabs_pos_eq by lra. split; [reflexivity|exact L2].
    - rewrite <- E, Rmult_0_r. assert (N0 : nearest 0 = 0) by (apply round_0; apply valid_rnd_N). rewrite N0, Rabs_R0. split; [reflexivity|apply bpow_gt_0].
  Qed.
  Definition prod (p : float * float) : R := val (fst p) * val (snd p).
  Definition posm (l : list (float * float)) : R := fold_right (fun p r => Rmax (prod p) 0 + r) 0 l.
  Definition negm (l : list (float * float)) : R := fold_right (fun p r => Rmax (- prod p) 0 + r) 0 l.
  Lemma posm_app l m : posm (l ++ m) = posm l + posm m.
  Proof. unfold posm. induction l as [|p l IH]; cbn [app fold_right]; [ring|]. rewrite IH. ring. Qed.
  Lemma negm_app l m : negm (l ++ m) = negm l + negm m.
  Proof. unfold negm. induction l as [|p l IH]; cbn [app fold_right]; [ring|]. rewrite IH. ring. Qed.
  Lemma posm_pos l : 0 <= posm l.
  Proof. unfold posm. induction l as [|p l IH]; cbn [fold_right]; [lra|]. pose proof (Rmax_r (prod p) 0). lra. Qed.
  Lemma negm_pos l : 0 <= negm l.
  Proof. unfold negm. induction l as [|p l IH]; cbn [fold_right]; [lra|]. pose proof (Rmax_r (- prod p) 0). lra. Qed.
  Lemma exact_parts l : DoubleProofs.exact l = posm l - negm l.
  Proof.
    unfold posm, negm, DoubleProofs.exact. induction l as [|p l IH]; cbn [fold_right]; [ring|]. rewrite IH. fold (prod p). unfold Rmax. destruct (Rle_dec (prod p) 0), (Rle_dec (- prod p) 0); lra.
  Qed.
  Lemma posm_perm l m : Permutation l m -> posm l = posm m.
  Proof. unfold posm. induction 1; cbn [fold_right]; lra. Qed.
  Lemma negm_perm l m : Permutation l m -> negm l = negm m.
  Proof. unfold negm. induction 1; cbn [fold_right]; lra. Qed.
  Definition unit_pair (p : float * float) : Prop := finite (fst p) /\ finite (snd p) /\ on_unit (prod p).
  Lemma exact_unit l : Forall unit_pair l -> on_unit (DoubleProofs.exact l).
  Proof. induction 1 as [|p l (_ & _ & H) _ IH]; [exists 0%Z; cbn; ring|]. apply on_unit_add; assumption. Qed.
  Lemma dots_units l v : dots l v -> Forall unit_pair l -> posm l <= 2 * u -> negm l <= 2 * u -> finite v /\ val v = DoubleProofs.exact l.
  Proof.
    intros D. induction D as [|x y|x y l v w D IH Hf|l m v w D1 IH1 D2 IH2|l m v P D IH]; intros F H1 H2.
    - split; reflexivity.
    - pose proof (exact_parts [(x, y)]) as E. pose proof (exact_unit _ F) as G. inversion F as [|p q (Fx & Fy & _) _]; subst. cbn [fst snd] in *.
      pose proof (posm_pos [(x, y)]). pose proof (negm_pos [(x, y)]).
      assert (Ep : DoubleProofs.exact [(x, y)] = val x * val y) by (cbn; ring). rewrite Ep in *.
      destruct (unit_nearest _ G) as [E1 E2]; [lra|]. destruct (mul_fin x y Fx Fy E2) as [F1 V1]. split; [exact F1|]. rewrite V1. exact E1.
    - pose proof (exact_unit _ F) as G. pose proof (exact_parts ((x, y) :: l)) as E. inversion F as [|p q (Fx & Fy & _) Fl]; subst. cbn [fst snd] in *.
      assert (posm l <= posm ((x, y) :: l)) by (unfold posm; cbn [fold_right]; pose proof (Rmax_r (prod (x, y)) 0); lra).
      assert (negm l <= negm ((x, y) :: l)) by (unfold negm; cbn [fold_right]; pose proof (Rmax_r (- prod (x, y)) 0); lra).
      destruct (IH Fl ltac:(lra) ltac:(lra)) as [Fv Vv]. pose proof (posm_pos ((x, y) :: l)). pose proof (negm_pos ((x, y) :: l)).
      assert (Ep : DoubleProofs.exact ((x, y) :: l) = val x * val y + val v) by (rewrite Vv; reflexivity). rewrite Ep in *.
      destruct (unit_nearest _ G) as [E1 E2]; [lra|]. destruct (proj1 Hf Fx Fy Fv E2) as [Fw Vw]. split; [exact Fw|]. rewrite Vw. exact E1.
    - pose proof (exact_unit _ F) as G. pose proof (exact_parts (l ++ m)) as E. apply Forall_app in F. destruct F as [F1 F2]. rewrite posm_app in *. rewrite negm_app in *.
      pose proof (posm_pos l). pose proof (posm_pos m). pose proof (negm_pos l). pose proof (negm_pos m).
      destruct (IH1 F1 ltac:(lra) ltac:(lra)) as [Fv Vv]. destruct (IH2 F2 ltac:(lra) ltac:(lra)) as [Fw Vw].
      rewrite exact_app, <- Vv, <- Vw in *. destruct (unit_nearest _ G) as [E1 E2]; [lra|]. destruct (add_fin v w Fv Fw E2) as [Fs Vs]. split; [exact Fs|]. rewrite Vs. exact E1.
    - rewrite <- (posm_perm _ _ P) in H1. rewrite <- (negm_perm _ _ P) in H2. rewrite <- (exact_perm _ _ P). apply IH; [|exact H1|exact H2].
      eapply Permutation_Forall; [apply Permutation_sym; exact P|exact F].
  Qed.
End Units.

Lemma scaled_format (c : float) k : on_grid (-1072) (val c) -> (0 <= k <= 2)%Z ->
  generic_format radix2 (FLT_exp (-1074) 53) (val c * bpow radix2 (- k)) /\ generic_format radix2 (FLT_exp (-1074) 53) (2 * (val c * bpow radix2 (- k))).
Proof.
  intros [z Ez] Hk. assert (G : exists m e, (-1072 <= e)%Z /\ (Z.abs m <= 2 ^ 53)%Z /\ val c = IZR m * bpow radix2 e).
  { pose proof (val_format c) as F. apply (FLT_format_generic radix2) in F; [|reflexivity]. destruct F as [[m e] E Hm He]. cbn [Fnum Fexp] in *. unfold F2R in E. cbn [Fnum Fexp] in E.
    destruct (Z.le_gt_cases (-1072) e) as [L|L]; [exists m, e; split; [exact L|]; split; [change (Zpower radix2 53) with (2 ^ 53)%Z in Hm; lia|exact E]|].
    exists z, (-1072)%Z. split; [lia|]. split; [|exact Ez].
    assert (Em : IZR m = IZR z * bpow radix2 (-1072 - e)).
    { unfold Z.sub. rewrite bpow_plus. apply Rmult_eq_reg_r with (bpow radix2 e); [|apply Rgt_not_eq, bpow_gt_0]. rewrite <- E, Ez. rewrite !Rmult_assoc, <- bpow_plus.
      replace (- e + e)%Z with 0%Z by lia. cbn [bpow]. ring. }
    rewrite <- (IZR_Zpower radix2) in Em by lia. rewrite <- mult_IZR in Em. apply eq_IZR in Em. rewrite Em in Hm. rewrite Z.abs_mul in Hm.
    assert (1 <= Z.abs (Zpower radix2 (-1072 - e)))%Z by (pose proof (Zpower_gt_0 radix2 (-1072 - e) ltac:(lia)); lia). change (Zpower radix2 53) with (2 ^ 53)%Z in Hm. nia. }
  destruct G as (m & e & He & Hm & ->). split.
  - rewrite Rmult_assoc, <- bpow_plus. apply grid_format; [lia|exact Hm].
  - replace (2 * (IZR m * bpow radix2 e * bpow radix2 (- k))) with (IZR m * bpow radix2 (1 + e - k)); [apply grid_format; [lia|exact Hm]|].
    unfold Z.sub. rewrite !bpow_plus. change (bpow radix2 1) with 2. ring.
Qed.

(** The entries that give exactly zero on a constant, whatever its value. *)
Definition balanced (der o : Z) : Prop := In (der, o) [(1, 1); (1, 2); (2, 2); (2, 4)]%Z.
Lemma balanced_row d der o : balanced der o -> exists (row : list float), @derivative_B (FAd d) der o = Some (Some row) /\
  forall c v, finite c -> on_grid (-1072) (val c) -> Rabs (val c) <= bpow radix2 1000 -> dots (combine row (repeat c (length row))) v -> finite v /\ val v = 0.
Proof.
  intros H. destruct val_lits as (V1 & V2 & V3 & V4 & V5 & V6 & V7 & V8 & V9 & V10 & V11 & V12 & V13).
  assert (B1 : bpow radix2 (-1) = / 2) by (cbn; lra). assert (B2 : bpow radix2 (-2) = / 4) by (cbn; lra). assert (B0 : bpow radix2 0 = 1) by reflexivity.
  assert (Go : forall (row : list float) (js : list Z) k, (0 <= k <= 2)%Z -> Forall2 (fun r j => finite r /\ val r = IZR j * bpow radix2 (- k)) row js ->
     (fold_right (fun j r => Z.max j 0 + r) 0 js <= 2)%Z -> (fold_right (fun j r => Z.max (- j) 0 + r) 0 js <= 2)%Z -> (fold_right Z.add 0 js = 0)%Z ->
     forall c v, finite c -> on_grid (-1072) (val c) -> Rabs (val c) <= bpow radix2 1000 -> dots (combine row (repeat c (length row))) v -> finite v /\ val v = 0).
  { intros row js k Hk F HP HN HS c v Fc Gc Bc D. set (u := Rabs (val c) * bpow radix2 (- k)). assert (P : 0 < bpow radix2 (- k)) by apply bpow_gt_0.
    assert (u0 : 0 <= u) by (apply Rmult_le_pos; [apply Rabs_pos|lra]).
    assert (P1 : bpow radix2 (- k) <= 1) by (change 1 with (bpow radix2 0); apply bpow_le; lia).
    assert (ub : u <= bpow radix2 1000) by (apply Rle_trans with (Rabs (val c) * 1); [apply Rmult_le_compat_l; [apply Rabs_pos|exact P1]|lra]).
    assert (hb : 2 * bpow radix2 1000 < huge) by (change 2 with (bpow radix2 1); rewrite <- bpow_plus; apply bpow_lt; lia).
    assert (U : u = val c * bpow radix2 (- k) \/ u = - (val c * bpow radix2 (- k))) by (unfold u, Rabs; destruct (Rcase_abs (val c)); [right|left]; ring).
    destruct (scaled_format c k Gc Hk) as [S1 S2].
    assert (N1 : nearest u = u).
    { destruct U as [->| ->]; [|rewrite nearest_opp; f_equal]; apply round_generic; try apply valid_rnd_N; exact S1. }
    assert (N2 : nearest (2 * u) = 2 * u).
    { destruct U as [->| ->]; [|replace (2 * - (val c * bpow radix2 (- k))) with (- (2 * (val c * bpow radix2 (- k)))) by ring; rewrite nearest_opp; f_equal]; apply round_generic; try apply valid_rnd_N; exact S2. }
    assert (Q : forall l js', Forall2 (fun r j => finite r /\ val r = IZR j * bpow radix2 (- k)) l js' ->
       let L := combine l (repeat c (length l)) in
       Forall (unit_pair u) L /\ DoubleProofs.exact L = IZR (fold_right Z.add 0%Z js') * (val c * bpow radix2 (- k)) /\
       (0 <= val c -> posm L = IZR (fold_right (fun j r => Z.max j 0 + r) 0 js')%Z * u /\ negm L = IZR (fold_right (fun j r => Z.max (- j) 0 + r) 0 js')%Z * u) /\
       (val c < 0 -> negm L = IZR (fold_right (fun j r => Z.max j 0 + r) 0 js')%Z * u /\ posm L = IZR (fold_right (fun j r => Z.max (- j) 0 + r) 0 js')%Z * u)).
    { assert (RM : forall (j : Z), Rmax (IZR j * u) 0 = IZR (Z.max j 0) * u).
      { intros j. destruct (Z.max_spec j 0) as [[L ->]|[L ->]].
        - rewrite Rmax_right; [ring|]. apply IZR_lt in L. assert (0 <= (- IZR j) * u) by (apply Rmult_le_pos; lra). lra.
        - apply Rmax_left. apply IZR_le in L. apply Rmult_le_pos; lra. }
      induction 1 as [|r j l js' [Fr Er] _ (IH1 & IH2 & IH3 & IH4)].
      - cbn. split; [constructor|]. split; [ring|]. split; intros _; split; ring.
      - cbv zeta. cbn [length repeat combine]. set (L := combine l (repeat c (length l))) in *.
        assert (Ep : prod (r, c) = IZR j * (val c * bpow radix2 (- k))) by (unfold prod; cbn [fst snd]; rewrite Er; ring).
        unfold posm, negm, DoubleProofs.exact in *. cbn [fold_right fst snd].
        split; [|split; [|split]].
        + constructor; [|exact IH1]. split; [exact Fr|]. split; [exact Fc|]. rewrite Ep. destruct U as [U|U]; [exists j|exists (- j)%Z]; rewrite U, ?opp_IZR; ring.
        + change (val r * val c) with (prod (r, c)). rewrite Ep, IH2, plus_IZR. ring.
        + intros Hc. destruct (IH3 Hc) as [I1 I2]. rewrite I1, I2, Ep, !plus_IZR.
          assert (Uc : val c * bpow radix2 (- k) = u) by (unfold u; rewrite Rabs_pos_eq by exact Hc; reflexivity). rewrite Uc.
          replace (- (IZR j * u)) with (IZR (- j) * u) by (rewrite opp_IZR; ring). rewrite !RM. split; ring.
        + intros Hc. destruct (IH4 Hc) as [I1 I2]. rewrite I1, I2, Ep, !plus_IZR.
          assert (Uc : val c * bpow radix2 (- k) = - u) by (unfold u; rewrite Rabs_left by exact Hc; ring). rewrite Uc.
          replace (- (IZR j * - u)) with (IZR j * u) by ring. replace (IZR j * - u) with (IZR (- j) * u) by (rewrite opp_IZR; ring). rewrite !RM. split; ring. }
    destruct (Q row js F) as (Q1 & Q2 & Q3 & Q4). apply IZR_le in HP. apply IZR_le in HN.
    assert (M : forall a, a <= 2 -> a * u <= 2 * u) by (intros; apply Rmult_le_compat_r; assumption).
    assert (L1 : u < huge) by lra. assert (L2 : 2 * u < huge) by lra. destruct (dots_units u u0 (conj N1 L1) (conj N2 L2) _ _ D Q1) as [Fv Vv].
    - destruct (Rlt_le_dec (val c) 0) as [Hc|Hc]; [rewrite (proj2 (Q4 Hc))|rewrite (proj1 (Q3 Hc))]; apply M; assumption.
    - destruct (Rlt_le_dec (val c) 0) as [Hc|Hc]; [rewrite (proj1 (Q4 Hc))|rewrite (proj2 (Q3 Hc))]; apply M; assumption.
    - split; [exact Fv|]. rewrite Vv, Q2, HS. ring. }
  unfold balanced in H. cbn [In] in H. repeat match type of H with _ \/ _ => destruct H as [H|H] end; try contradiction; injection H as <- <-; cbn [derivative_B];
    [exists [1; -1]%float; split; [|apply (Go _ [1; -1]%Z 0%Z)]
    |exists [0.5; 0; -0.5]%float; split; [|apply (Go _ [1; 0; -1]%Z 1%Z)]
    |exists [1; -2; 1]%float; split; [|apply (Go _ [1; -2; 1]%Z 0%Z)]
    |exists [0.25; 0; -0.5; 0; 0.25]%float; split; [|apply (Go _ [1; 0; -2; 0; 1]%Z 2%Z)]];
    try lia; try (cbn; lia); try (cbn; reflexivity);
    try (apply (f_equal (fun l => Some (Some l))); vm_compute; reflexivity);
    (repeat apply Forall2_cons; [..|apply Forall2_nil]; (split; [reflexivity|]); cbn [Z.opp]; rewrite ?V1, ?V2, ?V3, ?V4, ?V5, ?V6, ?V7, ?V12, ?B0, ?B1, ?B2; lra).
Qed.

Lemma constant_window d (row : list float) der o ops (f : fir (FAd d)) (c : float) len : @derivative_B (FAd d) der o = Some (Some row) -> derivative_usedF d der o ops f -> len <> 0%nat ->
  exists f1 y, @fir_reset (FAd d) f (Some c) = (f1, Ok tt) /\ snd (fir_filter f1 (@repeat (carrier (FAd d)) c len)) = Ok y /\ length y = len /\
    forall n, (n < len)%nat -> nth n y 0%float = d row (repeat c (length row)).
Proof.
  intros EB Hu Hl. destruct (derivative_usedF_fir _ _ _ _ _ _ EB Hu) as (U & Eb & Ed).
  assert (U1 : fir_used (@mkArr (FAd d) DFloat row) (mkArr DFloat []) (ops ++ [@OReset (FAd d) (Some c)]) (with_s f (map (fun _ => @cast (FAd d) (fdt f) c) (fs f)))).
  { destruct U as (f0 & E & ->). exists f0. split; [exact E|]. rewrite fold_left_app. reflexivity. }
  destruct (fir_used_inv _ _ _ _ U) as [Nb Ls].
  assert (Nx : (@repeat (carrier (FAd d)) c len) <> []) by (destruct len; [congruence|discriminate]).
  destruct (C01_fir_window_any_arithmetic (FAd d) _ _ _ _ _ U1 Nx) as (f' & y & E & Ly & Hy).
  eexists _, y. split; [reflexivity|]. rewrite E. split; [reflexivity|].
  assert (Lr : @length (carrier (FAd d)) (repeat c len) = len) by apply repeat_length.
  split; [exact (eq_trans Ly Lr)|]. intros n Hn. etransitivity; [exact (Hy n (eq_ind_r (fun k => (n < k)%nat) Hn Lr))|].
  cbn [with_s fb fs fdt]. rewrite Ed, Eb.
  match goal with |- _ = ?r => change (d row (map (fun i => @sig FA (map (fun _ : float => c) (fs f)) (map (fun v : float => v) (repeat c len)) (Z.of_nat n - Z.of_nat i)) (seq 0 (length row))) = r) end.
  rewrite (map_id (repeat c len)). apply f_equal. apply nth_ext with (d := c) (d' := c).
  - rewrite map_length, seq_length, repeat_length. reflexivity.
  - intros i Hi. rewrite map_length, seq_length in Hi. rewrite nth_repeat. rewrite (nth_map_lt _ _ i 0%nat) by (rewrite seq_length; exact Hi). rewrite seq_nth by exact Hi.
    unfold sig. destruct (Z.ltb_spec (Z.of_nat n - Z.of_nat (0 + i)) 0).
    + assert (Lk : (Z.to_nat (- (Z.of_nat n - Z.of_nat (0 + i)) - 1) < @length float (fs f))%nat) by (assert (Ls' : @length float (fs f) = @length float row) by exact (eq_trans Ls (f_equal (@length float) Eb)); rewrite Ls'; lia).
      apply (nth_map_lt (fun _ : float => c) (fs f) _ 0%float _ Lk).
    + apply (@nth_repeat_lt float). lia.
Qed.

Theorem C175_constant d der o ops (f : fir (FAd d)) (c : float) len : any_order d -> balanced der o -> derivative_usedF d der o ops f -> len <> 0%nat ->
  multiple (-1072) c -> Rabs (val c) <= bpow radix2 1000 ->
  exists f1 y, @fir_reset (FAd d) f (Some c) = (f1, Ok tt) /\ snd (fir_filter f1 (@repeat (carrier (FAd d)) c len)) = Ok y /\ length y = len /\
    forall n, (n < len)%nat -> finite (nth n y 0%float) /\ val (nth n y 0%float) = 0.
Proof.
  intros Hd Hb Hu Hl [Fc Gc] Bc. destruct (balanced_row d der o Hb) as (row & EB & Hz).
  destruct (constant_window d row der o ops f c len EB Hu Hl) as (f1 & y & E1 & E2 & Ly & Hy). exists f1, y. split; [exact E1|]. split; [exact E2|]. split; [exact Ly|].
  intros n Hn. rewrite (Hy n Hn). apply (Hz c); try assumption. apply Hd. rewrite repeat_length. reflexivity.
Qed.
Print Assumptions C175_constant.

Ltac litvals := repeat match goal with |- context [val ?v] =>
  let E := fresh in let r := fresh in evar (r : R); assert (E : val v = r) by (unfold val; vm_compute Prim2B; cbn [B2R SF2R]; unfold F2R; cbn; subst r; reflexivity);
  subst r; rewrite E; clear E end.
(** Every entry of the table, rounded to doubles: the coefficients nearly cancel. *)
Lemma any_row d der o deg : exact_degree der o = Some deg -> exists (row : list float), @derivative_B (FAd d) der o = Some (Some row) /\ Forall finite row /\ (length row <= 9)%nat /\ magsum row <= 5 /\ Rabs (fold_right (fun v r => val v + r) 0 row) <= 8 * uro.
Proof.
  intros H. pose proof (exact_degree_list _ _ _ H) as Hin. remember (der, o, deg) as p eqn:E. symmetry in E. cbn [In] in Hin.
  assert (Eu : uro = / 9007199254740992) by (unfold uro; cbn; lra).
  repeat match type of Hin with _ \/ _ => destruct Hin as [<-|Hin] end; [..|contradiction]; injection E as -> -> ->; cbn [derivative_B]; eexists;
    (split; [apply (f_equal (fun l => Some (Some l))); vm_compute; reflexivity|]); (split; [repeat (apply Forall_cons; [reflexivity|]); apply Forall_nil|]); (split; [cbn; lia|]); rewrite Eu;
    (split; [unfold magsum, aval; cbn [fold_right]; litvals; repeat (match goal with |- context [Rabs ?x] => first [rewrite (Rabs_pos_eq x) by lra | rewrite (Rabs_left1 x) by lra] end); lra
            |cbn [fold_right]; litvals; apply Rabs_le; lra]).
Qed.

Lemma gam9 : gam 9 <= 10 * uro.
Proof.
  assert (U : 0 < uro <= / 1000) by (split; [apply uro_pos|unfold uro; cbn; lra]).
  assert (S : forall n k, gam n <= k * uro -> 0 <= k <= 10 -> gam (S n) <= (k + 11 / 10) * uro).
  { intros n k H Hk. rewrite gam_S. assert (uro * gam n <= / 1000 * (k * uro)) by (apply Rmult_le_compat; try lra; apply gam_pos).
    assert (k * uro <= 10 * uro) by (apply Rmult_le_compat_r; lra). lra. }
  assert (G0 : gam 0 <= 0 * uro) by (unfold gam; cbn; lra).
  do 9 (match goal with H : gam ?n <= ?k * uro |- _ => pose proof (S n k H ltac:(lra)); clear H end). lra.
Qed.
Lemma und9 : und 9 <= 34 * eta0.
Proof.
  unfold und. pose proof gam9 as G. unfold gam in G. assert (U : uro <= / 1000) by (unfold uro; cbn; lra). pose proof eta0_pos.
  apply Rmult_le_compat_r; [lra|]. replace (INR (2 * 9 - 1)) with 17 by (cbn; lra). lra.
Qed.
Lemma const_mags (row : list float) c : mags (combine row (repeat c (length row))) = magsum row * Rabs (val c) /\
  DoubleProofs.exact (combine row (repeat c (length row))) = fold_right (fun v r => val v + r) 0 row * val c.
Proof.
  induction row as [|v row [I1 I2]]; [cbn; split; ring|]. unfold mags, DoubleProofs.exact, magsum in *. cbn [length repeat combine fold_right fst snd].
  rewrite I1, I2. unfold aval. split; ring.
Qed.

(** Every entry of the table: the output for a constant is at most 2^-47 of it (plus 2^-1069). *)
Theorem C175_level d der o deg ops (f : fir (FAd d)) (c : float) len : any_order d -> exact_degree der o = Some deg -> derivative_usedF d der o ops f -> len <> 0%nat ->
  finite c -> Rabs (val c) <= bpow radix2 1000 ->
  exists f1 y, @fir_reset (FAd d) f (Some c) = (f1, Ok tt) /\ snd (fir_filter f1 (@repeat (carrier (FAd d)) c len)) = Ok y /\ length y = len /\
    forall n, (n < len)%nat -> finite (nth n y 0%float) /\ Rabs (val (nth n y 0%float)) <= bpow radix2 (-47) * Rabs (val c) + bpow radix2 (-1069).
Proof.
  intros Hd Hdeg Hu Hl Fc Bc. destruct (any_row d der o deg Hdeg) as (row & EB & Fr & Lr & Mr & Sr).
  destruct (constant_window d row der o ops f c len EB Hu Hl) as (f1 & y & E1 & E2 & Ly & Hy). exists f1, y. split; [exact E1|]. split; [exact E2|]. split; [exact Ly|].
  intros n Hn. rewrite (Hy n Hn). destruct (const_mags row c) as [Em Ee]. pose proof (Rabs_pos (val c)) as C0.
  set (L := combine row (repeat c (length row))) in *. assert (LL : length L = length row) by (unfold L; rewrite combine_length, repeat_length; apply Nat.min_id).
  pose proof (gam_mono _ _ Lr) as G. pose proof gam9 as G9. pose proof (und_mono _ _ Lr) as Un. pose proof und9 as U9. pose proof (gam_pos (length row)) as Gp. pose proof uro_pos as U0. pose proof eta0_pos as T0.
  assert (Uv : uro = bpow radix2 (-53)) by (unfold uro; cbn; lra).
  assert (Us : uro <= / 1000) by (unfold uro; cbn; lra).
  assert (Te : 34 * eta0 <= bpow radix2 (-1069)).
  { apply Rle_trans with (bpow radix2 6 * bpow radix2 (-1075)); [|rewrite <- bpow_plus; apply bpow_le; lia].
    assert (Et : eta0 = bpow radix2 (-1075)) by (unfold eta0; change (bpow radix2 (-1075)) with (bpow radix2 (-1 + -1074)); rewrite bpow_plus; reflexivity).
    rewrite <- Et. replace (bpow radix2 6) with 64 by (cbn; lra). lra. }
  assert (M1 : mags L <= 5 * Rabs (val c)) by (rewrite Em; apply Rmult_le_compat_r; assumption).
  assert (M0 : 0 <= mags L) by apply mags_pos.
  assert (Gm : gam (length row) * mags L <= 10 * uro * (5 * Rabs (val c))) by (apply Rmult_le_compat; lra).
  destruct (dots_good L (d row (repeat c (length row)))) as [F V].
  - apply Hd. rewrite repeat_length. reflexivity.
  - apply Forall_forall. intros [p q] Hin. unfold L in Hin. pose proof (in_combine_l _ _ _ _ Hin) as Hp. apply in_combine_r in Hin. apply repeat_spec in Hin. subst q.
    split; cbn [fst snd]; [apply (proj1 (Forall_forall _ _) Fr), Hp|exact Fc].
  - rewrite LL. assert (bpow radix2 (-1069) <= 1) by (change 1 with (bpow radix2 0); apply bpow_le; lia).
    assert (1 <= bpow radix2 1000) by (change 1 with (bpow radix2 0); apply bpow_le; lia).
    assert (8 * bpow radix2 1000 < huge) by (change 8 with (bpow radix2 3); rewrite <- bpow_plus; apply bpow_lt; lia).
    assert (10 * uro * (5 * Rabs (val c)) <= 10 * / 1000 * (5 * Rabs (val c))) by (apply Rmult_le_compat_r; lra). lra.
  - split; [exact F|]. rewrite LL in V. rewrite Ee in V.
    assert (B : Rabs (fold_right (fun v r => val v + r) 0 row * val c) <= 8 * uro * Rabs (val c)) by (rewrite Rabs_mult; apply Rmult_le_compat_r; assumption).
    pose proof (Rabs_triang (val (d row (repeat c (length row))) - fold_right (fun v r => val v + r) 0 row * val c) (fold_right (fun v r => val v + r) 0 row * val c)) as T.
    replace (val (d row (repeat c (length row))) - fold_right (fun v r => val v + r) 0 row * val c + fold_right (fun v r => val v + r) 0 row * val c) with (val (d row (repeat c (length row)))) in T by ring.
    assert (Eb : bpow radix2 (-47) = 64 * uro) by (rewrite Uv; change 64 with (bpow radix2 6); rewrite <- bpow_plus; reflexivity). rewrite Eb.
    assert (0 <= uro * Rabs (val c)) by (apply Rmult_le_pos; lra). lra.
Qed.
Print Assumptions C175_level.

(** For the other entries exactly zero is false, already for the constant 1. *)
Definition dotL175 : list float -> list float -> float := dot_from PrimFloat.add PrimFloat.mul 0%float.
Theorem C175_constant_refuted : exists d der o deg (f f1 : fir (FAd d)) (y : list float), any_order d /\ exact_degree der o = Some deg /\ derivative_usedF d der o [] f /\
  @fir_reset (FAd d) f (Some 1%float) = (f1, Ok tt) /\ snd (fir_filter f1 (@repeat (carrier (FAd d)) 1%float 3)) = Ok y /\ Forall (fun v => val v <> 0) y /\ length y = 3%nat.
Proof.
  set (row := [-0x1.5555555555555p-4; 0x1.5555555555555p-1; 0; -0x1.5555555555555p-1; 0x1.5555555555555p-4]%float).
  assert (EB : @derivative_B (FAd dotL175) 1 4 = Some (Some row)) by (cbn [derivative_B]; apply (f_equal (fun l => Some (Some l))); vm_compute; reflexivity).
  assert (Hf : exists f0, @derivative_make (FAd dotL175) 1 4 = Ok f0) by (unfold derivative_make; rewrite EB; eexists; reflexivity). destruct Hf as [f0 Hf].
  assert (U : derivative_usedF dotL175 1 4 [] f0) by (exists f0; split; [exact Hf|reflexivity]).
  destruct (constant_window dotL175 row 1 4 [] f0 1%float 3 EB U ltac:(lia)) as (f1 & y & E1 & E2 & Ly & Hy).
  exists dotL175, 1%Z, 4%Z, 4%nat, f0, f1, y. split; [exact left_any_order|]. split; [reflexivity|]. split; [exact U|]. split; [exact E1|]. split; [exact E2|]. split; [|exact Ly].
  apply Forall_forall. intros v Hv. apply (In_nth _ _ 0%float) in Hv. destruct Hv as (n & Hn & <-). 
  assert (Hn' : (n < 3)%nat) by exact (eq_ind _ (fun k => (n < k)%nat) Hn _ Ly).
  assert (Ev : dotL175 row (repeat 1%float (length row)) = (-0x1.8p-55)%float) by (vm_compute; reflexivity).
  intros C. assert (C' : val (-0x1.8p-55)%float = 0) by (rewrite <- Ev, <- (Hy n Hn'); exact C). revert C'. litval.
Qed.
Print Assumptions C175_constant_refuted.

Lemma samples_lit g (v : float) z : finite v -> val v = IZR z -> (0 >= g)%Z -> Rabs (IZR z) <= bpow radix2 (50 + g) -> sample g v.
Proof.
  intros F E Hg B. split; [|rewrite E; exact B]. split; [exact F|]. exists (z * 2 ^ (- g))%Z. rewrite E, mult_IZR, (IZR_Zpower radix2) by lia. rewrite Rmult_assoc, <- bpow_plus.
  replace (- g + g)%Z with 0%Z by lia. cbn [bpow]. ring.
Qed.
(** The squares 0, 1, 4, 9, 16 through the second derivative of order 2. *)
Example C175_example : exists f, derivative_usedF dotL175 2 2 [] f /\ dyadic 2 2 /\ balanced 2 2 /\ exact_degree 2 2 = Some 3%nat /\
  Forall (sample 0) (fs f) /\ Forall (sample 0) [0; 1; 4; 9; 16]%float /\ samples_of (peval [0; 0; 1]) 0 (map val [0; 1; 4; 9; 16]%float) /\
  multiple (-1072) 0x1.999999999999ap-4%float /\
  match snd (fir_filter f ([0; 1; 4; 9; 16]%float : list (FAd dotL175))) with Ok y => Some (y : list float) | Err _ => None end = Some [0; 1; 2; 2; 2]%float.
Proof.
  assert (EB : @derivative_B (FAd dotL175) 2 2 = Some (Some [1; -2; 1]%float)) by (cbn [derivative_B]; apply (f_equal (fun l => Some (Some l))); vm_compute; reflexivity).
  exists (@mkFir (FAd dotL175) DFloat [1; -2; 1]%float [0; 0; 0]%float).
  assert (V : val 0%float = 0 /\ val 1%float = 1 /\ val 4%float = 4 /\ val 9%float = 9 /\ val 16%float = 16) by (repeat split; litval). destruct V as (V0 & V1 & V4 & V9 & V16).
  split; [eexists; split; [unfold derivative_make; rewrite EB; reflexivity|reflexivity]|]. split; [cbn; tauto|]. split; [cbn; tauto|]. split; [reflexivity|].
  assert (S : forall v z, finite v -> val v = IZR z -> (0 <= z <= 100)%Z -> sample 0 v).
  { intros v z F E Hz. apply (samples_lit 0 v z F E); [lia|]. rewrite <- abs_IZR. change (bpow radix2 (50 + 0)) with (IZR (2 ^ 50)). apply IZR_le. lia. }
  split; [repeat (apply Forall_cons; [apply (S _ 0%Z); [reflexivity|exact V0|lia]|]); apply Forall_nil|].
  split; [apply Forall_cons; [apply (S _ 0%Z)|apply Forall_cons; [apply (S _ 1%Z)|apply Forall_cons; [apply (S _ 4%Z)|apply Forall_cons; [apply (S _ 9%Z)|apply Forall_cons; [apply (S _ 16%Z)|apply Forall_nil]]]]]; try reflexivity; try assumption; lia|].
  split.
  { intros k Hk. cbn [map length] in Hk. cbn [map]. rewrite V0, V1, V4, V9, V16. do 5 (destruct k as [|k]; [cbn; lra|]). lia. }
  split; [|vm_compute; reflexivity].
  split; [reflexivity|]. exists (7205759403792794 * 2 ^ 1016)%Z. rewrite mult_IZR, (IZR_Zpower radix2) by lia. rewrite Rmult_assoc, <- bpow_plus. litval.
Qed.
