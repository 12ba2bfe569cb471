(** Property C161: WaveletTransform over several levels. *)
From Coq Require Import List Arith ZArith Lia Bool String Reals Lra.
From Verif Require Import Base BaseLemmas PyString Instances CalculusModel CalculusProps FirModel FirSpec FirProofs Sums WaveletModel WaveletProofs WaveletProps WaveletExactProps.
Import ListNotations.
Set Asymmetric Patterns.
Close Scope string_scope. Open Scope R_scope.

(** ** Specification *)
(** [count] levels of analysis of x, and [count] levels of synthesis of the result, give z. *)
Definition returns (bk : wbank RA) (count : Z) (x z : list R) : Prop :=
  exists y : list R, transformR bk (ND1 x) count false = Ok (ND1 y) /\ transformR bk (ND1 y) count true = Ok (ND1 z).
(** The double-shift orthogonality relations of the normalised low-pass filter. *)
Definition orthogonal (row : list R) (n : Z) : Prop :=
  Z.of_nat (length row) = (n + 1)%Z /\ Z.odd n = true /\ (1 < n)%Z /\
  forall k : Z, acorr (normal row) (2 * k) = if (k =? 0)%Z then 1/2 else 0.
(** z is x times g, delayed by d samples. *)
Definition scaled_delay (g : R) (d : Z) (x z : list R) : Prop :=
  length z = length x /\ forall m, (m < length z)%nat -> nth m z 0 = g * ex x (Z.of_nat m - d).

(** ** One more level around k levels *)
Lemma half_double h : half (2 * S h) = S h.
Proof. unfold half. rewrite Nat.mul_comm, Nat.div_mul by lia. apply Nat.max_l. lia. Qed.

Lemma pureA_line (f : list R -> list R) k (x : list R) h : @keeps_len RA f -> adm k (S h) -> length x = (2 * S h)%nat ->
  exists u : list R, @pureA RA f k 1 (S h) [firstn (S h) (f x)] = [u] /\ length u = S h /\
    @pureA RA f (S k) 1 (2 * S h) [x] = [u ++ skipn (S h) (f x)].
Proof.
  intros Hf Ha Hx. assert (Hfx : length (f x) = (2 * S h)%nat) by (apply Hf, Hx).
  assert (W : @wf RA 1 (S h) (@pureA RA f k 1 (S h) [firstn (S h) (f x)])).
  { apply pureA_wf; [exact Hf|left; reflexivity|exact Ha|]. split; [reflexivity|]. repeat constructor. rewrite firstn_length. change (carrier RA) with R. lia. }
  destruct W as [W1 W2]. destruct (@pureA RA f k 1 (S h) [firstn (S h) (f x)]) as [|u [|]] eqn:E; try discriminate W1.
  exists u. split; [reflexivity|]. split; [inversion W2; assumption|].
  cbn [pureA]. rewrite half_double. change (half 1) with 1%nat. unfold cols_if. change (Nat.ltb 1 1) with false. cbv iota.
  unfold rows_if. destruct (Nat.ltb_spec 1 (2 * S h)); [|lia]. 
  change (block 1 (S h) (map f [x])) with [firstn (S h) (f x)]. rewrite E. reflexivity.
Qed.
Lemma pureS_line (f : list R -> list R) k (y : list R) h : @keeps_len RA f -> adm k (S h) -> length y = (2 * S h)%nat ->
  exists u : list R, @pureS RA f k 1 (S h) [firstn (S h) y] = [u] /\ length u = S h /\
    @pureS RA f (S k) 1 (2 * S h) [y] = [f (u ++ skipn (S h) y)].
Proof.
  intros Hf Ha Hx.
  assert (W : @wf RA 1 (S h) (@pureS RA f k 1 (S h) [firstn (S h) y])).
  { apply pureS_wf; [exact Hf|left; reflexivity|exact Ha|]. split; [reflexivity|]. repeat constructor. rewrite firstn_length. change (carrier RA) with R. lia. }
  destruct W as [W1 W2]. destruct (@pureS RA f k 1 (S h) [firstn (S h) y]) as [|u [|]] eqn:E; try discriminate W1.
  exists u. split; [reflexivity|]. split; [inversion W2; assumption|].
  cbn [pureS]. rewrite half_double. change (half 1) with 1%nat. unfold cols_if. change (Nat.ltb 1 1) with false. cbv iota.
  unfold rows_if. destruct (Nat.ltb_spec 1 (2 * S h)); [|lia]. 
  change (block 1 (S h) [y]) with [firstn (S h) y]. rewrite E. reflexivity.
Qed.

Lemma pow_half k h : ((2 * S h) mod 2 ^ S k = 0 -> S h mod 2 ^ k = 0)%nat.
Proof.
  rewrite Nat.pow_succ_r'. rewrite Nat.mul_mod_distr_l by (try apply Nat.pow_nonzero; lia). lia.
Qed.

(** The round trip of k + 1 levels is the synthesis of one level, with the round trip of k
    levels in place of the low band. *)
Lemma returns_step row n bk k (x : list R) h : Z.of_nat (length row) = (n + 1)%Z -> Z.odd n = true -> (1 < n)%Z -> bankR row = Ok bk ->
  length x = (2 * S h)%nat -> ((2 * S h) mod 2 ^ S (S k) = 0)%nat ->
  exists low' : list R, length low' = S h /\ returns bk (Z.of_nat (S k)) (firstn (S h) (an bk x)) low' /\
    returns bk (Z.of_nat (S (S k))) x (sy bk (low' ++ skipn (S h) (an bk x))).
Proof.
  intros Hl Hn H1 E Hx Hm. pose proof (pow_half (S k) h Hm) as Hm'.
  assert (Hrow : row <> []) by (intros ->; cbn in Hl; lia). pose proof (wt_bank_ok row bk Hrow E) as Hb.
  pose proof (anR_length (ba0_ bk) (ba1_ bk) x _ Hx) as HL. change (anR (ba0_ bk) (ba1_ bk) x) with (an bk x) in HL.
  assert (A : adm (S k) (S h)) by (right; split; [lia|exact Hm']).
  assert (A2 : adm (S (S k)) (length x)) by (right; rewrite Hx; split; [lia|exact Hm]).
  assert (Hn0 : x <> []) by (intros ->; cbn in Hx; lia).
  assert (G2 : good_dim (Z.of_nat (S (S k))) (length x)) by (right; rewrite Hx, Nat2Z.id; exact Hm).
  set (low := firstn (S h) (an bk x)). assert (Hlow : length low = S h) by (unfold low; rewrite firstn_length; lia).
  assert (Hln : low <> []) by (intros Q; rewrite Q in Hlow; discriminate).
  assert (G1 : good_dim (Z.of_nat (S k)) (length low)) by (right; rewrite Hlow, Nat2Z.id; exact Hm').
  destruct (pureA_line (an bk) (S k) x h (keeps_analysis DFloat (ba0 bk) (ba1 bk)) A Hx) as (u & Eu & Lu & Ex).
  destruct (transform1 bk Hb DFloat low k false Hln G1) as (y1 & T1 & P1).
  destruct (transform1 bk Hb DFloat x (S k) false Hn0 G2) as (y & T2 & P2).
  assert (Q1 : y1 = u).
  { assert (Q : [y1] = [u]); [|congruence]. rewrite <- P1, <- Eu. unfold pure_wt. rewrite (Hlow : @length (carrier RA) low = S h). reflexivity. }
  assert (Q2 : y = u ++ skipn (S h) (an bk x)).
  { assert (Q : [y] = [u ++ skipn (S h) (an bk x)]); [|congruence]. rewrite <- P2, <- Ex. unfold pure_wt. rewrite (Hx : @length (carrier RA) x = _). reflexivity. }
  subst y1. assert (Hy : length y = (2 * S h)%nat) by (rewrite Q2, app_length, skipn_length; change (carrier RA) with R; lia).
  assert (Hun : u <> []) by (intros Q; rewrite Q in Lu; discriminate).
  assert (Hyn : y <> []) by (intros Q; rewrite Q in Hy; discriminate).
  destruct (transform1 bk Hb DFloat u k true Hun) as (z1 & T3 & P3); [rewrite (Lu : @length (carrier RA) u = S h), <- Hlow; exact G1|].
  destruct (transform1 bk Hb DFloat y (S k) true Hyn) as (z & T4 & P4); [rewrite (Hy : @length (carrier RA) y = _), <- Hx; exact G2|].
  destruct (pureS_line (sy bk) (S k) y h (keeps_synthesis DFloat (bs0 bk) (bs1 bk)) A Hy) as (v & Ev & Lv & Ez).
  assert (Fy : firstn (S h) y = u) by (rewrite Q2, firstn_app, Lu, Nat.sub_diag, firstn_O, app_nil_r, firstn_all2; [reflexivity|lia]).
  assert (Sy : skipn (S h) y = skipn (S h) (an bk x)).
  { rewrite Q2, skipn_app, Lu, Nat.sub_diag, skipn_O, skipn_all2; [reflexivity|lia]. }
  assert (Q3 : z1 = v).
  { assert (Q : [z1] = [v]); [|congruence]. rewrite (Lu : @length (carrier RA) u = S h) in P3.
    exact (eq_trans (eq_sym P3) (eq_trans (eq_sym (f_equal (fun l : list R => @pureS RA (sy bk) (S k) 1 (S h) [l]) Fy)) Ev)). }
  assert (Q4 : z = sy bk (v ++ skipn (S h) (an bk x))).
  { assert (Q : [z] = [sy bk (v ++ skipn (S h) (an bk x))]); [|congruence]. rewrite (Hy : @length (carrier RA) y = _) in P4.
    exact (eq_trans (eq_sym P4) (eq_trans Ez (f_equal (fun l : list R => [sy bk (v ++ l)]) Sy))). }
  exists v. split; [exact Lv|]. split.
  - exists u. split; [exact T1|]. rewrite <- Q3. exact T3.
  - exists y. split; [exact T2|]. rewrite <- Q4. exact T4.
Qed.

(** What one level returns is unique. *)
Lemma returns_unique bk count x z z' : returns bk count x z -> returns bk count x z' -> z = z'.
Proof. intros (y & E1 & E2) (y' & E1' & E2'). assert (y = y') by congruence. subst y'. congruence. Qed.

(** ** C161 *)
(** With an orthogonal bank, k + 2 levels return the signal delayed by order - 1 plus the
    synthesis of the difference between the low band and what k + 1 levels make of it: the low
    band comes back late, the high band does not wait for it. *)
Theorem C161_levels_misaligned (row : list R) (n : Z) (bk : wbank RA) k (x : list R) h : orthogonal row n -> bankR row = Ok bk ->
  length x = (2 * S h)%nat -> ((2 * S h) mod 2 ^ S (S k) = 0)%nat ->
  exists low low' z : list R, length low = S h /\ length low' = S h /\ length z = length x /\
    (forall j, (j < S h)%nat -> nth j low 0 = rsum (length row) (fun i => nth i (normal row) 0 * ex x (2 * Z.of_nat j + 1 - Z.of_nat i))) /\
    returns bk (Z.of_nat (S k)) low low' /\ returns bk (Z.of_nat (S (S k))) x z /\
    forall m, (m < length x)%nat -> nth m z 0 = ex x (Z.of_nat m - (n - 1)) +
      2 * rsum (S h) (fun j => ex (normal row) (n - Z.of_nat m + 2 * Z.of_nat j) * (nth j low' 0 - nth j low 0)).
Proof.
  intros (Hl & Hn & H1 & Ho) E Hx Hm. destruct (returns_step row n bk k x h Hl Hn H1 E Hx Hm) as (low' & L' & R1 & R2).
  pose proof (anR_length (ba0_ bk) (ba1_ bk) x _ Hx) as HL. change (anR (ba0_ bk) (ba1_ bk) x) with (an bk x) in HL.
  assert (Hrow : row <> []) by (intros ->; cbn in Hl; lia). pose proof (wt_bank_ok row bk Hrow E) as Hb.
  destruct (bankR_spec row n Hl Hn ltac:(lia)) as (bk' & E' & HB). rewrite E in E'. injection E' as <-.
  destruct HB as (B0 & _ & _ & _ & V & _).
  exists (firstn (S h) (an bk x)), low', (sy bk (low' ++ skipn (S h) (an bk x))).
  assert (Hc : length (low' ++ skipn (S h) (an bk x)) = (2 * S h)%nat) by (rewrite app_length, skipn_length; lia).
  split; [rewrite firstn_length; lia|]. split; [exact L'|]. split; [rewrite Hx; apply syR_length, Hc|].
  split; [|split; [exact R1|split; [exact R2|]]].
  - intros j Hj. rewrite nth_firstn by exact Hj. unfold an. rewrite (anR_low _ _ _ (S h) j Hx Hj).
    rewrite zfR_nth by lia. rewrite B0. unfold normal at 1. rewrite map_length. apply rsum_ext. intros i Hi. do 2 f_equal. lia.
  - intros m Hm'. rewrite Hx in Hm'.
    destruct (C62_wavelet_orthogonal_delay row n bk Hl Hn H1 E Ho x ltac:(intros Q; rewrite Q in Hx; discriminate Hx) ltac:(rewrite Hx; apply Nat.even_spec; exists (S h); reflexivity))
      as (y & z & T1 & T2 & _ & D).
    assert (T : returns bk 1 x (sy bk (an bk x))).
    { exists (an bk x). split; [apply (one_level bk Hb DFloat x h Hx)|apply (one_level bk Hb DFloat _ h HL)]. }
    assert (Qz : z = sy bk (an bk x)) by (apply (returns_unique bk 1 x); [exists y; split; assumption|exact T]). subst z.
    rewrite <- D by lia. unfold sy. rewrite (syR_nth _ _ _ (S h) m Hc Hm'), (syR_nth _ _ _ (S h) m HL Hm').
    rewrite (rsum_ext (S h) (fun j => ex (bs1_ bk) (Z.of_nat m - 2 * Z.of_nat j) * nth (S h + j) (low' ++ skipn (S h) (an bk x)) 0)
               (fun j => ex (bs1_ bk) (Z.of_nat m - 2 * Z.of_nat j) * nth (S h + j) (an bk x) 0)).
    2:{ intros j Hj. f_equal. rewrite app_nth2 by lia. rewrite L'. replace (S h + j - S h)%nat with j by lia. rewrite nth_skipn_add. f_equal. }
    rewrite (rsum_ext (S h) (fun j => ex (bs0_ bk) (Z.of_nat m - 2 * Z.of_nat j) * nth j (low' ++ skipn (S h) (an bk x)) 0)
               (fun j => ex (bs0_ bk) (Z.of_nat m - 2 * Z.of_nat j) * nth j (an bk x) 0 +
                         ex (normal row) (n - Z.of_nat m + 2 * Z.of_nat j) * (nth j low' 0 - nth j (firstn (S h) (an bk x)) 0))).
    2:{ intros j Hj. rewrite app_nth1 by lia. rewrite nth_firstn by exact Hj. rewrite !V.
        replace (n - (Z.of_nat m - 2 * Z.of_nat j))%Z with (n - Z.of_nat m + 2 * Z.of_nat j)%Z by lia. ring. }
    rewrite rsum_add. ring.
Qed.
Print Assumptions C161_levels_misaligned.

(** Hence two levels of no orthogonal bank of order > 1 with proper end coefficients return the
    signal, however it is delayed and scaled: the unit impulse comes back smeared. *)
Definition impulse (N : nat) : list R := 1 :: repeat 0 (N - 1).
Lemma impulse_length N : (0 < N)%nat -> length (impulse N) = N.
Proof. intros H. unfold impulse. cbn [length]. rewrite repeat_length. lia. Qed.
Lemma impulse_ex N z : ex (impulse N) z = if (z =? 0)%Z then 1 else 0.
Proof.
  unfold ex. destruct (Z.ltb_spec z 0); destruct (Z.eqb_spec z 0); try lia; [reflexivity|subst; reflexivity|].
  unfold impulse. replace (Z.to_nat z) with (S (Z.to_nat z - 1)) by lia. cbn [nth]. generalize (Z.to_nat z - 1)%nat. generalize (N - 1)%nat.
  intros m. induction m as [|m IH]; intros [|i]; cbn; auto.
Qed.

Theorem C161_levels_refuted (row : list R) (n : Z) (bk : wbank RA) : orthogonal row n -> bankR row = Ok bk ->
  ex (normal row) 0 <> 0 -> ex (normal row) 1 <> 0 -> ex (normal row) n <> 0 ->
  let x := impulse (4 * Z.to_nat n) in
  exists z, returns bk 2 x z /\ length z = length x /\ forall g d, ~ scaled_delay g d x z.
Proof.
  intros Ho E B0 B1 Bn x. pose proof Ho as (Hl & Hn & H1 & Hr).
  set (N := Z.to_nat n). assert (HN : Z.of_nat N = n) by (unfold N; lia).
  pose proof (Z.div2_odd n) as Dn. rewrite Hn in Dn. cbn [Z.b2z] in Dn. set (q := Z.div2 n) in *.
  assert (Hx : length x = (2 * S (2 * N - 1))%nat) by (unfold x; rewrite impulse_length; fold N; lia).
  assert (Hmod : ((2 * S (2 * N - 1)) mod 2 ^ 2 = 0)%nat).
  { replace (2 * S (2 * N - 1))%nat with (N * 2 ^ 2)%nat by (cbn; lia). apply Nat.mod_mul. discriminate. }
  destruct (C161_levels_misaligned row n bk 0 x (2 * N - 1) Ho E Hx Hmod) as (low & low' & z & L & L' & Lz & Elow & R1 & R2 & Ez).
  exists z. split; [exact R2|]. split; [exact Lz|].
  replace (S (2 * N - 1)) with (2 * N)%nat in * by lia.
  assert (Xlow : forall j, (j < 2 * N)%nat -> nth j low 0 = ex (normal row) (2 * Z.of_nat j + 1)).
  { intros j Hj. rewrite (Elow j Hj). destruct (le_lt_dec (length row) (2 * j + 1)) as [C|C].
    - rewrite ex_big by (unfold normal; rewrite map_length; lia). apply rsum_zero. intros i Hi. unfold x. rewrite impulse_ex.
      destruct (Z.eqb_spec (2 * Z.of_nat j + 1 - Z.of_nat i) 0); [lia|ring].
    - rewrite (rsum_single _ (2 * j + 1) _ C).
      + unfold x. rewrite impulse_ex. destruct (Z.eqb_spec (2 * Z.of_nat j + 1 - Z.of_nat (2 * j + 1)) 0); [|lia].
        rewrite <- ex_nat. replace (Z.of_nat (2 * j + 1)) with (2 * Z.of_nat j + 1)%Z by lia. ring.
      + intros i Hi Hne. unfold x. rewrite impulse_ex. destruct (Z.eqb_spec (2 * Z.of_nat j + 1 - Z.of_nat i) 0); [lia|ring]. }
  assert (Xlow' : forall j, (j < 2 * N)%nat -> nth j low' 0 = if (Z.of_nat j <? n - 1)%Z then 0 else ex (normal row) (2 * (Z.of_nat j - (n - 1)) + 1)).
  { intros j Hj. destruct (C62_wavelet_orthogonal_delay row n bk Hl Hn H1 E Hr low ltac:(intros Q; rewrite Q in L; cbn in L; lia)
      ltac:(rewrite L; apply Nat.even_spec; exists N; reflexivity)) as (y & z' & T1 & T2 & Lz' & D).
    assert (Q : low' = z') by (apply (returns_unique bk 1 low); [exact R1|exists y; split; assumption]). subst z'.
    rewrite D by lia. destruct (Z.ltb_spec (Z.of_nat j) (n - 1)); [apply ex_neg; lia|].
    replace (Z.of_nat j - (n - 1))%Z with (Z.of_nat (Z.to_nat (Z.of_nat j - (n - 1)))) by lia. rewrite ex_nat. apply Xlow. lia. }
  set (jm := (3 * Z.to_nat q)%nat).
  assert (Val : forall s, (s = 0 \/ s = 1)%nat -> nth (4 * N - 3 - s) z 0 = 2 * (ex (normal row) (Z.of_nat s) * ex (normal row) n)).
  { intros s Hs. assert (Hn3 : (3 <= n)%Z) by lia. rewrite Ez by (rewrite Hx; lia).
    replace (Z.of_nat (4 * N - 3 - s)) with (4 * n - 3 - Z.of_nat s)%Z by lia.
    unfold x at 1. rewrite impulse_ex. destruct (Z.eqb_spec (4 * n - 3 - Z.of_nat s - (n - 1)) 0); [lia|]. rewrite Rplus_0_l. f_equal.
    rewrite (rsum_single _ jm).
    - rewrite Xlow, Xlow' by (unfold jm; lia). destruct (Z.ltb_spec (Z.of_nat jm) (n - 1)) as [C|C]; [unfold jm in C; lia|].
      rewrite (ex_big _ (2 * Z.of_nat jm + 1)) by (unfold normal; rewrite map_length; unfold jm; lia).
      replace (n - (4 * n - 3 - Z.of_nat s) + 2 * Z.of_nat jm)%Z with (Z.of_nat s) by (unfold jm; lia).
      replace (2 * (Z.of_nat jm - (n - 1)) + 1)%Z with n by (unfold jm; lia). ring.
    - unfold jm. lia.
    - intros j Hj Hne. destruct (le_lt_dec jm j) as [C|C].
      + rewrite Xlow, Xlow' by exact Hj. destruct (Z.ltb_spec (Z.of_nat j) (n - 1)) as [Q|Q]; [unfold jm in *; lia|].
        rewrite !(ex_big _ (_ + 1)%Z) by (unfold normal; rewrite map_length; unfold jm in *; lia). ring.
      + rewrite ex_neg by (unfold jm in *; lia). ring. }
  intros g d (_ & S). pose proof (Val 0%nat (or_introl eq_refl)) as V0. pose proof (Val 1%nat (or_intror eq_refl)) as V1.
  rewrite S in V0, V1 by (rewrite Lz, Hx; lia). unfold x in V0, V1. rewrite impulse_ex in V0, V1.
  assert (P0 : ex (normal row) (Z.of_nat 0) * ex (normal row) n <> 0) by (apply Rmult_integral_contrapositive_currified; assumption).
  assert (P1 : ex (normal row) (Z.of_nat 1) * ex (normal row) n <> 0) by (apply Rmult_integral_contrapositive_currified; assumption).
  destruct (Z.eqb_spec (Z.of_nat (4 * N - 3 - 0) - d) 0) as [Q0|Q0]; [|lra].
  destruct (Z.eqb_spec (Z.of_nat (4 * N - 3 - 1) - d) 0) as [Q1|Q1]; [lia|lra].
Qed.
Print Assumptions C161_levels_refuted.

(** The exact Daubechies row of order 3 is such a bank; so the impulse of 12 samples witnesses
    the failure. *)
Example C161_example : orthogonal d4 3 /\ (exists bk, bankR d4 = Ok bk) /\
  ex (normal d4) 0 <> 0 /\ ex (normal d4) 1 <> 0 /\ ex (normal d4) 3 <> 0 /\ ((2 * S 5) mod 2 ^ 2 = 0)%nat.
Proof.
  destruct C62_example as (H1 & H2 & H3). split; [split; [exact H1|split; [reflexivity|split; [lia|exact H3]]]|]. split; [exact H2|].
  assert (HT : total d4 = 8) by (unfold total, d4; cbn; ring).
  assert (S3 : 1 < sqrt 3) by (rewrite <- sqrt_1; apply sqrt_lt_1; lra).
  unfold normal, ex. rewrite HT. cbn [Z.ltb Z.compare Z.to_nat Pos.to_nat Pos.iter_op Nat.add d4 map nth].
  repeat split; try reflexivity; unfold Rdiv; apply Rmult_integral_contrapositive_currified; lra.
Qed.

(** ** Haar: one level halves the energy *)
Definition energy (x : list R) : R := rsum (length x) (fun i => nth i x 0 * nth i x 0).
Theorem C161_haar_energy (style : string) (bk : wbank RA) (x y : list R) : py_lower style = "haar"%string -> makeR style 1 = Ok bk ->
  x <> [] -> Nat.even (length x) = true -> transformR bk (ND1 x) 1 false = Ok (ND1 y) -> energy y = energy x / 2.
Proof.
  intros Hs E Hn He T. pose proof (wt_make_ok _ _ _ E) as Hb. destruct (haar_bank _ _ Hs E) as (B0 & _ & L1 & _ & _ & _ & N).
  apply Nat.even_spec in He. destruct He as [[|h] Hx]; [destruct x; [congruence|cbn in Hx; lia]|].
  pose proof (proj1 (one_level bk Hb DFloat x h Hx)) as T1. unfold transformR in T. rewrite T in T1. injection T1 as T1.
  change (y = anR (ba0_ bk) (ba1_ bk) x) in T1. subst y. pose proof (anR_length (ba0_ bk) (ba1_ bk) x _ Hx) as HL.
  unfold energy. rewrite HL, Hx. replace (2 * S h)%nat with (S h + S h)%nat by lia. rewrite rsum_app, <- rsum_add.
  replace (S h + S h)%nat with (2 * S h)%nat by lia. rewrite rsum_pair.
  unfold Rdiv. rewrite <- rsum_scal_r. apply rsum_ext. intros j Hj.
  rewrite (anR_low _ _ _ (S h) j Hx Hj), (anR_high _ _ _ (S h) j Hx Hj), !zfR_nth by lia. rewrite B0, L1. cbn [length rsum].
  rewrite !Rplus_0_l. cbn [nth].
  replace (Z.of_nat (2 * j + 1) - Z.of_nat 0)%Z with (Z.of_nat (2 * j + 1)) by lia.
  replace (Z.of_nat (2 * j + 1) - Z.of_nat 1)%Z with (Z.of_nat (2 * j)) by lia. rewrite !ex_nat.
  rewrite <- !ex_nat with (l := ba1_ bk). rewrite !(proj1 (N eq_refl _)). rewrite !ex_nat. cbn [nth]. unfold alt. cbn. field.
Qed.
Print Assumptions C161_haar_energy.
Example C161_haar_example : exists bk, makeR "HAAR" 1 = Ok bk /\ [3; 4] <> [] /\ Nat.even (length [3; 4]) = true /\
  exists y, transformR bk (ND1 [3; 4]) 1 false = Ok (ND1 y).
Proof. eexists. split; [reflexivity|]. split; [discriminate|]. split; [reflexivity|]. eexists. reflexivity. Qed.
