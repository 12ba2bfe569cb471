(** Property C200: complex samples given to real coefficients. *)
From Coq Require Import List Arith ZArith Lia Bool String Reals Lra.
From Coquelicot Require Import Complex.
From Verif Require Import Base BaseLemmas PyString Instances FirModel IirModel FirSpec FirProofs WaveletModel WaveletProofs WaveletProps WaveletExactProps.
Import ListNotations.
Set Asymmetric Patterns.
Close Scope string_scope. Close Scope R_scope. Close Scope C_scope. Open Scope nat_scope.

(** ** Specification *)
(** What is needed of the dtypes: the real part of a value is its own real part, zero and one
    are real, sums and products of real values are real, and a complex array stores any value. *)
Record casts (A : Arith) : Prop := mkCasts {
  c_idem : forall x : A, fits DFloat (cast DFloat x);
  c_complex : forall x : A, cast DComplex x = x;
  c_zero : fits DFloat (@zero A);
  c_one : fits DFloat (@one A);
  c_add : forall x y : A, fits DFloat x -> fits DFloat y -> fits DFloat (add x y);
  c_mul : forall x y : A, fits DFloat x -> fits DFloat y -> fits DFloat (mul x y) }.
(** x.real *)
Definition real_part {A : Arith} (x : list A) : list A := map (cast DFloat) x.
Definition real_parts {A : Arith} (M : list (list A)) : list (list A) := map real_part M.

(** ** FirFilter, IirFilter *)
Lemma run_cast {S X Y} (f : S -> X -> S * res Y) (g : X -> X) : (forall s x, f s (g x) = f s x) -> forall x s, run f s (map g x) = run f s x.
Proof. intros H. induction x as [|v x IH]; intros s; [reflexivity|]. cbn [map run]. rewrite H. destruct (f s v) as [s' [y|e]]; [rewrite IH|]; reflexivity. Qed.
(** C200.  A FirFilter or IirFilter with real coefficients filters the real part of a complex
    signal and drops the imaginary part: same output, same state. *)
Theorem C200_filters (A : Arith) : (forall x : A, fits DFloat (cast DFloat x)) ->
  (forall (f : fir A) x, fdt f = DFloat -> fir_filter f x = fir_filter f (real_part x)) /\
  (forall (f : iir A) x, idt f = DFloat -> iir_filter f x = iir_filter f (real_part x)).
Proof.
  intros Id. split; intros f x Hf.
  - unfold fir_filter, real_part. rewrite map_length. destruct (length x =? 0); [reflexivity|]. destruct (fb f); [reflexivity|]. rewrite run_cast; [reflexivity|].
    intros s v. unfold fir_step. rewrite Hf, Id. reflexivity.
  - unfold iir_filter, real_part. rewrite map_length. destruct (length x =? 0); [reflexivity|]. destruct (ib f); [reflexivity|]. rewrite run_cast; [reflexivity|].
    intros s v. unfold iir_step. rewrite Hf, Id. reflexivity.
Qed.
Print Assumptions C200_filters.

(** ** WaveletTransform *)
Section Lines.
  Context {A : Arith}.
  Hypothesis K : casts A.
  Implicit Types l x y : list A.
  Definition all_real l : Prop := Forall (fits DFloat) l.
  Lemma real_fix l : all_real l -> real_part l = l.
  Proof. intros H. unfold real_part. induction H as [|v l Hv _ IH]; [reflexivity|]. cbn [map]. rewrite Hv, IH. reflexivity. Qed.
  Lemma real_real l : all_real (real_part l).
  Proof. unfold all_real, real_part. apply Forall_map. apply Forall_forall. intros v _. apply K. Qed.
  Lemma zf_real_part (b : list A) x : zf b (real_part x) = zf b x.
  Proof.
    unfold zf, fir_ys, real_part. rewrite map_length. f_equal. f_equal. rewrite map_map. rewrite (map_ext (fun v => cast DFloat (cast DFloat v)) (cast DFloat)) by (intros v; apply K). reflexivity.
  Qed.
  Lemma zf_real (b : list A) x : all_real (zf b x).
  Proof. unfold zf, fir_ys, all_real. apply Forall_map. apply Forall_forall. intros n _. apply K. Qed.
  Lemma every2_real l : all_real l -> all_real (every2 l).
  Proof.
    assert (H : forall n l, length l <= n -> all_real l -> all_real (every2 l)).
    { induction n as [|n IH]; intros [|a [|b r]] Hl H; try exact H; cbn [length] in Hl; try lia.
      cbn [every2]. inversion H as [|? ? Ha H']; subst. inversion H'; subst. constructor; [exact Ha|]. apply IH; [lia|assumption]. }
    apply (H (length l)). lia.
  Qed.
  Lemma tl_real l : all_real l -> all_real (tl l).
  Proof. intros H. destruct H; [constructor|assumption]. Qed.
  Lemma cast_real dt l : dt <> DInt -> all_real l -> map (cast dt) l = l.
  Proof.
    intros Hd H. induction H as [|v l Hv _ IH]; [reflexivity|]. cbn [map]. rewrite IH. f_equal. destruct dt; [congruence|exact Hv|apply K].
  Qed.
  Lemma upsample_real_part l : upsample (real_part l) = upsample l.
  Proof. unfold upsample, real_part. induction l as [|v l IH]; [reflexivity|]. cbn [map flat_map]. rewrite IH, (c_idem A K). reflexivity. Qed.
  Lemma map2_add_real l x : all_real l -> all_real x -> all_real (map2 add l x).
  Proof.
    intros H. revert x. induction H as [|v l Hv H IH]; intros x Hx; [constructor|]. destruct Hx as [|u x Hu Hx]; [constructor|]. cbn [map2]. constructor; [apply K; assumption|]. apply IH, Hx.
  Qed.
  Lemma twice_real l : all_real l -> all_real (map (mul (add one one)) l).
  Proof. intros H. unfold all_real. apply Forall_map. revert H. apply Forall_impl. intros v Hv. apply K; [apply K; apply K|exact Hv]. Qed.
  Lemma zeros_real n : all_real (zeros n).
  Proof. unfold all_real, zeros. apply Forall_forall. intros v Hv. apply repeat_spec in Hv. subst v. apply K. Qed.
  (** a line of a complex or a float array is treated as its real part *)
  Lemma analysis_real_part dt b0 b1 x : pure_analysis dt b0 b1 (real_part x) = pure_analysis dt b0 b1 x.
  Proof. unfold pure_analysis. rewrite !zf_real_part. reflexivity. Qed.
  Lemma analysis_dtype b0 b1 x : pure_analysis DComplex b0 b1 x = pure_analysis DFloat b0 b1 x.
  Proof. unfold pure_analysis. rewrite !cast_real by (try discriminate; apply every2_real, tl_real, zf_real). reflexivity. Qed.
  Lemma analysis_real b0 b1 x : all_real (pure_analysis DFloat b0 b1 x).
  Proof. unfold pure_analysis. rewrite !cast_real by (try discriminate; apply every2_real, tl_real, zf_real). apply Forall_app. split; apply every2_real, tl_real, zf_real. Qed.
  Lemma synthesis_real_part dt b0 b1 y : pure_synthesis dt b0 b1 (real_part y) = pure_synthesis dt b0 b1 y.
  Proof.
    assert (L : length (real_part y) = length y) by apply map_length.
    assert (F : forall n l, firstn n (real_part l) = real_part (firstn n l)) by (intros; apply firstn_map).
    assert (S' : forall n l, skipn n (real_part l) = real_part (skipn n l)) by (intros; apply skipn_map).
    unfold pure_synthesis. rewrite L, S', !F, !upsample_real_part. reflexivity.
  Qed.
  Lemma synthesis_sum_real n (u v : list A) : all_real u -> all_real v -> all_real (map2 add (map2 add (zeros n) (map (mul (add one one)) u)) (map (mul (add one one)) v)).
  Proof. intros Hu Hv. apply map2_add_real; [apply map2_add_real; [apply zeros_real|apply twice_real, Hu]|apply twice_real, Hv]. Qed.
  Lemma synthesis_dtype b0 b1 y : pure_synthesis DComplex b0 b1 y = pure_synthesis DFloat b0 b1 y.
  Proof. unfold pure_synthesis. rewrite !cast_real by (try discriminate; apply synthesis_sum_real; apply zf_real). reflexivity. Qed.
  Lemma synthesis_real b0 b1 y : all_real (pure_synthesis DFloat b0 b1 y).
  Proof. unfold pure_synthesis. rewrite !cast_real by (try discriminate; apply synthesis_sum_real; apply zf_real). apply synthesis_sum_real; apply zf_real. Qed.
End Lines.

Section Levels.
  Context {A : Arith}.
  Hypothesis K : casts A.
  Implicit Types M B : list (list A).
  Lemma nth_real_part j (l : list A) : nth j (real_part l) zero = cast DFloat (nth j l zero).
  Proof. unfold real_part. rewrite <- (c_zero A K) at 1. apply map_nth. Qed.
  Lemma transp_real c M : transp c (real_parts M) = real_parts (transp c M).
  Proof.
    unfold transp, real_parts. rewrite map_map. apply map_ext. intros j. unfold real_part at 2. rewrite !map_map. apply map_ext. intros row. apply nth_real_part.
  Qed.
  Lemma block_real ii jj M : block ii jj (real_parts M) = real_parts (block ii jj M).
  Proof. unfold block, real_parts. rewrite firstn_map, !map_map. apply map_ext. intros row. unfold real_part. apply firstn_map. Qed.
  Lemma set_block_real ii jj B M : set_block ii jj (real_parts B) (real_parts M) = real_parts (set_block ii jj B M).
  Proof.
    unfold set_block, real_parts. rewrite map_app, firstn_map, skipn_map. f_equal. generalize (firstn ii M). intros N. revert N. induction B as [|b B IH]; intros [|n N]; try reflexivity.
    cbn [map map2]. rewrite IH. f_equal. unfold real_part. rewrite map_app, skipn_map. reflexivity.
  Qed.
  Section Op.
    Variable f : list A -> list A.
    Hypothesis f_part : forall l, f (real_part l) = f l.
    Hypothesis f_real : forall l, all_real (f l).
    Lemma map_part M : map f (real_parts M) = map f M.
    Proof. unfold real_parts. rewrite map_map. apply map_ext, f_part. Qed.
    Lemma map_real M : real_parts (map f M) = map f M.
    Proof. unfold real_parts. rewrite map_map. apply map_ext. intros l. apply real_fix, f_real. Qed.
    Lemma rows_real c M : real_parts (rows_if f c M) = rows_if f c (real_parts M).
    Proof. unfold rows_if. destruct (1 <? c); [|reflexivity]. rewrite map_part. apply map_real. Qed.
    Lemma cols_real r c M : real_parts (cols_if f r c M) = cols_if f r c (real_parts M).
    Proof. unfold cols_if. destruct (1 <? r); [|reflexivity]. unfold on_cols. rewrite transp_real, map_part, <- transp_real, map_real. reflexivity. Qed.
    Lemma step_real r c M : (r <> 1 \/ c <> 1) -> 0 < r -> 0 < c -> cols_if f r c (rows_if f c (real_parts M)) = cols_if f r c (rows_if f c M).
    Proof.
      intros H Hr Hc. unfold rows_if. destruct (Nat.ltb_spec 1 c); [rewrite map_part; reflexivity|].
      unfold cols_if. destruct (Nat.ltb_spec 1 r); [|lia]. unfold on_cols. rewrite transp_real, map_part. reflexivity.
    Qed.
    Lemma step_real' r c M : (r <> 1 \/ c <> 1) -> 0 < r -> 0 < c -> rows_if f c (cols_if f r c (real_parts M)) = rows_if f c (cols_if f r c M).
    Proof.
      intros H Hr Hc. unfold cols_if. destruct (Nat.ltb_spec 1 r); [unfold on_cols; rewrite transp_real, map_part; reflexivity|].
      unfold rows_if. destruct (Nat.ltb_spec 1 c); [|lia]. apply map_part.
    Qed.
    Lemma pureA_real k : forall r c M, real_parts (pureA f k r c M) = pureA f k r c (real_parts M).
    Proof. induction k as [|k IH]; intros r c M; [reflexivity|]. cbn [pureA]. rewrite <- set_block_real, IH, <- block_real, cols_real, rows_real. reflexivity. Qed.
    Lemma pureS_real k : forall r c M, real_parts (pureS f k r c M) = pureS f k r c (real_parts M).
    Proof. induction k as [|k IH]; intros r c M; [reflexivity|]. cbn [pureS]. rewrite rows_real, cols_real, <- set_block_real, IH, <- block_real. reflexivity. Qed.
    Lemma pureA_part k r c M : (r <> 1 \/ c <> 1) -> 0 < r -> 0 < c -> pureA f (S k) r c (real_parts M) = pureA f (S k) r c M.
    Proof. intros H Hr Hc. cbn [pureA]. rewrite step_real by assumption. reflexivity. Qed.
    Lemma pureS_part k r c M : (r <> 1 \/ c <> 1) -> 0 < r -> 0 < c -> pureS f (S k) r c (real_parts M) = pureS f (S k) r c M.
    Proof. intros H Hr Hc. cbn [pureS]. rewrite block_real, <- pureS_real, set_block_real, step_real' by assumption. reflexivity. Qed.
    Lemma half_1 : half 1 = 1. Proof. reflexivity. Qed.
    Lemma single (a : A) : set_block 1 1 (block 1 1 [[a]]) [[a]] = [[a]].
    Proof. reflexivity. Qed.
    Lemma pureA_single k (a : A) : pureA f k 1 1 [[a]] = [[a]].
    Proof. induction k as [|k IH]; [reflexivity|]. cbn [pureA]. change (cols_if f 1 1 (rows_if f 1 [[a]])) with [[a]]. rewrite half_1. change (block 1 1 [[a]]) with [[a]]. rewrite IH. reflexivity. Qed.
    Lemma pureS_single k (a : A) : pureS f k 1 1 [[a]] = [[a]].
    Proof. induction k as [|k IH]; [reflexivity|]. cbn [pureS]. rewrite half_1. change (block 1 1 [[a]]) with [[a]]. rewrite IH. reflexivity. Qed.
  End Op.
  Lemma pureA_ext f g k : (forall l, f l = g l) -> forall r c M, pureA f k r c M = pureA g k r c M.
  Proof.
    intros H. assert (E : forall N, map f N = map g N) by (intros; apply map_ext, H).
    induction k as [|k IH]; intros r c M; [reflexivity|]. cbn [pureA]. unfold cols_if, rows_if, on_cols. rewrite IH, !E. destruct (1 <? c), (1 <? r); rewrite ?E; reflexivity.
  Qed.
  Lemma pureS_ext f g k : (forall l, f l = g l) -> forall r c M, pureS f k r c M = pureS g k r c M.
  Proof.
    intros H. assert (E : forall N, map f N = map g N) by (intros; apply map_ext, H).
    induction k as [|k IH]; intros r c M; [reflexivity|]. cbn [pureS]. unfold cols_if, rows_if, on_cols. rewrite IH. destruct (1 <? c), (1 <? r); rewrite ?E; reflexivity.
  Qed.
End Levels.

Section Transform.
  Context {A : Arith}.
  Hypothesis K : casts A.
  Variable bk : wbank A.
  Hypothesis Hb : bank_ok bk.
  Lemma pure_real inv k r c M : (r <> 1 \/ c <> 1) -> 0 < r -> 0 < c ->
    pure_wt bk DComplex inv (S k) r c M = pure_wt bk DFloat inv (S k) r c (real_parts M) /\
    real_parts (pure_wt bk DComplex inv (S k) r c M) = pure_wt bk DComplex inv (S k) r c M.
  Proof.
    intros H Hr Hc. unfold pure_wt. destruct inv.
    - rewrite (pureS_ext _ (pure_synthesis DFloat (bs0 bk) (bs1 bk))) by (intros; apply synthesis_dtype, K).
      assert (P := fun l => synthesis_real_part K DFloat (bs0 bk) (bs1 bk) l). assert (R := fun l => synthesis_real K (bs0 bk) (bs1 bk) l).
      rewrite (pureS_real K _ P R), (pureS_part K _ P R) by assumption. auto.
    - rewrite (pureA_ext _ (pure_analysis DFloat (ba0 bk) (ba1 bk))) by (intros; apply analysis_dtype, K).
      assert (P := fun l => analysis_real_part K DFloat (ba0 bk) (ba1 bk) l). assert (R := fun l => analysis_real K (ba0 bk) (ba1 bk) l).
      rewrite (pureA_real K _ P R), (pureA_part K _ P) by assumption. auto.
  Qed.
  Lemma wf_real r c (M : list (list A)) : wf r c M -> wf r c (real_parts M).
  Proof. intros [H1 H2]. split; [unfold real_parts; rewrite map_length; exact H1|]. unfold real_parts. apply Forall_map. revert H2. apply Forall_impl. intros l Hl. unfold real_part. rewrite map_length. exact Hl. Qed.
  Lemma empty_real r (M : list (list A)) : wf r 0 M -> real_parts M = M.
  Proof. intros [_ H]. unfold real_parts. rewrite <- map_id. apply map_ext_in. intros l Hl. rewrite Forall_forall in H. specialize (H l Hl). destruct l; [reflexivity|discriminate]. Qed.
  Lemma mat_real inv count c (M : list (list A)) : M <> [] -> wf (length M) c M -> (length M <> 1 \/ c <> 1) ->
    wt_mat bk DComplex inv (S count) c M = wt_mat bk DFloat inv (S count) c (real_parts M) /\
    (forall N, wt_mat bk DComplex inv (S count) c M = Ok N -> real_parts N = N).
  Proof.
    intros Hne HM H. assert (L : length M <> 0) by (destruct M; cbn; congruence). assert (HR := wf_real _ _ _ HM). assert (LR := proj1 HR).
    destruct (dim_bad (S count) (length M) || dim_bad (S count) c) eqn:B.
    - rewrite !wt_mat_bad by (rewrite ?LR; exact B). split; [reflexivity|discriminate].
    - apply orb_false_iff in B. destruct B as [B1 B2]. apply (dim_bad_iff (S count) _ L) in B1. destruct (Nat.eq_dec c 0) as [->|C].
      + rewrite (wt_mat_nocols bk DComplex inv Hb count _ M B1 HM), (wt_mat_nocols bk DFloat inv Hb count _ _ B1 HR), (empty_real _ _ HM). split; [reflexivity|].
        destruct (length M =? 1); [|discriminate]. intros N E. injection E as <-. apply (empty_real _ _ HM).
      + apply (dim_bad_iff (S count) _ C) in B2. rewrite (wt_mat_ok bk DComplex inv Hb count _ _ M B1 B2 HM), (wt_mat_ok bk DFloat inv Hb count _ _ _ B1 B2 HR).
        destruct (pure_real inv count (length M) c M H ltac:(lia) ltac:(lia)) as [E1 E2]. split; [rewrite E1; reflexivity|]. intros N E. injection E as <-. exact E2.
  Qed.
  Lemma mat_single inv count (a : A) : wt_mat bk DComplex inv (S count) 1 [[a]] = Ok [[a]].
  Proof.
    assert (Ad : adm (S count) 1) by (left; reflexivity). assert (W : wf 1 1 [[a]]) by (split; [reflexivity|repeat constructor]).
    rewrite (wt_mat_ok bk DComplex inv Hb count 1 1 _ Ad Ad W). unfold pure_wt. destruct inv; [rewrite pureS_single|rewrite pureA_single]; reflexivity.
  Qed.
End Transform.

(** C200.  The wavelet transform of a complex array, in both directions, is that of its real
    part; the imaginary part is dropped without an error and the result has none.  The one
    exception: a single element is returned as it is. *)
Theorem C200_wavelet (A : Arith) style order (bk : wbank A) count inverse : casts A -> wt_make style order = Ok bk ->
  (forall x : list A, length x <> 1 ->
     wt_transform bk DComplex (ND1 x) count inverse = wt_transform bk DFloat (ND1 (real_part x)) count inverse /\
     forall y, wt_transform bk DComplex (ND1 x) count inverse = Ok (ND1 y) -> real_part y = y) /\
  (forall (c : nat) (M : list (list A)), Forall (fun row => length row = c) M -> (length M <> 1 \/ c <> 1) ->
     wt_transform bk DComplex (ND2 c M) count inverse = wt_transform bk DFloat (ND2 c (real_parts M)) count inverse /\
     forall N, wt_transform bk DComplex (ND2 c M) count inverse = Ok (ND2 c N) -> real_parts N = N) /\
  (forall a : A, (0 < count)%Z -> wt_transform bk DComplex (ND1 [a]) count inverse = Ok (ND1 [a]) /\
     wt_transform bk DComplex (ND2 1 [[a]]) count inverse = Ok (ND2 1 [[a]])).
Proof.
  intros K Hm. apply wt_make_ok in Hm. split; [|split].
  - intros x Hx. unfold wt_transform. unfold real_part at 1 2. rewrite map_length. destruct (Nat.eqb_spec (length x) 0) as [E|E]; [split; [reflexivity|discriminate]|].
    destruct (Z.leb_spec count 0) as [C|C]; [split; [reflexivity|discriminate]|]. destruct (to_nat_pos _ C) as [k ->].
    assert (W : wf (length [x]) (length x) [x]) by (split; [reflexivity|repeat constructor]).
    destruct (mat_real K bk Hm inverse k (length x) [x] ltac:(discriminate) W (or_intror Hx)) as [E1 E2]. change (real_parts [x]) with [real_part x] in E1. rewrite <- E1. split; [reflexivity|].
    intros y. destruct (wt_mat bk DComplex inverse (S k) (length x) [x]) as [N|] eqn:EN; [|discriminate]. specialize (E2 N eq_refl). cbn [bind]. destruct N as [|row N]; [discriminate|]. intros Ey. injection Ey as <-.
    cbn [real_parts map] in E2. congruence.
  - intros c M HF H. unfold wt_transform. unfold real_parts at 1. rewrite map_length. destruct (Nat.eqb_spec (length M) 0) as [E|E]; [split; [reflexivity|discriminate]|].
    destruct (Z.leb_spec count 0) as [C|C]; [split; [reflexivity|discriminate]|]. destruct (to_nat_pos _ C) as [k ->].
    destruct (mat_real K bk Hm inverse k c M ltac:(destruct M; [cbn in E|]; congruence) (conj eq_refl HF) H) as [E1 E2]. rewrite <- E1. split; [reflexivity|].
    intros N. destruct (wt_mat bk DComplex inverse (S k) c M) as [N'|] eqn:EN; [|discriminate]. cbn [bind]. intros E3. injection E3 as <-. apply E2. reflexivity.
  - intros a C. unfold wt_transform. cbn [length Nat.eqb]. destruct (Z.leb_spec count 0) as [C'|C']; [lia|]. destruct (to_nat_pos _ C) as [k ->].
    rewrite mat_single by exact Hm. split; reflexivity.
Qed.
Print Assumptions C200_wavelet.

(** C200.  It is false that complex arrays are reconstructed: for every style, order, number of
    levels and admissible length above one, every array with a sample that is not real comes
    back changed. *)
Theorem C200_reconstruction_refuted (A : Arith) style order (bk : wbank A) count (x : list A) : casts A -> wt_make style order = Ok bk ->
  (0 < count)%Z -> 1 < length x -> length x mod 2 ^ Z.to_nat count = 0 -> (exists v, In v x /\ ~ fits DFloat v) ->
  exists y z, wt_transform bk DComplex (ND1 x) count false = Ok (ND1 y) /\ wt_transform bk DComplex (ND1 y) count true = Ok (ND1 z) /\ length z = length x /\ z <> x.
Proof.
  intros K Hm Hc Hx Hg (v & Hv & Nv).
  assert (G : forall inv (u : list A), length u = length x -> exists y, wt_transform bk DComplex (ND1 u) count inv = Ok (ND1 y) /\ length y = length u).
  { intros inv u Hu. apply (proj1 (proj1 (C59_wavelet_shape A style order bk DComplex count inv Hm) u)); [intros ->; cbn in Hu; lia|exact Hc|right; rewrite Hu; exact Hg]. }
  destruct (G false x eq_refl) as (y & Ey & Ly). destruct (G true y Ly) as (z & Ez & Lz). exists y, z. split; [exact Ey|]. split; [exact Ez|]. split; [congruence|]. intros ->.
  assert (R := proj2 (proj1 (C200_wavelet A style order bk count true K Hm) y ltac:(lia)) x Ez).
  apply Nv. destruct (In_nth x v zero Hv) as (n & Hn & <-). unfold fits. rewrite <- nth_real_part by exact K. rewrite R. reflexivity.
Qed.
Print Assumptions C200_reconstruction_refuted.

Lemma CA_casts : casts CA.
Proof.
  split; unfold fits; cbn [cast CA].
  - intros x. reflexivity.
  - reflexivity.
  - reflexivity.
  - reflexivity.
  - intros x y Hx Hy. rewrite <- Hx, <- Hy. cbn [add CA]. unfold RtoC, Cplus, Re. cbn [fst snd]. f_equal. lra.
  - intros x y Hx Hy. rewrite <- Hx, <- Hy. cbn [mul CA]. unfold RtoC, Cmult, Re. cbn [fst snd]. f_equal; lra.
Qed.
(** over the complex numbers, with a sample that is not real *)
Example C200_example : casts CA /\ is_ok (@wt_make CA "Daubechies" 3) = true /\ (let x : list CA := [Ci; RtoC 1; RtoC 2; RtoC 3] in
  1 < length x /\ length x mod 2 ^ Z.to_nat 2 = 0 /\ (exists v, In v x /\ ~ fits DFloat v)).
Proof.
  split; [apply CA_casts|]. split; [reflexivity|]. cbv zeta. split; [cbn; lia|]. split; [reflexivity|]. exists Ci. split; [left; reflexivity|].
  unfold fits. cbn [cast CA]. intros E. apply (f_equal (fun z : C => snd z)) in E. cbn [snd RtoC Ci] in E. unfold RtoC, Ci in E. cbn [snd] in E. lra.
Qed.
Example C200_filter_example : let f := mkFir (A := CA) DFloat [RtoC 1; RtoC 2] [RtoC 0; RtoC 0] in fdt f = DFloat /\ real_part (A := CA) [Ci] <> [Ci].
Proof.
  cbv zeta. split; [reflexivity|]. unfold real_part. cbn [map cast CA]. intros E. injection E as E. lra.
Qed.
