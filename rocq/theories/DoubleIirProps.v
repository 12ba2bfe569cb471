(** Property C147: a stable IirFilter in IEEE doubles never overflows and stays close to
    the exact filter, however long the signal. *)
From Flocq Require Import Core BinarySingleNaN PrimFloat.
From Coq Require Import List Arith ZArith Reals Lra Lia Floats.
From Coquelicot Require Import Complex.
From Verif Require Import Base BaseLemmas Instances FirModel FirSpec FirProofs IirModel IirSpec IirProofs IirProps PolyC ZProofs AnalysisModel AnalysisProps RootsProps StabilityProofs StabilityProps RoundingProofs RoundingProps DoubleSpec DoubleProofs DoubleProps DoubleIirProofs.
Import ListNotations.
Set Asymmetric Patterns.
Open Scope R_scope.

Lemma double_consts (kap kap2 G l w : R) : 0 <= kap -> 0 <= kap2 -> 0 < G -> 0 <= l -> 0 <= w ->
  exists K, 0 <= K /\ forall M u e gN g1 g2 ab uN co size dev, 0 <= M -> 0 < u <= 1 -> 0 < e <= 1 ->
    0 <= gN <= kap * u -> 0 <= g1 <= kap * u -> 0 <= g2 <= kap * u -> 0 <= ab <= kap2 * e -> 0 <= uN <= kap2 * e -> 0 <= co <= kap * u * w + kap2 * e ->
    size = 2 * G * ((1 + l) * M + ab) + M -> dev = G * (g1 * (M + l * size) + ab) ->
    (1 + g1) * (M + l * size) + ab <= K * (1 + M) /\ (1 + g2) * w + 3 * e <= K * (1 + M) /\
    (1 + gN) * ((w + co) * size) + uN <= K * (1 + M) /\
    gN * ((w + co) * size) + uN + (co * size + w * dev) <= K * (u * M + e * (1 + M)).
Proof.
  intros k0 k2 G0 l0 w0. set (b1 := 2 * G * (1 + l) + 1 + 2 * G * kap2). set (c0 := kap * w + kap2).
  assert (Gl : 0 <= G * l) by (apply Rmult_le_pos; lra). assert (Gk : 0 <= G * kap2) by (apply Rmult_le_pos; lra). assert (B1 : 1 <= b1) by (unfold b1; lra).
  assert (kw : 0 <= kap * w) by (apply Rmult_le_pos; lra). assert (C0 : 0 <= c0) by (unfold c0; lra).
  assert (lb : 0 <= l * b1) by (apply Rmult_le_pos; lra).
  set (K1 := kap * ((w + c0) * b1)). set (K2 := c0 * b1). set (K3 := w * (G * (kap * (1 + l * b1) + kap2))). set (K4 := (1 + kap) * (1 + l * b1)). set (K5 := (1 + kap) * w). set (K6 := (1 + kap) * ((w + c0) * b1)).
  assert (P : 0 <= (w + c0) * b1) by (apply Rmult_le_pos; lra).
  assert (P1 : 0 <= K1) by (apply Rmult_le_pos; lra). assert (P2 : 0 <= K2) by (apply Rmult_le_pos; lra).
  assert (P3 : 0 <= K3) by (unfold K3; assert (0 <= kap * (1 + l * b1)) by (apply Rmult_le_pos; lra); assert (0 <= G * (kap * (1 + l * b1) + kap2)) by (apply Rmult_le_pos; lra); apply Rmult_le_pos; lra).
  assert (P4 : 0 <= K4) by (apply Rmult_le_pos; lra). assert (P5 : 0 <= K5) by (apply Rmult_le_pos; lra). assert (P6 : 0 <= K6) by (apply Rmult_le_pos; lra).
  exists (K1 + K2 + K3 + K4 + K5 + K6 + kap2 + 3). split; [lra|].
  intros M u e gN g1 g2 ab uN co size dev M0 U E HN H1 H2 Hab HuN Hco Es Ed.
  assert (e1 : kap2 * e <= kap2) by (rewrite <- (Rmult_1_r kap2) at 2; apply Rmult_le_compat_l; lra).
  assert (u1 : kap * u <= kap) by (rewrite <- (Rmult_1_r kap) at 2; apply Rmult_le_compat_l; lra).
  assert (Sz : 0 <= size <= b1 * (M + e)).
  { rewrite Es. assert (0 <= G * M) by (apply Rmult_le_pos; lra). assert (0 <= G * l * M) by (apply Rmult_le_pos; lra). assert (0 <= G * ab) by (apply Rmult_le_pos; lra). assert (G * ab <= G * (kap2 * e)) by (apply Rmult_le_compat_l; lra).
    split; [lra|]. unfold b1. assert (0 <= G * e) by (apply Rmult_le_pos; lra). assert (0 <= G * l * e) by (apply Rmult_le_pos; lra). assert (0 <= G * kap2 * M) by (apply Rmult_le_pos; lra). lra. }
  assert (Me : M + e <= 1 + M) by lra.
  assert (Ml : M + l * size <= (1 + l * b1) * (M + e)).
  { assert (l * size <= l * (b1 * (M + e))) by (apply Rmult_le_compat_l; lra). lra. }
  assert (ls : 0 <= l * size) by (apply Rmult_le_pos; lra).
  assert (Cc : co <= c0) by (assert (kap * u * w <= kap * w) by (apply Rmult_le_compat_r; lra); unfold c0; lra).
  assert (ws : (w + co) * size <= (w + c0) * (b1 * (M + e))) by (apply Rmult_le_compat; lra).
  assert (ws0 : 0 <= (w + co) * size) by (apply Rmult_le_pos; lra).
  set (T := u * M + e * (1 + M)). assert (uM : 0 <= u * M) by (apply Rmult_le_pos; lra). assert (eM : 0 <= e * M) by (apply Rmult_le_pos; lra).
  assert (ue : 0 <= u * e <= e) by (split; [apply Rmult_le_pos; lra|]; rewrite <- (Rmult_1_l e) at 2; apply Rmult_le_compat_r; lra). assert (ee : 0 <= e * e <= e) by (split; [apply Rmult_le_pos; lra|]; rewrite <- (Rmult_1_l e) at 3; apply Rmult_le_compat_r; lra).
  assert (T0 : 0 <= T) by (unfold T; lra). assert (Tu : u * (M + e) <= T) by (unfold T; lra). assert (Te : e * (M + e) <= T) by (unfold T; lra).
  assert (mul2 : forall p q, 0 <= p -> 0 <= q -> 0 <= p * q) by (intros; apply Rmult_le_pos; assumption).
  split; [|split; [|split]].
  - assert (X : (1 + g1) * (M + l * size) <= (1 + kap) * ((1 + l * b1) * (1 + M))).
    { apply Rmult_le_compat; try lra. eapply Rle_trans; [exact Ml|]. apply Rmult_le_compat_l; lra. }
    replace ((1 + kap) * ((1 + l * b1) * (1 + M))) with (K4 * (1 + M)) in X by (unfold K4; ring).
    pose proof (mul2 (K1 + K2 + K3 + K5 + K6 + 3) (1 + M) ltac:(lra) ltac:(lra)). pose proof (mul2 kap2 M k2 M0). lra.
  - assert (X : (1 + g2) * w <= K5) by (unfold K5; apply Rmult_le_compat_r; lra).
    pose proof (mul2 (K1 + K2 + K3 + K4 + K6 + kap2) (1 + M) ltac:(lra) ltac:(lra)). pose proof (mul2 K5 M P5 M0). lra.
  - assert (X : (1 + gN) * ((w + co) * size) <= (1 + kap) * ((w + c0) * (b1 * (1 + M)))).
    { apply Rmult_le_compat; try lra. eapply Rle_trans; [exact ws|]. apply Rmult_le_compat_l; [lra|]. apply Rmult_le_compat_l; lra. }
    replace ((1 + kap) * ((w + c0) * (b1 * (1 + M)))) with (K6 * (1 + M)) in X by (unfold K6; ring).
    pose proof (mul2 (K1 + K2 + K3 + K4 + K5 + 3) (1 + M) ltac:(lra) ltac:(lra)). pose proof (mul2 kap2 M k2 M0). lra.
  - assert (X1 : gN * ((w + co) * size) <= K1 * T).
    { apply Rle_trans with ((kap * u) * ((w + c0) * (b1 * (M + e)))); [apply Rmult_le_compat; lra|].
      replace (kap * u * ((w + c0) * (b1 * (M + e)))) with (K1 * (u * (M + e))) by (unfold K1; ring). apply Rmult_le_compat_l; lra. }
    assert (X2 : co * size <= K2 * T).
    { apply Rle_trans with ((kap * u * w + kap2 * e) * (b1 * (M + e))); [apply Rmult_le_compat; lra|].
      replace ((kap * u * w + kap2 * e) * (b1 * (M + e))) with (kap * w * b1 * (u * (M + e)) + kap2 * b1 * (e * (M + e))) by ring.
      assert (kap * w * b1 * (u * (M + e)) <= kap * w * b1 * T) by (apply Rmult_le_compat_l; [apply mul2; lra|lra]).
      assert (kap2 * b1 * (e * (M + e)) <= kap2 * b1 * T) by (apply Rmult_le_compat_l; [apply mul2; lra|lra]). unfold K2, c0. lra. }
    assert (X3 : w * dev <= K3 * T).
    { unfold K3. rewrite Ed, (Rmult_assoc w). apply Rmult_le_compat_l; [lra|]. rewrite Rmult_assoc. apply Rmult_le_compat_l; [lra|].
      assert (g1 * (M + l * size) <= (kap * u) * ((1 + l * b1) * (M + e))) by (apply Rmult_le_compat; lra).
      assert (kap * (1 + l * b1) * (u * (M + e)) <= kap * (1 + l * b1) * T) by (apply Rmult_le_compat_l; [apply mul2; lra|lra]).
      assert (kap2 * e <= kap2 * T) by (apply Rmult_le_compat_l; [lra|unfold T; lra]). lra. }
    assert (X4 : uN <= kap2 * T) by (assert (kap2 * e <= kap2 * T) by (apply Rmult_le_compat_l; [lra|unfold T; lra]); lra).
    pose proof (mul2 (K4 + K5 + K6 + 3) T ltac:(lra) T0). lra.
Qed.

(** ** C147 *)
(** The same filter with exact (complex) numbers. *)
Definition exactly {d} (f : iir (FAd d)) : iir CA := @mkIir CA (idt f) (map emb (ia f)) (map emb (ib f)) (map emb (is_ f)).

Theorem C147_iir_doubles d (a b s : arr (FAd d)) ops (f : iir (FAd d)) poles :
  any_order d -> iir_used a b s ops f -> idt f <> DInt -> Forall finite (ia f) -> Forall finite (ib f) ->
  poles_inside (exactly f) poles ->
  2 * (1 + l1 (tl (map emb (ia f)))) * ((1 + uro) ^ (length (ib f) + 1) - 1) <= margin poles ->
  exists K, 0 <= K /\ forall ops' (x : list float) M, let g := fold_left iir_exec ops' f in
    x <> [] -> Forall finite x -> Forall finite (is_ g) ->
    (forall v, In v x -> Rabs (val v) <= M) -> (forall v, In v (is_ g) -> Rabs (val v) <= M) -> K * (1 + M) < huge ->
    exists g' y z, iir_filter g x = (g', Ok y) /\ snd (iir_filter (exactly g) (map emb x)) = Ok z /\
      length y = length x /\ length z = length x /\ Forall finite y /\ Forall finite (is_ g') /\
      forall n, Cmod (emb (nth n y 0%float) - nth n z (RtoC 0))%C <= K * (uro * M + eta0 * (1 + M)).
Proof.
  intros Hd Hu Ht Fa Fb [Hfac Hp] Hsm.
  pose proof (iir_used_a0_double d a b s ops f Hu) as [Fa0 A0].
  set (G := / margin poles). set (l := l1 (tl (map emb (ia f)))) in *. set (N := @length float (ib f)).
  set (w := cw (emb (nth 0 (ib f) 0%float)) (combine (map emb (ia f)) (map emb (ib f)))).
  pose proof uro_pos as u0. pose proof eta0_pos as e0.
  assert (u1 : uro <= 1) by (unfold uro; pose proof (bpow_le radix2 (-52) 0 ltac:(lia)) as K; change (bpow radix2 0) with 1 in K; lra).
  assert (e1 : eta0 <= 1) by (unfold eta0; pose proof (bpow_le radix2 (-1074) 0 ltac:(lia)) as K; change (bpow radix2 0) with 1 in K; lra).
  assert (G0 : 0 < G) by apply Rinv_0_lt_compat, margin_pos, Hp.
  set (kap := gam (N + 2) / uro). set (kap2 := (1 + uro) * und N / eta0 + 1 + 3 * INR N).
  assert (Ku : kap * uro = gam (N + 2)) by (unfold kap; field; lra).
  assert (u2 : 0 <= (1 + uro) * und N) by (apply Rmult_le_pos; [lra|apply und_pos]).
  assert (k0 : 0 <= kap) by (unfold kap; apply Rmult_le_pos; [apply gam_pos|left; apply Rinv_0_lt_compat; exact u0]).
  assert (Ke : kap2 * eta0 = (1 + uro) * und N + eta0 + 3 * INR N * eta0) by (unfold kap2; field; lra).
  assert (i0 : 0 <= INR N) by apply pos_INR. assert (ie : 0 <= INR N * eta0) by (apply Rmult_le_pos; lra).
  assert (k20 : 0 <= kap2) by (unfold kap2; assert (0 <= (1 + uro) * und N / eta0) by (apply Rmult_le_pos; [exact u2|left; apply Rinv_0_lt_compat; exact e0]); lra).
  assert (w0 : 0 <= w) by apply cw_nonneg. assert (l0 : 0 <= l) by apply l1_nonneg.
  destruct (double_consts kap kap2 G l w k0 k20 G0 l0 w0) as (K & K0 & HK). exists K. split; [exact K0|].
  intros ops' x M g Nx Fx Fs Bx Bs Hbig.
  assert (Hg : iir_used a b s (ops ++ ops') g) by (destruct Hu as (Hl & f0 & E & Ef); split; [exact Hl|]; exists f0; split; [exact E|]; unfold g; rewrite Ef, fold_left_app; reflexivity).
  destruct (iir_used_inv _ _ _ _ _ Hg) as (Nb & La & Ls).
  assert (Eg : ia g = ia f /\ ib g = ib f /\ idt g = idt f) by (unfold g; destruct (iir_fold_ab ops' f) as (E1 & E2 & E3); auto).
  destruct Eg as (Ea & Eb & Ed). rewrite Ea, Eb in *.
  assert (M0 : 0 <= M) by (destruct x as [|v x]; [congruence|]; eapply Rle_trans; [apply Rabs_pos|apply (Bx v); left; reflexivity]).
  set (xs := fun n => nth n x 0%float).
  assert (Fxs : forall n, finite (xs n)).
  { intros n. unfold xs. destruct (Nat.lt_ge_cases n (length x)) as [L|L]; [apply (proj1 (Forall_forall _ _) Fx), nth_In, L|]. rewrite nth_overflow by exact L. exact fin_zero. }
  assert (Bxs : forall n, Rabs (val (xs n)) <= M).
  { intros n. unfold xs. destruct (Nat.lt_ge_cases n (length x)) as [L|L]; [apply Bx, nth_In, L|]. rewrite nth_overflow by exact L. rewrite val_zero, Rabs_R0. exact M0. }
  assert (Bss : forall i, Rabs (val (nth i (is_ g) 0%float)) <= M).
  { intros n. destruct (Nat.lt_ge_cases n (@length float (is_ g))) as [L|L]; [apply Bs, nth_In, L|]. rewrite nth_overflow by exact L. rewrite val_zero, Rabs_R0. exact M0. }
  pose proof (denominator_cpoly _ _ Hfac) as Hden. cbn [exactly ia] in Hden.
  set (size := d_size (ia f) (ib f) M poles). set (dev := d_dev (ia f) (ib f) M poles). set (co := d_co (ia f) (ib f)).
  destruct (HK M uro eta0 (gam N) (gam (N + 1)) (gam 2) (d_abs (ib f)) (und N) co size dev) as (Q1 & Q2 & Q3 & Q4); try lra; try (split; [apply gam_pos|]; rewrite Ku; apply gam_mono; lia).
  { change (d_abs (ib f)) with ((1 + uro) * und N + eta0). lra. }
  { split; [apply und_pos|]. assert (und N <= (1 + uro) * und N) by (pose proof (und_pos N); nra). lra. }
  { change co with (gam 2 * w + 3 * INR N * eta0). assert (0 <= gam 2 * w) by (apply Rmult_le_pos; [apply gam_pos|exact w0]). split; [lra|]. rewrite Ku.
    assert (gam 2 * w <= gam (N + 2) * w) by (apply Rmult_le_compat_r; [exact w0|apply gam_mono; lia]). lra. }
  { reflexivity. }
  { reflexivity. }
  assert (Hsm' : 2 * G * (1 + l) * d_rel (ib f) <= 1).
  { apply Rle_trans with (G * margin poles); [|right; unfold G; apply Rinv_l, Rgt_not_eq, margin_pos, Hp].
    change (d_rel (ib f)) with ((1 + uro) ^ (N + 1) - 1).
    apply Rle_trans with (G * (2 * (1 + l) * ((1 + uro) ^ (N + 1) - 1))); [right; ring|]. apply Rmult_le_compat_l; [lra|exact Hsm]. }
  assert (Hb1 : (1 + d_rel (ib f)) * (M + l * size) + d_abs (ib f) < huge) by (eapply Rle_lt_trans; [exact Q1|exact Hbig]).
  assert (Hb2 : (1 + gam 2) * w + 3 * eta0 < huge) by (eapply Rle_lt_trans; [exact Q2|exact Hbig]).
  assert (Hb3 : (1 + gam N) * ((w + co) * size) + und N < huge) by (eapply Rle_lt_trans; [exact Q3|exact Hbig]).
  pose proof (out_good d Hd (idt f) (ia f) (ib f) (is_ g) xs M Ht Nb La Ls Fa Fs Fxs A0 Bss Bxs poles Hp Hden Hsm' Hb1 Fb Hb2 Hb3) as OG.
  pose proof (S_finite d Hd (idt f) (ia f) (ib f) (is_ g) xs M Ht Nb La Ls Fa Fs Fxs A0 Bss Bxs poles Hp Hden Hsm' Hb1) as SF.
  assert (Ex : x = map xs (seq 0 (length x))).
  { apply nth_ext with (d := 0%float) (d' := 0%float); [rewrite map_length, seq_length; reflexivity|]. intros n Hn. rewrite nth_map_lt with (d := 0%nat) by (rewrite seq_length; exact Hn). rewrite seq_nth by exact Hn. reflexivity. }
  set (Y := @outp (FAd d) (idt f) (ia f) (ib f) (is_ g) xs) in *. set (Z := @outp CA (idt f) (map emb (ia f)) (map emb (ib f)) (map emb (is_ g)) (fun n => emb (xs n))) in *.
  assert (Run : run (@iir_step (FAd d) (idt f) (ia f) (ib f)) (is_ g) x = (@st (FAd d) (idt f) (ia f) (is_ g) xs (length x), Ok (map Y (seq 0 (length x))))).
  { rewrite Ex at 1. exact (@run_states (FAd d) (idt f) (ia f) (ib f) (is_ g) xs Nb La Ls 0 (length x)). }
  exists (iir_with_s g (@st (FAd d) (idt f) (ia f) (is_ g) xs (length x))), (map Y (seq 0 (length x))), (map Z (seq 0 (length x))).
  split; [|split; [|split; [|split; [|split; [|split]]]]].
  - rewrite (@iir_filter_run (FAd d)) by (try assumption; rewrite Eb; exact Nb). rewrite Ea, Eb, Ed, Run. reflexivity.
  - assert (Ne : map emb x <> []) by (destruct x; [congruence|discriminate]).
    assert (Nb' : map emb (ib f) <> []) by (intros E; apply Nb, (map_eq_nil emb), E).
    assert (La' : length (map emb (ia f)) = length (map emb (ib f))) by (rewrite !map_length; exact La).
    assert (Ls' : length (map emb (is_ g)) = length (map emb (ib f))) by (rewrite !map_length; exact Ls).
    rewrite (@iir_filter_outs CA (exactly g) (map emb x) (fun n => emb (xs n)) (length x)).
    + unfold exactly. cbn [idt ia ib is_]. rewrite Ea, Eb, Ed. reflexivity.
    + unfold exactly, iir_inv. cbn [idt ia ib is_]. rewrite Ea, Eb. auto.
    + exact Ne.
    + rewrite Ex at 1. rewrite map_map. reflexivity.
  - rewrite map_length, seq_length. reflexivity.
  - rewrite map_length, seq_length. reflexivity.
  - apply Forall_forall. intros v Hv. apply in_map_iff in Hv. destruct Hv as (n & <- & _). apply OG.
  - apply SF.
  - intros n. destruct (Nat.lt_ge_cases n (length x)) as [L|L].
    + rewrite (nth_map_lt Y _ n 0%nat), (nth_map_lt Z _ n 0%nat) by (rewrite seq_length; exact L). rewrite seq_nth by exact L. cbn [Nat.add]. eapply Rle_trans; [apply OG|exact Q4].
    + rewrite !nth_overflow by (rewrite map_length, seq_length; exact L). rewrite emb_zero. replace (RtoC 0 - RtoC 0)%C with (RtoC 0) by ring. rewrite Cmod_0.
      apply Rmult_le_pos; [exact K0|]. assert (0 <= uro * M) by (apply Rmult_le_pos; lra). assert (0 <= eta0 * M) by (apply Rmult_le_pos; lra). lra.
Qed.
Print Assumptions C147_iir_doubles.

(** With a pole outside the unit circle a single 1 grows to infinity and then to NaN. *)
Theorem C147_unstable_refuted : exists f : iir FA,
  iir_used (mkArr DFloat [0; 2]%float) (mkArr DFloat [1; 0]%float) (mkArr DFloat []) [] f /\ Forall finite (ia f) /\ Forall finite (ib f) /\
  match snd (iir_filter f (1 :: repeat 0 1026)%float) with
  | Ok y => nth 1023 y 0%float = 0x1p+1023%float /\ nth 1024 y 0%float = infinity
  | Err _ => False
  end.
Proof.
  eexists. split; [split; [cbn; lia|eexists; split; reflexivity]|]. split; [repeat constructor|]. split; [repeat constructor|]. vm_compute. split; reflexivity.
Qed.
Print Assumptions C147_unstable_refuted.

Lemma pow_uro n : (n <= 3)%nat -> (1 + uro) ^ n - 1 <= 1 / 16.
Proof.
  intros Hn. assert (U : uro <= / 64).
  { pose proof (bpow_le radix2 (-52) (-5) ltac:(lia)) as K. assert (E : bpow radix2 (-5) = / 32) by (cbn; lra). rewrite E in K. unfold uro. lra. }
  pose proof uro_pos. pose proof (Rle_pow (1 + uro) n 3 ltac:(lra) Hn). assert ((1 + uro) ^ 3 <= 1 + 1 / 16) by nra. lra.
Qed.
(** y[n] = x[n]/2 + y[n-1]/2, in any order of evaluation, for every signal of
    samples up to some size. *)
Example C147_example d : any_order d -> exists (f : iir (FAd d)) K, 0 <= K /\
  @iir_used (FAd d) (@mkArr (FAd d) DFloat [0; 0.5]%float) (@mkArr (FAd d) DFloat [0.5; 0]%float) (@mkArr (FAd d) DFloat []) [] f /\
  forall x M, x <> [] -> Forall finite x -> (forall v, In v x -> Rabs (val v) <= M) -> K * (1 + M) < huge ->
    exists g' y, @iir_filter (FAd d) f x = (g', Ok y) /\ Forall finite y.
Proof.
  intros Hd. set (f := @mkIir (FAd d) DFloat [0; 0.5]%float [0.5; 0]%float [0; 0]%float).
  assert (Hu : @iir_used (FAd d) (@mkArr (FAd d) DFloat [0; 0.5]%float) (@mkArr (FAd d) DFloat [0.5; 0]%float) (@mkArr (FAd d) DFloat []) [] f) by (split; [cbn; lia|exists f; split; reflexivity]).
  assert (V : val 0.5%float = / 2) by (unfold val; cbn; unfold F2R; cbn; field).
  destruct (C147_iir_doubles d _ _ _ [] f [RtoC (1 / 2)] Hd Hu) as (K & K0 & H).
  - discriminate.
  - repeat constructor.
  - repeat constructor.
  - split; [|constructor; [rewrite Cmod_R, Rabs_right; lra|constructor]].
    replace (denominator (ia (exactly f))) with (denominator (ia (leaky (1 / 2)))); [apply leaky_poles|].
    cbn [exactly leaky ia f map]. unfold emb. rewrite V, val_zero. replace (1 / 2) with (/ 2) by field. reflexivity.
  - cbn [f ia ib map tl l1 length Nat.add margin]. rewrite emb_mod, V, Cmod_R, !Rabs_right by lra. pose proof (pow_uro 3 ltac:(lia)). lra.
  - exists f, K. split; [exact K0|]. split; [exact Hu|]. intros x M Nx Fx Bx HK.
    assert (M0 : 0 <= M) by (destruct x as [|v x]; [congruence|]; eapply Rle_trans; [apply Rabs_pos|apply (Bx v); left; reflexivity]).
    destruct (H [] x M Nx Fx) as (g' & y & z & E & _ & _ & _ & Fy & _); [repeat constructor|exact Bx| |exact HK|exists g', y; auto].
    intros v [<-|[<-|[]]]; rewrite val_zero, Rabs_R0; exact M0.
Qed.
