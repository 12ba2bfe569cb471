(** Properties C129-C131: IirFilter with all poles inside the unit circle.  Bounded
    inputs give bounded outputs, sinusoids give sinusoids scaled by the response, and a
    filter designed by constraints settles on the gain it was asked for. *)
From Coq Require Import String List Arith ZArith Bool Reals Lra Lia Permutation.
From Coquelicot Require Import Complex.
From Verif Require Import Base BaseLemmas PyString Instances FirModel FirSpec FirDesignProofs IirModel IirSpec IirProofs IirProps PolyC ZModel ZProofs ZProps IirDesignProofs IirDesignProps AnalysisModel AnalysisProofs AnalysisProps RootsProps StabilityProofs.
Import ListNotations.
Set Asymmetric Patterns.
Open Scope R_scope.
Open Scope C_scope.

(** ** Specification *)
(** y is the endless output signal of f for the endless input signal x: whatever number
    of leading samples is passed to filter, that many leading samples of y come back. *)
Definition streams (f : iir CA) (x y : nat -> C) : Prop :=
  forall N, (0 < N)%nat -> snd (iir_filter f (map x (seq 0 N))) = Ok (map y (seq 0 N)).
(** The poles of f, with multiplicity, all lie inside the unit circle. *)
Definition poles_inside (f : iir CA) (poles : list C) : Prop :=
  factored (denominator (ia f)) poles /\ Forall (fun z => (Cmod z < 1)%R) poles.
(** The signal tends to zero. *)
Definition dies_out (e : nat -> C) : Prop :=
  forall eps, (0 < eps)%R -> exists N, forall n, (N <= n)%nat -> (Cmod (e n) < eps)%R.
(** [margin poles] is the product of 1 - |p|, [l1 b] the sum of |b[i]| (StabilityProofs.v). *)

(** ** Endless signals *)
Lemma stream_exists (f : iir CA) (x : nat -> C) : iir_inv f -> exists y, streams f x y.
Proof.
  intros Hi. pose proof Hi as (Hb & Ha & Hs).
  set (R := fun N => run (iir_step (idt f) (ia f) (ib f)) (is_ f) (map x (seq 0 N))).
  set (Y := fun N => match snd (R N) with Ok l => l | Err _ => [] end).
  assert (OK : forall N, exists s, R N = (s, Ok (Y N)) /\ length (Y N) = N).
  { intros N. destruct (iir_run_ok (idt f) (ia f) (ib f) Hb Ha (map x (seq 0 N)) (is_ f) Hs) as (s' & y & E & H1 & H2).
    unfold Y, R. rewrite E. cbn [snd]. exists s'. split; [reflexivity|]. rewrite H2, map_length, seq_length. reflexivity. }
  assert (Pre : forall N k, exists r, Y (N + k)%nat = Y N ++ r).
  { intros N k. destruct (OK (N + k)%nat) as (s & E & L). destruct (OK N) as (s2 & E2 & L2).
    unfold R in E. rewrite seq_app, map_app, run_app in E. fold (R N) in E. rewrite E2 in E.
    destruct (run _ s2 _) as [s3 [vs|e]]; [|discriminate]. injection E as _ E. exists vs. symmetry. exact E. }
  exists (fun n => nth n (Y (S n)) (RtoC 0)). intros N HN.
  assert (Nx : map x (seq 0 N) <> []) by (destruct N; [lia|discriminate]).
  rewrite (iir_filter_run f _ Hb Nx).
  destruct (OK N) as (s & E & L). fold (R N). rewrite E. cbn [snd]. f_equal.
  apply nth_ext with (d := RtoC 0) (d' := RtoC 0); [rewrite map_length, seq_length; exact L|].
  intros n Hn. rewrite L in Hn. rewrite nth_map_lt with (d := 0%nat) by (rewrite seq_length; exact Hn).
  rewrite seq_nth by exact Hn. cbn [Nat.add]. destruct (Pre (S n) (N - S n)%nat) as [r Er].
  replace (S n + (N - S n))%nat with N in Er by lia. rewrite Er. rewrite app_nth1; [reflexivity|].
  destruct (OK (S n)) as (? & _ & ->). lia.
Qed.
Lemma stream_unique f x y y' : streams f x y -> streams f x y' -> forall n, y n = y' n.
Proof.
  intros H H' n. specialize (H (S n) ltac:(lia)). specialize (H' (S n) ltac:(lia)).
  assert (Q : map y (seq 0 (S n)) = map y' (seq 0 (S n))) by congruence.
  assert (E : nth n (map y (seq 0 (S n))) (RtoC 0) = nth n (map y' (seq 0 (S n))) (RtoC 0)) by (rewrite Q; reflexivity).
  rewrite !nth_map_lt with (d := 0%nat) in E by (rewrite seq_length; lia). rewrite !seq_nth in E by lia. exact E.
Qed.

Lemma Ok_inj {X} (u v : X) : Ok u = Ok v -> u = v.
Proof. congruence. Qed.
(** A signal of the natural numbers, zero before time 0. *)
Definition causal (x : nat -> C) (n : Z) : C := if (n <? 0)%Z then RtoC 0 else x (Z.to_nat n).
Lemma sig_causal (x : nat -> C) N k : (k < Z.of_nat N)%Z -> @sig CA [] (map x (seq 0 N)) k = causal x k.
Proof.
  intros H. unfold sig, causal. destruct (Z.ltb_spec k 0); [destruct (Z.to_nat (- k - 1)); reflexivity|].
  rewrite nth_map_lt with (d := 0%nat) by (rewrite seq_length; lia). rewrite seq_nth by lia. reflexivity.
Qed.
Lemma bigsum_ext_C n (u v : nat -> C) : (forall i, (i < n)%nat -> u i = v i) -> @bigsum CA n u = @bigsum CA n v.
Proof. intros H. apply (@bigsum_ext CA). exact H. Qed.
Lemma difference_lagged (a b : list C) (x y : nat -> C) N n : (n < N)%nat ->
  @difference_rhs CA a b (map y (seq 0 N)) (map x (seq 0 N)) n =
  lagged (tl a) (causal y) (Z.of_nat n - 1)%Z + lagged b (causal x) (Z.of_nat n).
Proof.
  intros H. unfold difference_rhs. rewrite !lagged_bigsum. change (@add CA) with Cplus. f_equal.
  - replace (length (tl a)) with (length a - 1)%nat by (destruct a; cbn [tl length]; lia). apply bigsum_ext_C. intros i Hi.
    rewrite sig_causal by lia. change (@mul CA) with Cmult. f_equal. destruct a; [cbn in Hi; lia|reflexivity].
  - apply bigsum_ext_C. intros i Hi. rewrite sig_causal by lia. reflexivity.
Qed.
Lemma stream_fits (f : iir CA) (x : nat -> C) N : (forall n, @fits CA (idt f) (x n)) -> Forall (@fits CA (idt f)) (map x (seq 0 N)).
Proof. intros H. apply Forall_forall. intros v Hv. apply in_map_iff in Hv. destruct Hv as (i & <- & _). apply H. Qed.

(** The recursion, seen as a lagged sum. *)
Lemma stream_recursion a b s ops (f : iir CA) x y : @coeffs_ok CA a b -> iir_used a b s ops f -> (forall n, @fits CA (idt f) (x n)) -> streams f x y ->
  forall n, (length (ib f) - 1 <= n)%nat \/ is_ f = @zeros CA (length (ib f)) ->
    lagged (denominator (ia f)) (causal y) (Z.of_nat n) = lagged (ib f) (causal x) (Z.of_nat n).
Proof.
  intros Hc Hu Hx Hy n Hn. rewrite lagged_denominator.
  assert (Ey : causal y (Z.of_nat n) = nth n (map y (seq 0 (S n))) (RtoC 0)).
  { unfold causal. destruct (Z.ltb_spec (Z.of_nat n) 0); [lia|]. rewrite Nat2Z.id. rewrite nth_map_lt with (d := 0%nat) by (rewrite seq_length; lia). rewrite seq_nth by lia. reflexivity. }
  assert (Nx : map x (seq 0 (S n)) <> []) by discriminate.
  specialize (Hy (S n) ltac:(lia)).
  assert (E : nth n (map y (seq 0 (S n))) (RtoC 0) = @difference_rhs CA (ia f) (ib f) (map y (seq 0 (S n))) (map x (seq 0 (S n))) n).
  { destruct Hn as [Hn|Hn].
    - destruct (C11_iir_difference_any_state CA CA_laws a b s ops f _ Hc Hu Nx (stream_fits f x (S n) Hx)) as (f' & z & Ez & Lz & Hz).
      assert (Q : Ok z = Ok (map y (seq 0 (S n)))) by (rewrite <- Hy; symmetry; exact (f_equal snd Ez)). apply Ok_inj in Q. subst z. apply Hz. rewrite map_length, seq_length. lia.
    - destruct (C10_iir_difference_from_rest CA CA_laws a b s ops f _ Hc Hu Hn Nx (stream_fits f x (S n) Hx)) as (f' & z & Ez & [Lz Hz] & _).
      assert (Q : Ok z = Ok (map y (seq 0 (S n)))) by (rewrite <- Hy; symmetry; exact (f_equal snd Ez)). apply Ok_inj in Q. subst z. apply Hz. rewrite map_length, seq_length. lia. }
  rewrite Ey, E, difference_lagged by lia. ring.
Qed.

Lemma denominator_cpoly a zs : factored (denominator a) zs -> denominator a = cpoly zs.
Proof. intros F. apply factored_cpoly; [exact F|reflexivity]. Qed.
Lemma lagged_before c u n : (forall m, (m < 0)%Z -> u m = RtoC 0) -> (n < 0)%Z -> lagged c u n = RtoC 0.
Proof. intros H. revert n. induction c as [|x c IH]; intros n Hn; cbn [lagged]; [reflexivity|]. rewrite H, IH by lia. ring. Qed.
Lemma causal_before x m : (m < 0)%Z -> causal x m = RtoC 0.
Proof. intros H. unfold causal. destruct (Z.ltb_spec m 0); [reflexivity|lia]. Qed.
Lemma causal_nat x n : causal x (Z.of_nat n) = x n.
Proof. unfold causal. destruct (Z.ltb_spec (Z.of_nat n) 0); [lia|]. rewrite Nat2Z.id. reflexivity. Qed.
Lemma causal_bounded x M : (forall n, (Cmod (x n) <= M)%R) -> forall m, (Cmod (causal x m) <= M)%R.
Proof. intros H m. unfold causal. destruct (m <? 0)%Z; [rewrite Cmod_0; eapply Rle_trans; [apply Cmod_ge_0|apply (H 0%nat)]|apply H]. Qed.
Lemma finite_bound (u : Z -> C) N : exists D, (0 <= D)%R /\ forall n, (n < N)%nat -> (Cmod (u (Z.of_nat n)) <= D)%R.
Proof.
  induction N as [|N (D & D0 & IH)]; [exists 0%R; split; [lra|intros n Hn; lia]|].
  exists (Rmax D (Cmod (u (Z.of_nat N)))). split; [eapply Rle_trans; [exact D0|apply Rmax_l]|].
  intros n Hn. destruct (Nat.eq_dec n N) as [->|Hne]; [apply Rmax_r|]. eapply Rle_trans; [apply IH; lia|apply Rmax_l].
Qed.

(** ** C129 *)
(** From rest: |y[n]| <= max|x| * (sum of |b[i]|) / (product of 1 - |pole|). *)
Theorem C129_iir_bounded_from_rest (a b s : arr CA) ops (f : iir CA) poles (x : nat -> C) (M : R) :
  @coeffs_ok CA a b -> iir_used a b s ops f -> is_ f = @zeros CA (length (ib f)) ->
  poles_inside f poles -> (forall n, @fits CA (idt f) (x n)) -> (forall n, (Cmod (x n) <= M)%R) ->
  exists y, streams f x y /\ forall n, (Cmod (y n) <= M * l1 (ib f) / margin poles)%R.
Proof.
  intros Hc Hu Hs [Hf Hp] Hx HM. destruct (stream_exists f x (iir_used_inv _ _ _ _ _ Hu)) as [y Hy].
  exists y. split; [exact Hy|]. intros n. rewrite <- (causal_nat y n).
  apply (poles_bounded poles (causal y) (M * l1 (ib f)) Hp (causal_before y)).
  intros m. destruct (Z_lt_le_dec m 0) as [Hm|Hm].
  - rewrite lagged_before by (apply causal_before || exact Hm). rewrite Cmod_0. apply Rmult_le_pos; [|apply l1_nonneg].
    eapply Rle_trans; [apply Cmod_ge_0|apply (HM 0%nat)].
  - replace m with (Z.of_nat (Z.to_nat m)) by lia. rewrite <- (denominator_cpoly _ _ Hf).
    rewrite (stream_recursion a b s ops f x y Hc Hu Hx Hy _ (or_intror Hs)). rewrite Rmult_comm. apply lagged_bounded. apply causal_bounded, HM.
Qed.
Print Assumptions C129_iir_bounded_from_rest.

(** From any state: some bound. *)
Theorem C129_iir_bounded (a b s : arr CA) ops (f : iir CA) poles (x : nat -> C) (M : R) :
  @coeffs_ok CA a b -> iir_used a b s ops f ->
  poles_inside f poles -> (forall n, @fits CA (idt f) (x n)) -> (forall n, (Cmod (x n) <= M)%R) ->
  exists y K, streams f x y /\ forall n, (Cmod (y n) <= K)%R.
Proof.
  intros Hc Hu [Hf Hp] Hx HM. destruct (stream_exists f x (iir_used_inv _ _ _ _ _ Hu)) as [y Hy].
  destruct (finite_bound (lagged (denominator (ia f)) (causal y)) (length (ib f))) as (D & D0 & HD).
  exists y, ((D + M * l1 (ib f)) / margin poles)%R. split; [exact Hy|]. intros n. rewrite <- (causal_nat y n).
  assert (P : (0 <= M * l1 (ib f))%R) by (apply Rmult_le_pos; [eapply Rle_trans; [apply Cmod_ge_0|apply (HM 0%nat)]|apply l1_nonneg]).
  apply (poles_bounded poles (causal y) _ Hp (causal_before y)).
  intros m. destruct (Z_lt_le_dec m 0) as [Hm|Hm].
  - rewrite lagged_before by (apply causal_before || exact Hm). rewrite Cmod_0. lra.
  - replace m with (Z.of_nat (Z.to_nat m)) by lia. rewrite <- (denominator_cpoly _ _ Hf).
    destruct (Nat.lt_ge_cases (Z.to_nat m) (length (ib f))) as [Hl|Hl]; [specialize (HD _ Hl); lra|].
    rewrite (stream_recursion a b s ops f x y Hc Hu Hx Hy (Z.to_nat m)) by (left; lia).
    pose proof (lagged_bounded (ib f) (causal x) M (Z.of_nat (Z.to_nat m)) (causal_bounded x M HM)). lra.
Qed.
Print Assumptions C129_iir_bounded.

(** ** C130 *)
Lemma vanishing_causal (x : nat -> C) : dies_out x -> vanishing (causal x).
Proof.
  intros H eps He. destruct (H eps He) as [N HN]. exists (Z.of_nat N). intros n Hn. unfold causal.
  destruct (Z.ltb_spec n 0); [lia|]. apply HN. lia.
Qed.
Lemma cpoly_circle zs w : Forall (fun z => (Cmod z < 1)%R) zs -> pe (cpoly zs) (cis w) <> RtoC 0.
Proof.
  intros H. rewrite pe_cpoly. induction H as [|z zs Hz _ IH]; cbn [map cprod fold_right]; [intros Q; apply RtoC_inj in Q; lra|].
  intros Q. apply Cmult_zero in Q. destruct Q as [Q|Q]; [|apply IH, Q].
  assert (E : Cmod (z * cis w) = 1%R).
  { replace (z * cis w) with (RtoC 1) by (transitivity (z * cis w + (1 - z * cis w)); [ring|rewrite Q; ring]). apply Cmod_1. }
  rewrite Cmod_mult, Cmod_cis in E. lra.
Qed.
(** If the input approaches a sinusoid of frequency F (Nyquist = 1) and amplitude A, the
    output approaches the sinusoid with amplitude A h, h the frequency response at F,
    whatever the state the filter was left in. *)
Theorem C130_iir_settles (a b s : arr CA) ops (f : iir CA) poles (x : nat -> C) (A : C) (F : R) :
  @coeffs_ok CA a b -> iir_used a b s ops f -> poles_inside f poles -> (forall n, @fits CA (idt f) (x n)) ->
  dies_out (fun n => x n - A * wave F (Z.of_nat n)) ->
  iir_den (ia f) (PI * F) <> RtoC 0 /\
  exists y, streams f x y /\ dies_out (fun n => y n - A * iir_at (ia f) (ib f) (PI * F) * wave F (Z.of_nat n)).
Proof.
  intros Hc Hu [Hf Hp] Hx HA.
  assert (HD : iir_den (ia f) (PI * F) <> RtoC 0).
  { rewrite <- pe_denominator, (denominator_cpoly _ _ Hf). apply cpoly_circle, Hp. }
  split; [exact HD|]. destruct (stream_exists f x (iir_used_inv _ _ _ _ _ Hu)) as [y Hy]. exists y. split; [exact Hy|].
  set (h := iir_at (ia f) (ib f) (PI * F)). set (e := fun n : Z => causal y n - A * h * wave F n).
  assert (V : vanishing e).
  { apply (poles_vanishing poles e Hp). rewrite <- (denominator_cpoly _ _ Hf).
    assert (V0 : vanishing (lagged (ib f) (fun n => causal x n - A * wave F n))).
    { apply vanishing_lagged. intros eps He. destruct (HA eps He) as [N HN]. exists (Z.of_nat N). intros n Hn.
      specialize (HN (Z.to_nat n) ltac:(lia)). replace n with (Z.of_nat (Z.to_nat n)) by lia. rewrite causal_nat. exact HN. }
    revert V0. apply (vanishing_ext (Z.of_nat (length (ib f)))). intros n Hn.
    assert (R : lagged (denominator (ia f)) (causal y) n = lagged (ib f) (causal x) n).
    { replace n with (Z.of_nat (Z.to_nat n)) by lia. apply (stream_recursion a b s ops f x y Hc Hu Hx Hy). left. lia. }
    assert (Sub : forall c u v k, lagged c (fun m => u m - k * v m) n = lagged c u n - k * lagged c v n).
    { intros c u v k. rewrite <- (lagged_scale c k v). transitivity (lagged c u n + (- RtoC 1) * lagged c (fun m => k * v m) n); [|ring].
      rewrite <- lagged_scale, <- lagged_sum. apply lagged_ext. intros m _. ring. }
    unfold e. rewrite !Sub, R, !lagged_wave. rewrite pe_denominator. unfold h, iir_at. fold (iir_den (ia f) (PI * F)). field. exact HD. }
  intros eps He. destruct (V eps He) as [N HN]. exists (Z.to_nat N). intros n Hn. specialize (HN (Z.of_nat n) ltac:(lia)).
  unfold e in HN. rewrite causal_nat in HN. exact HN.
Qed.
Print Assumptions C130_iir_settles.

(** In particular two instances of one filter, in different states, agree in the long run. *)
Theorem C130_iir_forgets (a b s : arr CA) ops (f : iir CA) (a' b' s' : arr CA) ops' (f' : iir CA) poles (x : nat -> C) :
  @coeffs_ok CA a b -> iir_used a b s ops f -> @coeffs_ok CA a' b' -> iir_used a' b' s' ops' f' ->
  ia f = ia f' -> ib f = ib f' -> idt f = idt f' ->
  poles_inside f poles -> (forall n, @fits CA (idt f) (x n)) ->
  exists y y', streams f x y /\ streams f' x y' /\ dies_out (fun n => y n - y' n).
Proof.
  intros Hc Hu Hc' Hu' Ea Eb Ed [Hf Hp] Hx.
  destruct (stream_exists f x (iir_used_inv _ _ _ _ _ Hu)) as [y Hy]. destruct (stream_exists f' x (iir_used_inv _ _ _ _ _ Hu')) as [y' Hy'].
  exists y, y'. split; [exact Hy|]. split; [exact Hy'|].
  assert (V : vanishing (fun n : Z => causal y n - causal y' n)).
  { apply (poles_vanishing poles _ Hp). rewrite <- (denominator_cpoly _ _ Hf). intros eps He. exists (Z.of_nat (length (ib f))). intros n Hn.
    assert (Sub : lagged (denominator (ia f)) (fun m => causal y m - causal y' m) n = lagged (denominator (ia f)) (causal y) n - lagged (denominator (ia f)) (causal y') n).
    { transitivity (lagged (denominator (ia f)) (causal y) n + (- RtoC 1) * lagged (denominator (ia f)) (causal y') n); [|ring].
      rewrite <- lagged_scale, <- lagged_sum. apply lagged_ext. intros m _. ring. }
    rewrite Sub. replace n with (Z.of_nat (Z.to_nat n)) by lia.
    rewrite (stream_recursion a b s ops f x y Hc Hu Hx Hy) by (left; lia). rewrite Ea, Eb.
    rewrite (stream_recursion a' b' s' ops' f' x y' Hc' Hu') ; [|rewrite <- Ed; exact Hx|exact Hy'|left; rewrite <- Eb; lia].
    unfold Cminus. rewrite Cplus_opp_r. rewrite Cmod_0. exact He. }
  intros eps He. destruct (V eps He) as [N HN]. exists (Z.to_nat N). intros n Hn. specialize (HN (Z.of_nat n) ltac:(lia)). rewrite !causal_nat in HN. exact HN.
Qed.
Print Assumptions C130_iir_forgets.

(** ** C131 *)
(** f was made from the result of the design and used in any way since. *)
Definition designed roots residue eps style frequency order count (complement : bool) (gain : R) (s : arr CA) ops (f : iir CA) : Prop :=
  poles_found roots residue (py_title style) (Z.to_nat order) /\
  exists a b, iir_design roots residue eps style frequency order count complement gain = Ok (a, b) /\
    iir_used (mkArr DFloat (map RtoC a) : arr CA) (mkArr DFloat (map RtoC b)) s ops f.

Lemma eval_length roots residue style f order u v : (0 < order)%nat -> (0 < f)%R -> poles_found roots residue style order ->
  iir_evaluate roots residue style f order = Ok (u, v) -> length u = S order.
Proof.
  intros Ho Hf Hp Ev. destruct (C18_iir_candidate roots residue style order f Ho Hf Hp) as (u1 & v1 & E1 & _ & Lp & _).
  rewrite Ev in E1. injection E1 as <- <-. destruct Hp as [_ Hl]. unfold iir_evaluate in Ev. fold (unit_last (prototype style order)) in Ev.
  destruct (z_transform _ _ _ _ _ _) as [[u' v'] r] eqn:Ez. destruct r as [[aa ob]|e]; [|discriminate Ev]. cbn [rmap fst] in Ev.
  injection Ev as <- _. apply z_ok in Ez. destruct Ez as (_ & _ & _ & A & B & Hz & En).
  assert (Ea2 : aa = fst (z_normal (A, B))) by (rewrite En; reflexivity).
  assert (LA : length A = S order).
  { unfold proto_poles, s_poles in Lp, Hl. destruct (negb (style =? "Bessel")%string) eqn:Es.
    - apply bil_ok in Hz. destruct Hz as (_ & -> & _). rewrite map_length, cpoly_length, map_length, Lp. reflexivity.
    - assert (Eb : style = "Bessel"%string) by (apply String.eqb_eq; destruct (style =? "Bessel")%string; [reflexivity|discriminate]).
      specialize (Hl Eb). match type of Hz with z_impulse _ _ ?p ?q = _ => destruct (residue q p) as [rr pp] eqn:Er end.
      cbn [fst snd] in *. destruct (imp_ok _ _ _ _ _ _ _ _ Er Hl Hz) as (_ & -> & _). rewrite map_length, cpoly_length, map_length, Lp. reflexivity. }
  rewrite Ea2. destruct A as [|x A]; [discriminate LA|]. cbn [z_normal fst map tl length]. rewrite map_length. exact LA.
Qed.

Lemma map_mul_opp (w : C) (zs : list C) : map (fun z => 1 - z * - w) zs = map (fun z => 1 - z * w) (map Copp zs).
Proof. rewrite map_map. apply map_ext. intros z. ring. Qed.

Lemma design_poles roots residue eps style frequency order count (complement : bool) gain a b : (0 < eps)%R ->
  iir_design roots residue eps style frequency order count complement gain = Ok (a, b) ->
  poles_found roots residue (py_title style) (Z.to_nat order) ->
  length a = S (Z.to_nat order) /\ length b = S (Z.to_nat order) /\ hd 1%R a = 0%R /\
  exists zs, denominator (map RtoC a) = cpoly zs /\ Forall (fun z => (Cmod z < 1)%R) zs.
Proof.
  intros He H Hp. destruct (C18_iir_design_gain _ _ _ _ _ _ _ _ _ _ _ He H) as (H0 & Lb & _).
  destruct (C110_iir_design_stable _ _ _ _ _ _ _ _ _ _ _ He H Hp) as [St _].
  apply design_ok in H; [|exact He]. destruct H as (Hf & Ho & Hc & Hst & s & u & v & Hs & Ev & Ha & _).
  assert (F0 : (0 < s * if complement then 1 - frequency else frequency)%R) by (apply Rmult_lt_0_compat; [exact Hs|destruct complement; lra]).
  assert (Hon : (0 < Z.to_nat order)%nat) by lia.
  pose proof (eval_length _ _ _ _ _ _ _ Hon F0 Hp Ev) as Lu.
  assert (La : length a = S (Z.to_nat order)) by (rewrite Ha; destruct complement; [rewrite length_alternate|]; exact Lu).
  split; [exact La|]. split; [exact Lb|]. split; [exact H0|].
  destruct (C18_iir_candidate _ _ _ _ _ Hon F0 Hp) as (u1 & v1 & E1 & Dn & Lp & _). rewrite Ev in E1. injection E1 as <- <-.
  set (poles := proto_poles _ _ _ _) in *. set (zo := z_of _ _) in *.
  assert (Dp : forall w, den u w = cprod (map (fun z => 1 - z * w) (map zo poles))).
  { intros w. rewrite Dn. clear. induction poles as [|p ps IH]; cbn [fold_right map cprod]; [reflexivity|]. rewrite IH. reflexivity. }
  set (zs := if complement then map Copp (map zo poles) else map zo poles).
  assert (Da : forall w, den a w = cprod (map (fun z => 1 - z * w) zs)).
  { intros w. rewrite Ha. unfold zs. destruct complement; [|apply Dp]. rewrite den_alternate, Dp, map_mul_opp. reflexivity. }
  assert (Lz : length zs = Z.to_nat order) by (unfold zs; destruct complement; rewrite ?map_length; exact Lp).
  exists zs. assert (Ed : forall w, pe (denominator (map RtoC a)) w = den a w).
  { intros w. unfold denominator, den. destruct a as [|a0 a1]; [discriminate La|]. cbn [hd] in H0. subst a0. cbn [map tl pe]. rewrite pe_opp. ring. }
  split.
  - apply pe_ext; [unfold denominator; rewrite cpoly_length, Lz; cbn [length]; rewrite map_length; destruct a; [discriminate La|]; cbn [map tl length] in *; rewrite map_length; lia|].
    intros r. rewrite Ed, Da, pe_cpoly. reflexivity.
  - apply Forall_forall. intros z Hz. destruct (Ceq_dec z 0) as [->|Nz]; [rewrite Cmod_0; lra|]. apply St; [exact Nz|]. rewrite Da. apply cprod_has_zero. apply in_map_iff.
    exists z. split; [field; exact Nz|exact Hz].
Qed.

Lemma make_dt (a b s : list C) dts f : length a = length b -> iir_make (mkArr DFloat a : arr CA) (mkArr DFloat b) (mkArr dts s) = Ok f -> idt f = DFloat.
Proof.
  intros L. unfold iir_make. cbn [els adt]. change (@length (carrier CA)) with (@length C). rewrite L, Nat.ltb_irrefl.
  match goal with |- (if ?c then _ else _) = _ -> _ => destruct c; [discriminate|] end. cbv zeta. cbn [els adt].
  match goal with |- (match ?c with [] => _ | _ :: _ => _ end) = _ -> _ => destruct c as [|a0 a']; [discriminate|] end. cbn [dtype_eqb orb].
  match goal with |- (if ?c then _ else _) = _ -> _ => destruct c; [discriminate|] end.
  match goal with |- context [fir_make ?p ?q] => destruct (fir_make p q) as [g|e] eqn:E end; [|discriminate].
  intros H. apply Ok_inj in H. subst f. cbn [idt]. unfold fir_make in E. cbn [els adt] in E.
  match type of E with (if ?c then _ else _) = _ => destruct c; [discriminate|] end. apply Ok_inj in E. subst g. cbn [fdt].
  match goal with |- adt (if ?c then _ else _) = _ => destruct c; reflexivity end.
Qed.

Lemma pad_none (l : list C) : @pad CA l (length l) = l.
Proof. unfold pad. rewrite Nat.sub_diag. apply app_nil_r. Qed.
Lemma fits_real r : @fits CA DFloat (RtoC r).
Proof. reflexivity. Qed.

(** The coefficients of a designed filter are the designed ones. *)
Lemma designed_facts roots residue eps style frequency order count (complement : bool) gain s ops f : (0 < eps)%R ->
  designed roots residue eps style frequency order count complement gain s ops f ->
  idt f = DFloat /\ exists a b poles,
    iir_design roots residue eps style frequency order count complement gain = Ok (a, b) /\
    @coeffs_ok CA (mkArr DFloat (map RtoC a)) (mkArr DFloat (map RtoC b)) /\
    iir_used (mkArr DFloat (map RtoC a) : arr CA) (mkArr DFloat (map RtoC b)) s ops f /\
    ia f = map RtoC a /\ ib f = map RtoC b /\ poles_inside f poles.
Proof.
  intros He (Hp & a & b & Hd & Hu). destruct (design_poles _ _ _ _ _ _ _ _ _ _ _ He Hd Hp) as (La & Lb & H0 & zs & Ez & Hz).
  pose proof Hu as (Ls & f0 & Em & Ef). destruct (iir_fold_ab ops f0) as (Ea & Eb & Ed). rewrite <- Ef in Ea, Eb, Ed.
  destruct s as [dts s]. cbn [els] in Ls. change (@length (carrier CA) (map RtoC a)) with (@length C (map RtoC a)) in Ls. change (@length (carrier CA) (map RtoC b)) with (@length C (map RtoC b)) in Ls.
  rewrite !map_length in Ls.
  assert (Lab : length (map RtoC a) = length (map RtoC b)) by (rewrite !map_length; congruence).
  assert (C1 : @els CA (mkArr DFloat (map RtoC a)) <> [] \/ @els CA (mkArr DFloat (map RtoC b)) <> []) by (left; cbn [els]; destruct a; [discriminate La|discriminate]).
  assert (C2 : @els CA (mkArr DFloat (map RtoC a)) <> [] -> @eqb CA (nth 0 (@els CA (mkArr DFloat (map RtoC a))) (@zero CA)) (@zero CA) = true).
  { intros _. apply (law_eqb CA_laws). cbn [els]. destruct a as [|a0 a1]; [discriminate La|]. cbn [hd] in H0. subst a0. reflexivity. }
  assert (C3 : @eqb CA (@zero CA) (@zero CA) = true) by (apply (law_eqb CA_laws); reflexivity).
  destruct (@iir_make_ok CA _ _ (mkArr dts s) C1 C2 C3) as (f1 & E1 & Ia & Ib & Lib & _). rewrite Em in E1. apply Ok_inj in E1. subst f1.
  cbn [els] in Ia, Ib, Lib. change (@length (carrier CA)) with (@length C) in *. rewrite <- Lab, Nat.max_id in Ia, Lib. rewrite Lab in Lib. 
  assert (Eia : ia f = map RtoC a) by (rewrite Ea, Ia; apply pad_none).
  assert (Eib : ib f = map RtoC b).
  { rewrite Eb. apply nth_ext with (d := RtoC 0) (d' := RtoC 0); [|intros i _; apply Ib]. etransitivity; [exact Lib|]. rewrite !map_length. change (@length (carrier CA) s) with (@length C s) in *. lia. }
  split; [rewrite Ed; eapply make_dt; [exact Lab|exact Em]|]. exists a, b, zs. split; [exact Hd|].
  split. { split; [|split]; [apply Forall_forall; intros v Hv; apply in_map_iff in Hv; destruct Hv as (r & <- & _); apply fits_real..|discriminate]. }
  split; [exact Hu|]. split; [exact Eia|]. split; [exact Eib|]. split; [|exact Hz]. rewrite Eia, Ez.
  exists (RtoC 1). split; [intros Q; apply RtoC_inj in Q; lra|]. intros t. rewrite pvC_cpoly. ring.
Qed.

(** A filter designed by constraints, in whatever state it was left: a real input that
    settles on the constant c (with complement: on the alternating signal of amplitude c)
    gives an output that settles on gain * c in the same way. *)
Theorem C131_designed_settles roots residue eps style frequency order count (complement : bool) gain s ops f (x : nat -> R) (c : R) : (0 < eps)%R ->
  designed roots residue eps style frequency order count complement gain s ops f ->
  let F := if complement then 1%R else 0%R in
  dies_out (fun n => RtoC (x n) - RtoC c * wave F (Z.of_nat n)) ->
  exists y, streams f (fun n => RtoC (x n)) y /\ dies_out (fun n => y n - RtoC gain * RtoC c * wave F (Z.of_nat n)).
Proof.
  intros He Hd F Hx. destruct (designed_facts _ _ _ _ _ _ _ _ _ _ _ _ He Hd) as (Ed & a & b & poles & Ha & Hc & Hu & Eia & Eib & Hp).
  assert (Hf : forall n, @fits CA (idt f) (RtoC (x n))) by (intros n; rewrite Ed; apply fits_real).
  destruct (C130_iir_settles _ _ _ _ _ _ _ (RtoC c) F Hc Hu Hp Hf Hx) as (Nz & y & Hy & Y). exists y. split; [exact Hy|].
  destruct (C18_iir_design_gain _ _ _ _ _ _ _ _ _ _ _ He Ha) as (H0 & _ & G & _).
  destruct (C110_iir_design_stable _ _ _ _ _ _ _ _ _ _ _ He Ha (proj1 Hd)) as [_ De]. specialize (G De). destruct G as (G & _).
  assert (Ee : cis (- (PI * F)) = if complement then - (1) else RtoC 1).
  { unfold F, cis. destruct complement.
    - rewrite Rmult_1_r, cos_neg, sin_neg, cos_PI, sin_PI. apply injective_projections; cbn; ring.
    - rewrite Rmult_0_r, Ropp_0, cos_0, sin_0. reflexivity. }
  assert (Eh : iir_at (ia f) (ib f) (PI * F) = RtoC gain).
  { unfold iir_at. fold (iir_den (ia f) (PI * F)). assert (D : iir_den (ia f) (PI * F) = den a (if complement then - (1) else RtoC 1)).
    { unfold iir_den, den. rewrite Ee, Eia. destruct a as [|a0 a1]; [cbn [hd] in H0; lra|]. cbn [hd] in H0. subst a0. cbn [map tl pe]. ring. }
    rewrite D, Ee, Eib. fold (num b (if complement then - (1) else RtoC 1)). rewrite G. field. exact De. }
  intros e' He'. destruct (Y e' He') as [N HN]. exists N. intros n Hn. specialize (HN n Hn). cbv beta in HN. rewrite Eh in HN.
  replace (RtoC gain * RtoC c) with (RtoC c * RtoC gain) by ring. exact HN.
Qed.
Print Assumptions C131_designed_settles.

(** Bounded real inputs give bounded outputs. *)
Theorem C131_designed_bounded roots residue eps style frequency order count (complement : bool) gain s ops f (x : nat -> R) (M : R) : (0 < eps)%R ->
  designed roots residue eps style frequency order count complement gain s ops f -> (forall n, (Rabs (x n) <= M)%R) ->
  exists y K, streams f (fun n => RtoC (x n)) y /\ forall n, (Cmod (y n) <= K)%R.
Proof.
  intros He Hd HM. destruct (designed_facts _ _ _ _ _ _ _ _ _ _ _ _ He Hd) as (Ed & a & b & poles & Ha & Hc & Hu & _ & _ & Hp).
  apply (C129_iir_bounded _ _ _ _ _ poles _ M Hc Hu Hp).
  - intros n. rewrite Ed. apply fits_real.
  - intros n. rewrite Cmod_R. apply HM.
Qed.
Print Assumptions C131_designed_bounded.

(** ** Witnesses *)
Definition leaky (p : R) : iir CA := mkIir DComplex [RtoC 0; RtoC p] [RtoC 1; RtoC 0] [RtoC 0; RtoC 0].
Lemma leaky_used p : @coeffs_ok CA (mkArr DComplex [RtoC 0; RtoC p]) (mkArr DComplex [RtoC 1]) /\
  @iir_used CA (mkArr DComplex [RtoC 0; RtoC p]) (mkArr DComplex [RtoC 1]) (mkArr DComplex []) [] (leaky p) /\
  is_ (leaky p) = @zeros CA (length (ib (leaky p))).
Proof.
  split; [split; [|split]; [repeat constructor..|discriminate]|]. split; [|reflexivity].
  split; [cbn; lia|]. exists (leaky p). split; [|reflexivity]. unfold iir_make. cbn [els adt].
  change (@eqb CA) with Ceqb. change (@zero CA) with (RtoC 0). rewrite (proj2 (Ceqb_iff (RtoC 0) (RtoC 0)) eq_refl). cbn.
  rewrite (proj2 (Ceqb_iff (RtoC 0) (RtoC 0)) eq_refl). reflexivity.
Qed.
Lemma leaky_poles p : factored (denominator (ia (leaky p))) [RtoC p].
Proof.
  exists (RtoC 1). split; [intros Q; apply RtoC_inj in Q; lra|]. intros s. cbn [leaky ia denominator tl map pvC length cpow cprod fold_right]. ring.
Qed.
Example C129_example : poles_inside (leaky (1 / 2)) [RtoC (1 / 2)] /\
  @coeffs_ok CA (mkArr DComplex [RtoC 0; RtoC (1 / 2)]) (mkArr DComplex [RtoC 1]) /\
  @iir_used CA (mkArr DComplex [RtoC 0; RtoC (1 / 2)]) (mkArr DComplex [RtoC 1]) (mkArr DComplex []) [] (leaky (1 / 2)) /\
  is_ (leaky (1 / 2)) = @zeros CA (length (ib (leaky (1 / 2)))) /\
  (3 * l1 (ib (leaky (1 / 2))) / margin [RtoC (1 / 2)] = 6)%R.
Proof.
  split; [split; [apply leaky_poles|constructor; [rewrite Cmod_R, Rabs_right; lra|constructor]]|].
  destruct (leaky_used (1 / 2)) as (H1 & H2 & H3). split; [exact H1|]. split; [exact H2|]. split; [exact H3|].
  cbn [leaky ib l1 margin]. rewrite !Cmod_R, Rabs_R1, Rabs_R0, Rabs_right by lra. field.
Qed.

(** A pole on the unit circle is too much: the accumulator (the pole of IntegralFilter)
    has no bound for the constant input 1. *)
Theorem C129_pole_on_circle_refuted : exists (a b s : arr CA) (f : iir CA) poles (x : nat -> C) (y : nat -> C),
  @coeffs_ok CA a b /\ iir_used a b s [] f /\ factored (denominator (ia f)) poles /\ Forall (fun z => (Cmod z <= 1)%R) poles /\
  (forall n, (Cmod (x n) <= 1)%R) /\ streams f x y /\ forall K, exists n, (K < Cmod (y n))%R.
Proof.
  destruct (leaky_used 1) as (H1 & H2 & H3). set (x := fun _ : nat => RtoC 1).
  destruct (stream_exists (leaky 1) x (iir_used_inv _ _ _ _ _ H2)) as [y Hy].
  do 3 eexists. exists (leaky 1), [RtoC 1], x, y. split; [exact H1|]. split; [exact H2|]. split; [apply leaky_poles|].
  split; [constructor; [rewrite Cmod_1; lra|constructor]|]. split; [intros n; unfold x; rewrite Cmod_1; lra|]. split; [exact Hy|].
  assert (Hx : forall n, @fits CA (idt (leaky 1)) (x n)) by reflexivity.
  pose proof (fun n => stream_recursion _ _ _ _ _ x y H1 H2 Hx Hy n (or_intror H3)) as Rc.
  assert (V : forall n, y n = RtoC (INR (S n))).
  { induction n as [|n IH].
    - specialize (Rc 0%nat). cbn [leaky ia ib denominator tl map lagged] in Rc. rewrite !causal_nat, !(causal_before _ (Z.of_nat 0 - 1)) in Rc by lia.
      unfold x in Rc. cbn [INR]. transitivity (RtoC 1 * y 0%nat + (- RtoC 1 * RtoC 0 + RtoC 0)); [ring|]. rewrite Rc. ring.
    - specialize (Rc (S n)). cbn [leaky ia ib denominator tl map lagged] in Rc. replace (Z.of_nat (S n) - 1)%Z with (Z.of_nat n) in Rc by lia.
      rewrite !causal_nat in Rc. unfold x in Rc. rewrite IH in Rc. rewrite S_INR, RtoC_plus.
      transitivity (RtoC 1 * y (S n) + (- RtoC 1 * RtoC (INR (S n)) + RtoC 0) + RtoC (INR (S n))); [ring|]. rewrite Rc. ring. }
  intros K. destruct (archimed K) as [Hk _]. exists (Z.to_nat (up K)). set (n := Z.to_nat (up K)).
  assert (Hn : (K < INR n + 1)%R) by (rewrite INR_IZR_INZ; assert (IZR (up K) <= IZR (Z.of_nat n))%R by (apply IZR_le; unfold n; lia); lra). rewrite V, Cmod_R, S_INR. pose proof (pos_INR n). rewrite Rabs_right by lra. lra.
Qed.
Print Assumptions C129_pole_on_circle_refuted.

(** C130: a filter in an arbitrary state meets the hypotheses too. *)
Example C130_example : let f := fst (iir_filter (leaky (1 / 2)) [RtoC 5; RtoC (-7)]) in
  @iir_used CA (mkArr DComplex [RtoC 0; RtoC (1 / 2)]) (mkArr DComplex [RtoC 1]) (mkArr DComplex []) [IFilter [RtoC 5; RtoC (-7)]] f /\
  poles_inside f [RtoC (1 / 2)] /\ iir_at (ia f) (ib f) (PI * 0) = RtoC 2 /\ iir_at (ia f) (ib f) (PI * 1) = RtoC (2 / 3).
Proof.
  intros f. destruct (leaky_used (1 / 2)) as (H1 & (Hl & f0 & E & F) & H3). cbn in F. subst f0.
  assert (Ea : ia f = ia (leaky (1 / 2)) /\ ib f = ib (leaky (1 / 2))) by (destruct (iir_exec_ab (leaky (1 / 2)) (IFilter [RtoC 5; RtoC (-7)])) as (P & Q & _); exact (conj P Q)).
  destruct Ea as [Ea Eb].
  split; [split; [exact Hl|]; exists (leaky (1 / 2)); split; [exact E|reflexivity]|].
  split; [split; [rewrite Ea; apply leaky_poles|constructor; [rewrite Cmod_R, Rabs_right; lra|constructor]]|].
  rewrite Ea, Eb. unfold iir_at. cbn [leaky ia ib tl pe].
  assert (E0 : cis (- (PI * 0)) = RtoC 1) by (unfold cis; rewrite Rmult_0_r, Ropp_0, cos_0, sin_0; reflexivity).
  assert (E1 : cis (- (PI * 1)) = RtoC (-1)) by (unfold cis; rewrite Rmult_1_r, cos_neg, sin_neg, cos_PI, sin_PI; apply injective_projections; cbn; ring).
  rewrite E0, E1. split.
  - transitivity (RtoC 1 / RtoC (1 / 2)); [f_equal; apply injective_projections; cbn; field|]. unfold Cdiv. rewrite <- RtoC_inv, <- RtoC_mult by lra. f_equal. field.
  - transitivity (RtoC 1 / RtoC (3 / 2)); [f_equal; apply injective_projections; cbn; field|]. unfold Cdiv. rewrite <- RtoC_inv, <- RtoC_mult by lra. f_equal. field.
Qed.

(** C131: a designed filter, from any state of suitable length, exists. *)
Example C131_example : exists f,
  designed (fun _ => butter_poles 1) (fun _ _ => ([], [])) 1 "butterworth" (1 / 4) 1 1 true 2 (mkArr DFloat [RtoC 3; RtoC 4]) [] f.
Proof.
  assert (Hp : poles_found (fun _ => butter_poles 1) (fun _ _ => ([], [])) (py_title "butterworth") (Z.to_nat 1)) by (split; [exact (butter_is_roots 1)|discriminate]).
  destruct (C18_iir_design_best (fun _ => butter_poles 1) (fun _ _ => ([], [])) 1 "butterworth" (1 / 4) 1 1 true 2) as (_ & _ & _ & _ & a & b & E & _); [lra| |exact Hp|].
  { intros [H|H]; [apply H; exists "butterworth"%string; split; [cbn; tauto|reflexivity]|]. destruct H as [H|[H|[H|H]]]; try lia; lra. }
  assert (He : (0 < 1)%R) by lra.
  destruct (design_poles _ _ _ _ _ _ _ _ _ _ _ He E Hp) as (La & Lb & H0 & _). change (Z.to_nat 1) with 1%nat in *.
  destruct a as [|a0 [|a1 [|a2 a]]]; try discriminate La. destruct b as [|b0 [|b1 [|b2 b]]]; try discriminate Lb. cbn [hd] in H0. subst a0.
  destruct (@iir_make_ok CA (mkArr DFloat (map RtoC [0%R; a1])) (mkArr DFloat (map RtoC [b0; b1])) (mkArr DFloat [RtoC 3; RtoC 4])) as (f & Ef & _).
  - left. discriminate.
  - intros _. apply (law_eqb CA_laws). reflexivity.
  - apply (law_eqb CA_laws). reflexivity.
  - exists f. split; [exact Hp|]. exists [0%R; a1], [b0; b1]. split; [exact E|]. split; [cbn; lia|]. exists f. split; [exact Ef|reflexivity].
Qed.
