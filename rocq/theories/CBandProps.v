(** Properties C41-C44: ComplexBandpassFilter. *)
From Coq Require Import List Arith ZArith Lia Bool Reals Lra.
From Coquelicot Require Import Complex.
From Verif Require Import Base BaseLemmas Instances FirModel CExpModel CExpProps CBandModel.
Import ListNotations.
Set Asymmetric Patterns.
Open Scope R_scope.
Open Scope C_scope.

(** A filter as the constructor leaves it and as the public operations keep it: one
    coefficient, one state element, every attribute within its documented range. *)
Definition cband_ok (g : cband) : Prop :=
  (exists b, fb (bfir g) = [b]) /\ (exists s, fs (bfir g) = [s]) /\
  (-1 <= bphase g <= 1 /\ -1 <= bfreq g <= 1 /\ 0 <= brate g <= 1)%R.
Definition cband_b (g : cband) : C := nth 0 (fb (bfir g)) (RtoC 0).

(** Components of the n-th output triple. *)
Definition oy (out : list (C * C * C)) (n : nat) : C := fst (fst (nth n out (RtoC 0, RtoC 0, RtoC 0))).
Definition oe (out : list (C * C * C)) (n : nat) : C := snd (fst (nth n out (RtoC 0, RtoC 0, RtoC 0))).
Definition ob (out : list (C * C * C)) (n : nat) : C := snd (nth n out (RtoC 0, RtoC 0, RtoC 0)).

(** scipy.signal.hilbert keeps the length. *)
Definition keeps_length (h : list C -> list C) : Prop := forall d, length (h d) = length d.

Lemma frequency_bad_iff f : frequency_bad f = false <-> (-1 <= f <= 1)%R.
Proof. unfold frequency_bad. rewrite orb_false_iff, <- !not_true_iff_false, !Rltb_iff. lra. Qed.
Lemma rate_bad_iff r : rate_bad r = false <-> (0 <= r <= 1)%R.
Proof. unfold rate_bad. rewrite orb_false_iff, <- !not_true_iff_false, !Rltb_iff. lra. Qed.

Lemma analytic_length h d : keeps_length h -> length (analytic h d) = length d.
Proof. intros H. unfold analytic. destruct (existsb _ _); [reflexivity|apply H]. Qed.

Lemma psum_repeat f m n : (n <= m)%nat -> psum (repeat f m) n = (INR n * f)%R.
Proof.
  induction n as [|n IH]; intros H; [cbn; ring|]. cbn [psum]. rewrite IH by lia. rewrite nth_repeat_lt by lia.
  rewrite S_INR. ring.
Qed.

Lemma tone_call p f m : (-1 <= f <= 1)%R -> (m <> 0)%nat ->
  cexp_filterR p (real_sig (repeat (1 * f)%R m)) =
  (wrapR (p + INR m * f), Ok (map (fun n => cis (PI * (p + INR n * f))) (seq 0 m))).
Proof.
  intros Hf Hm. rewrite Rmult_1_l. rewrite cexp_filter_R.
  - rewrite repeat_length, psum_repeat by lia. f_equal. f_equal. apply map_ext_in. intros n Hn. apply in_seq in Hn.
    unfold expjR. rewrite psum_repeat by lia. reflexivity.
  - split; [destruct m; [lia|discriminate]|]. apply Forall_forall. intros v Hv. apply repeat_spec in Hv. subst v.
    apply Rabs_le. lra.
Qed.

(** The loop as a sequence of coefficients. *)
Lemma cband_loop_seq r : forall (xs ds : list C) (b : C), length xs = length ds ->
  exists B : nat -> C, B 0%nat = b /\ fst (cband_loop r b xs ds) = B (length ds) /\
    length (snd (cband_loop r b xs ds)) = length ds /\
    forall n, (n < length ds)%nat ->
      nth n (snd (cband_loop r b xs ds)) (RtoC 0, RtoC 0, RtoC 0) =
        (nth n xs (RtoC 0) * B n, nth n ds (RtoC 0) - nth n xs (RtoC 0) * B n, B n) /\
      B (S n) = B n + RtoC r * (nth n ds (RtoC 0) - nth n xs (RtoC 0) * B n) * Cconj (nth n xs (RtoC 0)).
Proof.
  induction xs as [|x xs IH]; intros [|d ds] b H; try discriminate H.
  - exists (fun _ => b). cbn. repeat split; intros; lia.
  - cbn [cband_loop]. destruct (IH ds (b + RtoC r * (d - x * b) * Cconj x)) as (B & H0 & H1 & H2 & H3); [cbn in H; lia|].
    destruct (cband_loop r (b + RtoC r * (d - x * b) * Cconj x) xs ds) as [b2 out]. cbn [fst snd] in *.
    exists (fun n => match n with 0%nat => b | S m => B m end). repeat split; [exact H1|cbn [length]; lia| |].
    + destruct n as [|n]; [reflexivity|]. cbn [nth]. apply H3. cbn [length] in H4. lia.
    + destruct n as [|n]; [exact H0|]. cbn [nth]. apply H3. cbn [length] in H4. lia.
Qed.

Lemma cband_filter_seq h g d : keeps_length h -> cband_ok g -> d <> [] ->
  exists g' out, cband_filter h g d = (g', Ok out) /\ cband_ok g' /\ length out = length d /\
    bfreq g' = bfreq g /\ brate g' = brate g /\ fs (bfir g') = fs (bfir g) /\
    exists B : nat -> C, B 0%nat = cband_b g /\ B (length d) = cband_b g' /\
    forall n, (n < length d)%nat ->
      let x := cis (PI * (bphase g + INR n * bfreq g)) in
      nth n out (RtoC 0, RtoC 0, RtoC 0) =
        (x * B n, nth n (analytic h d) (RtoC 0) - x * B n, B n) /\
      B (S n) = B n + RtoC (brate g) * (nth n (analytic h d) (RtoC 0) - x * B n) * Cconj x.
Proof.
  intros Hh ([b Hb] & [s Hs] & Hp & Hf & Hr) Hd. unfold cband_filter.
  destruct (Nat.eqb_spec (length d) 0) as [E|E]; [destruct d; [congruence|discriminate]|].
  rewrite (analytic_length h d Hh). rewrite tone_call by assumption. rewrite Hb.
  destruct (cband_loop_seq (brate g) (map (fun n => cis (PI * (bphase g + INR n * bfreq g))) (seq 0 (length d))) (analytic h d) b)
    as (B & H0 & H1 & H2 & H3); [rewrite map_length, seq_length, analytic_length by exact Hh; reflexivity|].
  destruct (cband_loop _ _ _ _) as [b2 out]. cbn [fst snd] in *. rewrite analytic_length in * by exact Hh.
  eexists _, _. split; [reflexivity|]. repeat split; cbn [bfir bphase bfreq brate fb fs]; try lra; try apply cexp_wrap_R.
  - eexists; reflexivity.
  - eexists; exact Hs.
  - exact H2.
  - exists B. unfold cband_b. cbn [bfir fb]. rewrite Hb. cbn [nth]. repeat split; [exact H0|symmetry; exact H1| |].
    + destruct (H3 n H) as [H4 _]. rewrite H4. rewrite nth_map_seq by exact H. reflexivity.
    + destruct (H3 n H) as [_ H4]. rewrite H4. rewrite nth_map_seq by exact H. reflexivity.
Qed.

(** C41. *)
Theorem C41_cband_equations (h : list C -> list C) (f0 r0 : R) (g0 g : cband) (d : list C) :
  keeps_length h ->
  (cband_make f0 r0 = Ok g0 -> cband_ok g0) /\
  (cband_ok g -> d <> [] ->
   exists g' out, cband_filter h g d = (g', Ok out) /\ cband_ok g' /\ length out = length d /\
     ob out 0 = cband_b g /\
     forall n, (n < length d)%nat ->
       let x := cis (PI * (bphase g + INR n * bfreq g)) in
       oy out n + oe out n = nth n (analytic h d) (RtoC 0) /\
       oy out n = ob out n * x /\
       (if Nat.eqb (S n) (length d) then cband_b g' else ob out (S n)) =
         ob out n + RtoC (brate g) * oe out n * Cconj x).
Proof.
  intros Hh. split.
  - unfold cband_make. destruct (frequency_bad f0) eqn:Ef; [discriminate|]. destruct (rate_bad r0) eqn:Er; [discriminate|].
    cbn [fir_make els length Nat.eqb zeros repeat Nat.ltb Nat.leb].
    unfold cexp_make. rewrite phase_ok by lra. intros E. injection E as E. subst g0.
    apply frequency_bad_iff in Ef. apply rate_bad_iff in Er. unfold cband_ok. cbn.
    repeat split; try eexists; try reflexivity; lra.
  - intros Hg Hd. destruct (cband_filter_seq h g d Hh Hg Hd) as (g' & out & E & Hok & Hl & _ & _ & _ & B & H0 & H1 & H2).
    exists g', out. split; [exact E|]. split; [exact Hok|]. split; [exact Hl|].
    assert (Hpos : (0 < length d)%nat) by (destruct d; [congruence|cbn; lia]).
    split; [unfold ob; destruct (H2 0%nat Hpos) as [H3 _]; rewrite H3; exact H0|].
    intros n Hn x. destruct (H2 n Hn) as [H3 H4]. fold x in H3, H4. unfold oy, oe, ob. rewrite H3. cbn [fst snd].
    split; [ring|]. split; [ring|]. rewrite <- H4. destruct (Nat.eqb_spec (S n) (length d)) as [E'|E'].
    + rewrite E'. symmetry; exact H1.
    + destruct (H2 (S n)) as [H5 _]; [lia|]. rewrite H5. reflexivity.
Qed.
Print Assumptions C41_cband_equations.
Lemma cband_example_ok : exists g, cband_make (1 / 10) (1 / 4) = Ok g /\ cband_ok g /\ cband_b g = RtoC eps /\ brate g = (1 / 4)%R.
Proof.
  unfold cband_make. replace (frequency_bad (1 / 10)) with false by (symmetry; apply frequency_bad_iff; lra).
  replace (rate_bad (1 / 4)) with false by (symmetry; apply rate_bad_iff; lra).
  cbn [fir_make els length Nat.eqb zeros repeat Nat.ltb Nat.leb].
  unfold cexp_make. rewrite phase_ok by lra. eexists. split; [reflexivity|]. unfold cband_ok. cbn.
  repeat split; try eexists; try reflexivity; lra.
Qed.
Example C41_example : exists g, cband_make (1 / 10) (1 / 4) = Ok g /\ cband_ok g /\ keeps_length (fun d => d).
Proof. destruct cband_example_ok as (g & H & H1 & _). exists g. split; [exact H|]. split; [exact H1|]. intros d; reflexivity. Qed.

(** C42. The primary signal is A times the tone of the filter. *)
Definition own_tone (h : list C -> list C) (g : cband) (A : C) (d : list C) : Prop :=
  d <> [] /\ forall n, (n < length d)%nat ->
    nth n (analytic h d) (RtoC 0) = A * cis (PI * (bphase g + INR n * bfreq g)).

Lemma Cconj_cis_r t : cis t * Cconj (cis t) = 1.
Proof. apply cis_conj_mul. Qed.

Theorem C42_cband_converges (h : list C -> list C) (g : cband) (A : C) :
  keeps_length h -> cband_ok g ->
  (forall d g' out, own_tone h g A d -> cband_filter h g d = (g', Ok out) ->
     (forall n, (n < length d)%nat ->
       ob out n - A = RtoC ((1 - brate g) ^ n) * (cband_b g - A) /\
       Cmod (oe out n) = ((1 - brate g) ^ n * Cmod (cband_b g - A)%C)%R /\
       (brate g = 1%R -> (1 <= n)%nat -> oe out n = 0) /\
       (brate g = 0%R -> ob out n = cband_b g)) /\
     cband_b g' - A = RtoC ((1 - brate g) ^ length d) * (cband_b g - A)) /\
  ((0 < brate g)%R -> forall ep, (0 < ep)%R -> exists N, forall d g' out,
     own_tone h g A d -> cband_filter h g d = (g', Ok out) ->
     forall n, (N <= n < length d)%nat -> (Cmod (oe out n) <= ep)%R).
Proof.
  intros Hh Hg.
  assert (Main : forall d g' out, own_tone h g A d -> cband_filter h g d = (g', Ok out) ->
     (forall n, (n < length d)%nat ->
       ob out n - A = RtoC ((1 - brate g) ^ n) * (cband_b g - A) /\
       Cmod (oe out n) = ((1 - brate g) ^ n * Cmod (cband_b g - A)%C)%R /\
       (brate g = 1%R -> (1 <= n)%nat -> oe out n = 0) /\
       (brate g = 0%R -> ob out n = cband_b g)) /\
     cband_b g' - A = RtoC ((1 - brate g) ^ length d) * (cband_b g - A)).
  { intros d g' out [Hd Ht] E. destruct (cband_filter_seq h g d Hh Hg Hd) as (g2 & out2 & E2 & _ & _ & _ & _ & _ & B & H0 & H1 & H2).
    rewrite E in E2. injection E2 as E2 E3. subst g2 out2.
    assert (HB : forall n, (n <= length d)%nat -> B n - A = RtoC ((1 - brate g) ^ n) * (cband_b g - A)).
    { induction n as [|n IH]; intros Hn; [rewrite H0; cbn [pow]; ring|].
      destruct (H2 n) as [_ H3]; [lia|]. cbv zeta in H3. rewrite H3. rewrite Ht by lia.
      set (t := (PI * (bphase g + INR n * bfreq g))%R) in *.
      replace (B n + RtoC (brate g) * (A * cis t - cis t * B n) * Cconj (cis t) - A)
        with ((B n - A) * (1 - RtoC (brate g) * (cis t * Cconj (cis t)))) by ring.
      rewrite Cconj_cis_r, IH by lia. cbn [pow]. rewrite RtoC_mult, RtoC_minus. ring. }
    split; [|rewrite <- H1; apply HB; lia]. intros n Hn. destruct (H2 n Hn) as [H3 _]. cbv zeta in H3. unfold ob, oe. rewrite H3. cbn [fst snd].
    rewrite Ht by exact Hn. set (t := (PI * (bphase g + INR n * bfreq g))%R) in *.
    assert (He : A * cis t - cis t * B n = - (cis t * (B n - A))) by ring.
    destruct Hg as (_ & _ & _ & _ & Hr).
    split; [apply HB; lia|]. split.
    - rewrite He, Cmod_opp, Cmod_mult, Cmod_cis, HB by lia. rewrite Cmod_mult, Cmod_R, Rabs_pos_eq; [ring|]. apply pow_le. lra.
    - split.
      + intros Hr1 Hn1. rewrite He, HB by lia. rewrite Hr1. replace (1 - 1)%R with 0%R by ring. rewrite pow_ne_zero by lia. ring.
      + intros Hr0. specialize (HB n ltac:(lia)). rewrite Hr0 in HB. replace (1 - 0)%R with 1%R in HB by ring. rewrite pow1 in HB.
        replace (B n) with ((B n - A) + A) by ring. rewrite HB. ring. }
  split; [exact Main|]. intros Hr ep Hep.
  destruct Hg as (Hb & Hs & Hp & Hf & Hr2).
  destruct (pow_lt_1_zero (1 - brate g)) with (y := (ep / (Cmod (cband_b g - A)%C + 1))%R) as [N HN].
  - rewrite Rabs_pos_eq; lra.
  - pose proof (Cmod_ge_0 (cband_b g - A)). apply Rdiv_lt_0_compat; lra.
  - exists N. intros d g' out Ht E n [Hn1 Hn2]. destruct (Main d g' out Ht E) as [M _]. destruct (M n Hn2) as (_ & M2 & _). rewrite M2.
    specialize (HN n Hn1). rewrite Rabs_pos_eq in HN by (apply pow_le; lra).
    pose proof (Cmod_ge_0 (cband_b g - A)) as H0. set (m := Cmod (cband_b g - A)%C) in *.
    apply Rle_trans with (ep / (m + 1) * (m + 1))%R; [|right; field; lra].
    apply Rle_trans with (ep / (m + 1) * m)%R.
    + apply Rmult_le_compat_r; [exact H0|left; exact HN].
    + apply Rmult_le_compat_l; [|lra]. left. apply Rdiv_lt_0_compat; lra.
Qed.
Print Assumptions C42_cband_converges.
Example C42_example : exists g, cband_make (1 / 10) (1 / 4) = Ok g /\ cband_ok g /\ (0 < brate g)%R /\
  own_tone (fun d => d) g 3 (map (fun n => 3 * cis (PI * (bphase g + INR n * bfreq g))) (seq 0 5)).
Proof.
  destruct cband_example_ok as (g & H & H1 & _ & H2). exists g. split; [exact H|]. split; [exact H1|]. split; [rewrite H2; lra|].
  split; [discriminate|]. intros n Hn. rewrite map_length, seq_length in Hn. unfold analytic.
  assert (E : forall (b : bool) (l : list C), (if b then l else l) = l) by (intros [|]; reflexivity). rewrite E.
  rewrite nth_map_seq by exact Hn. reflexivity.
Qed.

(** C43. *)
Theorem C43_cband_bounded (h : list C -> list C) (g g' : cband) (d : list C) (out : list (C * C * C)) (D : R) :
  keeps_length h -> cband_ok g -> d <> [] -> cband_filter h g d = (g', Ok out) ->
  (forall n, (n < length d)%nat -> (Cmod (nth n (analytic h d) (RtoC 0)) <= D)%R) ->
  (Cmod (cband_b g) <= D)%R ->
  (Cmod (cband_b g') <= D)%R /\
  forall n, (n < length d)%nat ->
    (Cmod (ob out n) <= D /\ Cmod (oy out n) <= D /\ Cmod (oe out n) <= 2 * D)%R.
Proof.
  intros Hh Hg Hd E HD Hb. destruct (cband_filter_seq h g d Hh Hg Hd) as (g2 & out2 & E2 & _ & _ & _ & _ & _ & B & H0 & H1 & H2).
  rewrite E in E2. injection E2 as E2 E3. subst g2 out2. destruct Hg as (_ & _ & _ & _ & Hr).
  assert (HB : forall n, (n <= length d)%nat -> (Cmod (B n) <= D)%R).
  { induction n as [|n IH]; intros Hn; [rewrite H0; exact Hb|].
    destruct (H2 n) as [_ H3]; [lia|]. cbv zeta in H3. rewrite H3.
    set (t := (PI * (bphase g + INR n * bfreq g))%R) in *. set (v := nth n (analytic h d) (RtoC 0)) in *.
    assert (Hv : (Cmod v <= D)%R) by (apply HD; lia).
    replace (B n + RtoC (brate g) * (v - cis t * B n) * Cconj (cis t))
      with ((1 - RtoC (brate g) * (cis t * Cconj (cis t))) * B n + RtoC (brate g) * v * Cconj (cis t)) by ring.
    rewrite Cconj_cis_r. eapply Rle_trans; [apply Cmod_triangle|]. rewrite !Cmod_mult.
    replace (1 - RtoC (brate g) * 1) with (RtoC (1 - brate g)) by (rewrite RtoC_minus; ring).
    rewrite cis_conj, Cmod_cis, !Cmod_R, !Rabs_pos_eq by lra. specialize (IH ltac:(lia)).
    assert ((1 - brate g) * Cmod (B n) <= (1 - brate g) * D)%R by (apply Rmult_le_compat_l; lra).
    assert (brate g * Cmod v <= brate g * D)%R by (apply Rmult_le_compat_l; lra). lra. }
  split; [rewrite <- H1; apply HB; lia|]. intros n Hn. destruct (H2 n Hn) as [H3 _]. cbv zeta in H3. unfold ob, oy, oe. rewrite H3. cbn [fst snd].
  specialize (HB n ltac:(lia)). specialize (HD n Hn). rewrite Cmod_mult, Cmod_cis.
  split; [exact HB|]. split; [lra|]. unfold Cminus. eapply Rle_trans; [apply Cmod_triangle|].
  rewrite Cmod_opp, Cmod_mult, Cmod_cis. lra.
Qed.
Print Assumptions C43_cband_bounded.
Example C43_example : exists g, cband_make (1 / 10) (1 / 4) = Ok g /\ cband_ok g /\ (Cmod (cband_b g) <= 1)%R /\
  (forall n, (n < 2)%nat -> (Cmod (nth n (analytic (fun d => d) [Ci; RtoC 1]) (RtoC 0)) <= 1)%R).
Proof.
  destruct cband_example_ok as (g & H & H1 & H2 & _). exists g. split; [exact H|]. split; [exact H1|]. split.
  - rewrite H2, Cmod_R. unfold eps. rewrite Rabs_pos_eq.
    + rewrite <- Rinv_1. apply Rinv_le_contravar; [lra|]. apply pow_R1_Rle. lra.
    + left. apply Rinv_0_lt_compat. apply pow_lt. lra.
  - intros n Hn. unfold analytic. assert (E : forall (b : bool) (l : list C), (if b then l else l) = l) by (intros [|]; reflexivity). rewrite E.
    destruct n as [|[|n]]; [| |lia]; cbn [nth].
    + replace Ci with (cis (PI / 2)) by (unfold cis, Ci; rewrite cos_PI2, sin_PI2; reflexivity). rewrite Cmod_cis. lra.
    + rewrite Cmod_1. lra.
Qed.

(** C44. Histories of public calls; the outputs of every call other than reset. *)
Inductive cband_op : Type := BFilter (d : list C) | BFreq (f : R) | BRate (r : R) | BReset (x : option C).
Inductive cband_out : Type := BSig (o : res (list (C * C * C))) | BUnit (o : res unit).
Definition cband_exec (h : list C -> list C) (g : cband) (o : cband_op) : cband * cband_out :=
  match o with
  | BFilter d => let '(g', y) := cband_filter h g d in (g', BSig y)
  | BFreq f => let '(g', y) := cband_set_frequency g f in (g', BUnit y)
  | BRate r => let '(g', y) := cband_set_rate g r in (g', BUnit y)
  | BReset x => let '(g', y) := cband_reset g x in (g', BUnit y)
  end.
Definition not_reset (o : cband_op) : bool := match o with BReset _ => false | _ => true end.
Fixpoint cband_outputs (h : list C -> list C) (g : cband) (ops : list cband_op) : list cband_out :=
  match ops with
  | [] => []
  | o :: t => let '(g', y) := cband_exec h g o in
      if not_reset o then y :: cband_outputs h g' t else cband_outputs h g' t
  end.

Definition same_but_s (g1 g2 : cband) : Prop :=
  fdt (bfir g1) = fdt (bfir g2) /\ fb (bfir g1) = fb (bfir g2) /\ bphase g1 = bphase g2 /\ bfreq g1 = bfreq g2 /\ brate g1 = brate g2.

Lemma same_exec h g1 g2 o : same_but_s g1 g2 -> not_reset o = true ->
  same_but_s (fst (cband_exec h g1 o)) (fst (cband_exec h g2 o)) /\ snd (cband_exec h g1 o) = snd (cband_exec h g2 o).
Proof.
  intros (H0 & H1 & H2 & H3 & H4) Ho.
  destruct g1 as [[t1 b1 s1] p1 f1 r1], g2 as [[t2 b2 s2] p2 f2 r2]. cbn in *. subst.
  destruct o as [d|f|r|x]; [| | |discriminate]; cbn [cband_exec].
  - unfold cband_filter. cbn [bfir bphase bfreq brate fb fs fdt]. destruct (Nat.eqb _ _); [repeat split|].
    destruct (cexp_filterR _ _) as [p [x|e]]; [|repeat split]. destruct b2 as [|b t]; [repeat split|].
    destruct (cband_loop _ _ _ _). repeat split.
  - unfold cband_set_frequency. destruct (frequency_bad f); repeat split.
  - unfold cband_set_rate. destruct (rate_bad r); repeat split.
Qed.

Theorem C44_cband_reset_irrelevant (h : list C -> list C) (g : cband) (ops : list cband_op) :
  cband_outputs h g ops = cband_outputs h g (filter not_reset ops).
Proof.
  assert (H : forall ops g1 g2, same_but_s g1 g2 -> cband_outputs h g1 ops = cband_outputs h g2 (filter not_reset ops)).
  { induction ops0 as [|o ops0 IH]; intros g1 g2 Hs; [reflexivity|]. cbn [cband_outputs filter]. destruct (not_reset o) eqn:E.
    - cbn [cband_outputs]. rewrite E. destruct (same_exec h g1 g2 o Hs E) as [H1 H2].
      destruct (cband_exec h g1 o) as [g1' y1], (cband_exec h g2 o) as [g2' y2]. cbn [fst snd] in *. subst y2. f_equal. apply IH, H1.
    - destruct o as [| | |x]; try discriminate. cbn [cband_exec]. unfold cband_reset, fir_reset. destruct x as [v|]; apply IH; exact Hs. }
  apply H. repeat split.
Qed.
Print Assumptions C44_cband_reset_irrelevant.
Example C44_example : exists g, cband_make (1 / 10) (1 / 4) = Ok g /\
  cband_outputs (fun d => d) g [BReset (Some Ci); BFilter [Ci]] = cband_outputs (fun d => d) g [BFilter [Ci]] /\
  length (cband_outputs (fun d => d) g [BFilter [Ci]]) = 1%nat.
Proof.
  destruct cband_example_ok as (g & H & _). exists g. split; [exact H|]. split; [apply C44_cband_reset_irrelevant|].
  cbn [cband_outputs not_reset]. destruct (cband_exec _ _ _). reflexivity.
Qed.
