(** Property C151: ComplexBandpassFilter and ComplexFrequencyFilter continue from call to
    call for complex signals, not for real ones, whose analytic signal is formed per call. *)
From Coq Require Import List Arith ZArith Lia Bool Reals Lra.
From Coquelicot Require Import Complex.
From Verif Require Import Base BaseLemmas Instances FirModel CExpModel CExpProps CBandModel CBandProps CFreqProps DftModel.
Import ListNotations.
Set Asymmetric Patterns.
Open Scope R_scope.
Open Scope C_scope.

Definition truly_complex (c : list C) : Prop := exists z, In z c /\ snd z <> 0%R.
Lemma truly_complex_analytic h c : truly_complex c -> analytic h c = c.
Proof.
  intros (z & Hz & Hi). unfold analytic. replace (existsb has_imag c) with true; [reflexivity|]. symmetry. apply existsb_exists.
  exists z. split; [exact Hz|]. unfold has_imag. destruct (Reqb (snd z) 0) eqn:E; [|reflexivity]. exfalso. apply Hi.
  revert E. unfold Reqb. destruct (Req_EM_T _ _); [auto|discriminate].
Qed.
Lemma truly_complex_concat cs : cs <> [] -> Forall truly_complex cs -> truly_complex (concat cs).
Proof.
  intros Hn HF. destruct cs as [|c cs]; [congruence|]. inversion HF as [|? ? (z & Hz & Hi) _]; subst. exists z. split; [|exact Hi].
  cbn [concat]. apply in_or_app. left. exact Hz.
Qed.
Lemma truly_complex_nonempty c : truly_complex c -> c <> [].
Proof. intros (z & Hz & _) C. subst. exact Hz. Qed.

(** The tone over m samples from phase p. *)
Definition tones (p f : R) (m : nat) : list C := map (fun n => cis (PI * (p + INR n * f))) (seq 0 m).
Lemma tones_app p f m k : tones p f (m + k) = tones p f m ++ tones (p + INR m * f) f k.
Proof.
  unfold tones. rewrite seq_app, map_app. f_equal. cbn [plus].
  assert (Hs : forall a, seq a k = map (fun i => (a + i)%nat) (seq 0 k)).
  { clear. intros a. revert a. induction k as [|k IH]; intros a; [reflexivity|]. cbn [seq map]. f_equal; [lia|].
    rewrite (IH (S a)), (IH 1%nat), map_map. apply map_ext. intros i. lia. }
  rewrite (Hs m), map_map. apply map_ext. intros n. f_equal. rewrite plus_INR. ring.
Qed.
Lemma tones_turn p f m k : tones (p + 2 * IZR k) f m = tones p f m.
Proof.
  unfold tones. apply map_ext. intros n. replace (PI * (p + 2 * IZR k + INR n * f))%R with (PI * (p + INR n * f) + 2 * IZR k * PI)%R by ring.
  apply cis_2PI_IZR.
Qed.
Lemma tones_length p f m : length (tones p f m) = m.
Proof. unfold tones. rewrite map_length, seq_length. reflexivity. Qed.

Lemma cband_loop_app r : forall x1 d1 x2 d2 b, length x1 = length d1 ->
  cband_loop r b (x1 ++ x2) (d1 ++ d2) =
  (fst (cband_loop r (fst (cband_loop r b x1 d1)) x2 d2),
   snd (cband_loop r b x1 d1) ++ snd (cband_loop r (fst (cband_loop r b x1 d1)) x2 d2)).
Proof.
  induction x1 as [|x x1 IH]; intros [|d d1] x2 d2 b H; try discriminate H.
  - cbn [app cband_loop fst snd]. destruct (cband_loop r b x2 d2); reflexivity.
  - cbn [app cband_loop]. rewrite IH by (cbn in H; lia).
    destruct (cband_loop r _ x1 d1) as [b1 o1]. cbn [fst snd app]. destruct (cband_loop r b1 x2 d2). reflexivity.
Qed.

Lemma cband_call h g c b t : (-1 <= bfreq g <= 1)%R -> truly_complex c -> fb (bfir g) = b :: t ->
  cband_filter h g c =
  (mkCband (mkFir (fdt (bfir g)) (fst (cband_loop (brate g) b (tones (bphase g) (bfreq g) (length c)) c) :: t) (fs (bfir g)))
     (wrapR (bphase g + INR (length c) * bfreq g)) (bfreq g) (brate g),
   Ok (snd (cband_loop (brate g) b (tones (bphase g) (bfreq g) (length c)) c))).
Proof.
  intros Hf Hc Hb. pose proof (truly_complex_nonempty c Hc) as Hn. unfold cband_filter.
  destruct (Nat.eqb_spec (length c) 0) as [E|E]; [destruct c; [congruence|discriminate]|].
  rewrite (truly_complex_analytic h c Hc), tone_call by assumption. rewrite Hb. fold (tones (bphase g) (bfreq g) (length c)).
  destruct (cband_loop _ _ _ _). reflexivity.
Qed.

Theorem C151_cband_chunks (h : list C -> list C) (g : cband) (chunks : list (list C)) :
  cband_ok g -> chunks <> [] -> Forall truly_complex chunks ->
  exists g1 g2 out, call_chunks (cband_filter h) g chunks = (g1, Ok out) /\
    cband_filter h g (concat chunks) = (g2, Ok out) /\
    bfir g1 = bfir g2 /\ bfreq g1 = bfreq g2 /\ brate g1 = brate g2 /\ exists k : Z, (bphase g1 = bphase g2 + 2 * IZR k)%R.
Proof.
  intros Hg Hne HF. pose proof Hg as ([b Hb] & _ & _ & Hf & _).
  assert (Main : forall cs g0 b0 t p k, Forall truly_complex cs -> fb (bfir g0) = b0 :: t -> (-1 <= bfreq g0 <= 1)%R ->
    (bphase g0 = p + 2 * IZR k)%R ->
    exists q k', call_chunks (cband_filter h) g0 cs =
      (mkCband (mkFir (fdt (bfir g0)) (fst (cband_loop (brate g0) b0 (tones p (bfreq g0) (length (concat cs))) (concat cs)) :: t) (fs (bfir g0)))
         q (bfreq g0) (brate g0),
       Ok (snd (cband_loop (brate g0) b0 (tones p (bfreq g0) (length (concat cs))) (concat cs)))) /\
      (q = p + INR (length (concat cs)) * bfreq g0 + 2 * IZR k')%R).
  { induction cs as [|c cs IH]; intros g0 b0 t p k HF0 Hb0 Hf0 Hp.
    - cbn. exists (bphase g0), k. split; [|rewrite Hp; ring]. destruct g0 as [[dt fb0 fs0] ph fr rt]. cbn in *. subst fb0. reflexivity.
    - inversion HF0 as [|? ? Hc HF1]; subst. cbn [call_chunks concat]. rewrite (cband_call h g0 c b0 t Hf0 Hc Hb0).
      rewrite Hp. rewrite tones_turn.
      set (g1 := mkCband _ _ _ _).
      destruct (cexp_wrap_R (p + 2 * IZR k + INR (length c) * bfreq g0)) as [_ (k1 & E1)].
      destruct (IH g1 (fst (cband_loop (brate g0) b0 (tones p (bfreq g0) (length c)) c)) t (p + INR (length c) * bfreq g0)%R (k + k1)%Z)
        as (q & k' & E & Eq); [exact HF1|reflexivity|exact Hf0| |].
      { unfold g1. cbn [bphase]. rewrite E1, plus_IZR. ring. }
      rewrite E. unfold g1. cbn [bfir bfreq brate fdt fs fb bphase]. exists q, k'.
      rewrite app_length, tones_app, cband_loop_app by apply tones_length. cbn [fst snd]. split; [reflexivity|].
      rewrite Eq. unfold g1. cbn [bfreq]. rewrite plus_INR. ring. }
  destruct (Main chunks g b [] (bphase g) 0%Z HF Hb Hf ltac:(ring)) as (q & k' & E & Eq).
  rewrite E. rewrite (cband_call h g (concat chunks) b []) by (assumption || apply truly_complex_concat; assumption).
  eexists _, _, _. split; [reflexivity|]. split; [reflexivity|]. cbn [bfir bfreq brate bphase]. repeat split.
  destruct (cexp_wrap_R (bphase g + INR (length (concat chunks)) * bfreq g)) as [_ (k1 & E1)].
  exists (k' - k1)%Z. rewrite Eq, E1, minus_IZR. ring.
Qed.
Print Assumptions C151_cband_chunks.

Lemma cfreq_loop_app r : forall x1 x2 b s,
  cfreq_loop r b s (x1 ++ x2) =
  let '(b1, s1, o1) := cfreq_loop r b s x1 in let '(b2, s2, o2) := cfreq_loop r b1 s1 x2 in (b2, s2, o1 ++ o2).
Proof.
  induction x1 as [|x x1 IH]; intros x2 b s.
  - cbn [app cfreq_loop]. destruct (cfreq_loop r b s x2) as [[b2 s2] o2]. reflexivity.
  - cbn [app cfreq_loop]. rewrite IH. destruct (cfreq_loop r _ x x1) as [[b1 s1] o1]. destruct (cfreq_loop r b1 s1 x2) as [[b2 s2] o2]. reflexivity.
Qed.

Theorem C151_cfreq_chunks (h : list C -> list C) (g : cfreq) (chunks : list (list C)) :
  cfreq_ok g -> chunks <> [] -> Forall truly_complex chunks ->
  exists g' out, call_chunks (cfreq_filter h) g chunks = (g', Ok out) /\ cfreq_filter h g (concat chunks) = (g', Ok out).
Proof.
  intros ([b Hb] & [s [Hs _]] & _) Hne HF.
  assert (Call : forall g0 c b0 bt s0 st, truly_complex c -> fb (ffir g0) = b0 :: bt -> fs (ffir g0) = s0 :: st ->
    cfreq_filter h g0 c = let '(b2, s2, out) := cfreq_loop (frate g0) b0 s0 (map normalise c) in
      (mkCfreq (mkFir (fdt (ffir g0)) (b2 :: bt) (s2 :: st)) (ffreq g0) (frate g0), Ok out)).
  { intros g0 c b0 bt s0 st Hc Hb0 Hs0. pose proof (truly_complex_nonempty c Hc) as Hn. unfold cfreq_filter.
    destruct (Nat.eqb_spec (length c) 0) as [E|E]; [destruct c; [congruence|discriminate]|].
    rewrite (truly_complex_analytic h c Hc), Hb0, Hs0. reflexivity. }
  assert (Main : forall cs g0 b0 bt s0 st, Forall truly_complex cs -> fb (ffir g0) = b0 :: bt -> fs (ffir g0) = s0 :: st ->
    call_chunks (cfreq_filter h) g0 cs = let '(b2, s2, out) := cfreq_loop (frate g0) b0 s0 (map normalise (concat cs)) in
      (mkCfreq (mkFir (fdt (ffir g0)) (b2 :: bt) (s2 :: st)) (ffreq g0) (frate g0), Ok out)).
  { induction cs as [|c cs IH]; intros g0 b0 bt s0 st HF0 Hb0 Hs0.
    - cbn. destruct g0 as [[dt fb0 fs0] fr rt]. cbn in *. subst. reflexivity.
    - inversion HF0 as [|? ? Hc HF1]; subst. cbn [call_chunks concat]. rewrite (Call g0 c b0 bt s0 st Hc Hb0 Hs0).
      rewrite map_app, cfreq_loop_app. destruct (cfreq_loop (frate g0) b0 s0 (map normalise c)) as [[b1 s1] o1].
      rewrite (IH _ b1 bt s1 st HF1) by reflexivity. cbn [ffir frate ffreq fdt].
      destruct (cfreq_loop (frate g0) b1 s1 (map normalise (concat cs))) as [[b2 s2] o2]. reflexivity. }
  rewrite (Main chunks g b [] s [] HF Hb Hs). rewrite (Call g (concat chunks) b [] s []) by (assumption || apply truly_complex_concat; assumption).
  destruct (cfreq_loop _ _ _ _) as [[b2 s2] out]. eexists _, _. split; reflexivity.
Qed.
Print Assumptions C151_cfreq_chunks.
Example C151_example : exists g f, cband_make (1 / 10) (1 / 4) = Ok g /\ cband_ok g /\ cfreq_make (1 / 10) (1 / 4) = Ok f /\ cfreq_ok f /\
  Forall truly_complex [[Ci; RtoC 1]; [RtoC 2; Ci]].
Proof.
  destruct cband_example_ok as (g & H & H1 & _). exists g. eexists. split; [exact H|]. split; [exact H1|].
  split; [apply cfreq_make_eq; lra|]. split.
  - unfold cfreq_ok. cbn. repeat split; try lra; eexists; try split; try reflexivity. rewrite Cmod_R, Rabs_pos_eq; lra.
  - repeat constructor; exists Ci; cbn; split; auto; lra.
Qed.

(** scipy.signal.hilbert of a real signal: the spectrum with the negative frequencies
    removed and the positive ones doubled. *)
Definition hilbert_weight (N k : nat) : R :=
  if Nat.eqb k 0 then 1 else if Nat.ltb (2 * k) N then 2 else if Nat.eqb (2 * k) N then 1 else 0.
Definition scipy_hilbert (x : list C) : list C :=
  ifft (map (fun k => RtoC (hilbert_weight (length x) k) * nth k (fft x) (RtoC 0)) (seq 0 (length x))).
Lemma scipy_hilbert_length : keeps_length scipy_hilbert.
Proof. intros d. unfold scipy_hilbert, ifft. rewrite !map_length, !seq_length. reflexivity. Qed.

Lemma cis_eq a b : a = b -> cis a = cis b.
Proof. intros ->. reflexivity. Qed.
Lemma hilbert_pulse : nth 1 (scipy_hilbert [RtoC 1; RtoC 0; RtoC 0; RtoC 0]) (RtoC 0) = Ci / 2.
Proof.
  assert (Fk : forall k, (k < 4)%nat -> nth k (fft [RtoC 1; RtoC 0; RtoC 0; RtoC 0]) (RtoC 0) = 1).
  { intros k Hk. unfold fft. cbn [length]. rewrite nth_map_seq by exact Hk. cbn [csumn nth].
    replace (cis (- (2 * PI * INR k * INR 0 / INR 4))) with (RtoC 1); [ring|].
    rewrite <- cis_0. apply cis_eq. cbn [INR]. field. }
  unfold scipy_hilbert. cbn [length]. unfold ifft. rewrite map_length, seq_length. rewrite nth_map_seq by lia.
  cbn [csumn]. rewrite !nth_map_seq by lia. rewrite !Fk by lia.
  unfold hilbert_weight. cbn [Nat.eqb Nat.ltb Nat.leb Nat.mul Nat.add].
  replace (cis (2 * PI * INR 0 * INR 1 / INR 4)) with (RtoC 1) by (rewrite <- cis_0; apply cis_eq; cbn [INR]; field).
  replace (cis (2 * PI * INR 1 * INR 1 / INR 4)) with Ci.
  2:{ replace (2 * PI * INR 1 * INR 1 / INR 4)%R with (PI / 2)%R by (cbn [INR]; field). unfold cis. rewrite cos_PI2, sin_PI2. reflexivity. }
  replace (cis (2 * PI * INR 2 * INR 1 / INR 4)) with (- RtoC 1).
  2:{ replace (2 * PI * INR 2 * INR 1 / INR 4)%R with PI by (cbn [INR]; field). unfold cis. rewrite cos_PI, sin_PI. unfold Copp, RtoC. cbn. f_equal; ring. }
  replace (RtoC (INR 4)) with (2 * 2) by (rewrite <- RtoC_mult; f_equal; cbn [INR]; ring).
  replace (RtoC 2) with (1 + 1) by (rewrite <- RtoC_plus; f_equal; ring). field; try (intros C; apply (f_equal fst) in C; cbn in C; lra).
  all: repeat split; intros C; apply (f_equal fst) in C; cbn in C; lra.
Qed.

(** Real samples: the same signal in two calls gives other outputs than in one. *)
Theorem C151_real_chunks_refuted : exists (g : cband) (c1 c2 : list C) (g1 g2 : cband) o1 o2,
  cband_make (1 / 10) (1 / 4) = Ok g /\ Forall (fun z => snd z = 0%R) (c1 ++ c2) /\ c1 <> [] /\ c2 <> [] /\
  call_chunks (cband_filter scipy_hilbert) g [c1; c2] = (g1, Ok o1) /\
  cband_filter scipy_hilbert g (c1 ++ c2) = (g2, Ok o2) /\ oe o1 1 <> oe o2 1.
Proof.
  destruct cband_example_ok as (g & H & Hg & Hb & Hr). set (c1 := [RtoC 1; RtoC 0]). set (c2 := [RtoC 0; RtoC 0]).
  destruct (cband_filter_seq scipy_hilbert g c1 scipy_hilbert_length Hg ltac:(discriminate)) as (g1 & o1 & E1 & Hg1 & Hl1 & _ & _ & _ & B1 & H10 & _ & H12).
  destruct (cband_filter_seq scipy_hilbert g1 c2 scipy_hilbert_length Hg1 ltac:(discriminate)) as (g2 & o2 & E2 & _).
  destruct (cband_filter_seq scipy_hilbert g (c1 ++ c2) scipy_hilbert_length Hg ltac:(discriminate)) as (g3 & o3 & E3 & _ & _ & _ & _ & _ & B3 & H30 & _ & H32).
  exists g, c1, c2, g2, g3, (o1 ++ o2), o3. split; [exact H|]. split; [repeat constructor|]. split; [discriminate|]. split; [discriminate|].
  split; [cbn [call_chunks]; rewrite E1, E2, app_nil_r; reflexivity|]. split; [exact E3|].
  assert (R0 : forall l, Forall (fun z => snd z = 0%R) l -> analytic scipy_hilbert l = scipy_hilbert l).
  { intros l Hl. unfold analytic. replace (existsb has_imag l) with false; [reflexivity|]. symmetry. apply not_true_is_false. intros C.
    apply existsb_exists in C. destruct C as (z & Hz & Hi). rewrite Forall_forall in Hl. specialize (Hl z Hz). unfold has_imag in Hi. rewrite Hl in Hi.
    unfold Reqb in Hi. destruct (Req_EM_T 0 0); [discriminate|congruence]. }
  destruct (H12 0%nat ltac:(cbn; lia)) as [_ S1]. destruct (H12 1%nat ltac:(cbn; lia)) as [N1 _].
  destruct (H32 0%nat ltac:(cbn; lia)) as [_ S3]. destruct (H32 1%nat ltac:(cbn; lia)) as [N3 _]. cbv zeta in S1, N1, S3, N3.
  rewrite R0 in * by (repeat constructor).
  assert (Z1 : nth 1 (scipy_hilbert c1) (RtoC 0) = 0).
  { unfold scipy_hilbert, c1. cbn [length]. unfold ifft. rewrite map_length, seq_length. rewrite nth_map_seq by lia. cbn [csumn]. rewrite !nth_map_seq by lia.
    unfold fft. cbn [length]. rewrite !nth_map_seq by lia. cbn [csumn nth]. unfold hilbert_weight. cbn [Nat.eqb Nat.ltb Nat.leb Nat.mul Nat.add].
    replace (cis (- (2 * PI * INR 0 * INR 0 / INR 2))) with (RtoC 1) by (rewrite <- cis_0; apply cis_eq; cbn [INR]; field).
    replace (cis (- (2 * PI * INR 1 * INR 0 / INR 2))) with (RtoC 1) by (rewrite <- cis_0; apply cis_eq; cbn [INR]; field).
    replace (cis (2 * PI * INR 0 * INR 1 / INR 2)) with (RtoC 1) by (rewrite <- cis_0; apply cis_eq; cbn [INR]; field).
    replace (cis (2 * PI * INR 1 * INR 1 / INR 2)) with (- RtoC 1).
    2:{ replace (2 * PI * INR 1 * INR 1 / INR 2)%R with PI by (cbn [INR]; field). unfold cis. rewrite cos_PI, sin_PI. unfold Copp, RtoC. cbn. f_equal; ring. }
    replace (RtoC (INR 2)) with (1 + 1) by (rewrite <- RtoC_plus; f_equal; cbn [INR]; ring). field; try (intros C; apply (f_equal fst) in C; cbn in C; lra).
  all: repeat split; intros C; apply (f_equal fst) in C; cbn in C; lra. }
  assert (F1 : nth 0 (scipy_hilbert c1) (RtoC 0) = 1).
  { unfold scipy_hilbert, c1. cbn [length]. unfold ifft. rewrite map_length, seq_length. rewrite nth_map_seq by lia. cbn [csumn]. rewrite !nth_map_seq by lia.
    unfold fft. cbn [length]. rewrite !nth_map_seq by lia. cbn [csumn nth]. unfold hilbert_weight. cbn [Nat.eqb Nat.ltb Nat.leb Nat.mul Nat.add].
    replace (cis (- (2 * PI * INR 0 * INR 0 / INR 2))) with (RtoC 1) by (rewrite <- cis_0; apply cis_eq; cbn [INR]; field).
    replace (cis (- (2 * PI * INR 1 * INR 0 / INR 2))) with (RtoC 1) by (rewrite <- cis_0; apply cis_eq; cbn [INR]; field).
    replace (cis (2 * PI * INR 0 * INR 0 / INR 2)) with (RtoC 1) by (rewrite <- cis_0; apply cis_eq; cbn [INR]; field).
    replace (cis (2 * PI * INR 1 * INR 0 / INR 2)) with (RtoC 1) by (rewrite <- cis_0; apply cis_eq; cbn [INR]; field).
    replace (RtoC (INR 2)) with (1 + 1) by (rewrite <- RtoC_plus; f_equal; cbn [INR]; ring). field; try (intros C; apply (f_equal fst) in C; cbn in C; lra).
  all: repeat split; intros C; apply (f_equal fst) in C; cbn in C; lra. }
  assert (F3 : nth 0 (scipy_hilbert (c1 ++ c2)) (RtoC 0) = 1).
  { unfold c1, c2. cbn [app]. assert (Fk : forall k, (k < 4)%nat -> nth k (fft [RtoC 1; RtoC 0; RtoC 0; RtoC 0]) (RtoC 0) = 1).
    { intros k Hk. unfold fft. cbn [length]. rewrite nth_map_seq by exact Hk. cbn [csumn nth].
      replace (cis (- (2 * PI * INR k * INR 0 / INR 4))) with (RtoC 1); [ring|].
      rewrite <- cis_0. apply cis_eq. cbn [INR]. field. }
    unfold scipy_hilbert. cbn [length]. unfold ifft. rewrite map_length, seq_length. rewrite nth_map_seq by lia.
    cbn [csumn]. rewrite !nth_map_seq by lia. rewrite !Fk by lia.
    unfold hilbert_weight. cbn [Nat.eqb Nat.ltb Nat.leb Nat.mul Nat.add].
    assert (Z : forall k, cis (2 * PI * INR k * INR 0 / INR 4) = RtoC 1) by (intros k; rewrite <- cis_0; apply cis_eq; cbn [INR]; field).
    rewrite !Z. replace (RtoC (INR 4)) with (2 * 2) by (rewrite <- RtoC_mult; f_equal; cbn [INR]; ring).
  replace (RtoC 2) with (1 + 1) by (rewrite <- RtoC_plus; f_equal; ring). field; try (intros C; apply (f_equal fst) in C; cbn in C; lra).
  all: repeat split; intros C; apply (f_equal fst) in C; cbn in C; lra. }
  assert (B11 : B1 1%nat = B3 1%nat) by (rewrite S1, S3, F1, F3, H10, H30; reflexivity).
  unfold oe. rewrite app_nth1 by (rewrite Hl1; cbn; lia). rewrite N1, N3. cbn [fst snd]. rewrite Z1, B11.
  replace (nth 1 (scipy_hilbert (c1 ++ c2)) (RtoC 0)) with (Ci / 2) by (symmetry; apply hilbert_pulse).
  intros C. assert (C2 : Ci / 2 = 0).
  { replace (Ci / 2) with ((Ci / 2 - cis (PI * (bphase g + INR 1 * bfreq g)) * B3 1%nat) + cis (PI * (bphase g + INR 1 * bfreq g)) * B3 1%nat) by ring.
    rewrite <- C. ring. }
  apply (f_equal (fun z => (2 * z)%C)) in C2. replace (2 * (Ci / 2)) with Ci in C2 by (field; intros C'; apply (f_equal fst) in C'; cbn in C'; lra). rewrite Cmult_0_r in C2.
  apply (f_equal snd) in C2. cbn in C2. lra.
Qed.
Print Assumptions C151_real_chunks_refuted.
