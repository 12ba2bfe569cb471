(** Property C157: PidFilter over whole executions: chunks, the equivalent IirFilter,
    bounded output, scaling, integral action. *)
From Coq Require Import List Arith ZArith Lia Bool Reals Lra QArith Qcanon.
From Verif Require Import Base BaseLemmas Instances FirModel FirSpec FirProofs IirModel IirSpec IirProofs IirProps CascadeProps PidModel PidProps.
Import ListNotations.
Set Asymmetric Patterns.
Close Scope Q_scope. Close Scope Qc_scope. Open Scope nat_scope.

(** C157.  Any division of a signal into calls gives the outputs and the state of one call,
    in any arithmetic and with any limit. *)
Theorem C157_pid_chunks (O : OArith) (b : arr O) ops (p : pid O) (chunks : list (list O)) :
  pid_used b ops p -> chunks <> [] -> Forall (fun c => c <> []) chunks ->
  call_chunks pid_filter p chunks = pid_filter p (concat chunks).
Proof.
  intros Hu Hc HF. destruct (pid_used_inv _ _ _ Hu) as ([Hb3 _] & _ & _).
  assert (Hne : fb (pfir p) <> []) by (destruct (fb (pfir p)); [discriminate|discriminate]).
  set (step := fun (g : pid O) (x : O) => let '(s', r) := pid_step (fdt (pfir g)) (fb (pfir g)) (plimit g) (fs (pfir g)) x in (mkPid (with_s (pfir g) s') (plimit g), r)).
  assert (Hr : forall xs g, run step g xs =
            let '(s', r) := run (pid_step (fdt (pfir g)) (fb (pfir g)) (plimit g)) (fs (pfir g)) xs in (mkPid (with_s (pfir g) s') (plimit g), r)).
  { intros xs. induction xs as [|v xs IH]; intros g; [destruct g as [[? ? ?] ?]; reflexivity|].
    cbn [run]. unfold step at 1. destruct (pid_step (fdt (pfir g)) (fb (pfir g)) (plimit g) (fs (pfir g)) v) as [s1 [y|e]]; [|reflexivity].
    rewrite IH. cbn [pfir plimit with_s fdt fb fs]. destruct (run _ s1 xs) as [s2 [ys|e]]; reflexivity. }
  assert (Hcall : forall g xs, fb (pfir g) <> [] -> xs <> [] -> pid_filter g xs = run step g xs).
  { intros g xs Hg Hx. rewrite Hr. unfold pid_filter. destruct xs; [congruence|].
    destruct (fb (pfir g)) eqn:E; [congruence|]. reflexivity. }
  rewrite (call_chunks_run_gen step pid_filter (fun g => fb (pfir g) <> []) Hcall).
  - symmetry. apply Hcall; [exact Hne|]. destruct chunks as [|c cs]; [congruence|].
    inversion HF; subst. cbn. destruct c; [congruence|discriminate].
  - intros g xs Hg. rewrite Hr. destruct (run _ (fs (pfir g)) xs) as [s2 r]. exact Hg.
  - exact Hne.
  - exact HF.
Qed.
Print Assumptions C157_pid_chunks.
Example C157_chunks_example :
  let p := qpid_lim (q 2 1) in
  (exists ops, @pid_used QO (mkArr DFloat [q 1 1; q 2 1; q 3 1]) ops p) /\
  rqs (snd (call_chunks pid_filter p [[q 1 1; q 3 1]; [q (-1) 2]])) = Ok [6; 11; -10]%Q /\
  rqs (snd (pid_filter p [q 1 1; q 3 1; q (-1) 2])) = Ok [6; 11; -10]%Q.
Proof. split; [|split; vm_compute; reflexivity]. exists [PLimit (Some (q 2 1))]. eexists. split; reflexivity. Qed.

Open Scope R_scope.
Definition ssum (x : list R) (n : nat) : R := @bigsum RA n (fun k => nth k x 0).
Lemma ssum_S x n : ssum x (S n) = ssum x n + nth n x 0.
Proof. unfold ssum. cbn. reflexivity. Qed.

(** What a PidFilter remembers: the integral and the last sample. *)
Definition integral (p : pid RO) : R := @pid_integral RO p.
Definition last_sample (p : pid RO) : R := @nth R 0 (fs (pfir p)) 0.

(** The view of C28, with the integral written out when there is no limit. *)
Lemma pid_unlimited (b : list R) ops (p : pid RO) (x : list R) : @pid_used RO (mkArr DFloat b) ops p -> x <> [] -> plimit p = None ->
  exists (p' : pid RO) (y : list R), @pid_filter RO p x = (p', Ok y) /\ length y = length x /\
    forall n, (n < length x)%nat ->
      nth n y 0 = nth 0 b 0 * nth n x 0 + nth 1 b 0 * (integral p + ssum x (S n)) +
        nth 2 b 0 * (nth n x 0 - match n with 0%nat => last_sample p | S k => nth k x 0 end).
Proof.
  intros Hu Hx HL. destruct (C28_pid_terms b ops p x Hu Hx) as (p' & y & I & E & Ly & LI & _ & H).
  exists p', y. split; [exact E|]. split; [exact Ly|]. intros n Hn. destruct (H n Hn) as (Hy & _ & _). cbv zeta in Hy.
  etransitivity; [exact Hy|]. f_equal. f_equal. f_equal. clear Hy.
  induction n as [|n IH]; destruct (H _ Hn) as (_ & HI & _); specialize (HI HL); cbv zeta in HI.
  - rewrite HI. unfold ssum. cbn. change (integral p + nth 0 x 0 = integral p + (0 + nth 0 x 0)). ring.
  - rewrite HI, (IH ltac:(lia)), (ssum_S x (S n)). change (integral p + ssum x (S n) + nth (S n) x 0 = integral p + (ssum x (S n) + nth (S n) x 0)). ring.
Qed.

Lemma iir3_make (b0 b1 b2 : R) :
  @iir_make RA (mkArr DFloat [0; 1; 0]) (mkArr DFloat [b0; b1; b2]) (mkArr DFloat []) = Ok (mkIir DFloat [0; 1; 0] [b0; b1; b2] [0; 0; 0]).
Proof.
  unfold iir_make. cbn [els length Nat.max Nat.ltb Nat.leb pad app zeros repeat Nat.sub adt dtype_eqb orb].
  change (@eqb RA 0 zero) with (Reqb 0 0). rewrite (proj2 (Reqb_iff 0 0) eq_refl). reflexivity.
Qed.
Lemma sig_past (x : list R) n i : (n < i)%nat -> @sig RA [] x (Z.of_nat n - Z.of_nat i) = 0.
Proof. intros H. unfold sig. rewrite (proj2 (Z.ltb_lt _ _)) by lia. destruct (Z.to_nat _); reflexivity. Qed.
Lemma sig_now (x : list R) n i : (i <= n)%nat -> @sig RA [] x (Z.of_nat n - Z.of_nat i) = nth (n - i) x 0.
Proof. intros H. unfold sig. rewrite (proj2 (Z.ltb_ge _ _)) by lia. rewrite <- Nat2Z.inj_sub, Nat2Z.id by exact H. reflexivity. Qed.

(** C157.  Without a limit a new PidFilter is the IirFilter with
    b = [P + I + D, -(P + 2 D), D] and a = [0, 1, 0]. *)
Theorem C157_pid_is_iir (P I D : R) (p : pid RO) (x : list R) :
  @pid_make RO (mkArr DFloat [P; I; D]) = Ok p -> x <> [] ->
  exists f p' f' y,
    @iir_make RA (mkArr DFloat [0; 1; 0]) (mkArr DFloat [P + I + D; - (P + 2 * D); D]) (mkArr DFloat []) = Ok f /\
    @pid_filter RO p x = (p', Ok y) /\ @iir_filter RA f x = (f', Ok y).
Proof.
  intros Ep Hx.
  assert (Hu : @pid_used RO (mkArr DFloat [P; I; D]) [] p) by (exists p; split; [exact Ep|reflexivity]).
  destruct (@pid_make_eq RO _ _ Ep) as (_ & Ep').
  destruct (pid_unlimited [P; I; D] [] p x Hu Hx ltac:(rewrite Ep'; reflexivity)) as (p' & y & E & Ly & Hy).
  assert (Ffit : forall l : list R, Forall (@fits RA DFloat) l) by (intros l; apply Forall_forall; intros v _; reflexivity).
  set (f := mkIir DFloat [0; 1; 0] [P + I + D; - (P + 2 * D); D] [0; 0; 0] : iir RA).
  assert (Hr : iir_at_rest DFloat f).
  { split; [|split; reflexivity].
    exists (mkArr DFloat [0; 1; 0]), (mkArr DFloat [P + I + D; - (P + 2 * D); D]), (mkArr DFloat []), [].
    split; [split; [apply Ffit|split; [apply Ffit|intros C; discriminate C]]|]. split; [cbn; lia|]. exists f. split; [apply iir3_make|reflexivity]. }
  destruct (iir_rest_run RA_laws DFloat f x Hr Hx (Ffit x)) as (f' & y' & Efl & Hd & U & _).
  exists f, p', f', y. split; [apply iir3_make|]. split; [exact E|]. rewrite (U y); [exact Efl|].
  split; [exact Ly|]. intros n Hn. change (n < @length R x)%nat in Hn.
  assert (Hy' : forall k, (k < length x)%nat -> @nth R k y 0 = P * nth k x 0 + I * ssum x (S k) + D * (nth k x 0 - match k with 0%nat => 0 | S j => nth j x 0 end)).
  { intros k Hk. rewrite (Hy k Hk). 
    assert (E0 : integral p = 0) by (rewrite Ep'; reflexivity).
    assert (E1 : last_sample p = 0) by (rewrite Ep'; reflexivity).
    rewrite E0, E1. change (nth 0 [P; I; D] 0) with P. change (nth 1 [P; I; D] 0) with I. change (nth 2 [P; I; D] 0) with D. destruct k; ring. }
  clear Hy. unfold difference_rhs. cbn [ia ib f length Nat.sub]. unfold bigsum. cbn [add RA Nat.add].
  replace (Z.of_nat n - 1 - Z.of_nat 0)%Z with (Z.of_nat n - Z.of_nat 1)%Z by lia.
  replace (Z.of_nat n - 1 - Z.of_nat 1)%Z with (Z.of_nat n - Z.of_nat 2)%Z by lia.
  cbn [nth]. change (@mul RA) with Rmult. change (@zero RA) with 0. change (@add RA) with Rplus.
  change (@nth R n y 0 = 0 + 1 * @sig RA [] y (Z.of_nat n - Z.of_nat 1) + 0 * @sig RA [] y (Z.of_nat n - Z.of_nat 2) +
   (0 + (P + I + D) * @sig RA [] x (Z.of_nat n - Z.of_nat 0) + - (P + 2 * D) * @sig RA [] x (Z.of_nat n - Z.of_nat 1) + D * @sig RA [] x (Z.of_nat n - Z.of_nat 2))).
  rewrite (Hy' n Hn), ssum_S, (sig_now x n 0) by lia. rewrite Nat.sub_0_r.
  destruct n as [|[|n]].
  - rewrite (sig_past x 0 1), (sig_past x 0 2), (sig_past y 0 1), (sig_past y 0 2) by lia. change (ssum x 0) with 0. ring.
  - rewrite (sig_past x 1 2), (sig_past y 1 2), (sig_now x 1 1), (sig_now y 1 1) by lia. cbn [Nat.sub]. rewrite (Hy' 0%nat) by lia. ring.
  - rewrite (sig_now x (S (S n)) 1), (sig_now y (S (S n)) 1), (sig_now x (S (S n)) 2), (sig_now y (S (S n)) 2) by lia. replace (S (S n) - 1)%nat with (S n) by lia. replace (S (S n) - 2)%nat with n by lia.
    rewrite (Hy' (S n)) by lia. ring.
Qed.
Print Assumptions C157_pid_is_iir.
Example C157_is_iir_example : exists p : pid RO, @pid_make RO (mkArr DFloat [1; 2; 3]) = Ok p.
Proof. eexists. reflexivity. Qed.
Example C157_is_iir_example_run : exists (p : pid QO) (f : iir QA),
  pid_make (mkArr DFloat [q 1 1; q 2 1; q 3 1]) = Ok p /\
  iir_make (mkArr DFloat [q 0 1; q 1 1; q 0 1]) (mkArr DFloat [q 6 1; q (-7) 1; q 3 1]) (mkArr DFloat []) = Ok f /\
  rqs (snd (pid_filter p [q 1 1; q 3 1; q (-1) 2])) = Ok [6; 17; -4]%Q /\
  rqs (snd (iir_filter f [q 1 1; q 3 1; q (-1) 2])) = Ok [6; 17; -4]%Q.
Proof. eexists _, _. split; [reflexivity|]. split; [reflexivity|]. split; vm_compute; reflexivity. Qed.

(** ** Bounded output *)
Lemma last_default {X} (l : list X) a b : l <> [] -> last l a = last l b.
Proof. intros H. destruct l as [|v l]; [contradiction|]. rewrite !last_cons2. reflexivity. Qed.

(** The view of C28 with a limit. *)
Lemma pid_limited (b : list R) ops (p : pid RO) (x : list R) L : @pid_used RO (mkArr DFloat b) ops p -> x <> [] -> plimit p = Some L ->
  exists (p' : pid RO) (y I : list R), @pid_filter RO p x = (p', Ok y) /\ length y = length x /\
    forall n, (n < length x)%nat ->
      Rabs (nth n I 0) <= Rmax (Rabs (integral p)) L /\
      nth n y 0 = nth 0 b 0 * nth n x 0 + nth 1 b 0 * nth n I 0 +
        nth 2 b 0 * (nth n x 0 - match n with 0%nat => last_sample p | S k => nth k x 0 end).
Proof.
  intros Hu Hx HL. destruct (C28_pid_terms b ops p x Hu Hx) as (p' & y & I & E & Ly & LI & _ & H).
  exists p', y, I. split; [exact E|]. split; [exact Ly|]. intros n Hn. destruct (H n Hn) as (Hy & _ & _). cbv zeta in Hy.
  split; [|exact Hy]. clear Hy.
  induction n as [|n IH]; destruct (H _ Hn) as (_ & _ & HI); destruct (HI L HL) as [H1 H2]; clear HI; cbv zeta in H1, H2.
  - fold (integral p) in H1, H2. destruct (Rlt_le_dec (Rabs (integral p + @nth R 0 x 0)) L) as [C|C].
    + specialize (H1 C). eapply Rle_trans; [|apply Rmax_r]. apply Rlt_le. etransitivity; [|exact C] || (rewrite H1; exact C).
    + specialize (H2 C). eapply Rle_trans; [|apply Rmax_l]. apply Req_le. f_equal. exact H2.
  - specialize (IH ltac:(lia)). destruct (Rlt_le_dec (Rabs (@nth R n I 0 + @nth R (S n) x 0)) L) as [C|C].
    + specialize (H1 C). eapply Rle_trans; [|apply Rmax_r]. apply Rlt_le. rewrite H1. exact C.
    + specialize (H2 C). eapply Rle_trans; [|exact IH]. apply Req_le. f_equal. exact H2.
Qed.

Lemma abs3 a b c A B C : Rabs a <= A -> Rabs b <= B -> Rabs c <= C -> Rabs (a + b + c) <= A + B + C.
Proof. intros. eapply Rle_trans; [apply Rabs_triang|]. pose proof (Rabs_triang a b). lra. Qed.
Lemma abs_mul a b B : Rabs b <= B -> Rabs (a * b) <= Rabs a * B.
Proof. intros H. rewrite Rabs_mult. apply Rmult_le_compat_l; [apply Rabs_pos|exact H]. Qed.
Lemma abs_sub a b M : Rabs a <= M -> Rabs b <= M -> Rabs (a - b) <= 2 * M.
Proof. intros. unfold Rminus. eapply Rle_trans; [apply Rabs_triang|]. rewrite Rabs_Ropp. lra. Qed.
Lemma Forall_nth_abs M (x : list R) n : Forall (fun v => Rabs v <= M) x -> (n < length x)%nat -> Rabs (nth n x 0) <= M.
Proof. intros H Hn. rewrite Forall_forall in H. apply H. apply nth_In. exact Hn. Qed.

(** C157.  With a limit L the outputs are bounded whatever the length of the signal. *)
Theorem C157_pid_bounded (b : list R) ops (p : pid RO) (x : list R) L M :
  @pid_used RO (mkArr DFloat b) ops p -> x <> [] -> plimit p = Some L ->
  Rabs (last_sample p) <= M -> Forall (fun v => Rabs v <= M) x ->
  exists (p' : pid RO) (y : list R), @pid_filter RO p x = (p', Ok y) /\ length y = length x /\
    Forall (fun v => Rabs v <= Rabs (nth 0 b 0) * M + Rabs (nth 1 b 0) * Rmax (Rabs (integral p)) L + Rabs (nth 2 b 0) * (2 * M)) y.
Proof.
  intros Hu Hx HL H0 HM. destruct (pid_limited b ops p x L Hu Hx HL) as (p' & y & I & E & Ly & H).
  exists p', y. split; [exact E|]. split; [exact Ly|]. apply Forall_forall. intros v Hv. destruct (In_nth _ _ 0 Hv) as (n & Hn & En). subst v.
  rewrite Ly in Hn. destruct (H n Hn) as [HI Hy]. rewrite Hy.
  pose proof (Forall_nth_abs M x n HM Hn) as Hxn.
  apply abs3; apply abs_mul; auto. apply abs_sub; [exact Hxn|]. destruct n; [exact H0|]. apply Forall_nth_abs; [exact HM|lia].
Qed.
Print Assumptions C157_pid_bounded.

Definition limit1 (b : list R) : pid RO := mkPid (mkFir DFloat b [0; 0; 0]) (Some 1).
Lemma limit1_used b : length b = 3%nat -> @pid_used RO (mkArr DFloat b) [PLimit (Some 1)] (limit1 b).
Proof.
  intros H. destruct b as [|b0 [|b1 [|b2 [|]]]]; try discriminate. eexists. split; [reflexivity|]. cbn [fold_left pid_exec].
  unfold pid_set_limit. change (oltb (1 : RO) zero) with (Rltb 1 0). destruct (Rltb 1 0) eqn:E; [apply Rltb_iff in E; lra|reflexivity].
Qed.
Example C157_bounded_example : exists p : pid RO, @pid_used RO (mkArr DFloat [1; 2; 3]) [PLimit (Some 1)] p /\ plimit p = Some 1 /\
  Rabs (last_sample p) <= 2 /\ Forall (fun v => Rabs v <= 2) [1; -2].
Proof.
  exists (limit1 [1; 2; 3]). split; [apply limit1_used; reflexivity|]. split; [reflexivity|]. split.
  - unfold last_sample. cbn. rewrite Rabs_R0. lra.
  - repeat constructor; [rewrite Rabs_pos_eq; lra|rewrite Rabs_left; lra].
Qed.

Lemma INR_above K : exists n, K < INR n.
Proof.
  exists (Z.to_nat (up K)). destruct (archimed K) as [H _]. destruct (Z_le_gt_dec 0 (up K)) as [C|C].
  - rewrite INR_IZR_INZ, Z2Nat.id by exact C. lra.
  - replace (Z.to_nat (up K)) with 0%nat by lia. cbn. assert (IZR (up K) < 0) by (apply IZR_lt; lia). lra.
Qed.
Lemma last_nth {X} (l : list X) d : last l d = nth (length l - 1) l d.
Proof.
  induction l as [|v l IH]; [reflexivity|]. destruct l as [|w l]; [reflexivity|].
  change (last (v :: w :: l) d) with (last (w :: l) d). rewrite IH. cbn [length]. rewrite !Nat.sub_succ, !Nat.sub_0_r. reflexivity.
Qed.
Lemma ssum_const c n m : (m <= n)%nat -> ssum (repeat c n) m = INR m * c.
Proof.
  induction m as [|m IH]; intros H; [unfold ssum; cbn; ring|]. rewrite ssum_S, IH by lia. rewrite S_INR.
  rewrite nth_repeat_lt by lia. ring.
Qed.

(** C157.  Without a limit they are not. *)
Theorem C157_pid_bounded_unlimited_refuted :
  exists p : pid RO, @pid_make RO (mkArr DFloat [0; 1; 0]) = Ok p /\ forall K, exists (x : list R) p' (y : list R),
    Forall (fun v => v = 1) x /\ @pid_filter RO p x = (p', Ok y) /\ K < last y 0.
Proof.
  eexists. split; [reflexivity|]. intros K. destruct (INR_above K) as [n Hn].
  match goal with |- context [@pid_filter RO ?p _] => set (p0 := p : pid RO) end.
  assert (Hu : @pid_used RO (mkArr DFloat [0; 1; 0]) [] p0) by (exists p0; split; reflexivity).
  destruct (pid_unlimited [0; 1; 0] [] p0 (repeat 1 (S n)) Hu ltac:(discriminate) eq_refl) as (p' & y & E & Ly & H).
  exists (repeat 1 (S n)), p', y. split; [apply Forall_forall; intros v Hv; apply repeat_spec in Hv; exact Hv|]. split; [exact E|].
  rewrite repeat_length in *. assert (El : last y 0 = nth n y 0) by (rewrite last_nth, Ly; f_equal; lia).
  rewrite El, (H n ltac:(lia)), ssum_const by lia. cbn [nth]. change (integral p0) with 0. rewrite S_INR. lra.
Qed.
Print Assumptions C157_pid_bounded_unlimited_refuted.

(** ** Integral action *)
(** C157.  Without a limit: while the samples are at most M and the last output at most Y,
    the sum of all samples since the integral was zero is at most (Y + (|P| + 2 |D|) M)/|I|,
    however long the execution. *)
Theorem C157_pid_integral_action (b : list R) ops (p p' : pid RO) (x y : list R) M Y :
  @pid_used RO (mkArr DFloat b) ops p -> plimit p = None -> (1 < length x)%nat -> Forall (fun v => Rabs v <= M) x ->
  @pid_filter RO p x = (p', Ok y) -> Rabs (last y 0) <= Y ->
  Rabs (nth 1 b 0) * Rabs (integral p + ssum x (length x)) <= Y + (Rabs (nth 0 b 0) + 2 * Rabs (nth 2 b 0)) * M.
Proof.
  intros Hu HL Hx HM E HY.
  assert (Nx : x <> []) by (destruct x; [cbn in Hx; lia|discriminate]).
  destruct (pid_unlimited b ops p x Hu Nx HL) as (p1 & y1 & E1 & Ly & H). rewrite E in E1. injection E1 as _ E1. subst y1.
  rewrite last_nth, Ly in HY. specialize (H (length x - 1)%nat ltac:(lia)). replace (S (length x - 1))%nat with (length x) in H by lia.
  destruct (length x - 1)%nat as [|n] eqn:En; [lia|].
  rewrite <- Rabs_mult.
  replace (nth 1 b 0 * (integral p + ssum x (length x))) with (nth (S n) y 0 + - (nth 0 b 0 * nth (S n) x 0) + - (nth 2 b 0 * (nth (S n) x 0 - nth n x 0))) by (rewrite H; ring).
  pose proof (Forall_nth_abs M x n HM ltac:(lia)). pose proof (Forall_nth_abs M x (S n) HM ltac:(lia)) as H1.
  replace (Y + (Rabs (nth 0 b 0) + 2 * Rabs (nth 2 b 0)) * M) with (Y + Rabs (nth 0 b 0) * M + Rabs (nth 2 b 0) * (2 * M)) by ring.
  apply abs3; [exact HY| |]; rewrite Rabs_Ropp; apply abs_mul; [exact H1|]. apply abs_sub; assumption.
Qed.
Print Assumptions C157_pid_integral_action.

(** C157.  Hence no permanent offset: if the samples converge and the outputs stay bounded,
    in whatever loop they arise, the samples converge to zero. *)
Theorem C157_pid_no_offset (b : list R) ops (p : pid RO) (e : nat -> R) l Y :
  @pid_used RO (mkArr DFloat b) ops p -> plimit p = None -> nth 1 b 0 <> 0 -> Un_cv e l ->
  (forall N, exists p' y, @pid_filter RO p (map e (seq 0 (S N))) = (p', Ok y) /\ Rabs (@last R y 0) <= Y) ->
  l = 0.
Proof.
  intros Hu HL Hb Hcv H.
  destruct (maj_by_pos e (exist _ l Hcv)) as (M & _ & HM).
  set (K := (Y + (Rabs (nth 0 b 0) + 2 * Rabs (nth 2 b 0)) * M) / Rabs (nth 1 b 0) + Rabs (integral p)).
  assert (Hpos : 0 < Rabs (nth 1 b 0)) by (apply Rabs_pos_lt; exact Hb).
  assert (HS : forall n, (1 < n)%nat -> Rabs (sum_f_R0 e (pred n)) <= K).
  { intros n Hn. destruct n as [|N]; [lia|]. destruct (H N) as (p' & y & E & HY).
    set (x := map e (seq 0 (S N))) in E. assert (Lx : length x = S N) by (unfold x; rewrite map_length, seq_length; reflexivity).
    assert (Fx : Forall (fun v => Rabs v <= M) x) by (apply Forall_forall; intros v Hv; apply in_map_iff in Hv; destruct Hv as (k & Ek & _); subst v; apply HM).
    pose proof (C157_pid_integral_action b ops p p' x y M Y Hu HL ltac:(lia) Fx E HY) as B.
    assert (ES : forall m, (m <= N)%nat -> ssum x (S m) = sum_f_R0 e m).
    { induction m as [|m IH]; intros Hm.
      - rewrite ssum_S. change (ssum x 0) with 0. cbn [sum_f_R0]. unfold x. rewrite nth_map_seq by lia. cbn [Nat.add]. ring.
      - rewrite ssum_S, IH by lia. cbn [sum_f_R0]. f_equal. unfold x. rewrite nth_map_seq by lia. reflexivity. }
    rewrite Lx, ES in B by lia. cbn [pred]. unfold K.
    apply (Rmult_le_reg_l (Rabs (nth 1 b 0))); [exact Hpos|]. rewrite Rmult_plus_distr_l.
    replace (Rabs (nth 1 b 0) * ((Y + (Rabs (nth 0 b 0) + 2 * Rabs (nth 2 b 0)) * M) / Rabs (nth 1 b 0))) with (Y + (Rabs (nth 0 b 0) + 2 * Rabs (nth 2 b 0)) * M) by (field; lra).
    eapply Rle_trans; [|apply Rplus_le_compat_r; exact B]. rewrite <- Rmult_plus_distr_l. apply Rmult_le_compat_l; [lra|].
    pose proof (Rabs_triang (integral p + sum_f_R0 e N) (- integral p)) as T. rewrite Rabs_Ropp in T.
    replace (integral p + sum_f_R0 e N + - integral p) with (sum_f_R0 e N) in T by ring. exact T. }
  apply (UL_sequence (fun n => sum_f_R0 e (pred n) / INR n)); [apply Cesaro_1; exact Hcv|].
  intros eps He. destruct (INR_above (K / eps)) as [n0 Hn0]. exists (n0 + 2)%nat. intros n Hn.
  unfold R_dist. rewrite Rminus_0_r. unfold Rdiv. rewrite Rabs_mult, Rabs_inv.
  assert (Hn1 : INR n0 + 2 <= INR n) by (apply le_INR in Hn; rewrite plus_INR in Hn; cbn in Hn; lra). pose proof (pos_INR n0).
  rewrite (Rabs_pos_eq (INR n)) by lra. apply (Rmult_lt_reg_r (INR n)); [lra|]. rewrite Rmult_assoc, Rinv_l by lra. rewrite Rmult_1_r.
  eapply Rle_lt_trans; [apply HS; lia|].
  apply (Rmult_lt_compat_r eps) in Hn0; [|exact He]. unfold Rdiv in Hn0. rewrite Rmult_assoc, Rinv_l, Rmult_1_r in Hn0 by lra.
  eapply Rlt_le_trans; [exact Hn0|]. rewrite (Rmult_comm eps). apply Rmult_le_compat_r; lra.
Qed.
Print Assumptions C157_pid_no_offset.
(** A loop: the samples are the distance to a set point of a plant driven by the outputs; here
    they die out. *)
Example C157_no_offset_example : exists p : pid RO, @pid_used RO (mkArr DFloat [1; 1; 0]) [] p /\ plimit p = None /\ forall N, exists p' y, @pid_filter RO p (map (fun n => match n with 0%nat => 1 | S _ => 0 end) (seq 0 (S N))) = (p', Ok y) /\ Rabs (@last R y 0) <= 2.
Proof.
  eexists. split; [eexists; split; reflexivity|]. split; [reflexivity|]. intros N.
  match goal with |- context [@pid_filter RO ?p _] => set (p0 := p : pid RO) end.
  assert (Hu : @pid_used RO (mkArr DFloat [1; 1; 0]) [] p0) by (exists p0; split; reflexivity).
  set (e := fun n => match n with 0%nat => 1 | S _ => 0 end).
  destruct (pid_unlimited [1; 1; 0] [] p0 (map e (seq 0 (S N))) Hu ltac:(discriminate) eq_refl) as (p' & y & E & Ly & H).
  exists p', y. split; [exact E|]. rewrite map_length, seq_length in *.
  rewrite (last_nth y 0), Ly, (H (S N - 1)%nat) by lia. replace (S N - 1)%nat with N by lia.
  assert (ES : forall m, (m <= N)%nat -> ssum (map e (seq 0 (S N))) (S m) = 1).
  { induction m as [|m IH]; intros Hm; rewrite ssum_S, nth_map_seq by lia; cbn [Nat.add e].
    - change (ssum _ 0) with 0. ring.
    - rewrite IH by lia. ring. }
  rewrite ES by lia. rewrite nth_map_seq by lia. cbn [Nat.add]. change (integral p0) with 0. change (nth 0 [1; 1; 0] 0) with 1. change (nth 1 [1; 1; 0] 0) with 1. change (nth 2 [1; 1; 0] 0) with 0.
  destruct N; cbn [e]; rewrite Rabs_pos_eq; lra.
Qed.

(** C157.  With a limit an offset can stay for ever. *)
Theorem C157_pid_no_offset_limited_refuted : exists (p : pid RO) Y,
  @pid_used RO (mkArr DFloat [1; 1; 0]) [PLimit (Some 1)] p /\ plimit p = Some 1 /\
  forall N, exists p' y, @pid_filter RO p (map (fun _ => 1 / 2) (seq 0 (S N))) = (p', Ok y) /\ Rabs (@last R y 0) <= Y.
Proof.
  exists (limit1 [1; 1; 0]), (Rabs 1 * (1 / 2) + Rabs 1 * Rmax (Rabs 0) 1 + Rabs 0 * (2 * (1 / 2))).
  split; [apply limit1_used; reflexivity|]. split; [reflexivity|]. intros N.
  destruct (C157_pid_bounded [1; 1; 0] [PLimit (Some 1)] (limit1 [1; 1; 0]) (map (fun _ => 1 / 2) (seq 0 (S N))) 1 (1 / 2)) as (p' & y & E & Ly & F).
  - apply limit1_used. reflexivity.
  - discriminate.
  - reflexivity.
  - change (last_sample (limit1 [1; 1; 0])) with 0. rewrite Rabs_R0. lra.
  - apply Forall_forall. intros v Hv. apply in_map_iff in Hv. destruct Hv as (k & Ek & _). subst v. rewrite Rabs_pos_eq; lra.
  - exists p', y. split; [exact E|]. rewrite map_length, seq_length in Ly. rewrite Forall_forall in F. rewrite last_nth. apply F. apply nth_In. lia.
Qed.
Print Assumptions C157_pid_no_offset_limited_refuted.

(** ** Scaling *)
Definition scale_op (c : R) (o : pid_op RO) : pid_op RO :=
  match o with
  | PFilter x => PFilter (map (Rmult c) x : list RO)
  | PReset v => PReset (option_map (Rmult c) v : option RO)
  | PLimit l => PLimit (option_map (Rmult (Rabs c)) l : option RO)
  end.
Definition scaled (c : R) (p q : pid RO) : Prop :=
  fdt (pfir p) = DFloat /\ fdt (pfir q) = DFloat /\ fb (pfir q) = fb (pfir p) /\ fs (pfir q) = map (Rmult c) (fs (pfir p)) /\ plimit q = option_map (Rmult (Rabs c)) (plimit p).

Lemma below_scaled c (l : option R) v : c <> 0 -> @below RO (option_map (Rmult (Rabs c)) l) (c * v) = @below RO l v.
Proof.
  intros Hc. destruct l as [L|]; [|reflexivity]. cbn [option_map below]. change (Rltb (Rabs (c * v)) (Rabs c * L) = Rltb (Rabs v) L).
  rewrite Rabs_mult. pose proof (Rabs_pos_lt c Hc). apply Bool.eq_true_iff_eq. rewrite !Rltb_iff. split; intros H1.
  - apply (Rmult_lt_reg_l (Rabs c)); assumption.
  - apply Rmult_lt_compat_l; assumption.
Qed.
Lemma dot_scaled c : forall (b s : list R) acc, dot_from Rplus Rmult (c * acc) b (map (Rmult c) s) = c * dot_from Rplus Rmult acc b s.
Proof.
  induction b as [|u b IH]; intros s acc; [reflexivity|]. destruct s as [|v s]; [reflexivity|]. cbn [map dot_from].
  rewrite <- IH. f_equal. ring.
Qed.
Lemma np_dot_scaled c (b s : list R) : @np_dot RA b (map (Rmult c) s) = rmap (Rmult c) (@np_dot RA b s).
Proof.
  unfold np_dot. replace (@length RA (map (Rmult c) s)) with (@length RA s) by (symmetry; exact (map_length (Rmult c) s)).
  destruct (Nat.eqb (@length RA b) (@length RA s)); [|reflexivity]. cbn [rmap]. f_equal.
  change (dot_from Rplus Rmult 0 b (map (Rmult c) s) = c * dot_from Rplus Rmult 0 b s). rewrite <- dot_scaled. f_equal. ring.
Qed.
Lemma rmap_same (r : res R) : rmap (fun v : R => v) r = r.
Proof. destruct r; reflexivity. Qed.
Lemma step_scaled c (b s : list R) (l : option R) x : c <> 0 -> 
  @pid_step RO DFloat b (option_map (Rmult (Rabs c)) l) (map (Rmult c) s) (c * x) =
  let '(s', r) := @pid_step RO DFloat b l s x in (map (Rmult c) s', rmap (Rmult c) r).
Proof.
  intros Hc. destruct s as [|s0 [|s1 [|s2 t]]]; try reflexivity.
  set (s' := x :: (if @below RO l (s1 + x) then s1 + x else s1) :: (x - s0) :: t).
  assert (E1 : @pid_step RO DFloat b l (s0 :: s1 :: s2 :: t) x = (s', @np_dot RA b s')).
  { unfold pid_step. change (@cast RO DFloat) with (fun v : R => v). cbv beta. fold s'.
    match goal with |- (?a, rmap _ ?d) = _ => change ((s', rmap (fun v : R => v) (@np_dot RA b s')) = (s', @np_dot RA b s')) end.
    rewrite rmap_same. reflexivity. }
  assert (E2 : @pid_step RO DFloat b (option_map (Rmult (Rabs c)) l) (map (Rmult c) (s0 :: s1 :: s2 :: t)) (c * x) = (map (Rmult c) s', @np_dot RA b (map (Rmult c) s'))).
  { assert (Es : map (Rmult c) s' = c * x :: (if @below RO (option_map (Rmult (Rabs c)) l) (c * s1 + c * x) then c * s1 + c * x else c * s1) :: (c * x - c * s0) :: map (Rmult c) t).
    { rewrite <- Rmult_plus_distr_l, below_scaled by exact Hc. unfold s'. cbn [map]. f_equal. f_equal; [destruct (below l (s1 + x)); reflexivity|]. f_equal. ring. }
    rewrite Es. match goal with |- _ = (?a, ?d) => transitivity (a, rmap (fun v : R => v) d) end; [reflexivity|].
    rewrite rmap_same. reflexivity. }
  rewrite E1, E2, np_dot_scaled. reflexivity.
Qed.
Lemma run_scaled c (b : list R) (l : option R) : c <> 0 -> forall (x s : list R),
  run (@pid_step RO DFloat b (option_map (Rmult (Rabs c)) l)) (map (Rmult c) s) (map (Rmult c) x) =
  let '(s', r) := run (@pid_step RO DFloat b l) s x in (map (Rmult c) s', rmap (map (Rmult c)) r).
Proof.
  intros Hc. induction x as [|v x IH]; intros s; [reflexivity|]. cbn [map run]. rewrite step_scaled by exact Hc.
  destruct (@pid_step RO DFloat b l s v) as [s1 [y|e]]; [|reflexivity]. cbn [rmap]. 
  etransitivity; [|].
  { match goal with |- ?g = _ => idtac end.
    pose proof (IH s1) as IH1. destruct (run (@pid_step RO DFloat b (option_map (Rmult (Rabs c)) l)) (map (Rmult c) s1) (map (Rmult c) x)) as [u1 r1]. 
    exact (f_equal (fun w : list R * res (list R) => match w with (s2, Ok ys) => (s2, Ok (c * y :: ys)) | (s2, Err e) => (s2, Err e) end) IH1). }
  destruct (run (@pid_step RO DFloat b l) s1 x) as [s2 [ys|e]]; reflexivity.
Qed.
Lemma filter_scaled c p q (x : list R) : c <> 0 -> scaled c p q ->
  scaled c (fst (@pid_filter RO p x)) (fst (@pid_filter RO q (map (Rmult c) x))) /\
  snd (@pid_filter RO q (map (Rmult c) x)) = rmap (map (Rmult c)) (snd (@pid_filter RO p x)).
Proof.
  intros Hc H. pose proof H as (Dp & Dq & Hb & Hs & Hl). unfold pid_filter.
  destruct x as [|x0 x1]; [split; [exact H|reflexivity]|]. remember (x0 :: x1) as x eqn:Ex.
  replace (Nat.eqb (@length RO x) 0) with false by (rewrite Ex; reflexivity). replace (Nat.eqb (@length RO (map (Rmult c) x)) 0) with false by (rewrite Ex; reflexivity).
  rewrite Hb. destruct (fb (pfir p)) as [|b0 b'] eqn:Eb; [split; [exact H|reflexivity]|]. rewrite <- Eb.
  rewrite Dp, Dq, Hs, Hl. pose proof (run_scaled c (fb (pfir p)) (plimit p) Hc x (fs (pfir p))) as E.
  destruct (run (@pid_step RO DFloat (fb (pfir p)) (plimit p)) (fs (pfir p)) x) as [s' r].
  match goal with |- context [let '(_, _) := ?w in _] => replace w with (map (Rmult c) s', rmap (map (Rmult c)) r) by (symmetry; exact E) end.
  split; [|reflexivity]. cbn [fst]. unfold scaled. cbn [pfir plimit with_s fdt fb fs]. repeat split; auto. rewrite Eb. exact Hb.
Qed.
Lemma exec_scaled c p q o : c <> 0 -> scaled c p q -> scaled c (pid_exec p o) (pid_exec q (scale_op c o)).
Proof.
  intros Hc H. destruct o as [x|v|l]; cbn [scale_op pid_exec].
  - apply filter_scaled; assumption.
  - destruct H as (Dp & Dq & Hb & Hs & Hl). destruct v as [v|]; [|split; [exact Dp|split; [exact Dq|split; [exact Hb|split; [exact Hs|exact Hl]]]]]. unfold pid_reset, fir_reset. cbn [option_map fst]. unfold scaled. cbn [pfir plimit with_s fdt fb fs].
    split; [exact Dp|]. split; [exact Dq|]. split; [exact Hb|]. split; [|exact Hl]. rewrite Hs, Dp, Dq.
    change (map (fun _ => c * v) (map (Rmult c) (fs (pfir p))) = map (Rmult c) (map (fun _ => v) (fs (pfir p)))). rewrite !map_map. reflexivity.
  - unfold pid_set_limit. destruct l as [L|]; cbn [option_map].
    + assert (E : @oltb RO (Rabs c * L) zero = @oltb RO L zero).
      { change (Rltb (Rabs c * L) 0 = Rltb L 0). pose proof (Rabs_pos_lt c Hc). apply Bool.eq_true_iff_eq. rewrite !Rltb_iff. split; intros H1.
        - apply (Rmult_lt_reg_l (Rabs c)); [assumption|]. rewrite Rmult_0_r. exact H1.
        - rewrite <- (Rmult_0_r (Rabs c)). apply Rmult_lt_compat_l; assumption. }
      rewrite E. destruct (oltb L zero); [exact H|]. destruct H as (Dp & Dq & Hb & Hs & Hl). repeat split; assumption.
    + destruct H as (Dp & Dq & Hb & Hs & Hl). repeat split; assumption.
Qed.

(** C157.  Scaling every sample and level by c (for example reversing all signs) and the
    limit by |c| scales every output by c, over any history. *)
Theorem C157_pid_scaling (b : list R) ops (p : pid RO) c (x : list R) : c <> 0 ->
  @pid_used RO (mkArr DFloat b) ops p -> x <> [] ->
  exists (q p' q' : pid RO) (y : list R), @pid_used RO (mkArr DFloat b) (map (scale_op c) ops) q /\
    @pid_filter RO p x = (p', Ok y) /\ @pid_filter RO q (map (Rmult c) x) = (q', Ok (map (Rmult c) y)).
Proof.
  intros Hc (p0 & E & Hp) Hx. destruct (@pid_make_eq RO _ _ E) as (_ & E').
  assert (H0 : scaled c p0 p0).
  { rewrite E'. unfold scaled. cbn. repeat split; auto. change [0; 0; 0] with [0; 0; 0]. rewrite Rmult_0_r. reflexivity. }
  assert (Hs : forall ops p q, scaled c p q -> scaled c (fold_left pid_exec ops p) (fold_left pid_exec (map (scale_op c) ops) q)).
  { clear - Hc. induction ops as [|o ops IH]; intros p q H; [exact H|]. cbn [fold_left map]. apply IH. apply exec_scaled; assumption. }
  specialize (Hs ops p0 p0 H0). rewrite <- Hp in Hs.
  destruct (filter_scaled c p _ x Hc Hs) as [_ Ey].
  destruct (C28_pid_terms b ops p x) as (p' & y & _ & Ef & _); [exists p0; split; assumption|exact Hx|].
  exists (fold_left pid_exec (map (scale_op c) ops) p0), p', (fst (@pid_filter RO (fold_left pid_exec (map (scale_op c) ops) p0) (map (Rmult c) x))), y.
  split; [exists p0; split; [exact E|reflexivity]|]. split; [exact Ef|]. rewrite Ef in Ey. cbn [snd rmap] in Ey. rewrite <- Ey. apply surjective_pairing.
Qed.
Print Assumptions C157_pid_scaling.
Example C157_scaling_example : @pid_used RO (mkArr DFloat [1; 2; 3]) [PLimit (Some 1)] (limit1 [1; 2; 3]) /\ -2 <> 0.
Proof. split; [apply limit1_used; reflexivity|lra]. Qed.

(** C157.  With a limit sums of signals do not give sums of outputs. *)
Theorem C157_pid_superposition_refuted : exists p : pid QO,
  @pid_used QO (mkArr DFloat [q 0 1; q 1 1; q 0 1]) [PLimit (Some (q 1 1))] p /\
  rqs (snd (pid_filter p [q 3 5])) = Ok [3 # 5]%Q /\ rqs (snd (pid_filter p [q 6 5])) = Ok [0]%Q.
Proof. eexists. split; [eexists; split; reflexivity|]. split; vm_compute; reflexivity. Qed.
Print Assumptions C157_pid_superposition_refuted.
