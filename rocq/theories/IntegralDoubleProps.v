(** IntegralFilter in IEEE doubles: what is accumulated, and how exactly. *)
From Flocq Require Import Core BinarySingleNaN PrimFloat Relative Plus_error.
From Coq Require Import List Arith ZArith Lia Bool Reals Lra Floats Permutation.
From Verif Require Import Base BaseLemmas Instances FirModel FirSpec FirProofs IirModel IirProofs IirProps CalculusModel CalculusSpec CalculusProps.
From Verif Require Import DoubleSpec DoubleProofs DoubleOps DoubleProps WaveletDoubleProofs FixedPointProps PidDoubleProps IntegralDoubleProofs.
Import ListNotations.
Set Asymmetric Patterns.
Local Open Scope R_scope.

(** A filter of the given order built by the constructor and then used in any way. *)
Definition integral_usedF d (k : nat) ops (f : iir (FAd d)) : Prop :=
  exists f0, @integral_make (FAd d) (Z.of_nat k) = Ok f0 /\ f = fold_left iir_exec ops f0.

Definition icoef (k : nat) : list float :=
  match k with
  | 0 => [1; 1] | 1 => [0.5; 1] | 2 => [0x1.5555555555555p-3; 0x1.aaaaaaaaaaaaap-1; 0x1.5555555555555p-3] | 3 => [0.125; 0.5; 0.375; 0.125]
  | _ => [0x1.3e93e93e93e94p-4; 0x1.bbbbbbbbbbbbcp-2; 0x1.1111111111111p-3; 0x1.6c16c16c16c17p-2; 0x1.3e93e93e93e94p-4]
  end%float.

Lemma integral_data d k ops (f : iir (FAd d)) : (k <= 4)%nat -> integral_usedF d k ops f ->
  ia f = (0%float :: 1%float :: repeat 0%float (max 1 k - 1)) /\ length (ib f) = S (max 1 k) /\ length (is_ f) = S (max 1 k) /\ idt f = DFloat /\
  @cvec (FAd d) (ia f) (ib f) = icoef k.
Proof.
  intros Hk (f0 & E & ->).
  assert (B : exists b : list float, @integral_B (FAd d) (Z.of_nat k) = Some b /\ length b = S k /\
    @cvec (FAd d) (0%float :: 1%float :: repeat 0%float (max 1 k - 1)) (b ++ repeat 0%float (1 - k)) = icoef k).
  { do 5 (destruct k as [|k]; [cbn [Z.of_nat Pos.of_succ_nat Pos.succ integral_B]; eexists; split; [reflexivity|]; split; [reflexivity|]; vm_compute; reflexivity|]). lia. }
  destruct B as (b & EB & Lb & Ec). unfold integral_make in E. rewrite EB in E.
  destruct (@iir_make_ok (FAd d) (@mkArr (FAd d) DFloat [0; 1]%float) (@mkArr (FAd d) DFloat b) (@mkArr (FAd d) DFloat [])) as (f1 & E1 & Ea & Eb & Lb1 & Ls1).
  { left. discriminate. } { intros _. reflexivity. } { reflexivity. }
  pose proof (eq_trans (eq_sym E) E1) as E2. injection E2 as <-. clear E1.
  assert (Hu : iir_used (@mkArr (FAd d) DFloat [0; 1]%float) (@mkArr (FAd d) DFloat b) (@mkArr (FAd d) DFloat []) ops (fold_left iir_exec ops f0)).
  { split; [|exists f0; split; [exact E|reflexivity]]. cbn [els length]. lia. }
  destruct (iir_used_inv _ _ _ _ _ Hu) as (_ & _ & Ls).
  destruct (iir_fold_ab ops f0) as (Fa & Fb & Fd). rewrite Fa, Fb, Fd in *. clear Fa Fb Fd Hu.
  assert (Lb' : @length (carrier (FAd d)) b = S k) by exact Lb.
  assert (Lm : length (ib f0) = S (max 1 k)) by (refine (eq_trans Lb1 _); cbn [els length]; rewrite Lb'; lia).
  assert (Ia : ia f0 = 0%float :: 1%float :: repeat 0%float (max 1 k - 1)).
  { refine (eq_trans Ea _). cbn [els length]. rewrite Lb'. unfold pad, zeros. cbn [length app]. change (@zero (FAd d)) with 0%float; do 2 f_equal; f_equal; lia. }
  assert (Ib : ib f0 = b ++ repeat 0%float (1 - k)).
  { apply (nth_ext _ _ 0%float 0%float).
    - refine (eq_trans Lm _). rewrite app_length, repeat_length, Lb. lia.
    - intros i _. refine (eq_trans (Eb i) _). cbn [els]. destruct (Nat.lt_ge_cases i (length b)) as [L|L]; [rewrite app_nth1 by exact L; reflexivity|].
      rewrite app_nth2 by exact L. rewrite (nth_overflow b) by exact L. symmetry. 
      destruct (Nat.lt_ge_cases (i - length b) (1 - k)) as [L1|L1]; [apply nth_repeat|apply nth_overflow; rewrite repeat_length; exact L1]. }
  split; [exact Ia|]. split; [exact Lm|]. split; [exact (eq_trans Ls Lm)|]. split.
  - unfold iir_make in E. cbn [els adt] in E.
    destruct (negb (@eqb (FAd d) _ _)); [discriminate|]. cbv zeta in E.
    destruct (pad _ _) as [|a0 a'] in E; [discriminate|]. destruct (negb _); [discriminate|].
    match type of E with context [fir_make ?b1 ?s1] => destruct (fir_make b1 s1) as [g|e] eqn:Eg end; [|discriminate].
    injection E as <-. cbn [idt]. unfold fir_make in Eg. destruct (Nat.eqb _ _); [discriminate|].
    injection Eg as <-. cbn [fdt els length Nat.ltb].
    destruct (Nat.ltb _ _); cbn [adt]; destruct (Nat.ltb _ _); destruct (Nat.ltb _ _); reflexivity.
  - refine (eq_trans _ Ec). rewrite Ia, Ib. reflexivity.
Qed.

(** The running sums, newest first, on top of what the state holds: its first two registers
    added up, its second register and the rest. *)
Definition opening (rho : R -> R) (s : list R) : list R :=
  match s with p :: t => rho (p + nth 0 t 0) :: t | [] => [] end.
Definition ledger (rho : R -> R) (s x : list R) (n : nat) : list R :=
  rev (firstn (S n) (sums rho (nth 0 (opening rho s) 0) x)) ++ opening rho s.
(** The output of exact arithmetic on such sums: the last order + 1 of them, weighted. *)
Definition weighted (k : nat) (l : list R) : R := @bigsum RA (S k) (fun i => nth i (integral_weights k) 0 * nth i l 0).

Definition within (B v : R) : Prop := Rabs v <= B.
Lemma sums_next rho x : forall a l n, (n < length x)%nat -> nth n (sums rho a x) 0 = rho (nth 0 (rev (firstn n (sums rho a x)) ++ a :: l) 0 + nth n x 0).
Proof.
  induction x as [|v x IH]; intros a l n Hn; [cbn in Hn; lia|]. destruct n as [|n]; [reflexivity|]. cbn in Hn.
  change (nth (S n) (sums rho a (v :: x)) 0) with (nth n (sums rho (rho (a + v)) x) 0).
  change (rev (firstn (S n) (sums rho a (v :: x)))) with (rev (firstn n (sums rho (rho (a + v)) x)) ++ [rho (a + v)]). rewrite <- app_assoc. apply IH. lia.
Qed.
Lemma ledger_next rho s x n : s <> [] -> (n < length x)%nat ->
  ledger rho s x n = rho (nth 0 (rev (firstn n (sums rho (nth 0 (opening rho s) 0) x)) ++ opening rho s) 0 + nth n x 0) :: rev (firstn n (sums rho (nth 0 (opening rho s) 0) x)) ++ opening rho s.
Proof.
  intros Hs Hn. destruct s as [|p t]; [congruence|]. unfold ledger. cbn [opening nth]. set (a := rho (p + nth 0 t 0)).
  rewrite <- (sums_next rho x a t n Hn). set (l := sums rho a x). assert (Hl : (n < length l)%nat) by (unfold l; rewrite length_sums; exact Hn).
  assert (E : firstn (S n) l = firstn n l ++ [nth n l 0]).
  { clearbody l. revert Hl. clear. revert n. induction l as [|y l IH]; intros [|n] Hn; try (cbn in Hn; lia); [reflexivity|]. cbn in Hn. change (y :: firstn (S n) l = y :: (firstn n l ++ [nth n l 0])). f_equal. apply IH. lia. }
  rewrite E, rev_app_distr. reflexivity.
Qed.
Lemma ledger_last rho s x n : (n < length x)%nat -> forall v, In v (ledger rho s x n) -> In v (ledger rho s x (length x - 1)).
Proof.
  intros Hn v. unfold ledger. rewrite !in_app_iff, <- !in_rev. intros [H|H]; [left|right; exact H].
  replace (firstn (S (length x - 1)) _) with (sums rho (nth 0 (opening rho s) 0) x) by (symmetry; apply firstn_all2; rewrite length_sums; lia).
  apply firstn_In in H. exact H.
Qed.

Tactic Notation "pick" integer(m) :=
  cbn [Nat.max] in *;
  do m (match goal with h : list R |- _ => destruct h as [|? h]; [exfalso; cbn [length] in *; lia|] end);
  cbn [firstn] in *;
  do m (match goal with st : list float |- _ => destruct st as [|? st]; [discriminate|] end);
  match goal with st : list float |- _ => destruct st as [|? [|? st]]; [discriminate| |discriminate] end;
  cbn [map] in *;
  match goal with E : _ :: _ = _ :: _ |- _ => injection E; clear E; intros end;
  repeat match goal with H : Forall (within _) (_ :: _) |- _ => pose proof (Forall_inv H); apply Forall_inv_tail in H end;
  unfold within in *; cbn [icoef combine]; unfold mags, DoubleProofs.exact, aval; cbn [fold_right fst snd]; cbn [bigsum integral_weights nth];
  repeat match goal with E : val _ = _ |- _ => rewrite E in *; clear E end.
Ltac finish_pick Eu HS B S :=
  change (@zero RA) with 0; change (@add RA) with Rplus; cbn [nth] in HS; rewrite Eu in *; litvals;
  repeat match goal with H : Rabs ?v <= B |- _ => lazymatch goal with K : - B <= v <= B |- _ => fail | _ => pose proof (Rabs_le_inv _ _ H) end end;
  (split; [repeat match goal with |- context [Rabs ?v * _] => rewrite (Rabs_pos_eq v) by lra end; lra|]); apply Rabs_le_inv in HS; apply Rabs_le; lra.
Lemma out_close d k (st : list float) (x : R) (h : list R) S B : any_order d -> (k <= 4)%nat -> Forall finite st -> map val st = x :: firstn (max 1 k) h -> (max 1 k <= length h)%nat ->
  within B x -> Forall (within B) h -> bpow radix2 (-1000) <= B <= bpow radix2 1000 -> Rabs (S - (nth 0 h 0 + x)) <= 2 * uro * B ->
  finite (d (icoef k) st) /\ Rabs (val (d (icoef k) st) - weighted k (S :: h)) <= 32 * uro * B.
Proof.
  intros Hd Hk Fs Es Hl Bx Bh HB HS. set (L := combine (icoef k) st).
  assert (Lst : length st = length (icoef k)).
  { rewrite <- (map_length val st), Es. cbn [length]. rewrite firstn_length. do 5 (destruct k as [|k]; [cbn [Nat.max icoef length] in *; lia|]). lia. }
  assert (Bp : 0 < B) by (pose proof (bpow_gt_0 radix2 (-1000)); lra). assert (Eu : uro = / 9007199254740992) by (unfold uro; cbn; lra).
  assert (M : mags L <= 2 * B /\ Rabs (DoubleProofs.exact L - weighted k (S :: h)) <= 8 * uro * B).
  { unfold L, weighted. clear Lst L.
    destruct k as [|[|[|[|[|k]]]]]; [pick 1|pick 1|pick 2|pick 3|pick 4|lia]; finish_pick Eu HS B S. }
  destruct M as [M1 M2]. pose proof uro_pos as U0. pose proof eta0_pos as T0.
  assert (LL : (length L <= 9)%nat) by (unfold L; rewrite combine_length, Lst, Nat.min_id; do 5 (destruct k as [|k]; [cbn; lia|]); lia).
  pose proof (gam_mono _ _ LL) as G. pose proof gam9 as G9. pose proof (und_mono _ _ LL) as Un. pose proof und9 as U9. pose proof (gam_pos (length L)) as Gp.
  assert (M0 : 0 <= mags L) by apply mags_pos.
  assert (Gm : gam (length L) * mags L <= 10 * uro * (2 * B)) by (apply Rmult_le_compat; lra).
  assert (Te : 34 * eta0 <= uro * B).
  { apply Rle_trans with (bpow radix2 (-53) * bpow radix2 (-1000)).
    - assert (Et : eta0 = bpow radix2 (-1075)) by (unfold eta0; change (bpow radix2 (-1075)) with (bpow radix2 (-1 + -1074)); rewrite bpow_plus; reflexivity).
      apply Rle_trans with (bpow radix2 6 * bpow radix2 (-1075)); [rewrite <- Et; replace (bpow radix2 6) with 64 by (cbn; lra); lra|]. rewrite <- !bpow_plus. apply bpow_le. lia.
    - replace (bpow radix2 (-53)) with uro by (unfold uro; cbn; lra). apply Rmult_le_compat_l; lra. }
  assert (Us : uro <= / 1000) by (unfold uro; cbn; lra). assert (uB : uro * B <= / 1000 * B) by (apply Rmult_le_compat_r; lra).
  destruct (dots_good L (d (icoef k) st)) as [F V].
  - apply Hd. symmetry. exact Lst.
  - apply Forall_forall. intros [p q] Hin. unfold L in Hin. pose proof (in_combine_l _ _ _ _ Hin) as Hp. apply in_combine_r in Hin. split; cbn [fst snd].
    + revert Hp. clear. intros Hp. do 5 (destruct k as [|k]; [cbn [icoef In] in Hp; repeat destruct Hp as [<-|Hp]; [..|contradiction]; reflexivity|]). cbn [icoef In] in Hp; repeat destruct Hp as [<-|Hp]; [..|contradiction]; reflexivity.
    + apply (proj1 (Forall_forall _ _) Fs), Hin.
  - assert (8 * bpow radix2 1000 < huge) by (change 8 with (bpow radix2 3); rewrite <- bpow_plus; apply bpow_lt; lia). lra.
  - split; [exact F|]. 
    replace (val (d (icoef k) st) - weighted k (S :: h)) with ((val (d (icoef k) st) - DoubleProofs.exact L) + (DoubleProofs.exact L - weighted k (S :: h))) by ring.
    eapply Rle_trans; [apply Rabs_triang|]. lra.
Qed.

Lemma length_mstates rho x : forall s, length (mstates rho s x) = length x.
Proof. induction x as [|v x IH]; intros s; [reflexivity|]. cbn [mstates length]. f_equal. apply IH. Qed.
Lemma integral_trace d k ops (f : iir (FAd d)) (x : list float) : any_order d -> (k <= 4)%nat -> integral_usedF d k ops f -> x <> [] -> Forall finite (is_ f) -> Forall finite x ->
  Forall cap (map val (is_ f)) -> Forall cap (ledger nearest (map val (is_ f)) (map val x) (length x - 1)) ->
  exists f' (y : list float) ss, iir_filter f x = (f', Ok y) /\ length y = length x /\ is_ f' = last ss (is_ f) /\ map (map val) ss = mstates nearest (map val (is_ f)) (map val x) /\
    forall n, (n < length x)%nat -> Forall finite (nth n ss []) /\ nth n y 0%float = d (icoef k) (nth n ss []) /\
      map val (nth n ss []) = nth n (map val x) 0 :: firstn (max 1 k) (tl (ledger nearest (map val (is_ f)) (map val x) n)).
Proof.
  intros Hd Hk Hu Hx Fs Fx Cs CL. destruct (integral_data d k ops f Hk Hu) as (Ia & Lb & Ls & Id & Ic).
  destruct (is_ f) as [|p [|w t]] eqn:Ef; try (exfalso; clear - Ls; cbn [length] in Ls; lia).
  assert (Lt : length t = (max 1 k - 1)%nat) by (change (S (S (length t)) = S (max 1 k)) in Ls; lia).
  assert (Lb' : length (ib f : list float) = S (S (max 1 k - 1))) by (refine (eq_trans Lb _); lia).
  set (A := nearest (val p + val w)).
  assert (EL : ledger nearest (map val (p :: w :: t)) (map val x) (length x - 1) = rev (sums nearest A (map val x)) ++ A :: val w :: map val t).
  { unfold ledger. cbn [map opening nth]. fold A. rewrite firstn_all2; [reflexivity|]. rewrite length_sums, map_length. lia. }
  pose proof (eq_ind _ (Forall cap) CL _ EL) as CL'. apply Forall_app in CL'. destruct CL' as [CR CO].
  assert (CS : Forall cap (sums nearest A (map val x))) by (rewrite <- (rev_involutive (sums _ _ _)); apply Forall_rev, CR).
  destruct (integral_run d (max 1 k - 1) (ib f) Hd Lb' x p w t Lt Fs) as (s' & y & ss & Er & Em & Ff & Ey & El).
  { exact (Forall_inv (Forall_inv_tail CO)). } { exact (Forall_inv CO). } { exact Fx. } { exact CS. }
  exists (iir_with_s f s'), y, ss.
  assert (Lss : length ss = length x) by (rewrite <- (map_length (map val) ss), Em, length_mstates, map_length; reflexivity).
  split; [|split; [|split; [|split]]].
  - rewrite iir_filter_run; [|intros C; rewrite C in Lb; discriminate|exact Hx]. rewrite Id, Ia, Ef.
    exact (f_equal (fun r => let '(s1, r1) := r in (@iir_with_s (FAd d) f s1, r1)) Er).
  - rewrite Ey, map_length. exact Lss.
  - exact El.
  - exact Em.
  - intros n Hn. assert (Hn' : (n < length ss)%nat) by lia. split; [apply (proj1 (Forall_forall _ _) Ff), nth_In, Hn'|]. split.
    + rewrite Ey. rewrite <- Ic, Ia. rewrite (nth_indep _ 0%float (d (@cvec (FAd d) (0%float :: 1%float :: repeat 0%float (max 1 k - 1)) (ib f)) [])) by (rewrite map_length; exact Hn'). apply map_nth.
    + rewrite ledger_next; [|discriminate|rewrite map_length; exact Hn]. cbn [tl].
      refine (eq_trans (eq_sym (map_nth (map val) ss [] n)) _). cbn [map]. rewrite Em. cbn [map].
      rewrite mstates_view by (rewrite map_length; exact Hn). fold A. cbn [opening nth]. fold A.
      assert (Et : S (length (map val t)) = max 1 k) by (refine (eq_trans (f_equal S (eq_trans (map_length val t) Lt)) _); lia). rewrite Et. reflexivity.
Qed.

Definition format (v : R) : Prop := generic_format radix2 (FLT_exp (-1074) 53) v.
Lemma add_close_format x y : format x -> format y -> Rabs (nearest (x + y) - (x + y)) <= uro * Rabs (x + y).
Proof.
  assert (P53 : Prec_gt_0 53) by reflexivity. intros Fx Fy.
  destruct (Plus_error.FLT_plus_error_N_ex radix2 (-1074) 53 (fun z => negb (Z.even z)) x y Fx Fy) as (eps & He & E).
  unfold nearest. rewrite E. replace ((x + y) * (1 + eps) - (x + y)) with (eps * (x + y)) by ring.
  rewrite Rabs_mult. apply Rmult_le_compat_r; [apply Rabs_pos|]. eapply Rle_trans; [exact He|].
  assert (U : Relative.u_ro radix2 53 = uro) by reflexivity. rewrite U. pose proof uro_pos as Up.
  apply Rmult_le_reg_r with (1 + uro); [lra|]. unfold Rdiv. rewrite Rmult_assoc, Rinv_l by lra. nra.
Qed.
Lemma format_nearest x : format (nearest x).
Proof. apply generic_format_round; [apply FLT_exp_valid; reflexivity|apply valid_rnd_N]. Qed.
Lemma drift x : forall a n B, (n < length x)%nat -> Forall format x -> format a -> Forall (within B) x -> within B a -> Forall (within B) (sums nearest a x) ->
  Rabs (nth n (sums nearest a x) 0 - (a + fold_right Rplus 0 (firstn (S n) x))) <= INR (S n) * (2 * uro * B).
Proof.
  induction x as [|v x IH]; intros a n B Hn Hx Ha Bx Ba Bs; [cbn in Hn; lia|].
  pose proof (Forall_inv Hx) as Hv. pose proof (Forall_inv Bx) as Bv. unfold within in Bv, Ba. pose proof uro_pos as U.
  assert (C : Rabs (nearest (a + v) - (a + v)) <= 2 * uro * B).
  { eapply Rle_trans; [apply add_close_format; assumption|]. pose proof (Rabs_triang a v).
    apply Rle_trans with (uro * (2 * B)); [apply Rmult_le_compat_l; lra|lra]. }
  cbn [sums] in Bs. destruct n as [|n].
  - cbn [sums nth firstn fold_right INR]. rewrite Rplus_0_r. lra.
  - cbn in Hn. change (nth (S n) (sums nearest a (v :: x)) 0) with (nth n (sums nearest (nearest (a + v)) x) 0).
    assert (K : Rabs (nth n (sums nearest (nearest (a + v)) x) 0 - (nearest (a + v) + fold_right Rplus 0 (firstn (S n) x))) <= INR (S n) * (2 * uro * B)).
    { apply IH; [lia|exact (Forall_inv_tail Hx)|apply format_nearest|exact (Forall_inv_tail Bx)|exact (Forall_inv Bs)|exact (Forall_inv_tail Bs)]. }
    rewrite (S_INR (S n)). change (firstn (S (S n)) (v :: x)) with (v :: firstn (S n) x). cbn [fold_right].
    replace (nth n (sums nearest (nearest (a + v)) x) 0 - (a + (v + fold_right Rplus 0 (firstn (S n) x))))
      with ((nth n (sums nearest (nearest (a + v)) x) 0 - (nearest (a + v) + fold_right Rplus 0 (firstn (S n) x))) + (nearest (a + v) - (a + v))) by ring.
    eapply Rle_trans; [apply Rabs_triang|]. lra.
Qed.

(** Whatever state [s] the filter is in: the sums it keeps are rounded additions, one per
    sample; order 0 returns them, the other orders their weighted average to 2^-48; after
    n samples they have drifted from the exact sum by at most n+1 roundings. *)
Theorem C176_running d k ops (f : iir (FAd d)) (x : list float) B : any_order d -> (k <= 4)%nat -> integral_usedF d k ops f -> x <> [] -> Forall finite (is_ f) -> Forall finite x ->
  bpow radix2 (-1000) <= B <= bpow radix2 1000 -> let s := map val (is_ f) in
  Forall (within B) s -> Forall (within B) (map val x) -> Forall (within B) (ledger nearest s (map val x) (length x - 1)) ->
  exists f' (y : list float), iir_filter f x = (f', Ok y) /\ length y = length x /\ forall n, (n < length x)%nat -> finite (nth n y 0%float) /\
    let sums := ledger nearest s (map val x) n in
    Rabs (val (nth n y 0%float) - weighted k sums) <= bpow radix2 (-48) * B /\
    (k = 0%nat -> val (nth n y 0%float) = nth 0 sums 0) /\
    (nth 0 sums 0 = nearest (nth 1 sums 0 + val (nth n x 0%float))) /\
    Rabs (nth 0 sums 0 - (nth 0 s 0 + nth 1 s 0 + fold_right Rplus 0 (firstn (S n) (map val x)))) <= INR (S (S n)) * (bpow radix2 (-52) * B).
Proof.
  intros Hd Hk Hu Hx Fs Fx HB s Bs Bx BL.
  assert (CB : forall l, Forall (within B) l -> Forall cap l) by (intros l; apply Forall_impl; intros v; unfold within, cap; lra).
  destruct (integral_trace d k ops f x Hd Hk Hu Hx Fs Fx (CB _ Bs) (CB _ BL)) as (f' & y & ss & E & Ly & _ & _ & H). fold s in H, BL.
  exists f', y. split; [exact E|]. split; [exact Ly|]. intros n Hn. destruct (H n Hn) as (Fst & Ey & Es). rewrite Ey. cbv zeta.
  destruct (integral_data d k ops f Hk Hu) as (_ & _ & Ls & _ & _).
  assert (Lss : length s = S (max 1 k)) by (unfold s; rewrite map_length; exact Ls).
  assert (Hmx : (n < length (map val x))%nat) by (rewrite map_length; exact Hn).
  assert (Sn : s <> []) by (intros C; rewrite C in Lss; discriminate).
  pose proof (ledger_next nearest s (map val x) n Sn Hmx) as EL. rewrite EL in Es. cbn [tl] in Es.
  set (h := rev (firstn n (sums nearest (nth 0 (opening nearest s) 0) (map val x))) ++ opening nearest s) in *. set (S := nearest (nth 0 h 0 + nth n (map val x) 0)) in *.
  assert (BLn : Forall (within B) (S :: h)).
  { rewrite <- EL. apply Forall_forall. intros v Hv. apply (proj1 (Forall_forall _ _) BL). rewrite <- (map_length val x). apply (ledger_last _ _ _ n Hmx), Hv. }
  pose proof (Forall_inv_tail BLn) as Bh. assert (Lh : (max 1 k <= length h)%nat).
  { unfold h. rewrite app_length. destruct s as [|p t]; [congruence|]. cbn [opening length] in *. lia. }
  assert (Exn : nth n (map val x) 0 = val (nth n x 0%float)) by (rewrite <- val_zero at 1; apply map_nth).
  assert (Bxn : within B (nth n (map val x) 0)) by (apply (proj1 (Forall_forall _ _) Bx), nth_In, Hmx).
  assert (Fh : forall a l, Forall format (a :: l) -> Forall format (rev (sums nearest a (map val x)) ++ a :: l)).
  { intros a l Fa. apply Forall_app. split; [|exact Fa]. apply Forall_rev. generalize (map val x). intros z. generalize a. induction z as [|v z IH]; intros b; [constructor|]. cbn [sums]. constructor; [apply format_nearest|apply IH]. }
  assert (Fo : Forall format s) by (unfold s; apply Forall_forall; intros v Hv; apply in_map_iff in Hv; destruct Hv as (u & <- & _); apply val_format).
  assert (Fx' : Forall format (map val x)) by (apply Forall_forall; intros v Hv; apply in_map_iff in Hv; destruct Hv as (u & <- & _); apply val_format).
  assert (F0 : format 0) by (rewrite <- val_zero; apply val_format).
  assert (Fnth : forall l i, Forall format l -> format (nth i l 0)).
  { intros l i Fl. destruct (Nat.lt_ge_cases i (length l)) as [L|L]; [apply (proj1 (Forall_forall _ _) Fl), nth_In, L|rewrite nth_overflow by exact L; exact F0]. }
  assert (Fop : Forall format (opening nearest s)).
  { destruct s as [|p t]; [congruence|]. cbn [opening]. constructor; [apply format_nearest|exact (Forall_inv_tail Fo)]. }
  assert (Fhh : Forall format h).
  { unfold h. apply Forall_app. split; [|exact Fop]. apply Forall_rev, Forall_firstn'. generalize (nth 0 (opening nearest s) 0). intros a. generalize (map val x). intros z. revert a. induction z as [|v z IH]; intros a; [constructor|]. cbn [sums]. constructor; [apply format_nearest|apply IH]. }
  pose proof uro_pos as U0. assert (Bp : 0 < B) by (pose proof (bpow_gt_0 radix2 (-1000)); lra).
  assert (Bh0 : within B (nth 0 h 0)) by (destruct h as [|h0 h']; [clear - Lh; cbn [length] in Lh; lia|exact (Forall_inv Bh)]).
  assert (CS : Rabs (S - (nth 0 h 0 + nth n (map val x) 0)) <= 2 * uro * B).
  { eapply Rle_trans; [apply add_close_format; [apply Fnth, Fhh|apply Fnth, Fx']|]. unfold within in *. pose proof (Rabs_triang (nth 0 h 0) (nth n (map val x) 0)).
    apply Rle_trans with (uro * (2 * B)); [apply Rmult_le_compat_l; lra|lra]. }
  destruct (out_close d k (nth n ss []) (nth n (map val x) 0) h S B Hd Hk Fst Es Lh Bxn Bh HB CS) as [Fy Vy].
  split; [exact Fy|]. rewrite EL.
  assert (E48 : bpow radix2 (-48) = 32 * uro) by (replace uro with (bpow radix2 (-53)) by (unfold uro; cbn; lra); change 32 with (bpow radix2 5); rewrite <- bpow_plus; reflexivity).
  assert (E52 : bpow radix2 (-52) = 2 * uro) by (unfold uro; lra).
  split; [rewrite E48; exact Vy|]. split; [|split].
  - intros ->. cbn [icoef nth]. destruct h as [|h0 h']; [clear - Lh; cbn [length] in Lh; lia|]. cbn [Nat.max firstn] in Es. destruct (nth n ss []) as [|a [|b [|? ?]]]; try discriminate. cbn [map] in Es. injection Es as E1 E2.
    pose proof (Forall_inv Fst) as Fa. pose proof (Forall_inv (Forall_inv_tail Fst)) as Fb.
    destruct (dots_ones (combine [1; 1]%float [a; b]) (d [1; 1]%float [a; b])) as [_ V].
    + apply Hd. reflexivity.
    + cbn. lia.
    + cbn [combine]. repeat apply Forall_cons; try apply Forall_nil; (split; [reflexivity|]; split; [assumption|]); cbn [snd].
      * rewrite E1. apply Rle_trans with B; [exact Bxn|apply HB].
      * rewrite E2. apply Rle_trans with B; [exact (Forall_inv Bh)|apply HB].
    + rewrite V. unfold S. f_equal. assert (V1 : val 1%float = 1) by litval. unfold DoubleProofs.exact. cbn [combine fold_right fst snd nth]. rewrite V1, E1, E2. ring.
  - cbn [nth]. rewrite <- Exn. destruct h; reflexivity.
  - cbn [nth]. rewrite E52. clear Vy Es Ey Fst H. destruct s as [|p [|w t]]; [congruence|clear - Lss; cbn [length] in Lss; lia|]. cbn [opening nth] in *.
    set (A := nearest (p + w)) in *.
    assert (HA : Rabs (A - (p + w)) <= 2 * uro * B).
    { eapply Rle_trans; [apply add_close_format; [exact (Forall_inv Fo)|exact (Forall_inv (Forall_inv_tail Fo))]|]. pose proof (Forall_inv Bs) as K1. pose proof (Forall_inv (Forall_inv_tail Bs)) as K2. unfold within in *. pose proof (Rabs_triang p w).
      apply Rle_trans with (uro * (2 * B)); [apply Rmult_le_compat_l; lra|lra]. }
    assert (BA : Forall (within B) (rev (sums nearest A (map val x)) ++ A :: w :: t)).
    { replace (sums nearest A (map val x)) with (firstn (Datatypes.S (length x - 1)) (sums nearest A (map val x))); [exact BL|]. apply firstn_all2. rewrite length_sums, map_length. lia. }
    apply Forall_app in BA. destruct BA as [BS BA]. apply Forall_rev in BS. rewrite rev_involutive in BS.
    pose proof (drift (map val x) A n B Hmx Fx' (format_nearest _) Bx (Forall_inv BA) BS) as D.
    assert (ES : S = nth n (sums nearest A (map val x)) 0) by (symmetry; exact (sums_next nearest (map val x) A (w :: t) n Hmx)).
    rewrite <- ES in D. rewrite (S_INR (Datatypes.S n)).
    replace (S - (p + w + fold_right Rplus 0 (firstn (Datatypes.S n) (map val x)))) with ((S - (A + fold_right Rplus 0 (firstn (Datatypes.S n) (map val x)))) + (A - (p + w))) by ring.
    eapply Rle_trans; [apply Rabs_triang|]. lra.
Qed.
Print Assumptions C176_running.

(** ** Exact on fixed-point data *)
Lemma dot_real (l m : list float) : @dot RA (map val l) (map val m) = DoubleProofs.exact (combine l m).
Proof.
  assert (G : forall l m acc, dot_from Rplus Rmult acc (map val l) (map val m) = acc + DoubleProofs.exact (combine l m)).
  { clear. induction l as [|a l IH]; intros m acc; [cbn; ring|]. destruct m as [|b m]; [cbn; ring|]. cbn [map dot_from combine]. rewrite IH.
    change (DoubleProofs.exact ((a, b) :: combine l m)) with (val a * val b + DoubleProofs.exact (combine l m)). ring. }
  change (dot_from Rplus Rmult 0 (map val l) (map val m) = DoubleProofs.exact (combine l m)). rewrite G. ring.
Qed.
Lemma dot_pick_real (p w : R) t : @dot RA (0 :: 1 :: repeat 0 (length t)) (p :: w :: t) = w.
Proof.
  assert (G : forall t acc, dot_from Rplus Rmult acc (repeat 0 (length t)) t = acc) by (clear; induction t as [|v t IH]; intros acc; [reflexivity|]; cbn [length repeat dot_from]; rewrite IH; ring).
  change (dot_from Rplus Rmult (0 + 0 * p + 1 * w) (repeat 0 (length t)) t = w). rewrite G. ring.
Qed.
Definition idR (v : R) : R := v.
Lemma integral_run_real (t0 : nat) (b : list R) : length b = S (S t0) -> forall x p w t, length t = t0 ->
  run (@iir_step RA DFloat (0 :: 1 :: repeat 0 t0) b) (p :: w :: t) x =
  (last (mstates idR (p :: w :: t) x) (p :: w :: t), Ok (map (@dot RA (@cvec RA (0 :: 1 :: repeat 0 t0) b)) (mstates idR (p :: w :: t) x))).
Proof.
  intros Lb. induction x as [|v x IH]; intros p w t Ht; [reflexivity|]. set (a := 0 :: 1 :: repeat 0 t0) in *.
  set (t1 := firstn (length t) (w :: t)). assert (L1 : length t1 = t0) by (unfold t1; rewrite firstn_length; cbn [length]; lia).
  assert (Est : @iir_step RA DFloat a b (p :: w :: t) v = (v :: (p + w) :: t1, Ok (@dot RA (@cvec RA a b) (v :: (p + w) :: t1)))).
  { etransitivity; [apply (@iir_step_eq RA)|].
    - intros C. rewrite C in Lb. discriminate.
    - unfold a. cbn [length]. rewrite repeat_length. symmetry. exact Lb.
    - refine (eq_trans _ (eq_sym Lb)). exact (f_equal (fun k => S (S k)) Ht).
    - assert (EH : @hist RA DFloat a (p :: w :: t) = (p + w) :: t1).
      { change (@hist RA DFloat a (p :: w :: t)) with ((p + @dot RA a (p :: w :: t)) :: t1). f_equal. f_equal. unfold a. rewrite <- Ht. apply dot_pick_real. }
      rewrite EH. reflexivity. }
  cbn [run]. rewrite Est. change (mstates idR (p :: w :: t) (v :: x)) with ((v :: (p + w) :: t1) :: mstates idR (v :: (p + w) :: t1) x).
  rewrite IH by exact L1. cbn [map]. rewrite last_cons'. reflexivity.
Qed.
Lemma mstates_ext rho x : forall p w t, rho (p + w) = p + w -> (forall v, In v (sums idR (p + w) x) -> rho v = v) -> mstates rho (p :: w :: t) x = mstates idR (p :: w :: t) x.
Proof.
  induction x as [|v x IH]; intros p w t H1 H2; [reflexivity|].
  change (mstates rho (p :: w :: t) (v :: x)) with ((v :: rho (p + w) :: firstn (length t) (w :: t)) :: mstates rho (v :: rho (p + w) :: firstn (length t) (w :: t)) x).
  change (mstates idR (p :: w :: t) (v :: x)) with ((v :: (p + w) :: firstn (length t) (w :: t)) :: mstates idR (v :: (p + w) :: firstn (length t) (w :: t)) x).
  rewrite H1. f_equal. apply IH.
  - rewrite (Rplus_comm v). apply H2. left. reflexivity.
  - intros u Hu. apply H2. right. rewrite (Rplus_comm v) in Hu. exact Hu.
Qed.

(** The weights of orders 0, 1 and 3 are doubles. *)
Definition dyadic_order (k : nat) : Prop := k = 0%nat \/ k = 1%nat \/ k = 3%nat.
Lemma real_data k ops (f : iir RA) : dyadic_order k -> integral_used k ops f ->
  ia f = 0 :: 1 :: repeat 0 (max 1 k - 1) /\ length (ib f) = S (max 1 k) /\ idt f = DFloat /\ @cvec RA (ia f) (ib f) = map val (icoef k).
Proof.
  intros Hk Hu. assert (Hk4 : (k <= 4)%nat) by (unfold dyadic_order in Hk; lia). destruct (integral_used_iir k ops f Hk4 Hu) as (_ & La & Lb & Id & Ea & Eb).
  assert (Ia : ia f = 0 :: 1 :: repeat 0 (max 1 k - 1)).
  { apply (nth_ext _ _ 0 0); [refine (eq_trans La _); cbn [length]; rewrite repeat_length; lia|]. intros i _. refine (eq_trans (Ea i) _). destruct i as [|[|i]]; cbn [nth]; try reflexivity.
    destruct i; symmetry; (destruct (Nat.lt_ge_cases (max 1 k - 1) 1) as [L|L]; [|]); try (apply nth_overflow; rewrite repeat_length; lia); apply nth_repeat. }
  assert (Ib : ib f = integral_weights k ++ repeat 0 (1 - k)).
  { apply (nth_ext _ _ 0 0); [refine (eq_trans Lb _); rewrite app_length, repeat_length, length_weights by exact Hk4; lia|]. intros i _. refine (eq_trans (Eb i) _).
    destruct (Nat.lt_ge_cases i (length (integral_weights k))) as [L|L]; [rewrite app_nth1 by exact L; reflexivity|].
    rewrite app_nth2 by exact L. rewrite (nth_overflow (integral_weights k)) by exact L. symmetry.
    destruct (Nat.lt_ge_cases (i - length (integral_weights k)) (1 - k)) as [L1|L1]; [apply nth_repeat|apply nth_overflow; rewrite repeat_length; exact L1]. }
  split; [exact Ia|]. split; [exact Lb|]. split; [exact Id|]. rewrite Ia, Ib. 
  destruct val_lits as (V1 & _ & _ & _ & V5 & _ & _ & V8 & _ & V10 & _ & V12 & _).
  destruct Hk as [->|[->| ->]]; unfold cvec; cbn [Nat.max Nat.sub repeat integral_weights app combine map fst snd nth icoef]; rewrite ?V1, ?V5, ?V8, ?V10; repeat (match goal with |- _ :: _ = _ :: _ => apply f_equal2; [cbn; lra|] end); reflexivity.
Qed.

Lemma grid_out d k g (st : list float) : any_order d -> dyadic_order k -> (-1071 <= g <= 940)%Z -> length st = length (icoef k) -> Forall finite st ->
  Forall (fun v => on_grid g v /\ within (bpow radix2 (49 + g)) v) (map val st) -> finite (d (icoef k) st) /\ val (d (icoef k) st) = @dot RA (map val (icoef k)) (map val st).
Proof.
  intros Hd Hk Hg Ls Fs Gs. rewrite dot_real. destruct val_lits as (V1 & _ & _ & _ & V5 & _ & _ & V8 & _ & V10 & _ & _ & _).
  assert (Gc : Forall (fun c => finite c /\ on_grid (-3) (val c)) (icoef k) /\ magsum (icoef k) <= 2).
  { assert (E8 : bpow radix2 (-3) = / 8) by (cbn; lra).
    destruct Hk as [->|[->| ->]]; cbn [icoef]; (split; [repeat (apply Forall_cons; [split; [reflexivity|]|]); try apply Forall_nil; unfold on_grid; rewrite E8, ?V1, ?V5, ?V8, ?V10|
      unfold magsum, aval; cbn [fold_right]; rewrite ?V1, ?V5, ?V8, ?V10; repeat (rewrite Rabs_pos_eq by lra); lra]);
      first [exists 8%Z; lra | exists 4%Z; lra | exists 3%Z; lra | exists 1%Z; lra]. }
  destruct Gc as [Gc Mc]. apply (dots_grid (-3 + g)).
  - apply Hd. symmetry. exact Ls.
  - lia.
  - apply Forall_forall. intros [c s] Hin. pose proof (in_combine_l _ _ _ _ Hin) as Hc. apply in_combine_r in Hin. rewrite Forall_forall in Gc, Fs. destruct (Gc c Hc) as [F1 G1].
    split; [exact F1|]. split; [exact (Fs s Hin)|]. cbn [fst snd]. apply on_grid_mult; [exact G1|]. apply (proj1 (Forall_forall _ _) Gs), in_map, Hin.
  - apply Rle_trans with (magsum (icoef k) * bpow radix2 (49 + g)).
    + clear - Gs. assert (Bs : Forall (fun v => aval v <= bpow radix2 (49 + g)) st) by (apply Forall_forall; intros v Hv; apply (proj1 (Forall_forall _ _) Gs (val v)), in_map, Hv). clear Gs.
      generalize (icoef k). intros l. revert st Bs. pose proof (bpow_gt_0 radix2 (49 + g)) as P. induction l as [|c l IH]; intros st Bs; [cbn; lra|].
      assert (0 <= magsum (c :: l) /\ 0 <= magsum l /\ 0 <= aval c) as (M1 & M2 & M3).
      { assert (forall z, 0 <= magsum z) as K by (induction z as [|u z IHz]; [cbn; lra|]; unfold magsum in *; cbn [fold_right]; pose proof (Rabs_pos (val u)); unfold aval in *; lra). split; [apply K|]. split; [apply K|apply Rabs_pos]. }
      destruct st as [|v st]; [cbn [combine]; unfold mags; cbn [fold_right]; apply Rmult_le_pos; lra|]. change (mags (combine (c :: l) (v :: st))) with (aval c * aval v + mags (combine l st)).
      change (magsum (c :: l)) with (aval c + magsum l). rewrite Rmult_plus_distr_r. apply Rplus_le_compat; [apply Rmult_le_compat_l; [exact M3|exact (Forall_inv Bs)]|apply IH, (Forall_inv_tail Bs)].
    + replace (53 + (-3 + g))%Z with (1 + (49 + g))%Z by lia. rewrite (bpow_plus radix2 1). change (bpow radix2 1) with 2. apply Rmult_le_compat_r; [apply bpow_ge_0|exact Mc].
Qed.

Lemma sums_grid g x : forall a, on_grid g a -> Forall (on_grid g) x -> Forall (on_grid g) (sums idR a x).
Proof. induction x as [|v x IH]; intros a Ga Gx; [constructor|]. assert (G : on_grid g (a + v)) by (apply on_grid_add; [exact Ga|exact (Forall_inv Gx)]). cbn [sums]. unfold idR at 1 3. constructor; [exact G|]. apply IH; [exact G|exact (Forall_inv_tail Gx)]. Qed.

Lemma last_nth {X} (l : list X) a b : l <> [] -> last l a = nth (length l - 1) l b.
Proof.
  induction l as [|y l IH]; [congruence|]. intros _. rewrite last_cons'. destruct l as [|z l]; [reflexivity|].
  replace (length (y :: z :: l) - 1)%nat with (S (length (z :: l) - 1)) by (cbn [length]; lia). change (nth (S (length (z :: l) - 1)) (y :: z :: l) b) with (nth (length (z :: l) - 1) (z :: l) b).
  rewrite <- IH by discriminate. rewrite !last_cons'. reflexivity.
Qed.
(** Orders 0, 1 and 3 on fixed-point data (multiples of 2^g, sums up to 2^(49+g)): no
    rounding at all; the output and the state are those of the filter over the reals. *)
Theorem C176_exact d k g ops ops' (f : iir (FAd d)) (fr : iir RA) (x : list float) : any_order d -> dyadic_order k -> integral_usedF d k ops f -> integral_used k ops' fr -> is_ fr = map val (is_ f) ->
  x <> [] -> (-1071 <= g <= 940)%Z -> Forall (multiple g) (is_ f) -> Forall (multiple g) x ->
  Forall (within (bpow radix2 (49 + g))) (map val x) -> Forall (within (bpow radix2 (49 + g))) (map val (is_ f)) ->
  Forall (within (bpow radix2 (49 + g))) (ledger idR (map val (is_ f)) (map val x) (length x - 1)) ->
  exists f' fr' (y : list float), iir_filter f x = (f', Ok y) /\ iir_filter fr (map val x) = (fr', Ok (map val y)) /\ Forall finite y /\ is_ fr' = map val (is_ f') /\ Forall (multiple g) (is_ f').
Proof.
  intros Hd Hk Hu Hr Es Hx Hg Ms Mx Bx Bs BL. assert (Hk4 : (k <= 4)%nat) by (unfold dyadic_order in Hk; lia).
  assert (Fs : Forall finite (is_ f)) by (apply (Forall_impl _ (fun v (H : multiple g v) => proj1 H) Ms)).
  assert (Fx : Forall finite x) by (apply (Forall_impl _ (fun v (H : multiple g v) => proj1 H) Mx)).
  assert (Gs : Forall (on_grid g) (map val (is_ f))) by (apply Forall_forall; intros v Hv; apply in_map_iff in Hv; destruct Hv as (u & <- & Hu'); exact (proj2 (proj1 (Forall_forall _ _) Ms u Hu'))).
  assert (Gx : Forall (on_grid g) (map val x)) by (apply Forall_forall; intros v Hv; apply in_map_iff in Hv; destruct Hv as (u & <- & Hu'); exact (proj2 (proj1 (Forall_forall _ _) Mx u Hu'))).
  assert (Cp : forall l, Forall (within (bpow radix2 (49 + g))) l -> Forall cap l).
  { intros l. apply Forall_impl. intros v Hv. apply Rle_trans with (1 := Hv). apply bpow_le. lia. }
  assert (N1 : forall v, on_grid g v -> within (bpow radix2 (49 + g)) v -> nearest v = v).
  { intros v Gv Bv. apply (grid_nearest g); [lia|exact Gv|]. apply Rle_trans with (1 := Bv). apply bpow_le. lia. }
  destruct (integral_data d k ops f Hk4 Hu) as (_ & _ & Ls & _ & _).
  destruct (map val (is_ f)) as [|p [|w t]] eqn:Em; [rewrite <- (map_length val), Em in Ls; discriminate|exfalso; clear - Ls Em; rewrite <- (map_length val), Em in Ls; cbn [length] in Ls; lia|].
  assert (Lt : length t = (max 1 k - 1)%nat) by (clear - Ls Em; rewrite <- (map_length val), Em in Ls; cbn [length] in Ls; lia).
  assert (EL : ledger idR (p :: w :: t) (map val x) (length x - 1) = rev (sums idR (p + w) (map val x)) ++ (p + w) :: w :: t).
  { unfold ledger. cbn [opening nth]. unfold idR at 2 3. rewrite firstn_all2; [reflexivity|]. rewrite length_sums, map_length. lia. }
  rewrite EL in BL. apply Forall_app in BL. destruct BL as [BR BO]. apply Forall_rev in BR. rewrite rev_involutive in BR.
  assert (GA : on_grid g (p + w)) by (apply on_grid_add; [exact (Forall_inv Gs)|exact (Forall_inv (Forall_inv_tail Gs))]).
  pose proof (sums_grid g (map val x) (p + w) GA Gx) as GS.
  assert (NS : forall v, In v (sums idR (p + w) (map val x)) -> nearest v = v) by (intros v Hv; apply N1; [apply (proj1 (Forall_forall _ _) GS), Hv|apply (proj1 (Forall_forall _ _) BR), Hv]).
  assert (NA : nearest (p + w) = p + w) by (apply N1; [exact GA|exact (Forall_inv BO)]).
  assert (ELn : ledger nearest (p :: w :: t) (map val x) (length x - 1) = rev (sums idR (p + w) (map val x)) ++ (p + w) :: w :: t).
  { unfold ledger. cbn [opening nth]. rewrite NA. rewrite (sums_ext nearest idR (map val x) (p + w) NS (fun z => eq_refl)). rewrite firstn_all2; [reflexivity|]. rewrite length_sums, map_length. lia. }
  destruct (integral_trace d k ops f x Hd Hk4 Hu Hx Fs Fx) as (f' & y & ss & E & Ly & El & Ess & H).
  { rewrite Em. apply Cp, Bs. } { rewrite Em, ELn. apply Forall_app. split; [apply Forall_rev, Cp, BR|apply Cp, BO]. }
  rewrite Em in Ess. rewrite (mstates_ext nearest (map val x) p w t NA NS) in Ess.
  destruct (real_data k ops' fr Hk Hr) as (Ia & Lb & Id & Ic).
  assert (Gst : Forall (fun st => Forall (fun v => on_grid g v /\ within (bpow radix2 (49 + g)) v) st /\ length st = length (icoef k)) (mstates idR (p :: w :: t) (map val x))).
  { apply Forall_forall. intros st Hst. apply (In_nth _ _ []) in Hst. destruct Hst as (n & Hn & <-). rewrite length_mstates in Hn. rewrite mstates_view by exact Hn. change (idR (p + w)) with (p + w). split.
    - constructor; [split; [apply (proj1 (Forall_forall _ _) Gx)|apply (proj1 (Forall_forall _ _) Bx)]; apply nth_In, Hn|]. apply Forall_firstn'. apply Forall_app. split.
      + apply Forall_rev, Forall_firstn'. apply Forall_forall. intros v Hv. split; [apply (proj1 (Forall_forall _ _) GS), Hv|apply (proj1 (Forall_forall _ _) BR), Hv].
      + constructor; [split; [exact GA|exact (Forall_inv BO)]|]. apply Forall_forall. intros v Hv. split; [apply (proj1 (Forall_forall _ _) (Forall_inv_tail Gs)), Hv|apply (proj1 (Forall_forall _ _) (Forall_inv_tail BO)), Hv].
    - cbn [length]. rewrite firstn_length, app_length. cbn [length]. rewrite Lt. destruct Hk as [->|[->| ->]]; cbn [Nat.max Nat.sub icoef length]; lia. }
  assert (Lss : length ss = length x) by (refine (eq_trans (eq_sym (map_length (map val) ss)) (eq_trans (f_equal (@length _) Ess) _)); rewrite length_mstates, map_length; reflexivity).
  assert (Hst : forall n, (n < length x)%nat -> finite (nth n y 0%float) /\ val (nth n y 0%float) = @dot RA (map val (icoef k)) (nth n (mstates idR (p :: w :: t) (map val x)) [])).
  { intros n Hn. destruct (H n Hn) as (Fn & Ey & _). rewrite Ey.
    assert (Est : map val (nth n ss []) = nth n (mstates idR (p :: w :: t) (map val x)) []) by (rewrite <- Ess; symmetry; exact (map_nth (map val) ss [] n)).
    rewrite <- Est. pose proof (proj1 (Forall_forall _ _) Gst (nth n (mstates idR (p :: w :: t) (map val x)) [])) as [G1 G2]; [apply nth_In; rewrite length_mstates, map_length; exact Hn|].
    rewrite <- Est in G1, G2. rewrite map_length in G2. apply (grid_out d k g); assumption. }
  exists f', (iir_with_s fr (last (mstates idR (p :: w :: t) (map val x)) (p :: w :: t))), y. split; [exact E|]. split; [|split; [|split]].
  - rewrite iir_filter_run; [|intros C; rewrite C in Lb; discriminate|destruct x; [congruence|discriminate]]. rewrite Id, Ia, Es.
    refine (eq_trans (f_equal (fun r => let '(s1, r1) := r in (@iir_with_s RA fr s1, r1)) (integral_run_real (max 1 k - 1) (ib fr) _ (map val x) p w t Lt)) _); [refine (eq_trans Lb _); lia|].
    cbn beta iota. do 2 f_equal. rewrite <- Ia, Ic. apply (nth_ext _ _ 0 0); [rewrite !map_length, length_mstates, map_length; symmetry; exact Ly|].
    intros n Hn. rewrite map_length, length_mstates, map_length in Hn. rewrite <- val_zero at 2. rewrite map_nth. destruct (Hst n Hn) as [_ ->].
    rewrite (nth_indep _ 0 (@dot RA (map val (icoef k)) [])) by (rewrite map_length, length_mstates, map_length; exact Hn). apply map_nth.
  - apply Forall_forall. intros v Hv. apply (In_nth _ _ 0%float) in Hv. destruct Hv as (n & Hn & <-). apply Hst. rewrite <- Ly. exact Hn.
  - cbn [is_ iir_with_s]. rewrite El. transitivity (last (map (map val) ss) (map val (is_ f))); [exact (eq_sym (f_equal2 (@last _) Ess Em))|]. clear. generalize (is_ f). intros s0. revert s0. induction ss as [|s ss IH]; intros s0; [reflexivity|]. cbn [map]. rewrite !last_cons'. apply IH.
  - rewrite El. assert (Hne : ss <> []) by (intros C; rewrite C in Lss; destruct x; [congruence|discriminate]).
    assert (Hin : exists n, (n < length x)%nat /\ last ss (is_ f) = nth n ss []).
    { exists (length x - 1)%nat. assert (0 < length x)%nat by (destruct x; [congruence|cbn; lia]). split; [lia|]. rewrite <- Lss. apply last_nth, Hne. }
    destruct Hin as (n & Hn & ->). destruct (H n Hn) as (Fn & _ & _).
    assert (Est : map val (nth n ss []) = nth n (mstates idR (p :: w :: t) (map val x)) []) by (rewrite <- Ess; symmetry; exact (map_nth (map val) ss [] n)).
    pose proof (proj1 (Forall_forall _ _) Gst (nth n (mstates idR (p :: w :: t) (map val x)) [])) as [G1 _]; [apply nth_In; rewrite length_mstates, map_length; exact Hn|]. rewrite <- Est in G1.
    apply Forall_forall. intros v Hv. split; [apply (proj1 (Forall_forall _ _) Fn), Hv|]. apply (proj1 (Forall_forall _ _) G1 (val v)), in_map, Hv.
Qed.
Print Assumptions C176_exact.

(** ** Where the sum stands still *)
Lemma sums_still a x : format a -> Forall (fun v => Rabs v < bpow radix2 (-54) * Rabs a) x -> sums nearest a x = repeat a (length x).
Proof. intros Fa. induction 1 as [|v x Hv _ IH]; [reflexivity|]. cbn [sums length repeat]. rewrite (nearest_absorb a v Fa Hv), IH. reflexivity. Qed.
(** Samples below 2^-54 of the sum held by the filter are lost, however many there are. *)
Theorem C176_stall d ops (f : iir (FAd d)) (x : list float) : any_order d -> integral_usedF d 0 ops f -> x <> [] -> Forall finite (is_ f) -> Forall finite x ->
  let s := map val (is_ f) in let a := nearest (nth 0 s 0 + nth 1 s 0) in
  Forall (within (bpow radix2 1000)) s -> within (bpow radix2 1000) a -> Forall (fun v => Rabs (val v) < bpow radix2 (-54) * Rabs a) x ->
  exists f' (y : list float), iir_filter f x = (f', Ok y) /\ length y = length x /\ Forall (fun v => finite v /\ val v = a) y.
Proof.
  intros Hd Hu Hx Fs Fx s a Bs Ba Hs. destruct (integral_data d 0 ops f ltac:(lia) Hu) as (_ & _ & Ls & _ & _).
  assert (Lss : length s = 2%nat) by (unfold s; rewrite map_length; exact Ls). 
  assert (Hs' : Forall (fun v => Rabs v < bpow radix2 (-54) * Rabs a) (map val x)) by (apply Forall_forall; intros v Hv; apply in_map_iff in Hv; destruct Hv as (u & <- & Hu'); exact (proj1 (Forall_forall _ _) Hs u Hu')).
  pose proof (sums_still a (map val x) (format_nearest _) Hs') as ES.
  assert (EL : forall n, ledger nearest s (map val x) n = rev (firstn (S n) (repeat a (length x))) ++ a :: tl s).
  { intros n. unfold ledger. destruct s as [|p [|w t]]; try discriminate Lss. cbn [opening nth tl]. change (nearest (p + w)) with a. rewrite ES, map_length. reflexivity. }
  assert (Bx : Forall (within (bpow radix2 1000)) (map val x)).
  { revert Hs'. apply Forall_impl. intros v Hv. unfold within in *. assert (P : bpow radix2 (-54) <= 1) by (change 1 with (bpow radix2 0); apply bpow_le; lia). pose proof (Rabs_pos a).
    assert (bpow radix2 (-54) * Rabs a <= 1 * Rabs a) by (apply Rmult_le_compat_r; assumption). lra. }
  destruct (C176_running d 0 ops f x (bpow radix2 1000) Hd ltac:(lia) Hu Hx Fs Fx) as (f' & y & E & Ly & H); fold s.
  - split; [apply bpow_le; lia|apply Rle_refl].
  - exact Bs.
  - exact Bx.
  - rewrite EL. apply Forall_app. split; [apply Forall_rev, Forall_firstn', Forall_forall; intros v Hv; apply repeat_spec in Hv; subst v; exact Ba|]. constructor; [exact Ba|].
    destruct s as [|p t]; [constructor|exact (Forall_inv_tail Bs)].
  - exists f', y. split; [exact E|]. split; [exact Ly|]. apply Forall_forall. intros v Hv. apply (In_nth _ _ 0%float) in Hv. destruct Hv as (n & Hn & <-).
    destruct (H n ltac:(rewrite <- Ly; exact Hn)) as (F & _ & V & _). split; [exact F|]. refine (eq_trans (V eq_refl) _). fold s. rewrite EL.
    rewrite app_nth1 by (rewrite rev_length, firstn_length, repeat_length; rewrite Ly in Hn; lia).
    assert (Hin : In (nth 0 (rev (firstn (S n) (repeat a (length x)))) 0) (rev (firstn (S n) (repeat a (length x))))) by (apply nth_In; rewrite rev_length, firstn_length, repeat_length; rewrite Ly in Hn; lia).
    apply in_rev, firstn_In, repeat_spec in Hin. exact Hin.
Qed.
Print Assumptions C176_stall.

Definition dotL176 : list float -> list float -> float := dot_from PrimFloat.add PrimFloat.mul 0%float.
(** "The integral of the constant 1 grows without bound" is false in doubles: after one
    sample of 2^55 it never moves again. *)
Theorem C176_growth_refuted : exists d f, any_order d /\ integral_usedF d 0 [@IFilter (FAd d) [0x1p55%float]] f /\ forall len, len <> 0%nat ->
  exists f' (y : list float), iir_filter f (@repeat (carrier (FAd d)) 1%float len) = (f', Ok y) /\ length y = len /\ Forall (fun v => val v = bpow radix2 55) y.
Proof.
  set (f0 := @mkIir (FAd dotL176) DFloat [0; 1]%float [1; 0]%float [0; 0]%float). set (f := @mkIir (FAd dotL176) DFloat [0; 1]%float [1; 0]%float [0x1p55; 0]%float).
  assert (E0 : @integral_make (FAd dotL176) 0 = Ok f0) by reflexivity.
  assert (E1 : @iir_exec (FAd dotL176) f0 (@IFilter (FAd dotL176) [0x1p55%float]) = f) by reflexivity.
  assert (V0 : val 0x1p55%float = bpow radix2 55) by litval. assert (V1 : val 1%float = 1) by litval.
  assert (N : nearest (bpow radix2 55 + 0) = bpow radix2 55) by (rewrite Rplus_0_r, <- V0; apply nearest_val).
  assert (U : integral_usedF dotL176 0 [@IFilter (FAd dotL176) [0x1p55%float]] f) by (exists f0; split; [exact E0|symmetry; exact E1]).
  assert (P55 : 0 < bpow radix2 55) by apply bpow_gt_0. assert (L55 : bpow radix2 55 <= bpow radix2 1000) by (apply bpow_le; lia).
  exists dotL176, f. split; [exact left_any_order|]. split; [exact U|].
  intros len Hl. destruct (C176_stall dotL176 _ f (repeat 1%float len) left_any_order U) as (f' & y & E & Ly & H).
  - destruct len; [congruence|discriminate].
  - repeat (apply Forall_cons; [reflexivity|]). apply Forall_nil.
  - apply Forall_forall. intros v Hv. apply repeat_spec in Hv. subst v. reflexivity.
  - change (map val (is_ f)) with [val 0x1p55%float; val 0%float]. rewrite V0, val_zero. repeat (apply Forall_cons; [unfold within|]); try apply Forall_nil; [rewrite Rabs_pos_eq by lra; exact L55|rewrite Rabs_R0; apply bpow_ge_0].
  - change (map val (is_ f)) with [val 0x1p55%float; val 0%float]. cbn [nth]. rewrite V0, val_zero, N. unfold within. rewrite Rabs_pos_eq by lra. exact L55.
  - change (map val (is_ f)) with [val 0x1p55%float; val 0%float]. cbn [nth]. rewrite V0, val_zero, N. apply Forall_forall. intros v Hv. apply repeat_spec in Hv. subst v. rewrite V1, !Rabs_pos_eq by lra.
    rewrite <- bpow_plus. change (bpow radix2 (-54 + 55)) with 2. lra.
  - exists f', y. split; [exact E|]. split; [refine (eq_trans Ly _); apply repeat_length|]. revert H. apply Forall_impl. intros v [_ V]. rewrite V. change (map val (is_ f)) with [val 0x1p55%float; val 0%float]. cbn [nth]. rewrite V0, val_zero. exact N.
Qed.
Print Assumptions C176_growth_refuted.

(** The trapezoidal rule on 1, 2, 3, 4 in steps of 1. *)
Example C176_example : exists f fr, integral_usedF dotL176 1 [] f /\ integral_used 1 [] fr /\ is_ fr = map val (is_ f) /\ dyadic_order 1 /\ any_order dotL176 /\
  Forall (multiple 0) (is_ f) /\ Forall (multiple 0) [1; 2; 3; 4]%float /\ Forall (within (bpow radix2 (49 + 0))) (map val [1; 2; 3; 4]%float) /\
  ledger idR (map val (is_ f)) (map val [1; 2; 3; 4]%float) 3 = [10; 6; 3; 1; 0; 0] /\
  match snd (iir_filter f ([1; 2; 3; 4]%float : list (FAd dotL176))) with Ok y => Some (y : list float) | Err _ => None end = Some [0.5; 2; 4.5; 8]%float.
Proof.
  set (f := @mkIir (FAd dotL176) DFloat [0; 1]%float [0.5; 0.5]%float [0; 0]%float).
  assert (V : val 0%float = 0 /\ val 1%float = 1 /\ val 2%float = 2 /\ val 3%float = 3 /\ val 4%float = 4) by (repeat split; litval). destruct V as (V0 & V1 & V2 & V3 & V4).
  assert (M : forall v z, finite v -> val v = IZR z -> multiple 0 v) by (intros v z F E; split; [exact F|]; exists z; rewrite E; cbn [bpow]; ring).
  assert (U : integral_usedF dotL176 1 [] f) by (exists f; split; [reflexivity|reflexivity]).
  destruct (C19_integral_orders RA 1 (proj2 (law_eqb RA_laws _ _) eq_refl)) as [_ Hm]. destruct (Hm ltac:(lia)) as [fr Er]. exists f, fr.
  assert (Hr : integral_used 1 [] fr) by (exists fr; split; [exact Er|reflexivity]).
  split; [exact U|]. split; [exact Hr|]. split.
  { change (map val (is_ f)) with [val 0%float; val 0%float]. rewrite V0.
    destruct (integral_used_iir 1 [] fr ltac:(lia) Hr) as (Hi & _ & Lb & _). pose proof Hi as (_ & f1 & E & E1). cbn [fold_left] in E1. subst f1.
    destruct (C10_iir_fresh_is_at_rest RA RA_laws _ _ _ _ E) as (Hz & _ & _). rewrite Hz, Lb. reflexivity. }
  split; [right; left; reflexivity|]. split; [exact left_any_order|].
  split; [repeat (apply Forall_cons; [apply (M _ 0%Z); [reflexivity|exact V0]|]); apply Forall_nil|].
  split; [apply Forall_cons; [apply (M _ 1%Z)|apply Forall_cons; [apply (M _ 2%Z)|apply Forall_cons; [apply (M _ 3%Z)|apply Forall_cons; [apply (M _ 4%Z)|apply Forall_nil]]]]; try reflexivity; assumption|].
  assert (E49 : 4 <= bpow radix2 (49 + 0)) by (change 4 with (bpow radix2 2); apply bpow_le; lia).
  split; [cbn [map]; rewrite V1, V2, V3, V4; unfold within; repeat (apply Forall_cons; [rewrite Rabs_pos_eq by lra; lra|]); apply Forall_nil|].
  split; [|vm_compute; reflexivity].
  change (map val (is_ f)) with [val 0%float; val 0%float]. cbn [map]. rewrite V0, V1, V2, V3, V4. unfold ledger. cbn [opening nth sums firstn rev app]. unfold idR. repeat (apply f_equal2; [lra|]). reflexivity.
Qed.
