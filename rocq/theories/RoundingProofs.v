(** Rounding errors of FirFilter and IirFilter: the model run in an arithmetic whose
    operations are off by a relative and an absolute error, against the exact run. *)
From Coq Require Import List Arith ZArith Bool Reals Lra Lia.
From Coquelicot Require Import Complex.
From Verif Require Import Base BaseLemmas Instances FirModel FirSpec FirProofs IirModel IirSpec IirProofs PolyC ZProofs AnalysisModel AnalysisProps StabilityProofs.
Import ListNotations.
Set Asymmetric Patterns.
Open Scope R_scope.
Open Scope C_scope.

(** ** Specification *)
(** Complex arithmetic with other operations. *)
Definition RndA (radd rmul : C -> C -> C) (rdot : list C -> list C -> C) (rcast : dtype -> C -> C) : Arith :=
  mkArith C (RtoC 0) (RtoC 1) radd Cminus rmul Cdiv Copp Ceqb rdot (sum_from Cplus (RtoC 0)) rcast.
(** Sum of |l[i]| |m[i]|. *)
Fixpoint absdot (l m : list C) : R :=
  match l, m with x :: l', y :: m' => (Cmod x * Cmod y + absdot l' m')%R | _, _ => 0%R end.
(** Every operation is within a relative error u and an absolute error eta of the exact one;
    a dot product of length k relative to the sum of the magnitudes.  Storing into a float array
    gives a real number. *)
Record rounds (k : nat) (u eta : R) (radd rmul : C -> C -> C) (rdot : list C -> list C -> C) (rcast : dtype -> C -> C) : Prop := {
  rd_add : forall x y, (Cmod (radd x y - (x + y))%C <= u * Cmod (x + y)%C + eta)%R;
  rd_mul : forall x y, (Cmod (rmul x y - x * y)%C <= u * Cmod (x * y)%C + eta)%R;
  rd_dot : forall l m, length l = k -> length m = k -> (Cmod (rdot l m - @dot CA l m)%C <= u * absdot l m + eta)%R;
  rd_cast : forall dt x, dt <> DInt -> (Cmod (rcast dt x - @cast CA dt x)%C <= u * Cmod x + eta)%R;
  rd_fits : forall dt x, dt <> DInt -> @fits CA dt (rcast dt x) }.

(** ** Bounds up to a time *)
Lemma one_pole_upto (z : C) (e : Z -> C) D T N : (Cmod z < 1)%R -> (0 <= D)%R -> (forall n, (n < T)%Z -> e n = RtoC 0) ->
  (forall n, (n <= N)%Z -> (Cmod (e n - z * e (n - 1)%Z)%C <= D)%R) -> forall n, (n <= N)%Z -> (Cmod (e n) <= D / (1 - Cmod z))%R.
Proof.
  intros Hz D0 H0 H. pose proof (Cmod_ge_0 z) as Hz0. set (q := Cmod z) in *.
  assert (K : (0 <= D / (1 - q))%R) by (apply Rmult_le_pos; [exact D0|left; apply Rinv_0_lt_compat; lra]).
  assert (G : forall m : nat, (T + Z.of_nat m - 1 <= N)%Z -> (Cmod (e (T + Z.of_nat m - 1)%Z) <= D / (1 - q))%R).
  { induction m as [|m IH]; intros Hm; [rewrite H0 by lia; rewrite Cmod_0; exact K|]. specialize (IH ltac:(lia)).
    set (n := (T + Z.of_nat (S m) - 1)%Z) in *. specialize (H n Hm). replace (n - 1)%Z with (T + Z.of_nat m - 1)%Z in H by lia.
    replace (e n) with ((e n - z * e (T + Z.of_nat m - 1)%Z) + z * e (T + Z.of_nat m - 1)%Z) by ring.
    eapply Rle_trans; [apply Cmod_triangle|]. rewrite Cmod_mult. fold q.
    assert (q * Cmod (e (T + Z.of_nat m - 1)%Z) <= q * (D / (1 - q)))%R by (apply Rmult_le_compat_l; lra).
    assert (D + q * (D / (1 - q)) = D / (1 - q))%R by (field; lra). lra. }
  intros n HN. destruct (Z_lt_le_dec n T) as [Hn|Hn]; [rewrite H0 by exact Hn; rewrite Cmod_0; exact K|].
  specialize (G (Z.to_nat (n - T + 1))). replace (T + Z.of_nat (Z.to_nat (n - T + 1)) - 1)%Z with n in G by lia. apply G, HN.
Qed.
Lemma poles_upto zs : forall e D T N, Forall (fun z => (Cmod z < 1)%R) zs -> (0 <= D)%R -> (forall n, (n < T)%Z -> e n = RtoC 0) ->
  (forall n, (n <= N)%Z -> (Cmod (lagged (cpoly zs) e n) <= D)%R) -> forall n, (n <= N)%Z -> (Cmod (e n) <= D / margin zs)%R.
Proof.
  induction zs as [|z zs IH] using rev_ind; intros e D T N Hz D0 H0 H n Hn.
  - specialize (H n Hn). cbn [cpoly fold_left lagged margin] in *. replace (RtoC 1 * e n + 0) with (e n) in H by ring. lra.
  - apply Forall_app in Hz. destruct Hz as [Hz1 Hz2]. inversion_clear Hz2 as [|? ? Hz3 _]. rewrite margin_app. cbn [margin].
    pose proof (margin_pos zs Hz1) as Mp.
    assert (G : forall n, (n <= N)%Z -> (Cmod (e n - z * e (n - 1)%Z)%C <= D / margin zs)%R).
    { apply (IH (fun n => e n - z * e (n - 1)%Z) D (T + 0)%Z N Hz1 D0).
      - intros m Hm. rewrite !H0 by lia. ring.
      - intros m Hm. rewrite <- lagged_cpoly. apply H, Hm. }
    assert (D1 : (0 <= D / margin zs)%R) by (apply Rmult_le_pos; [exact D0|left; apply Rinv_0_lt_compat, Mp]).
    pose proof (one_pole_upto z e _ T N Hz3 D1 H0 G n Hn) as B.
    replace (D / (margin zs * ((1 - Cmod z) * 1)))%R with (D / margin zs / (1 - Cmod z))%R by (field; lra). exact B.
Qed.
Lemma lagged_upto c u B n : (0 <= B)%R -> (forall m, (m <= n)%Z -> (Cmod (u m) <= B)%R) -> (Cmod (lagged c u n) <= l1 c * B)%R.
Proof.
  intros HB. revert n. induction c as [|x c IH]; intros n H; cbn [lagged l1]; [rewrite Cmod_0; lra|].
  eapply Rle_trans; [apply Cmod_triangle|]. rewrite Cmod_mult. specialize (IH (n - 1)%Z ltac:(intros m Hm; apply H; lia)).
  assert (Cmod x * Cmod (u n) <= Cmod x * B)%R by (apply Rmult_le_compat_l; [apply Cmod_ge_0|apply H; lia]). lra.
Qed.

(** ** The states of a run *)
Section States.
  Context {A : Arith}.
  Variables (dt : dtype) (a b s : list A) (x : nat -> A).
  Hypotheses (Hb : b <> []) (Ha : length a = length b) (Hs : length s = length b).
  Fixpoint st (n : nat) : list A := match n with 0%nat => s | S m => cast dt (x m) :: hist dt a (st m) end.
  Lemma st_length n : length (st n) = length b.
  Proof.
    induction n as [|n IH]; [exact Hs|]. cbn [st length]. rewrite length_hist, IH. destruct b; [congruence|]. cbn [length]. lia.
  Qed.
  Definition outp (n : nat) : A := cast dt (dot (cvec a b) (st (S n))).
  Lemma run_states m N : run (iir_step dt a b) (st m) (map x (seq m N)) = (st (m + N), Ok (map outp (seq m N))).
  Proof.
    revert m. induction N as [|N IH]; intros m; cbn [seq map run]; [rewrite Nat.add_0_r; reflexivity|].
    rewrite iir_step_eq by (try assumption; apply st_length). change (cast dt (x m) :: hist dt a (st m)) with (st (S m)). rewrite IH.
    replace (S m + N)%nat with (m + S N)%nat by lia. reflexivity.
  Qed.
  (** The recursion register: value computed at step n, or the initial state. *)
  Definition reg (n : nat) : A := cast dt (add (nth 0 (st n) zero) (dot a (st n))).
  Definition regz (m : Z) : A := if (m <? 0)%Z then nth (Z.to_nat (- m)) s zero else reg (Z.to_nat m).
  Lemma st_reg n i : (0 < i < length b)%nat -> nth i (st n) zero = regz (Z.of_nat n - Z.of_nat i).
  Proof.
    revert i. induction n as [|n IH]; intros i Hi.
    - cbn [st]. unfold regz. destruct (Z.ltb_spec (Z.of_nat 0 - Z.of_nat i) 0); [|lia]. f_equal. lia.
    - cbn [st]. destruct i as [|i]; [lia|]. cbn [nth]. pose proof (st_length n) as L. unfold reg in *.
      destruct (st n) as [|s0 t] eqn:E; [cbn [length] in L; lia|]. cbn [hist length] in *.
      rewrite nth_firstn by lia. destruct i as [|i].
      + cbn [nth]. unfold regz. destruct (Z.ltb_spec (Z.of_nat (S n) - Z.of_nat 1) 0); [lia|]. replace (Z.to_nat (Z.of_nat (S n) - Z.of_nat 1)) with n by lia.
        unfold reg. rewrite E. reflexivity.
      + cbn [nth]. specialize (IH (S i) ltac:(lia)). cbn [nth] in IH. rewrite IH. f_equal. lia.
  Qed.
  Lemma regz_nat n : regz (Z.of_nat n) = reg n.
  Proof. unfold regz. destruct (Z.ltb_spec (Z.of_nat n) 0); [lia|]. rewrite Nat2Z.id. reflexivity. Qed.
  Lemma regz_before m : (m <= - Z.of_nat (length b))%Z -> regz m = zero.
  Proof. intros H. unfold regz. destruct b; [congruence|]. cbn [length] in *. destruct (Z.ltb_spec m 0); [|lia]. apply nth_overflow. lia. Qed.
End States.

(** ** Dot products over complex numbers *)
Lemma dot_cons (x : C) (l : list C) (y : C) (m : list C) : length l = length m -> @dot CA (x :: l) (y :: m) = x * y + @dot CA l m.
Proof.
  intros H. rewrite (law_dot CA_laws (x :: l) (y :: m) (f_equal S H)), (law_dot CA_laws l m H). change (@length CA (x :: l)) with (S (@length C l)). change (@length CA l) with (@length C l). rewrite (bigsum_S_l CA CA_laws). reflexivity.
Qed.
Lemma dot_lagged (l : list C) : forall (m : list C) (W : Z -> C) n, length l = length m -> (forall i, (i < length m)%nat -> nth i m (RtoC 0) = W (n - Z.of_nat i)%Z) ->
  @dot CA l m = lagged l W n.
Proof.
  induction l as [|x l IH]; intros [|y m] W n HL H; try discriminate; [reflexivity|]. rewrite dot_cons by (cbn in HL; congruence). cbn [lagged].
  pose proof (H 0%nat ltac:(cbn; lia)) as H0. cbn [nth] in H0. rewrite Z.sub_0_r in H0. rewrite H0. f_equal. apply IH; [cbn in HL; congruence|].
  intros i Hi. specialize (H (S i) ltac:(cbn; lia)). cbn [nth] in H. rewrite H. f_equal. lia.
Qed.
Lemma absdot_le (l : list C) : forall (m : list C) B, (0 <= B)%R -> (forall i, (i < length m)%nat -> (Cmod (nth i m (RtoC 0)) <= B)%R) -> (absdot l m <= l1 l * B)%R.
Proof.
  induction l as [|x l IH]; intros [|y m] B HB H; cbn [absdot l1]; [lra|lra|apply Rmult_le_pos; [exact (l1_nonneg (x :: l))|exact HB]|].
  pose proof (H 0%nat ltac:(cbn; lia)) as H0. cbn [nth] in H0. specialize (IH m B HB ltac:(intros i Hi; apply (H (S i)); cbn; lia)).
  assert (Cmod x * Cmod y <= Cmod x * B)%R by (apply Rmult_le_compat_l; [apply Cmod_ge_0|exact H0]). lra.
Qed.
Lemma absdot_nonneg l : forall m, (0 <= absdot l m)%R.
Proof. induction l as [|x l IH]; intros [|y m]; cbn [absdot]; try lra. specialize (IH m). pose proof (Cmod_ge_0 x). pose proof (Cmod_ge_0 y). nra. Qed.
Lemma dot_bound (l : list C) : forall m : list C, length l = length m -> (Cmod (@dot CA l m) <= absdot l m)%R.
Proof.
  induction l as [|x l IH]; intros [|y m] H; try discriminate; [cbn; rewrite Cmod_0; lra|]. rewrite dot_cons by (cbn in H; congruence). cbn [absdot].
  eapply Rle_trans; [apply Cmod_triangle|]. rewrite Cmod_mult. specialize (IH m ltac:(cbn in H; congruence)). lra.
Qed.
(** Storing is a projection: it does not increase the distance to what can be stored. *)
Lemma cast_close dt (x z : C) : dt <> DInt -> @fits CA dt z -> (Cmod (@cast CA dt x - z)%C <= Cmod (x - z)%C)%R.
Proof.
  intros Hd Hz. destruct dt; [congruence| |cbn; lra]. unfold fits in Hz. cbn in *. rewrite <- Hz. destruct x as [x y]. cbn.
  unfold Cmod. apply sqrt_le_1_alt. cbn. nra.
Qed.
Lemma fits_lagged dt c W n : Forall (@fits CA dt) c -> (forall m, (m <= n)%Z -> @fits CA dt (W m)) -> @fits CA dt (lagged c W n).
Proof.
  intros H. revert n. induction H as [|x c Hx _ IH]; intros n HW; cbn [lagged]; [apply (law_fits_zero CA_laws)|].
  apply (law_fits_add CA_laws); [apply (law_fits_mul CA_laws); [exact Hx|apply HW; lia]|apply IH; intros m Hm; apply HW; lia].
Qed.
Lemma tri3 (x y z w : C) (e1 e2 e3 : R) : (Cmod (x - y)%C <= e1)%R -> (Cmod (y - z)%C <= e2)%R -> (Cmod (z - w)%C <= e3)%R -> (Cmod (x - w)%C <= e1 + e2 + e3)%R.
Proof.
  intros H1 H2 H3. replace (x - w) with ((x - y) + ((y - z) + (z - w))) by ring. eapply Rle_trans; [apply Cmod_triangle|].
  pose proof (Cmod_triangle (y - z) (z - w)). lra.
Qed.
Lemma near (x y : C) e : (Cmod (x - y)%C <= e)%R -> (Cmod x <= Cmod y + e)%R.
Proof. intros H. replace x with (y + (x - y)) by ring. eapply Rle_trans; [apply Cmod_triangle|]. lra. Qed.

Lemma dot_reg_gen (a t : list C) W n : nth 0 a (RtoC 0) = RtoC 0 -> length a = length t -> (forall i, (0 < i < length t)%nat -> nth i t (RtoC 0) = W (n - Z.of_nat i)%Z) ->
  @dot CA a t = lagged (tl a) W (n - 1)%Z.
Proof.
  intros H0 L R. destruct a as [|a0 a], t as [|s0 t]; try discriminate; [reflexivity|]. cbn [nth tl] in *. subst a0. cbn [length] in *. rewrite dot_cons by lia.
  rewrite (dot_lagged a t W (n - 1)%Z); [rewrite Cmult_0_l, Cplus_0_l; reflexivity|lia|]. intros i Hi. specialize (R (S i) ltac:(lia)). cbn [nth] in R. rewrite R. f_equal. lia.
Qed.
Lemma absdot_reg_gen (a t : list C) B : nth 0 a (RtoC 0) = RtoC 0 -> (0 <= B)%R -> (forall i, (0 < i < length t)%nat -> (Cmod (nth i t (RtoC 0)) <= B)%R) ->
  (absdot a t <= l1 (tl a) * B)%R.
Proof.
  intros H0 HB R. destruct a as [|a0 a]; [cbn; lra|]. cbn [nth tl] in *. subst a0. destruct t as [|s0 t]; [cbn [absdot]; apply Rmult_le_pos; [apply l1_nonneg|exact HB]|].
  cbn [absdot]. rewrite Cmod_0, Rmult_0_l, Rplus_0_l. apply absdot_le; [exact HB|]. intros i Hi. apply (R (S i)). cbn [length]. lia.
Qed.

Section Rounded.
  Variable b : list C.
  Variables (u eta : R) (radd rmul : C -> C -> C) (rdot : list C -> list C -> C) (rcast : dtype -> C -> C).
  Hypotheses (Hr : rounds (length b) u eta radd rmul rdot rcast) (Hu : (0 <= u <= 1)%R) (He : (0 <= eta <= 1)%R).
  Let A := RndA radd rmul rdot rcast.
  Variables (dt : dtype) (a s : list C) (x : nat -> C) (M : R).
  Hypotheses (Hd : dt <> DInt) (Hb : b <> []) (Ha : length a = length b) (Hs : length s = length b) (Ha0 : nth 0 a (RtoC 0) = RtoC 0).
  Hypotheses (Fa : Forall (@fits CA dt) a) (Fb : Forall (@fits CA dt) b) (Fs : Forall (@fits CA dt) s) (Fx : forall n, @fits CA dt (x n)).
  Hypotheses (Ms : forall i, (Cmod (nth i s (RtoC 0)) <= M)%R) (Mx : forall n, (Cmod (x n) <= M)%R).
  Let M0 : (0 <= M)%R. Proof. eapply Rle_trans; [apply Cmod_ge_0|apply (Mx 0%nat)]. Qed.
  Let S := @st A dt a s x.
  Let W := @regz A dt a s x.
  Let inp (n : nat) : C := nth 0 (S n) (RtoC 0).

  Lemma S_length n : length (S n) = length b.
  Proof. apply (@st_length A dt a b s x); assumption. Qed.
  Lemma S_reg n i : (0 < i < length b)%nat -> nth i (S n) (RtoC 0) = W (Z.of_nat n - Z.of_nat i)%Z.
  Proof. apply (@st_reg A dt a b s x); assumption. Qed.
  Lemma nth_fits l i : Forall (@fits CA dt) l -> @fits CA dt (nth i l (RtoC 0)).
  Proof. intros H. destruct (Nat.lt_ge_cases i (length l)) as [L|L]; [apply Forall_nth; assumption|]. rewrite nth_overflow by exact L. apply (law_fits_zero CA_laws). Qed.
  Lemma W_fits m : @fits CA dt (W m).
  Proof. unfold W, regz. destruct (m <? 0)%Z; [apply nth_fits, Fs|]. unfold reg. apply (rd_fits _ _ _ _ _ _ _ Hr), Hd. Qed.
  Lemma inp_fits n : @fits CA dt (inp n).
  Proof. unfold inp, S. destruct n as [|n]; [apply nth_fits, Fs|]. cbn [st nth]. apply (rd_fits _ _ _ _ _ _ _ Hr), Hd. Qed.
  Lemma inp_close n : (Cmod (inp n - match n with 0%nat => nth 0 s (RtoC 0) | Datatypes.S m => x m end)%C <= u * M + eta)%R.
  Proof.
    unfold inp, S. destruct n as [|n]; [cbn [st]; unfold Cminus; rewrite Cplus_opp_r, Cmod_0; nra|].
    cbn [st nth]. eapply Rle_trans; [rewrite <- (Fx n) at 2; apply (rd_cast _ _ _ _ _ _ _ Hr), Hd|]. specialize (Mx n). nra.
  Qed.
  Lemma inp_bound n : (Cmod (inp n) <= 2 * M + eta)%R.
  Proof.
    eapply Rle_trans; [apply (near _ _ _ (inp_close n))|]. assert (K : (Cmod (match n with 0%nat => nth 0 s (RtoC 0) | Datatypes.S m => x m end) <= M)%R) by (destruct n; [apply Ms|apply Mx]). nra.
  Qed.
  Lemma dot_reg n : @dot CA a (S n) = lagged (tl a) W (Z.of_nat n - 1)%Z.
  Proof. apply dot_reg_gen; [exact Ha0|rewrite S_length; exact Ha|]. intros i Hi. rewrite S_length in Hi. apply S_reg, Hi. Qed.
  Lemma absdot_reg n B : (0 <= B)%R -> (forall m, (m < Z.of_nat n)%Z -> (Cmod (W m) <= B)%R) -> (absdot a (S n) <= l1 (tl a) * B)%R.
  Proof.
    intros HB HW. apply absdot_reg_gen; [exact Ha0|exact HB|]. intros i Hi. rewrite S_length in Hi. rewrite S_reg by exact Hi. apply HW. lia.
  Qed.
  (** One step of the recursion, with its local error. *)
  Lemma reg_step n B : (0 <= B)%R -> (forall m, (m < Z.of_nat n)%Z -> (Cmod (W m) <= B)%R) ->
    (Cmod (W (Z.of_nat n) - (inp n + lagged (tl a) W (Z.of_nat n - 1)))%C <= 20 * (u * (M + l1 (tl a) * B) + eta))%R.
  Proof.
    intros HB HW. pose proof (l1_nonneg (tl a)) as L0. set (Q := (l1 (tl a) * B)%R). assert (Q0 : (0 <= Q)%R) by (apply Rmult_le_pos; assumption).
    unfold W at 1. rewrite (@regz_nat A dt a b s x) by assumption. unfold reg. fold (S n). change (nth 0 (S n) (@zero A)) with (inp n). change (@cast A) with rcast. change (@add A) with radd. change (@dot A) with rdot.
    set (d := rdot a (S n)). set (z := inp n + lagged (tl a) W (Z.of_nat n - 1)%Z).
    assert (E1 : (Cmod (d - lagged (tl a) W (Z.of_nat n - 1))%C <= u * Q + eta)%R).
    { rewrite <- dot_reg. eapply Rle_trans; [apply (rd_dot _ _ _ _ _ _ _ Hr); [exact Ha|apply S_length]|]. pose proof (absdot_reg n B HB HW). unfold Q. nra. }
    assert (Zb : (Cmod (lagged (tl a) W (Z.of_nat n - 1)) <= Q)%R) by (apply lagged_upto; [exact HB|intros m Hm; apply HW; lia]).
    pose proof (inp_bound n) as Ib. pose proof (near _ _ _ E1) as Db.
    assert (E2 : (Cmod (radd (inp n) d - (inp n + d))%C <= u * (2 * M + 2 * Q) + 3 * eta)%R).
    { eapply Rle_trans; [apply (rd_add _ _ _ _ _ _ _ Hr)|]. pose proof (Cmod_triangle (inp n) d). 
      assert (Cmod (inp n + d)%C <= 2 * M + eta + (Q + (u * Q + eta)))%R by lra. assert (u * Q <= Q)%R by nra. assert (u * Cmod (inp n + d)%C <= u * (2 * M + 2 * Q + 2 * eta))%R by (apply Rmult_le_compat_l; lra). nra. }
    assert (Zz : (Cmod (inp n + d - z)%C <= u * Q + eta)%R) by (unfold z; replace (inp n + d - (inp n + lagged (tl a) W (Z.of_nat n - 1))) with (d - lagged (tl a) W (Z.of_nat n - 1)%Z) by ring; exact E1).
    assert (E3 : (Cmod (radd (inp n) d - z)%C <= u * (2 * M + 3 * Q) + 4 * eta)%R).
    { replace (radd (inp n) d - z) with ((radd (inp n) d - (inp n + d)) + (inp n + d - z)) by ring. eapply Rle_trans; [apply Cmod_triangle|]. lra. }
    assert (Fz : @fits CA dt z).
    { unfold z. apply (law_fits_add CA_laws); [apply inp_fits|]. apply fits_lagged; [|intros m _; apply W_fits]. destruct a; [constructor|]. inversion Fa; assumption. }
    pose proof (cast_close dt (radd (inp n) d) z Hd Fz) as E4.
    pose proof (rd_cast _ _ _ _ _ _ _ Hr dt (radd (inp n) d) Hd) as E5.
    assert (Zm : (Cmod z <= 2 * M + eta + Q)%R) by (unfold z; eapply Rle_trans; [apply Cmod_triangle|]; lra).
    pose proof (near _ _ _ E3) as Vb.
    replace (rcast dt (radd (inp n) d) - z) with ((rcast dt (radd (inp n) d) - @cast CA dt (radd (inp n) d)) + (@cast CA dt (radd (inp n) d) - z)) by ring.
    eapply Rle_trans; [apply Cmod_triangle|]. assert (u * M <= M)%R by nra. assert (u * Q <= Q)%R by nra. assert (u * eta <= eta)%R by nra.
    assert (u * Cmod (radd (inp n) d) <= u * (4 * M + 4 * Q + 5 * eta))%R by (apply Rmult_le_compat_l; lra). nra.
  Qed.

  (** The register stays bounded: the local errors feed a stable recursion. *)
  Variable poles : list C.
  Hypotheses (Hp : Forall (fun z => (Cmod z < 1)%R) poles) (Hden : denominator a = cpoly poles).
  Let G := (/ margin poles)%R.
  Let L := (1 + l1 (tl a))%R.
  Hypothesis Hsmall : (40 * G * L * u <= 1)%R.
  Let G0 : (0 < G)%R. Proof. apply Rinv_0_lt_compat, margin_pos, Hp. Qed.
  Let L1 : (1 <= L)%R. Proof. unfold L. pose proof (l1_nonneg (tl a)). lra. Qed.
  Lemma W_past m : (m < 0)%Z -> (Cmod (W m) <= M)%R.
  Proof. intros H. unfold W, regz. destruct (Z.ltb_spec m 0); [apply Ms|lia]. Qed.
  Lemma W_before m : (m < - Z.of_nat (length b))%Z -> W m = RtoC 0.
  Proof. intros H. apply (@regz_before A dt a b s x); try assumption. apply Z.lt_le_incl, H. Qed.
  Lemma W_bounded m : (Cmod (W m) <= 46 * (G * L + 1) * (M + eta))%R.
  Proof.
    set (B := (46 * (G * L + 1) * (M + eta))%R). assert (GL : (0 < G * L)%R) by (apply Rmult_lt_0_compat; lra).
    assert (B0 : (0 <= B)%R) by (unfold B; apply Rmult_le_pos; lra).
    assert (MB : (M <= B)%R) by (unfold B; assert (0 <= G * L * (M + eta))%R by (apply Rmult_le_pos; lra); lra).
    destruct (Z_lt_le_dec m 0) as [Hm|Hm]; [eapply Rle_trans; [apply W_past, Hm|exact MB]|].
    replace m with (Z.of_nat (Z.to_nat m)) by lia. generalize (Z.to_nat m) as n. clear m Hm. intros n. induction n as [n IH] using lt_wf_ind.
    assert (Hlow : forall m, (m < Z.of_nat n)%Z -> (Cmod (W m) <= B)%R).
    { intros m Hm. destruct (Z_lt_le_dec m 0) as [Hn|Hn]; [eapply Rle_trans; [apply W_past, Hn|exact MB]|].
      replace m with (Z.of_nat (Z.to_nat m)) by lia. apply IH. lia. }
    set (D := (L * (2 * M + eta) + 20 * (u * (M + l1 (tl a) * B) + eta))%R).
    pose proof (l1_nonneg (tl a)) as N1. assert (LB : (0 <= l1 (tl a) * B)%R) by (apply Rmult_le_pos; assumption).
    assert (E0 : (0 <= 20 * (u * (M + l1 (tl a) * B) + eta))%R) by nra.
    assert (D0 : (0 <= D)%R) by (unfold D; nra).
    assert (K : (Cmod (W (Z.of_nat n)) <= D / margin poles)%R).
    { apply (poles_upto poles W D (- Z.of_nat (length b))%Z (Z.of_nat n) Hp D0 W_before); [|lia]. intros k Hk. rewrite <- Hden, lagged_denominator.
      destruct (Z_lt_le_dec k 0) as [Hn|Hn].
      - replace (W k - lagged (tl a) W (k - 1)) with (W k + - lagged (tl a) W (k - 1)%Z) by ring. eapply Rle_trans; [apply Cmod_triangle|]. rewrite Cmod_opp.
        pose proof (W_past k Hn). assert (Cmod (lagged (tl a) W (k - 1)) <= l1 (tl a) * M)%R by (apply lagged_upto; [exact M0|intros j Hj; apply W_past; lia]).
        unfold D, L. unfold L in D0, L1. assert (0 <= l1 (tl a) * M)%R by nra. assert (0 <= l1 (tl a) * eta)%R by nra. nra.
      - replace k with (Z.of_nat (Z.to_nat k)) by lia. set (j := Z.to_nat k). assert (Hj : (j <= n)%nat) by lia.
        pose proof (reg_step j B B0 ltac:(intros i Hi; apply Hlow; lia)) as R. pose proof (inp_bound j) as I.
        replace (W (Z.of_nat j) - lagged (tl a) W (Z.of_nat j - 1)) with ((W (Z.of_nat j) - (inp j + lagged (tl a) W (Z.of_nat j - 1))) + inp j) by ring.
        eapply Rle_trans; [apply Cmod_triangle|]. unfold D. assert (0 <= 2 * M + eta)%R by lra. assert ((2 * M + eta) <= L * (2 * M + eta))%R by nra. lra. }
    eapply Rle_trans; [exact K|]. unfold Rdiv. fold G. unfold D.
    assert (U1 : (20 * G * (u * (l1 (tl a) * B)) <= B / 2)%R).
    { assert (l1 (tl a) <= L)%R by (unfold L; lra). assert (l1 (tl a) * B <= L * B)%R by (apply Rmult_le_compat_r; assumption).
      assert (0 <= 20 * G * u)%R by nra. assert (20 * G * u * (l1 (tl a) * B) <= 20 * G * u * (L * B))%R by (apply Rmult_le_compat_l; assumption).
      assert (40 * G * L * u * B <= 1 * B)%R by (apply Rmult_le_compat_r; assumption). lra. }
    assert (U2 : (20 * G * (u * M) <= 20 * G * M)%R) by (assert (u * M <= M)%R by nra; nra).
    assert (U3 : (G * M <= G * L * M)%R) by (assert (0 <= G * M)%R by nra; nra). assert (U4 : (G * eta <= G * L * eta)%R) by (assert (0 <= G * eta)%R by nra; nra).
    assert (U5 : (B = 46 * (G * L * M) + 46 * M + 46 * (G * L * eta) + 46 * eta)%R) by (unfold B; ring).
    assert (0 <= G * L * M)%R by nra. assert (0 <= G * L * eta)%R by nra. lra.
  Qed.
End Rounded.

(** ** Outputs *)
Lemma cvec_len {A : Arith} (a b : list A) : length a = length b -> length (cvec a b) = length b.
Proof. intros H. unfold cvec. rewrite map_length, combine_length, H. apply Nat.min_id. Qed.
Lemma Cdiff0 (p q : C) : p - q = RtoC 0 -> p = q.
Proof. intros H. transitivity (q + (p - q)); [ring|]. rewrite H. ring. Qed.
Local Arguments Cmod _%C.
Fixpoint l1d (c d : list C) : R := match c, d with x :: c', y :: d' => (Cmod (x - y)%C + l1d c' d')%R | _, _ => 0%R end.
Lemma l1d_nonneg c : forall d, (0 <= l1d c d)%R.
Proof. induction c as [|x c IH]; intros [|y d]; cbn [l1d]; try lra. specialize (IH d). pose proof (Cmod_ge_0 (x - y)). lra. Qed.
Lemma dot_dev (c' : list C) : forall (c t' t : list C) B D, length c' = length c -> length c = length t' -> length c = length t -> (0 <= B)%R -> (0 <= D)%R ->
  (forall i, (i < length c)%nat -> (Cmod (nth i t' (RtoC 0)) <= B)%R /\ (Cmod (nth i t' (RtoC 0) - nth i t (RtoC 0))%C <= D)%R) ->
  (Cmod (@dot CA c' t' - @dot CA c t)%C <= l1d c' c * B + l1 c * D)%R /\ (absdot c' t' <= (l1 c + l1d c' c) * B)%R.
Proof.
  induction c' as [|x' c' IH]; intros [|x c] [|y' t'] [|y t] B D H1 H2 H3 HB HD H; try discriminate.
  - cbn [absdot l1 l1d]. split; [|lra]. change (Cmod (RtoC 0 - RtoC 0)%C <= 0 * B + 0 * D)%R. replace (RtoC 0 - RtoC 0) with (RtoC 0) by ring. rewrite Cmod_0. lra.
  - cbn [length] in *. destruct (H 0%nat ltac:(lia)) as [A1 A2]. cbn [nth] in A1, A2.
    destruct (IH c t' t B D ltac:(lia) ltac:(lia) ltac:(lia) HB HD) as [I1 I2]; [intros i Hi; apply (H (S i)); lia|].
    rewrite !dot_cons by lia. cbn [absdot l1 l1d]. pose proof (Cmod_ge_0 x) as P1. pose proof (Cmod_ge_0 (x' - x)) as P2. pose proof (Cmod_ge_0 y') as P3. split.
    + set (p := @dot CA c' t' : C) in *. set (q := @dot CA c t : C) in *. replace (x' * y' + p - (x * y + q)) with ((x' - x) * y' + x * (y' - y) + (p - q)) by ring.
      eapply Rle_trans; [apply Cmod_triangle|]. pose proof (Cmod_triangle ((x' - x) * y') (x * (y' - y))) as T. rewrite !Cmod_mult in T.
      assert (Cmod (x' - x) * Cmod y' <= Cmod (x' - x) * B)%R by (apply Rmult_le_compat_l; assumption).
      assert (Cmod x * Cmod (y' - y) <= Cmod x * D)%R by (apply Rmult_le_compat_l; assumption). lra.
    + assert (N : (Cmod x' <= Cmod x + Cmod (x' - x))%R) by (apply near; lra).
      assert (Cmod x' * Cmod y' <= (Cmod x + Cmod (x' - x)) * B)%R by (apply Rmult_le_compat; try assumption; apply Cmod_ge_0). lra.
Qed.
(** Sum of |a[i] b[0]| + |b[i]|. *)
Definition cw (b0 : C) (l : list (C * C)) : R := fold_right (fun p r => (Cmod (fst p) * Cmod b0 + Cmod (snd p) + r)%R) 0%R l.
Lemma cw_nonneg b0 l : (0 <= cw b0 l)%R.
Proof. induction l as [|p l IH]; cbn [cw fold_right]; [lra|]. fold (cw b0 l). pose proof (Cmod_ge_0 (fst p)). pose proof (Cmod_ge_0 b0). pose proof (Cmod_ge_0 (snd p)). nra. Qed.
Lemma cvec_dev k u eta radd rmul rdot rcast b0 (l : list (C * C)) : rounds k u eta radd rmul rdot rcast -> (0 <= u <= 1)%R -> (0 <= eta)%R ->
  (l1d (map (fun p => radd (rmul (fst p) b0) (snd p)) l) (map (fun p => (fst p * b0 + snd p)%C) l) <= 3 * (u * cw b0 l + INR (length l) * eta))%R /\
  (l1 (map (fun p => (fst p * b0 + snd p)%C) l) <= cw b0 l)%R.
Proof.
  intros Hr Hu He. induction l as [|[p q] l [IH1 IH2]]; [cbn; lra|]. cbn [map l1d l1 cw fold_right fst snd]. fold (cw b0 l). cbn [length]. rewrite S_INR.
  pose proof (rd_mul _ _ _ _ _ _ _ Hr p b0) as E1. pose proof (rd_add _ _ _ _ _ _ _ Hr (rmul p b0) q) as E2.
  pose proof (near _ _ _ E1) as N1. rewrite Cmod_mult in *. pose proof (Cmod_ge_0 p) as P1. pose proof (Cmod_ge_0 b0) as P2. pose proof (Cmod_ge_0 q) as P3.
  set (w := (Cmod p * Cmod b0)%R) in *. assert (W0 : (0 <= w)%R) by (apply Rmult_le_pos; assumption). split.
  - assert (K : (Cmod (radd (rmul p b0) q - (p * b0 + q))%C <= 3 * (u * (w + Cmod q) + eta))%R).
    { replace (radd (rmul p b0) q - (p * b0 + q)) with ((radd (rmul p b0) q - (rmul p b0 + q)) + (rmul p b0 - p * b0)) by ring. eapply Rle_trans; [apply Cmod_triangle|].
      pose proof (Cmod_triangle (rmul p b0) q) as T. assert (u * w <= w)%R by nra. assert (u * Cmod (rmul p b0 + q)%C <= u * (2 * w + eta + Cmod q))%R by (apply Rmult_le_compat_l; lra).
      assert (u * eta <= eta)%R by nra. assert (0 <= u * Cmod q)%R by nra. lra. }
    lra.
  - pose proof (Cmod_triangle (p * b0) q) as T. rewrite Cmod_mult in T. fold w in T. lra.
Qed.

Lemma finite_max (V : Z -> C) (n : Z) k : (forall m, (m <= - k)%Z -> V m = RtoC 0) -> exists B, (0 <= B)%R /\ forall m, (m < n)%Z -> (Cmod (V m) <= B)%R.
Proof.
  intros H. assert (G : forall j : nat, exists B, (0 <= B)%R /\ forall m, (m <= - k + Z.of_nat j)%Z -> (Cmod (V m) <= B)%R).
  { induction j as [|j (B & B0 & IH)]; [exists 0%R; split; [lra|]; intros m Hm; rewrite H by lia; rewrite Cmod_0; lra|].
    exists (B + Cmod (V (- k + Z.of_nat (S j))%Z))%R. pose proof (Cmod_ge_0 (V (- k + Z.of_nat (S j))%Z)) as P. split; [lra|]. intros m Hm.
    destruct (Z.eq_dec m (- k + Z.of_nat (S j))) as [->|N]; [lra|]. specialize (IH m ltac:(lia)). lra. }
  destruct (G (Z.to_nat (n + k))) as (B & B0 & HB). exists B. split; [exact B0|]. intros m Hm. apply HB. lia.
Qed.
Lemma fits_dot dt (l m : list C) : Forall (@fits CA dt) l -> Forall (@fits CA dt) m -> @fits CA dt (@dot CA l m).
Proof.
  intros Hl. revert m. cbn [dot CA]. assert (G : forall acc, @fits CA dt acc -> forall m, Forall (@fits CA dt) m -> @fits CA dt (dot_from Cplus Cmult acc l m)).
  { induction Hl as [|x l Hx _ IH]; intros acc Hacc m Hm; [exact Hacc|]. destruct Hm as [|y m Hy Hm]; [exact Hacc|]. cbn [dot_from]. apply IH; [|exact Hm].
    apply (law_fits_add CA_laws); [exact Hacc|]. apply (law_fits_mul CA_laws); assumption. }
  apply G. apply (law_fits_zero CA_laws).
Qed.
Lemma firstn_In_C {X} (l : list X) n z : In z (firstn n l) -> In z l.
Proof. revert n. induction l as [|y l IH]; intros [|n]; cbn; try tauto. intros [H|H]; [left; exact H|right; apply (IH n), H]. Qed.
Lemma st_fits dt (a s : list C) (x : nat -> C) n : Forall (@fits CA dt) s -> (forall n, @fits CA dt (x n)) -> Forall (@fits CA dt) (@st CA dt a s x n).
Proof.
  intros Hs Hx. induction n as [|n IH]; [exact Hs|]. cbn [st]. constructor; [apply (law_cast_idem CA_laws)|].
  destruct (@st CA dt a s x n) as [|s0 t]; [constructor|]. cbn [hist]. apply Forall_forall; intros z Hz; apply firstn_In_C in Hz; revert z Hz; apply Forall_forall. constructor; [apply (law_cast_idem CA_laws)|]. inversion IH; assumption.
Qed.
Definition exactA := RndA Cplus Cmult (@dot CA) (@cast CA).
Lemma exact_rounds k : rounds k 0 0 Cplus Cmult (@dot CA) (@cast CA).
Proof.
  split.
  - intros x y. replace (x + y - (x + y)) with (RtoC 0) by ring. rewrite Cmod_0. lra.
  - intros x y. replace (x * y - x * y) with (RtoC 0) by ring. rewrite Cmod_0. lra.
  - intros l m _ _. unfold Cminus. rewrite Cplus_opp_r, Cmod_0. lra.
  - intros dt x _. unfold Cminus. rewrite Cplus_opp_r, Cmod_0. lra.
  - intros dt x _. apply (law_cast_idem CA_laws).
Qed.

(** The constants depend on the coefficients only. *)
Definition kdev (G L : R) : R := (G * (21 + 920 * (L * (G * L + 1))))%R.
Definition kout (G L C1 k : R) : R := (46 * (G * L + 1) * (3 * (C1 + k) + 3 * (4 * C1 + 3 * k)) + C1 * (kdev G L + 1) + 3)%R.

Section Compare.
  Variable b : list C.
  Variables (u eta : R) (radd rmul : C -> C -> C) (rdot : list C -> list C -> C) (rcast : dtype -> C -> C).
  Hypotheses (Hr : rounds (length b) u eta radd rmul rdot rcast) (Hu : (0 <= u <= 1)%R) (He : (0 <= eta <= 1)%R).
  Let A := RndA radd rmul rdot rcast.
  Variables (dt : dtype) (a s : list C) (x : nat -> C) (M : R) (poles : list C).
  Hypotheses (Hd : dt <> DInt) (Hb : b <> []) (Ha : length a = length b) (Hs : length s = length b) (Ha0 : nth 0 a (RtoC 0) = RtoC 0).
  Hypotheses (Fa : Forall (@fits CA dt) a) (Fb : Forall (@fits CA dt) b) (Fs : Forall (@fits CA dt) s) (Fx : forall n, @fits CA dt (x n)).
  Hypotheses (Ms : forall i, (Cmod (nth i s (RtoC 0)) <= M)%R) (Mx : forall n, (Cmod (x n) <= M)%R).
  Hypotheses (Hp : Forall (fun z => (Cmod z < 1)%R) poles) (Hden : denominator a = cpoly poles).
  Let G := (/ margin poles)%R.
  Let L := (1 + l1 (tl a))%R.
  Hypothesis Hsmall : (40 * G * L * u <= 1)%R.
  Let W := @regz A dt a s x.
  Let V := @regz CA dt a s x.
  Lemma cmp_consts : (0 < G)%R /\ (1 <= L)%R /\ (0 <= M)%R.
  Proof.
    split; [apply Rinv_0_lt_compat, margin_pos, Hp|]. split; [unfold L; pose proof (l1_nonneg (tl a)); lra|].
    eapply Rle_trans; [apply Cmod_ge_0|apply (Mx 0%nat)].
  Qed.
  Lemma cmp_inputs n : (Cmod (nth 0 (@st A dt a s x n) (RtoC 0) - nth 0 (@st CA dt a s x n) (RtoC 0))%C <= u * M + eta)%R.
  Proof.
    pose proof (inp_close b u eta radd rmul rdot rcast Hr Hu He dt a s x M Hd Fx Mx n) as I1. fold A in I1.
    destruct n as [|n]; [exact I1|]. cbn [st nth] in *. rewrite (Fx n). exact I1.
  Qed.
  Lemma cmp_regs m : (Cmod (W m - V m)%C <= kdev G L * (u * M + eta))%R.
  Proof.
    destruct cmp_consts as (G0 & L1 & M0). set (B := (46 * (G * L + 1) * (M + eta))%R).
    assert (GL : (0 < G * L)%R) by (apply Rmult_lt_0_compat; lra). assert (B0 : (0 <= B)%R) by (unfold B; apply Rmult_le_pos; lra).
    set (E := (u * M + eta)%R). assert (E0 : (0 <= E)%R) by (unfold E; assert (0 <= u * M)%R by (apply Rmult_le_pos; lra); lra).
    assert (Bw : forall k, (Cmod (W k) <= B)%R).
    { intros k. apply (W_bounded b u eta radd rmul rdot rcast Hr Hu He dt a s x M Hd Hb Ha Hs Ha0 Fa Fs Fx Ms Mx poles Hp Hden Hsmall). }
    set (D := (20 * (u * (M + l1 (tl a) * B) + eta) + E)%R).
    pose proof (l1_nonneg (tl a)) as N1. assert (LB : (0 <= l1 (tl a) * B)%R) by (apply Rmult_le_pos; assumption).
    assert (D0 : (0 <= D)%R) by (unfold D; assert (0 <= u * (M + l1 (tl a) * B))%R by (apply Rmult_le_pos; lra); lra).
    assert (K : (Cmod (W m - V m)%C <= D / margin poles)%R).
    { apply (poles_upto poles (fun k => W k - V k) D 0%Z (Z.max m 0) Hp D0); [| |lia].
      - intros n Hn. unfold W, V, regz. destruct (Z.ltb_spec n 0); [|lia]. change (@zero A) with (@zero CA). unfold Cminus. apply Cplus_opp_r.
      - intros n _. rewrite <- Hden, lagged_denominator. rewrite (lagged_ext (tl a) (fun k => W k - V k) (fun k => W k + - (1) * V k)) by (intros; unfold Cminus; f_equal; ring).
        rewrite lagged_sum. replace (lagged (tl a) (fun k => - (1) * V k) (n - 1)) with (- lagged (tl a) V (n - 1)%Z).
        2:{ generalize (n - 1)%Z. clear. induction (tl a) as [|y l IH]; intros k; cbn [lagged]; [ring|]. rewrite <- IH. ring. }
        destruct (Z_lt_le_dec n 0) as [Hn|Hn].
        { assert (Q : forall k, (k < 0)%Z -> W k = V k) by (intros k Hk; unfold W, V, regz; destruct (Z.ltb_spec k 0); [reflexivity|lia]).
          rewrite Q by exact Hn. rewrite (lagged_ext (tl a) W V) by (intros k Hk; apply Q; lia).
          replace (V n - V n - (lagged (tl a) V (n - 1) + - lagged (tl a) V (n - 1))) with (RtoC 0) by ring. rewrite Cmod_0. exact D0. }
        replace n with (Z.of_nat (Z.to_nat n)) by lia. set (j := Z.to_nat n).
        pose proof (reg_step b u eta radd rmul rdot rcast Hr Hu He dt a s x M Hd Hb Ha Hs Ha0 Fa Fs Fx Ms Mx j B B0 (fun k _ => Bw k)) as R1.
        assert (R2 : V (Z.of_nat j) = nth 0 (@st CA dt a s x j) (RtoC 0) + lagged (tl a) V (Z.of_nat j - 1)%Z).
        { assert (U0 : (0 <= 0 <= 1)%R) by lra.
          destruct (finite_max V (Z.of_nat j) (Z.of_nat (length b))) as (B' & B0' & HB'); [intros k Hk; apply (@regz_before CA dt a b s x); try assumption; exact Hk|].
          pose proof (reg_step b 0 0 _ _ _ _ (exact_rounds _) U0 U0 dt a s x M Hd Hb Ha Hs Ha0 Fa Fs Fx Ms Mx j B' B0' (fun k Hk => HB' k Hk)) as R2.
          change (@regz (RndA Cplus Cmult (@dot CA) (@cast CA)) dt a s x) with V in R2. change (@st (RndA Cplus Cmult (@dot CA) (@cast CA)) dt a s x j) with (@st CA dt a s x j) in R2.
          assert (Z0 : (Cmod (V (Z.of_nat j) - (nth 0 (@st CA dt a s x j) (RtoC 0) + lagged (tl a) V (Z.of_nat j - 1)))%C <= 0)%R) by (eapply Rle_trans; [exact R2|]; lra).
          apply Rle_antisym in Z0; [|apply Cmod_ge_0]. symmetry in Z0. apply Cmod_eq_0 in Z0. apply Cdiff0, Z0. }
        pose proof (cmp_inputs j) as I. fold E in I. rewrite R2. fold A in R1. fold W in R1.
        match goal with |- (Cmod ?z <= _)%R => replace z with ((W (Z.of_nat j) - (nth 0 (@st A dt a s x j) (RtoC 0) + lagged (tl a) W (Z.of_nat j - 1)%Z)) + (nth 0 (@st A dt a s x j) (RtoC 0) - nth 0 (@st CA dt a s x j) (RtoC 0))) by ring end.
        eapply Rle_trans; [apply Cmod_triangle|]. unfold D. lra. }
    eapply Rle_trans; [exact K|]. unfold Rdiv. fold G. unfold kdev, D.
    assert (uB : (u * (l1 (tl a) * B) <= 46 * (L * (G * L + 1)) * E)%R).
    { unfold B, E. assert (H1 : (u * (M + eta) <= u * M + eta)%R) by nra. assert (H2 : (0 <= 46 * (G * L + 1))%R) by lra.
      assert (H3 : (l1 (tl a) <= L)%R) by (unfold L; lra). assert (H4 : (0 <= u * (M + eta))%R) by nra.
      replace (u * (l1 (tl a) * (46 * (G * L + 1) * (M + eta))))%R with (46 * (G * L + 1) * (l1 (tl a) * (u * (M + eta))))%R by ring.
      replace (46 * (L * (G * L + 1)) * (u * M + eta))%R with (46 * (G * L + 1) * (L * (u * M + eta)))%R by ring.
      apply Rmult_le_compat_l; [exact H2|]. apply Rmult_le_compat; assumption. }
    assert (D1 : (20 * (u * (M + l1 (tl a) * B) + eta) + E <= (21 + 920 * (L * (G * L + 1))) * E)%R) by (unfold E in *; lra).
    rewrite (Rmult_comm _ G), Rmult_assoc. apply Rmult_le_compat_l; [lra|exact D1].
  Qed.
  Lemma cmp_outputs n : (Cmod (@outp A dt a b s x n - @outp CA dt a b s x n)%C <= kout G L (cw (nth 0 b (RtoC 0)) (combine a b)) (INR (length b)) * (u * M + eta * (1 + M)))%R.
  Proof.
    destruct cmp_consts as (G0 & L1 & M0). set (C1 := cw _ _). set (k := INR (length b)). set (b0 := nth 0 b (RtoC 0)) in *.
    assert (GL : (0 < G * L)%R) by (apply Rmult_lt_0_compat; lra).
    set (E := (u * M + eta)%R). set (F := (u * M + eta * (1 + M))%R). assert (UM : (0 <= u * M)%R) by (apply Rmult_le_pos; lra). assert (EM : (0 <= eta * M)%R) by (apply Rmult_le_pos; lra).
    assert (E0 : (0 <= E)%R) by (unfold E; lra). assert (EF : (E <= F)%R) by (unfold E, F; lra).
    set (B := (46 * (G * L + 1) * (M + eta))%R). assert (B0 : (0 <= B)%R) by (unfold B; apply Rmult_le_pos; lra).
    set (KD := kdev G L). assert (KD0 : (0 <= KD)%R). { unfold KD, kdev. assert (0 <= L * (G * L + 1))%R by (apply Rmult_le_pos; lra). apply Rmult_le_pos; lra. }
    assert (KE : (0 <= KD * E)%R) by (apply Rmult_le_pos; assumption).
    assert (C0 : (0 <= C1)%R) by apply cw_nonneg. assert (k0 : (0 <= k)%R) by apply pos_INR.
    set (c' := @cvec A a b). set (c := @cvec CA a b). set (t' := @st A dt a s x (S n)). set (t := @st CA dt a s x (S n)).
    assert (Lc' : length c' = length b) by exact (@cvec_len A a b Ha).
    assert (Lc : length c = length b) by exact (@cvec_len CA a b Ha).
    assert (Lt' : length t' = length b) by (apply (@st_length A dt a b s x); assumption). assert (Lt : length t = length b) by (apply (@st_length CA dt a b s x); assumption).
    destruct (cvec_dev (length b) u eta radd rmul rdot rcast b0 (combine a b) Hr Hu (proj1 He)) as [V1 V2].
    change (map (fun p => radd (rmul (fst p) b0) (snd p)) (combine a b)) with c' in V1. change (map (fun p => (fst p * b0 + snd p)%C) (combine a b)) with c in V1, V2. fold C1 in V1, V2.
    rewrite combine_length, Ha, Nat.min_id in V1. fold k in V1.
    destruct (dot_dev c' c t' t B ((KD + 1) * E)) as [Dv Ab]; [exact (eq_trans Lc' (eq_sym Lc))|exact (eq_trans Lc (eq_sym Lt'))|exact (eq_trans Lc (eq_sym Lt))|exact B0|apply Rmult_le_pos; lra| |].
    { intros i Hi0. assert (Hi : (i < length b)%nat) by exact (eq_ind _ (fun k => (i < k)%nat) Hi0 _ Lc). clear Hi0. destruct i as [|i].
      - pose proof (inp_bound b u eta radd rmul rdot rcast Hr Hu He dt a s x M Hd Fx Ms Mx (S n)) as Ib. pose proof (cmp_inputs (S n)) as Ic. fold E in Ic.
        change (Cmod (nth 0 t' (RtoC 0)) <= 2 * M + eta)%R in Ib. change (Cmod (nth 0 t' (RtoC 0) - nth 0 t (RtoC 0))%C <= E)%R in Ic. split.
        + eapply Rle_trans; [exact Ib|]. unfold B. assert (0 <= G * L * (M + eta))%R by (apply Rmult_le_pos; lra). lra.
        + eapply Rle_trans; [exact Ic|]. lra.
      - assert (Hi' : (0 < S i < length b)%nat) by lia.
        assert (Q1 : nth (S i) t' (RtoC 0) = W (Z.of_nat (S n) - Z.of_nat (S i))%Z) by (apply (@st_reg A dt a b s x); assumption).
        assert (Q2 : nth (S i) t (RtoC 0) = V (Z.of_nat (S n) - Z.of_nat (S i))%Z) by (apply (@st_reg CA dt a b s x); assumption).
        split; [refine (eq_ind_r (fun z : C => (Cmod z <= B)%R) _ Q1); apply (W_bounded b u eta radd rmul rdot rcast Hr Hu He dt a s x M Hd Hb Ha Hs Ha0 Fa Fs Fx Ms Mx poles Hp Hden Hsmall)|].
        refine (eq_ind_r (fun z : C => (Cmod (z - _)%C <= (KD + 1) * E)%R) _ Q1). refine (eq_ind_r (fun z : C => (Cmod (_ - z)%C <= (KD + 1) * E)%R) _ Q2).
        eapply Rle_trans; [apply cmp_regs|]. fold KD E. lra. }
    pose proof (l1d_nonneg c' c) as P1. pose proof (l1_nonneg c) as P2. set (dl := l1d c' c) in *. set (lc := l1 c) in *.
    set (H := (46 * (G * L + 1))%R). assert (H0 : (0 <= H)%R) by (unfold H; lra).
    assert (uB : (u * B <= H * F)%R). { unfold B. fold H. replace (u * (H * (M + eta)))%R with (H * (u * M + u * eta))%R by ring. apply Rmult_le_compat_l; [exact H0|]. unfold F. nra. }
    assert (eB : (eta * B <= H * F)%R). { unfold B. fold H. replace (eta * (H * (M + eta)))%R with (H * (eta * M + eta * eta))%R by ring. apply Rmult_le_compat_l; [exact H0|]. unfold F. nra. }
    assert (F0 : (0 <= F)%R) by lra. assert (HF : (0 <= H * F)%R) by (apply Rmult_le_pos; assumption).
    assert (T1 : (dl * B <= 3 * (C1 + k) * (H * F))%R).
    { apply Rle_trans with (3 * (C1 * (u * B) + k * (eta * B)))%R.
      - replace (3 * (C1 * (u * B) + k * (eta * B)))%R with (3 * (u * C1 + k * eta) * B)%R by ring. apply Rmult_le_compat_r; assumption.
      - assert (C1 * (u * B) <= C1 * (H * F))%R by (apply Rmult_le_compat_l; assumption). assert (k * (eta * B) <= k * (H * F))%R by (apply Rmult_le_compat_l; assumption). lra. }
    assert (T2 : (lc * ((KD + 1) * E) <= C1 * (KD + 1) * F)%R).
    { rewrite Rmult_assoc. apply Rmult_le_compat; try assumption; [apply Rmult_le_pos; lra|]. apply Rmult_le_compat_l; lra. }
    set (Q := absdot c' t') in *. assert (Q0 : (0 <= Q)%R) by apply absdot_nonneg.
    assert (T3 : (u * Q <= (4 * C1 + 3 * k) * (H * F))%R).
    { assert (S1 : (lc + dl <= 4 * C1 + 3 * k)%R). { assert (u * C1 <= C1)%R by nra. assert (k * eta <= k)%R by nra. lra. }
      apply Rle_trans with (u * ((4 * C1 + 3 * k) * B))%R.
      - apply Rmult_le_compat_l; [lra|]. eapply Rle_trans; [exact Ab|]. apply Rmult_le_compat_r; assumption.
      - replace (u * ((4 * C1 + 3 * k) * B))%R with ((4 * C1 + 3 * k) * (u * B))%R by ring. apply Rmult_le_compat_l; [lra|exact uB]. }
    set (v := rdot c' t'). set (y := @dot CA c t).
    assert (R1 : (Cmod (v - @dot CA c' t')%C <= u * Q + eta)%R) by (apply (rd_dot _ _ _ _ _ _ _ Hr); [exact Lc'|exact Lt']).
    assert (R2 : (Cmod (@dot CA c' t') <= Q)%R) by (apply dot_bound; exact (eq_trans Lc' (eq_sym Lt'))).
    pose proof (near _ _ _ R1) as R3. pose proof (rd_cast _ _ _ _ _ _ _ Hr dt v Hd) as R4.
    assert (R5 : (u * Cmod v <= 2 * ((4 * C1 + 3 * k) * (H * F)) + eta)%R).
    { assert (u * Q <= Q)%R by nra. assert (u * Cmod v <= u * (2 * Q + eta))%R by (apply Rmult_le_compat_l; lra). assert (u * eta <= eta)%R by nra. lra. }
    assert (Fy : @fits CA dt y).
    { unfold y. apply fits_dot; [unfold c, cvec|].
      - apply Forall_forall. intros z Hz. apply in_map_iff in Hz. destruct Hz as ([p q] & <- & Hin). rewrite Forall_forall in Fa, Fb.
        apply (law_fits_add CA_laws); [apply (law_fits_mul CA_laws); [apply Fa, (in_combine_l _ _ _ _ Hin)|]|apply Fb, (in_combine_r _ _ _ _ Hin)].
        cbn [fst snd]. destruct (Nat.lt_ge_cases 0 (length b)) as [Lb|Lb]; [apply Fb, nth_In, Lb|]. rewrite nth_overflow by exact Lb. apply (law_fits_zero CA_laws).
      - apply st_fits; [exact Fs|exact Fx]. }
    change (@outp A dt a b s x n) with (rcast dt v). change (@outp CA dt a b s x n) with (@cast CA dt y). rewrite Fy.
    pose proof (cast_close dt v y Hd Fy) as R6.
    assert (R7 : (Cmod (v - y)%C <= u * Q + eta + (dl * B + lc * ((KD + 1) * E)))%R).
    { replace (v - y) with ((v - @dot CA c' t') + (@dot CA c' t' - y)) by ring. eapply Rle_trans; [apply Cmod_triangle|]. apply Rplus_le_compat; [exact R1|exact Dv]. }
    replace (rcast dt v - y) with ((rcast dt v - @cast CA dt v) + (@cast CA dt v - y)) by ring. eapply Rle_trans; [apply Cmod_triangle|].
    unfold kout. fold KD H. assert (eF : (eta <= F)%R) by (unfold F; lra). 
    replace ((H * (3 * (C1 + k) + 3 * (4 * C1 + 3 * k)) + C1 * (KD + 1) + 3) * F)%R with (3 * (C1 + k) * (H * F) + 3 * ((4 * C1 + 3 * k) * (H * F)) + C1 * (KD + 1) * F + 3 * F)%R by ring. lra.
  Qed.
End Compare.

(** ** FirFilter *)
Lemma l1d_same c : l1d c c = 0%R.
Proof. induction c as [|x c IH]; cbn [l1d]; [reflexivity|]. rewrite IH. unfold Cminus. rewrite Cplus_opp_r, Cmod_0. ring. Qed.
Lemma sig_map {A : Arith} (g : A -> A) s (x : list A) z : (z < Z.of_nat (length x))%Z -> sig s (map g x) z = if (z <? 0)%Z then sig s x z else g (sig s x z).
Proof.
  intros H. unfold sig. destruct (Z.ltb_spec z 0) as [Hz|Hz]; [reflexivity|]. rewrite nth_map_lt with (d := zero) by lia. reflexivity.
Qed.
Lemma nth_fir_window {A : Arith} dt b s (x : list A) n : (n < length x)%nat -> length s = length b ->
  nth n (fir_ys dt b s x) zero = cast dt (dot b (map (fun i => sig s (map (cast dt) x) (Z.of_nat n - Z.of_nat i)) (seq 0 (length b)))).
Proof. intros Hn Hs. rewrite nth_fir_ys by exact Hn. rewrite fir_window by assumption. reflexivity. Qed.
Lemma fir_compare (b : list C) u eta radd rmul rdot rcast dt (s x : list C) M n :
  rounds (length b) u eta radd rmul rdot rcast -> (0 <= u <= 1)%R -> (0 <= eta)%R -> dt <> DInt -> b <> [] -> length s = length b ->
  Forall (@fits CA dt) b -> Forall (@fits CA dt) s -> Forall (@fits CA dt) x ->
  (forall i, (Cmod (nth i s (RtoC 0)) <= M)%R) -> (forall i, (Cmod (nth i x (RtoC 0)) <= M)%R) -> (n < length x)%nat ->
  (Cmod (nth n (@fir_ys (RndA radd rmul rdot rcast) dt b s x) (RtoC 0) - nth n (@fir_ys CA dt b s x) (RtoC 0))%C <= (7 * l1 b + 3) * (u * M + eta))%R.
Proof.
  intros Hr Hu He Hd Hb Hs Fb Fs Fx Ms Mx Hn. set (A := RndA radd rmul rdot rcast).
  assert (M0 : (0 <= M)%R) by (eapply Rle_trans; [apply Cmod_ge_0|apply (Mx 0%nat)]).
  assert (UM : (0 <= u * M)%R) by (apply Rmult_le_pos; lra).
  refine (eq_ind_r (fun z : C => (Cmod (z - _)%C <= _)%R) _ (@nth_fir_window A dt b s x n Hn Hs)).
  refine (eq_ind_r (fun z : C => (Cmod (_ - z)%C <= _)%R) _ (@nth_fir_window CA dt b s x n Hn Hs)).
  set (t' := map (fun i => @sig A s (map (@cast A dt) x) (Z.of_nat n - Z.of_nat i)) (seq 0 (length b)) : list C). set (t := map (fun i => @sig CA s (map (@cast CA dt) x) (Z.of_nat n - Z.of_nat i)) (seq 0 (length b)) : list C).
  assert (Lt' : length t' = length b) by (unfold t'; rewrite map_length; apply seq_length).
  assert (Lt : length t = length b) by (unfold t; rewrite map_length; apply seq_length).
  assert (Sx : forall z, (Cmod (@sig CA s x z) <= M)%R) by (intros z; unfold sig; destruct (z <? 0)%Z; [apply Ms|apply Mx]).
  assert (Fsx : forall z, @fits CA dt (@sig CA s x z)).
  { intros z. unfold sig. assert (Q : forall l i, Forall (@fits CA dt) l -> @fits CA dt (nth i l (RtoC 0))).
    { intros l i H. destruct (Nat.lt_ge_cases i (length l)) as [L|L]; [apply Forall_nth; assumption|]. rewrite nth_overflow by exact L. apply (law_fits_zero CA_laws). }
    destruct (z <? 0)%Z; apply Q; assumption. }
  assert (Ent : forall i, (i < length b)%nat -> nth i t (RtoC 0) = @sig CA s x (Z.of_nat n - Z.of_nat i)%Z /\
     (nth i t' (RtoC 0) = @sig CA s x (Z.of_nat n - Z.of_nat i)%Z \/ nth i t' (RtoC 0) = rcast dt (@sig CA s x (Z.of_nat n - Z.of_nat i)%Z))).
  { intros i Hi. assert (Hz : (Z.of_nat n - Z.of_nat i < Z.of_nat (length x))%Z) by lia. split.
    - unfold t. etransitivity; [apply nth_map_lt with (d := 0%nat); rewrite seq_length; exact Hi|]. rewrite seq_nth by exact Hi. cbn [Nat.add]. rewrite sig_map by exact Hz.
      destruct (_ <? 0)%Z; [reflexivity|]. apply Fsx.
    - assert (E : nth i t' (RtoC 0) = @sig A s (map (@cast A dt) x) (Z.of_nat n - Z.of_nat i)%Z).
      { unfold t'. etransitivity; [apply nth_map_lt with (d := 0%nat); rewrite seq_length; exact Hi|]. rewrite seq_nth by exact Hi. reflexivity. }
      rewrite sig_map in E by exact Hz. destruct (_ <? 0)%Z; [left|right]; exact E. }
  set (D := (u * M + eta)%R). assert (D0 : (0 <= D)%R) by (unfold D; lra). set (B := (2 * M + eta)%R).
  destruct (dot_dev b b t' t B D) as [Dv Ab]; [reflexivity|symmetry; exact Lt'|symmetry; exact Lt|unfold B; lra|exact D0| |].
  { intros i Hi. destruct (Ent i Hi) as [E1 E2]. specialize (Sx (Z.of_nat n - Z.of_nat i)%Z). specialize (Fsx (Z.of_nat n - Z.of_nat i)%Z).
    rewrite E1. set (w := @sig CA s x (Z.of_nat n - Z.of_nat i)%Z) in *. destruct E2 as [E2|E2]; rewrite E2.
    - unfold B. split; [lra|]. unfold Cminus. rewrite Cplus_opp_r, Cmod_0. exact D0.
    - pose proof (rd_cast _ _ _ _ _ _ _ Hr dt w Hd) as K. rewrite Fsx in K. assert (Kw : (u * Cmod w <= u * M)%R) by (apply Rmult_le_compat_l; lra).
      split; [|unfold D; lra]. pose proof (near _ _ _ K). unfold B. assert (u * M <= M)%R by nra. lra. }
  rewrite l1d_same in Dv, Ab. pose proof (l1_nonneg b) as Lb.
  set (v := rdot b t'). set (y := @dot CA b t). change (Cmod (rcast dt v - @cast CA dt y)%C <= (7 * l1 b + 3) * D)%R.
  assert (Fy : @fits CA dt y).
  { unfold y. apply fits_dot; [exact Fb|]. apply Forall_forall. intros z Hz. apply In_nth with (d := RtoC 0) in Hz. destruct Hz as (i & Hi & <-).
    destruct (Ent i) as [E1 _]; [apply (eq_ind _ (fun k => (i < k)%nat) Hi _ Lt)|]. refine (eq_ind_r (fun z : C => @fits CA dt z) (Fsx _) E1). }
  rewrite Fy.
  assert (R1 : (Cmod (v - @dot CA b t')%C <= u * absdot b t' + eta)%R) by (apply (rd_dot _ _ _ _ _ _ _ Hr); [reflexivity|exact Lt']).
  assert (R2 : (Cmod (@dot CA b t') <= absdot b t')%R) by (apply dot_bound; symmetry; exact Lt').
  pose proof (near _ _ _ R1) as R3. pose proof (rd_cast _ _ _ _ _ _ _ Hr dt v Hd) as R4. pose proof (cast_close dt v y Hd Fy) as R6.
  pose proof (absdot_nonneg b t') as Q0. set (Q := absdot b t') in *.
  assert (R7 : (Cmod (v - y)%C <= u * Q + eta + l1 b * D)%R).
  { replace (v - y) with ((v - @dot CA b t') + (@dot CA b t' - y)) by ring. eapply Rle_trans; [apply Cmod_triangle|]. unfold y. lra. }
  replace (rcast dt v - y) with ((rcast dt v - @cast CA dt v) + (@cast CA dt v - y)) by ring. eapply Rle_trans; [apply Cmod_triangle|].
  assert (uQ : (u * Q <= l1 b * (2 * (u * M) + eta))%R).
  { apply Rle_trans with (u * (l1 b * B))%R; [apply Rmult_le_compat_l; lra|]. unfold B. replace (u * (l1 b * (2 * M + eta)))%R with (l1 b * (2 * (u * M) + u * eta))%R by ring.
    apply Rmult_le_compat_l; [exact Lb|]. nra. }
  assert (uv : (u * Cmod v <= 2 * (u * Q) + eta)%R). { assert (u * Q <= Q)%R by nra. assert (u * Cmod v <= u * (2 * Q + eta))%R by (apply Rmult_le_compat_l; lra). nra. }
  assert (P1 : (0 <= l1 b * (u * M))%R) by (apply Rmult_le_pos; assumption). assert (P2 : (0 <= l1 b * eta)%R) by (apply Rmult_le_pos; assumption).
  unfold D in *. lra.
Qed.

(** ** An arithmetic that rounds real numbers, one operation at a time *)
(** Rounding of a real number within a relative error u and an absolute error eta. *)
Definition nearby (u eta : R) (rnd : R -> R) : Prop := forall x, (Rabs (rnd x - x) <= u * Rabs x + eta)%R.
Definition fl_add (rnd : R -> R) (x y : C) : C := (rnd (fst x + fst y), rnd (snd x + snd y))%R.
Definition fl_mul (rnd : R -> R) (x y : C) : C := (rnd (rnd (fst x * fst y) - rnd (snd x * snd y)), rnd (rnd (fst x * snd y) + rnd (snd x * fst y)))%R.
Definition fl_dot (rnd : R -> R) : list C -> list C -> C := dot_from (fl_add rnd) (fl_mul rnd) (RtoC 0).
Definition fl_cast (rnd : R -> R) (dt : dtype) (x : C) : C :=
  match dt with DComplex => (rnd (fst x), rnd (snd x)) | DFloat => RtoC (rnd (fst x)) | DInt => @cast CA DInt x end.

Lemma Cmod_I : Cmod Ci = 1%R.
Proof. unfold Cmod, Ci. cbn [fst snd]. replace (0 ^ 2 + 1 ^ 2)%R with 1%R by ring. apply sqrt_1. Qed.
Lemma Cmod_sum (z : C) : (Cmod z <= Rabs (fst z) + Rabs (snd z))%R.
Proof.
  destruct z as [p q]. cbn [fst snd]. replace (p, q) with (RtoC p + Ci * RtoC q) by (apply injective_projections; cbn; ring).
  eapply Rle_trans; [apply Cmod_triangle|]. rewrite Cmod_mult, Cmod_I, !Cmod_R. lra.
Qed.
Lemma Re_le (z : C) : (Rabs (fst z) <= Cmod z)%R.
Proof. eapply Rle_trans; [|apply Rmax_Cmod]. apply Rmax_l. Qed.
Lemma Im_le (z : C) : (Rabs (snd z) <= Cmod z)%R.
Proof. eapply Rle_trans; [|apply Rmax_Cmod]. apply Rmax_r. Qed.
Section Fl.
  Variables (u eta : R) (rnd : R -> R).
  Hypotheses (Hu : (0 <= u <= 1 / 12)%R) (He : (0 <= eta)%R) (Hn : nearby u eta rnd).
  Lemma fl_add_close x y : (Cmod (fl_add rnd x y - (x + y))%C <= 12 * u * Cmod (x + y)%C + 6 * eta)%R.
  Proof.
    eapply Rle_trans; [apply Cmod_sum|]. pose proof (Hn (fst x + fst y)%R) as A1. pose proof (Hn (snd x + snd y)%R) as A2. cbn [fl_add fst snd Cminus Cplus Copp].
    pose proof (Re_le (x + y)) as B1. pose proof (Im_le (x + y)) as B2. cbn [fst snd Cplus] in B1, B2. pose proof (Cmod_ge_0 (x + y)) as P. fold (Cplus x y).
    assert (u * Rabs (fst x + fst y) <= u * Cmod (x + y)%C)%R by (apply Rmult_le_compat_l; lra). assert (u * Rabs (snd x + snd y) <= u * Cmod (x + y)%C)%R by (apply Rmult_le_compat_l; lra).
    assert (0 <= u * Cmod (x + y)%C)%R by nra. unfold Rminus in A1, A2. lra.
  Qed.
  Lemma two_products p q : (Rabs (rnd (rnd p + rnd q) - (p + q)) <= 3 * u * (Rabs p + Rabs q) + 4 * eta)%R /\ (Rabs (rnd (rnd p - rnd q) - (p - q)) <= 3 * u * (Rabs p + Rabs q) + 4 * eta)%R.
  Proof.
    pose proof (Hn p) as A1. pose proof (Hn q) as A2. pose proof (Hn (rnd p + rnd q)%R) as A3. pose proof (Hn (rnd p - rnd q)%R) as A4.
    pose proof (Rabs_pos p) as P1. pose proof (Rabs_pos q) as P2. set (s := (Rabs p + Rabs q)%R) in *.
    assert (Np : (Rabs (rnd p) <= Rabs p + (u * Rabs p + eta))%R) by (replace (rnd p) with (p + (rnd p - p))%R by ring; eapply Rle_trans; [apply Rabs_triang|]; lra).
    assert (Nq : (Rabs (rnd q) <= Rabs q + (u * Rabs q + eta))%R) by (replace (rnd q) with (q + (rnd q - q))%R by ring; eapply Rle_trans; [apply Rabs_triang|]; lra).
    assert (U0 : (0 <= u * s)%R) by (unfold s; apply Rmult_le_pos; lra). assert (U1 : (u * (u * s) <= u * s)%R) by nra. assert (U2 : (u * eta <= 1 / 12 * eta)%R) by nra.
    assert (Bs : (Rabs (rnd p) + Rabs (rnd q) <= s + u * s + 2 * eta)%R) by (unfold s in *; lra).
    assert (Uu : (u * (Rabs (rnd p) + Rabs (rnd q)) <= 2 * (u * s) + eta)%R) by (assert (u * (Rabs (rnd p) + Rabs (rnd q)) <= u * (s + u * s + 2 * eta))%R by (apply Rmult_le_compat_l; lra); nra).
    split.
    - replace (rnd (rnd p + rnd q) - (p + q))%R with ((rnd (rnd p + rnd q) - (rnd p + rnd q)) + ((rnd p - p) + (rnd q - q)))%R by ring.
      eapply Rle_trans; [apply Rabs_triang|]. pose proof (Rabs_triang (rnd p - p)%R (rnd q - q)%R). pose proof (Rabs_triang (rnd p) (rnd q)).
      assert (u * Rabs (rnd p + rnd q) <= u * (Rabs (rnd p) + Rabs (rnd q)))%R by (apply Rmult_le_compat_l; lra). unfold s in *. lra.
    - replace (rnd (rnd p - rnd q) - (p - q))%R with ((rnd (rnd p - rnd q) - (rnd p - rnd q)) + ((rnd p - p) + - (rnd q - q)))%R by ring.
      eapply Rle_trans; [apply Rabs_triang|]. pose proof (Rabs_triang (rnd p - p)%R (- (rnd q - q))%R) as T. rewrite Rabs_Ropp in T.
      pose proof (Rabs_triang (rnd p) (- rnd q)%R) as T2. rewrite Rabs_Ropp in T2. fold (rnd p - rnd q)%R in T2.
      assert (u * Rabs (rnd p - rnd q) <= u * (Rabs (rnd p) + Rabs (rnd q)))%R by (apply Rmult_le_compat_l; lra). unfold s in *. lra.
  Qed.
  Lemma fl_mul_close x y : (Cmod (fl_mul rnd x y - x * y)%C <= 12 * u * Cmod (x * y)%C + 8 * eta)%R.
  Proof.
    eapply Rle_trans; [apply Cmod_sum|]. destruct x as [a b], y as [c d]. rewrite Cmod_mult. cbn [fl_mul fst snd Cminus Cplus Cmult Copp].
    destruct (two_products (a * c)%R (b * d)%R) as [_ T1]. destruct (two_products (a * d)%R (b * c)%R) as [T2 _].
    pose proof (Re_le (a, b)) as A1. pose proof (Im_le (a, b)) as A2. pose proof (Re_le (c, d)) as A3. pose proof (Im_le (c, d)) as A4. cbn [fst snd] in *.
    set (P := Cmod (a, b)) in *. set (Q := Cmod (c, d)) in *. rewrite !Rabs_mult in T1, T2.
    pose proof (Rabs_pos a). pose proof (Rabs_pos b). pose proof (Rabs_pos c). pose proof (Rabs_pos d).
    assert (Rabs a * Rabs c <= P * Q)%R by (apply Rmult_le_compat; lra). assert (Rabs b * Rabs d <= P * Q)%R by (apply Rmult_le_compat; lra).
    assert (Rabs a * Rabs d <= P * Q)%R by (apply Rmult_le_compat; lra). assert (Rabs b * Rabs c <= P * Q)%R by (apply Rmult_le_compat; lra).
    assert (3 * u * (Rabs a * Rabs c + Rabs b * Rabs d) <= 3 * u * (2 * (P * Q)))%R by (apply Rmult_le_compat_l; lra).
    assert (3 * u * (Rabs a * Rabs d + Rabs b * Rabs c) <= 3 * u * (2 * (P * Q)))%R by (apply Rmult_le_compat_l; lra).
    unfold Rminus in *. lra.
  Qed.
  Let v := (36 * u)%R.
  Let r := (1 + v)%R.
  Let r1 n : (1 <= r ^ n)%R. Proof. apply pow_R1_Rle. unfold r, v. lra. Qed.
  Lemma fl_dot_close l : forall m acc, length l = length m ->
    (Cmod (dot_from (fl_add rnd) (fl_mul rnd) acc l m - (acc + @dot CA l m))%C <= (r ^ length l - 1) * (Cmod acc + absdot l m) + 24 * INR (length l) * r ^ length l * eta)%R.
  Proof.
    induction l as [|x l IH]; intros [|y m] acc HL; try discriminate.
    - cbn [dot_from length pow absdot]. change (@dot CA [] []) with (RtoC 0). replace (acc - (acc + 0)) with (RtoC 0) by ring. rewrite Cmod_0. cbn [INR]. lra.
    - injection HL as HL. cbn [dot_from]. rewrite dot_cons by exact HL. set (acc' := fl_add rnd acc (fl_mul rnd x y)). specialize (IH m acc' HL).
      set (k := length l) in *. change (length (x :: l)) with (S k). cbn [absdot pow]. rewrite S_INR. set (z := @dot CA l m) in *. set (d := absdot l m) in *.
      pose proof (absdot_nonneg l m) as d0. fold d in d0. pose proof (Cmod_ge_0 acc) as a0. pose proof (Cmod_ge_0 x) as x0. pose proof (Cmod_ge_0 y) as y0.
      pose proof (fl_mul_close x y) as E1. pose proof (fl_add_close acc (fl_mul rnd x y)) as E2. fold acc' in E2. rewrite Cmod_mult in E1. set (w := (Cmod x * Cmod y)%R) in *.
      assert (w0 : (0 <= w)%R) by (apply Rmult_le_pos; assumption).
      pose proof (near _ _ _ E1) as E3. rewrite Cmod_mult in E3. fold w in E3.
      assert (E4 : (Cmod (acc' - (acc + x * y))%C <= v * (Cmod acc + w) + 24 * eta)%R).
      { replace (acc' - (acc + x * y)) with ((acc' - (acc + fl_mul rnd x y)) + (fl_mul rnd x y - x * y)) by ring. eapply Rle_trans; [apply Cmod_triangle|].
        pose proof (Cmod_triangle acc (fl_mul rnd x y)) as T. assert (12 * u * w <= w)%R by nra.
        assert (12 * u * Cmod (acc + fl_mul rnd x y)%C <= 12 * u * (Cmod acc + 2 * w + 8 * eta))%R by (apply Rmult_le_compat_l; lra).
        assert (12 * u * (8 * eta) <= 8 * eta)%R by nra. assert (0 <= u * Cmod acc)%R by nra. assert (0 <= u * w)%R by nra. unfold v. lra. }
      pose proof (near _ _ _ E4) as E5. pose proof (Cmod_triangle acc (x * y)) as T. rewrite Cmod_mult in T. fold w in T.
      set (g := (Cmod acc + w)%R) in *. assert (g0 : (0 <= g)%R) by (unfold g; lra).
      assert (E6 : (Cmod acc' + d <= r * (g + d) + 24 * eta)%R) by (unfold r; assert (0 <= v * d)%R by (unfold v; nra); unfold r; lra).
      match goal with |- (Cmod ?t <= _)%R => replace t with ((dot_from (fl_add rnd) (fl_mul rnd) acc' l m - (acc' + z)) + (acc' - (acc + x * y))) by ring end.
      eapply Rle_trans; [apply Cmod_triangle|]. pose proof (r1 k) as R1. set (q := (r ^ k)%R) in *.
      assert (E7 : ((q - 1) * (Cmod acc' + d) <= (q - 1) * (r * (g + d) + 24 * eta))%R) by (apply Rmult_le_compat_l; lra).
      assert (rr : (1 <= r)%R) by (unfold r, v; lra).
      assert (E8 : (24 * INR k * q * eta <= 24 * INR k * (r * q) * eta)%R).
      { pose proof (pos_INR k). assert (q <= r * q)%R by nra. assert (0 <= 24 * INR k * eta)%R by nra. replace (24 * INR k * q * eta)%R with (24 * INR k * eta * q)%R by ring.
        replace (24 * INR k * (r * q) * eta)%R with (24 * INR k * eta * (r * q))%R by ring. apply Rmult_le_compat_l; assumption. }
      assert (E9 : (q * eta <= r * q * eta)%R) by (apply Rmult_le_compat_r; [exact He|nra]).
      assert (E10 : (v * g <= v * (g + d))%R) by (apply Rmult_le_compat_l; [unfold v|]; lra).
      assert (E11 : (r * (g + d) = (g + d) + v * (g + d))%R) by (unfold r; ring).
      replace (Cmod acc + (w + d))%R with (g + d)%R by (unfold g; ring).
      set (h := (g + d)%R) in *. replace ((r * q - 1) * h)%R with ((q - 1) * (r * h) + (r * h - h))%R by ring. rewrite Rmult_plus_distr_l in E7. lra.
  Qed.
  Lemma fl_rounds k : rounds k ((1 + 36 * u) ^ (k + 1) - 1) (24 * INR (k + 1) * (1 + 36 * u) ^ (k + 1) * eta) (fl_add rnd) (fl_mul rnd) (fl_dot rnd) (fl_cast rnd).
  Proof.
    fold v. fold r. pose proof (r1 k) as R1. assert (Rk : (r ^ (k + 1) = r * r ^ k)%R) by (rewrite Nat.add_1_r; reflexivity). set (q := (r ^ k)%R) in *.
    assert (v0 : (0 <= v)%R) by (unfold v; lra). assert (rr : (1 <= r)%R) by (unfold r; lra). assert (qv : (v <= r * q - 1)%R) by (unfold r; nra).
    pose proof (pos_INR k) as k0. assert (Ik : INR (k + 1) = (INR k + 1)%R) by (rewrite plus_INR; cbn [INR]; ring).
    assert (Er : (24 * eta <= 24 * INR (k + 1) * r ^ (k + 1) * eta)%R).
    { apply Rmult_le_compat_r; [exact He|]. rewrite Ik, Rk. assert (1 <= r * q)%R by nra. nra. }
    assert (Eq : (24 * INR k * q * eta <= 24 * INR (k + 1) * r ^ (k + 1) * eta)%R).
    { apply Rmult_le_compat_r; [exact He|]. rewrite Ik, Rk. assert (q <= r * q)%R by nra. assert (INR k * q <= INR k * (r * q))%R by (apply Rmult_le_compat_l; assumption). nra. }
    split; rewrite ?Rk in *.
    - intros x y. eapply Rle_trans; [apply fl_add_close|]. pose proof (Cmod_ge_0 (x + y)). assert (12 * u * Cmod (x + y)%C <= (r * q - 1) * Cmod (x + y)%C)%R by (apply Rmult_le_compat_r; unfold v in *; lra). lra.
    - intros x y. eapply Rle_trans; [apply fl_mul_close|]. pose proof (Cmod_ge_0 (x * y)). assert (12 * u * Cmod (x * y)%C <= (r * q - 1) * Cmod (x * y)%C)%R by (apply Rmult_le_compat_r; unfold v in *; lra). lra.
    - intros l m Hl Hm. pose proof (fl_dot_close l m (RtoC 0) ltac:(congruence)) as E. rewrite Hl in E. fold (fl_dot rnd) in E. unfold fl_dot.
      rewrite Cmod_0, Rplus_0_l in E. replace (0 + @dot CA l m) with (@dot CA l m : C) in E by (symmetry; apply Cplus_0_l). eapply Rle_trans; [exact E|].
      fold q. pose proof (absdot_nonneg l m) as A0. assert ((q - 1) * absdot l m <= (r * q - 1) * absdot l m)%R by (apply Rmult_le_compat_r; [exact A0|nra]). lra.
    - intros dt x Hd. eapply Rle_trans; [apply Cmod_sum|]. pose proof (Hn (fst x)) as A1. pose proof (Hn (snd x)) as A2. pose proof (Re_le x) as B1. pose proof (Im_le x) as B2.
      pose proof (Cmod_ge_0 x) as P. assert (u * Rabs (fst x) <= u * Cmod x)%R by (apply Rmult_le_compat_l; lra). assert (u * Rabs (snd x) <= u * Cmod x)%R by (apply Rmult_le_compat_l; lra).
      assert (2 * u * Cmod x <= (r * q - 1) * Cmod x)%R by (apply Rmult_le_compat_r; unfold v in *; lra). unfold Rminus in *.
      destruct dt; [congruence| |]; cbn [fl_cast cast CA fst snd Cminus Cplus Copp RtoC]; [|lra].
      change (Re x) with (fst x). rewrite Ropp_0, Rplus_0_r, Rabs_R0. assert (0 <= u * Cmod x)%R by (apply Rmult_le_pos; lra). lra.
    - intros dt x Hd. destruct dt; [congruence| |]; reflexivity.
  Qed.
  Lemma pow_small n : (u <= 1)%R -> ((1 + 36 * u) ^ n - 1 <= 37 ^ n * u)%R /\ ((1 + 36 * u) ^ n <= 37 ^ n)%R.
  Proof.
    intros _. induction n as [|n [I1 I2]]; cbn [pow]; [lra|]. set (q := ((1 + 36 * u) ^ n)%R) in *. set (t := (37 ^ n)%R) in *. pose proof (r1 n) as R1. fold q in R1. change (1 <= (1 + 36 * u) ^ n)%R in R1. fold q in R1.
    split; [|nra]. assert (36 * u * q <= 36 * u * t)%R by (apply Rmult_le_compat_l; lra). lra.
  Qed.
End Fl.
