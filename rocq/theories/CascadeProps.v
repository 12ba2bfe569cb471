(** Properties C142-C143: filters after each other, side by side, and on delayed signals. *)
From Coq Require Import List Arith ZArith Lia Bool QArith Qcanon Floats.
From Verif Require Import Base BaseLemmas Instances CascadeSpec FirModel FirSpec FirProofs FirProps
  IirModel IirSpec IirProofs IirProps CascadeProofs.
Import ListNotations.
Set Asymmetric Patterns.
Close Scope Q_scope. Close Scope Qc_scope. Open Scope nat_scope.

(** An IirFilter or FirFilter, made by its constructor and used in any way, whose
    state is zero; [dt] is its dtype. *)
Definition iir_at_rest {A : Arith} (dt : dtype) (f : iir A) : Prop :=
  (exists a b s ops, coeffs_ok a b /\ iir_used a b s ops f) /\ is_ f = zeros (length (ib f)) /\ idt f = dt.
Definition fir_at_rest {A : Arith} (dt : dtype) (f : fir A) : Prop :=
  (exists b s ops, arr_ok b /\ fir_used b s ops f) /\ fs f = zeros (length (fb f)) /\ fdt f = dt.

Lemma iir_rest_run {A} (L : Laws A) dt (f : iir A) x : iir_at_rest dt f -> x <> [] -> Forall (fits dt) x ->
  exists f' y, iir_filter f x = (f', Ok y) /\ satisfies_difference (ia f) (ib f) y x /\
    (forall z, satisfies_difference (ia f) (ib f) z x -> z = y) /\ y <> [] /\ Forall (fits dt) y.
Proof.
  intros ((a & b & s & ops & Hc & Hu) & Hs & <-) Hx Tx.
  destruct (C10_iir_difference_from_rest A L a b s ops f x Hc Hu Hs Hx Tx) as (f' & y & E & H & U).
  exists f', y. split; [exact E|]. split; [exact H|]. split; [exact U|]. split.
  - destruct H as [Hl _]. destruct x, y; try congruence; cbn in Hl; lia.
  - destruct (iir_used_typed L _ _ _ _ _ Hc Hu) as (Ta & Tb & Ts). exact (difference_fits A L _ _ _ _ _ Ta Tb Tx H).
Qed.
Lemma fir_rest_run {A} (L : Laws A) dt (f : fir A) x : fir_at_rest dt f -> x <> [] -> Forall (fits dt) x ->
  exists f' y, fir_filter f x = (f', Ok y) /\ satisfies_difference [] (fb f) y x /\
    (forall z, satisfies_difference [] (fb f) z x -> z = y) /\ y <> [] /\ Forall (fits dt) y.
Proof.
  intros ((b & s & ops & Hc & Hu) & Hs & <-) Hx Tx.
  destruct (C01_fir_convolution A L b s ops f x Hc Hu Hx Tx) as (f' & y & E & Hl & H & _).
  rewrite Hs in H. apply (fir_difference A L) in H; auto.
  exists f', y. split; [exact E|]. split; [exact H|]. split; [|split].
  - intros z Hz. eapply difference_unique; eauto.
  - destruct x, y; try congruence; cbn in Hl; lia.
  - destruct (fir_used_typed L _ _ _ _ Hc Hu) as (Tb & Ts). exact (difference_fits A L _ [] _ _ _ (Forall_nil _) Tb Tx H).
Qed.

(** C142.  A cascade is one filter: the coefficients multiply as polynomials. *)
Theorem C142_iir_cascade (A : Arith) (L : Laws A) dt (f g h : iir A) (x : list A) :
  iir_at_rest dt f -> iir_at_rest dt g -> iir_at_rest dt h -> x <> [] -> Forall (fits dt) x ->
  (forall n, den (ia h) n = cauchy (den (ia f)) (den (ia g)) n) ->
  (forall n, coef (ib h) n = cauchy (coef (ib f)) (coef (ib g)) n) ->
  exists f' g' h' y z,
    iir_filter f x = (f', Ok y) /\ iir_filter g y = (g', Ok z) /\ iir_filter h x = (h', Ok z).
Proof.
  intros Hf Hg Hh Hx Tx Ha Hb.
  destruct (iir_rest_run L dt f x Hf Hx Tx) as (f' & y & Ef & Df & _ & Hy & Ty).
  destruct (iir_rest_run L dt g y Hg Hy Ty) as (g' & z & Eg & Dg & _ & Hz & Tz).
  destruct (iir_rest_run L dt h x Hh Hx Tx) as (h' & w & Eh & Dh & Uh & _).
  exists f', g', h', y, z. split; [exact Ef|]. split; [exact Eg|]. rewrite (Uh z); [exact Eh|].
  pose proof Df as [Ly _]. pose proof Dg as [Lz _].
  apply (cascade_series A L (ia f) (ib f) (ia g) (ib g) (ia h) (ib h) x y z); auto; congruence.
Qed.
Print Assumptions C142_iir_cascade.

(** C142.  The one filter can be constructed: IirFilter with the multiplied
    coefficient lists, for every pair of filters. *)
Theorem C142_iir_cascade_exists (A : Arith) (L : Laws A) dt (f g : iir A) :
  iir_at_rest dt f -> iir_at_rest dt g -> fits dt (opp (@one A)) ->
  exists h,
    iir_make (mkArr dt (feedback (poly_mul (den_list (ia f)) (den_list (ia g)))))
             (mkArr dt (poly_mul (ib f) (ib g))) (mkArr dt []) = Ok h /\
    iir_at_rest dt h /\
    forall x, x <> [] -> Forall (fits dt) x ->
      exists f' g' h' y z,
        iir_filter f x = (f', Ok y) /\ iir_filter g y = (g', Ok z) /\ iir_filter h x = (h', Ok z).
Proof.
  intros Hf Hg H1. pose proof Hf as ((af & bf & sf & of & Cf & Uf) & _ & Ef).
  pose proof Hg as ((ag & bg & sg & og & Cg & Ug) & _ & Eg).
  destruct (iir_used_typed L _ _ _ _ _ Cf Uf) as (Taf & Tbf & _). rewrite Ef in *.
  destruct (iir_used_typed L _ _ _ _ _ Cg Ug) as (Tag & Tbg & _). rewrite Eg in *.
  pose proof (iir_used_inv _ _ _ _ _ Uf) as (Nf & Lf & _). pose proof (iir_used_inv _ _ _ _ _ Ug) as (Ng & Lg & _).
  assert (Naf : ia f <> []) by (intros E; rewrite E in Lf; destruct (ib f); [congruence|discriminate]).
  assert (Nag : ia g <> []) by (intros E; rewrite E in Lg; destruct (ib g); [congruence|discriminate]).
  set (d := poly_mul (den_list (ia f)) (den_list (ia g))). set (b := poly_mul (ib f) (ib g)).
  assert (Ld : length (feedback d) = length b).
  { unfold feedback. rewrite map_length, seq_length. unfold d, b. rewrite !poly_mul_length. unfold den_list.
    rewrite !map_length, !seq_length. lia. }
  assert (Lb : 1 <= length b).
  { unfold b. rewrite poly_mul_length. destruct (ib f); [congruence|]. destruct (ib g); [congruence|]. cbn; lia. }
  assert (Hd : forall n, coef d n = cauchy (den (ia f)) (den (ia g)) n).
  { intros n. unfold d. rewrite (coef_poly_mul A L). apply (cauchy_ext A); intros; apply (coef_den_list A L); auto. }
  assert (Hd0 : coef d 0 = one).
  { rewrite Hd. unfold cauchy. cbn. pose proof (law_ring L) as R. rewrite (Radd_0_l R), (Rmul_1_l R). reflexivity. }
  assert (F0 : nth 0 (feedback d) zero = zero).
  { unfold feedback. destruct (length d) eqn:E; reflexivity. }
  assert (Hz : eqb (@zero A) zero = true) by (apply (law_eqb L); reflexivity).
  destruct (iir_make_ok (mkArr dt (feedback d)) (mkArr dt b) (mkArr dt [])) as (h & Eh & Ea & Eb & _); cbn [els].
  { right. intros E. rewrite E in Lb. cbn in Lb. lia. }
  { intros _. rewrite F0. exact Hz. }
  { exact Hz. }
  destruct (C10_iir_fresh_is_at_rest A L _ _ _ _ Eh) as (Hs & Ha & Hb). cbn [els] in *.
  assert (Hdt : idt h = dt).
  { revert Eh. unfold iir_make. cbn [els adt]. destruct (match feedback d with [] => false | a0 :: _ => _ end); [discriminate|].
    rewrite Ld, Nat.max_id, Nat.ltb_irrefl. destruct (pad (feedback d) (length b)) as [|a0 a']; [discriminate|].
    destruct (negb _); [discriminate|]. unfold fir_make. cbn [els adt length Nat.ltb Nat.leb].
    destruct (Nat.eqb _ 0); [discriminate|]. intros E. injection E as <-. cbn [idt fdt].
    destruct dt; reflexivity. }
  assert (Hr : iir_at_rest dt h).
  { split; [|split; auto]. exists (mkArr dt (feedback d)), (mkArr dt b), (mkArr dt []), []. split.
    - split; [|split; auto].
      + apply (fits_feedback A L); auto. apply (fits_poly_mul A L); apply (fits_den_list A L); auto.
      + apply (fits_poly_mul A L); auto.
    - split; [cbn; lia|]. exists h. split; [exact Eh|reflexivity]. }
  exists h. split; [exact Eh|]. split; [exact Hr|]. intros x Hx Tx.
  apply (C142_iir_cascade A L dt f g h x); auto.
  - intros n. rewrite <- Hd, <- (den_feedback A L) by auto. destruct n; [reflexivity|]. cbn [den]. rewrite Ha. reflexivity.
  - intros n. rewrite <- (coef_poly_mul A L). apply Hb.
Qed.
Print Assumptions C142_iir_cascade_exists.

(** y[n] = y[n-1]/2 + x[n], then z[n] = z[n-1]/3 + y[n] + y[n-1], against the one
    filter with a = [0, 5/6, -1/6] and b = [1, 1]. *)
Definition ex_f : iir QA := mkIir DFloat [q 0 1; q 1 2] [q 1 1; q 0 1] [q 0 1; q 0 1].
Definition ex_g : iir QA := mkIir DFloat [q 0 1; q 1 3] [q 1 1; q 1 1] [q 0 1; q 0 1].
Example C142_example :
  iir_at_rest DFloat ex_f /\ iir_at_rest DFloat ex_g /\ fits DFloat (opp (@one QA)) /\
  qs (feedback (poly_mul (den_list (ia ex_f)) (den_list (ia ex_g)))) = [0 # 1; 5 # 6; -1 # 6]%Q /\
  qs (poly_mul (ib ex_f) (ib ex_g)) = [1 # 1; 1 # 1; 0 # 1]%Q /\
  (let y := snd (iir_filter ex_f [q 1 1; q 0 1; q 0 1]) in
   rqs y = Ok [1 # 1; 1 # 2; 1 # 4]%Q /\
   rqs (match y with Ok v => snd (iir_filter ex_g v) | Err e => Err e end) = Ok [1 # 1; 11 # 6; 49 # 36]%Q).
Proof.
  split; [|split; [|split; [|split; [|split; [|split]]]]]; try (vm_compute; reflexivity).
  - split; [|split; reflexivity]. exists (mkArr DFloat [q 0 1; q 1 2]), (mkArr DFloat [q 1 1; q 0 1]), (mkArr DFloat []), [].
    split; [split; [|split]; [repeat constructor..|discriminate]|].
    split; [cbn; lia|]. eexists; split; reflexivity.
  - split; [|split; reflexivity]. exists (mkArr DFloat [q 0 1; q 1 3]), (mkArr DFloat [q 1 1; q 1 1]), (mkArr DFloat []), [].
    split; [split; [|split]; [repeat constructor..|discriminate]|].
    split; [cbn; lia|]. eexists; split; reflexivity.
Qed.

(** The order of two filters does not matter. *)
Theorem C142_iir_order (A : Arith) (L : Laws A) dt (f g : iir A) (x : list A) :
  iir_at_rest dt f -> iir_at_rest dt g -> x <> [] -> Forall (fits dt) x ->
  exists f' g' f'' g'' y w z,
    iir_filter f x = (f', Ok y) /\ iir_filter g y = (g', Ok z) /\
    iir_filter g x = (g'', Ok w) /\ iir_filter f w = (f'', Ok z).
Proof.
  intros Hf Hg Hx Tx.
  destruct (iir_rest_run L dt f x Hf Hx Tx) as (f' & y & Ef & Df & _ & Hy & Ty).
  destruct (iir_rest_run L dt g y Hg Hy Ty) as (g' & z & Eg & Dg & _ & _ & _).
  destruct (iir_rest_run L dt g x Hg Hx Tx) as (g'' & w & Eg2 & Dg2 & _ & Hw & Tw).
  destruct (iir_rest_run L dt f w Hf Hw Tw) as (f'' & v & Ef2 & Df2 & _ & _ & _).
  exists f', g', f'', g'', y, w, z. repeat split; auto. rewrite Ef2. f_equal. f_equal.
  pose proof Df as [Ly _]. pose proof Dg as [Lz _]. pose proof Dg2 as [Lw _]. pose proof Df2 as [Lv _].
  apply (nth_ext _ _ zero zero); [congruence|]. rewrite Lv, Lw.
  apply (difference_series A L) in Df; auto. apply (difference_series A L) in Dg; auto.
  apply (difference_series A L) in Dg2; auto. apply (difference_series A L) in Df2; auto.
  rewrite Lw in Df2. rewrite Ly in Dg.
  apply (cauchy_inj A L (length x) (den (ia g))); [reflexivity|]. apply (cauchy_inj A L (length x) (den (ia f))); [reflexivity|].
  change (fun n => nth n v zero) with (coef v). change (fun n => nth n z zero) with (coef z).
  intros n Hn. rewrite (cauchy_swap A L).
  transitivity (cauchy (den (ia g)) (cauchy (coef (ib f)) (coef w)) n); [apply (cauchy_upto A (length x)); auto; apply upto_refl|].
  rewrite (cauchy_swap A L).
  transitivity (cauchy (coef (ib f)) (cauchy (coef (ib g)) (coef x)) n); [apply (cauchy_upto A (length x)); auto; apply upto_refl|].
  rewrite (cauchy_swap A L).
  transitivity (cauchy (coef (ib g)) (cauchy (den (ia f)) (coef y)) n);
    [apply (cauchy_upto A (length x)); auto; [apply upto_refl|apply upto_sym; exact Df]|].
  rewrite (cauchy_swap A L). apply (cauchy_upto A (length x)); auto; [apply upto_refl|apply upto_sym; exact Dg].
Qed.
Print Assumptions C142_iir_order.

(** In double arithmetic the order does matter: 1.3 through gains 0.1 and 3. *)
Theorem C142_order_doubles_refuted : exists f g : fir FA,
  fir_used (mkArr DFloat [0x1.999999999999ap-4]%float) (mkArr DFloat []) [] f /\
  fir_used (mkArr DFloat [3]%float) (mkArr DFloat []) [] g /\
  exists y w,
    fls (snd (fir_filter f [0x1.4cccccccccccdp+0]%float)) = Ok y /\ fls (snd (fir_filter g [0x1.4cccccccccccdp+0]%float)) = Ok w /\
    fls (snd (fir_filter g y)) = Ok [0x1.8f5c28f5c28f6p-2]%float /\
    fls (snd (fir_filter f w)) = Ok [0x1.8f5c28f5c28f7p-2]%float.
Proof.
  eexists. eexists. split; [eexists; split; reflexivity|]. split; [eexists; split; reflexivity|].
  eexists. eexists. split; [vm_compute; reflexivity|]. split; [vm_compute; reflexivity|]. split; vm_compute; reflexivity.
Qed.
Print Assumptions C142_order_doubles_refuted.

Theorem C142_fir_cascade (A : Arith) (L : Laws A) dt (f g h : fir A) (x : list A) :
  fir_at_rest dt f -> fir_at_rest dt g -> fir_at_rest dt h -> x <> [] -> Forall (fits dt) x ->
  (forall n, coef (fb h) n = cauchy (coef (fb f)) (coef (fb g)) n) ->
  exists f' g' h' y z,
    fir_filter f x = (f', Ok y) /\ fir_filter g y = (g', Ok z) /\ fir_filter h x = (h', Ok z).
Proof.
  intros Hf Hg Hh Hx Tx Hb.
  destruct (fir_rest_run L dt f x Hf Hx Tx) as (f' & y & Ef & Df & _ & Hy & Ty).
  destruct (fir_rest_run L dt g y Hg Hy Ty) as (g' & z & Eg & Dg & _ & Hz & Tz).
  destruct (fir_rest_run L dt h x Hh Hx Tx) as (h' & w & Eh & Dh & Uh & _).
  exists f', g', h', y, z. split; [exact Ef|]. split; [exact Eg|]. rewrite (Uh z); [exact Eh|].
  pose proof Df as [Ly _]. pose proof Dg as [Lz _].
  apply (cascade_series A L [] (fb f) [] (fb g) [] (fb h) x y z); auto; [congruence|].
  intros n. symmetry. apply (cauchy_one A L).
Qed.
Print Assumptions C142_fir_cascade.

(** C142.  Two filters side by side are one filter. *)
Theorem C142_iir_parallel (A : Arith) (L : Laws A) dt (f g h : iir A) (x : list A) :
  iir_at_rest dt f -> iir_at_rest dt g -> iir_at_rest dt h -> x <> [] -> Forall (fits dt) x ->
  (forall n, den (ia h) n = cauchy (den (ia f)) (den (ia g)) n) ->
  (forall n, coef (ib h) n = add (cauchy (coef (ib f)) (den (ia g)) n) (cauchy (coef (ib g)) (den (ia f)) n)) ->
  exists f' g' h' y z w,
    iir_filter f x = (f', Ok y) /\ iir_filter g x = (g', Ok z) /\ iir_filter h x = (h', Ok w) /\
    length w = length x /\ forall n, n < length x -> nth n w zero = add (nth n y zero) (nth n z zero).
Proof.
  intros Hf Hg Hh Hx Tx Ha Hb.
  destruct (iir_rest_run L dt f x Hf Hx Tx) as (f' & y & Ef & Df & _ & Hy & Ty).
  destruct (iir_rest_run L dt g x Hg Hx Tx) as (g' & z & Eg & Dg & _ & Hz & Tz).
  destruct (iir_rest_run L dt h x Hh Hx Tx) as (h' & w & Eh & Dh & Uh & _).
  pose proof Df as [Ly _]. pose proof Dg as [Lz _]. pose proof Dh as [Lw _].
  set (v := map (fun n => add (nth n y zero) (nth n z zero)) (seq 0 (length x))).
  assert (Hv : forall n, n < length x -> nth n v zero = add (nth n y zero) (nth n z zero)).
  { intros n Hn. unfold v. rewrite (nth_map_lt _ _ n 0) by (rewrite seq_length; auto). rewrite seq_nth by auto. reflexivity. }
  assert (E : v = w).
  { apply Uh. apply (parallel_series A L (ia f) (ib f) (ia g) (ib g) (ia h) (ib h) x y z v); auto.
    unfold v. rewrite map_length, seq_length. reflexivity. }
  exists f', g', h', y, z, w. repeat (split; [assumption|]). rewrite <- E. exact Hv.
Qed.
Print Assumptions C142_iir_parallel.

(** C142.  A filter whose coefficients are the reciprocal recovers the input. *)
Theorem C142_iir_inverse (A : Arith) (L : Laws A) dt (f g : iir A) (x : list A) :
  iir_at_rest dt f -> iir_at_rest dt g -> x <> [] -> Forall (fits dt) x ->
  (forall n, cauchy (coef (ib f)) (coef (ib g)) n = cauchy (den (ia f)) (den (ia g)) n) ->
  exists f' g' y, iir_filter f x = (f', Ok y) /\ iir_filter g y = (g', Ok x).
Proof.
  intros Hf Hg Hx Tx Hab.
  destruct (iir_rest_run L dt f x Hf Hx Tx) as (f' & y & Ef & Df & _ & Hy & Ty).
  destruct (iir_rest_run L dt g y Hg Hy Ty) as (g' & z & Eg & Dg & _ & Hz & Tz).
  exists f', g', y. split; [exact Ef|].
  rewrite <- (inverse_series A L (ia f) (ib f) (ia g) (ib g) x y z Hab Df Dg). exact Eg.
Qed.
Print Assumptions C142_iir_inverse.

(** An FirFilter with leading coefficient one is undone by the all-pole IirFilter
    with a = -b[1:] and b = [1]. *)
Theorem C142_fir_inverse (A : Arith) (L : Laws A) dt (f : fir A) (g : iir A) (x : list A) :
  fir_at_rest dt f -> iir_at_rest dt g -> x <> [] -> Forall (fits dt) x ->
  (forall n, den (ia g) n = coef (fb f) n) -> (forall n, coef (ib g) n = coef [one] n) ->
  exists f' g' y, fir_filter f x = (f', Ok y) /\ iir_filter g y = (g', Ok x).
Proof.
  intros Hf Hg Hx Tx Ha Hb.
  destruct (fir_rest_run L dt f x Hf Hx Tx) as (f' & y & Ef & Df & _ & Hy & Ty).
  destruct (iir_rest_run L dt g y Hg Hy Ty) as (g' & z & Eg & Dg & _ & Hz & Tz).
  exists f', g', y. split; [exact Ef|].
  rewrite <- (inverse_series A L [] (fb f) (ia g) (ib g) x y z); auto.
  intros n. rewrite (cauchy_one A L), Ha, (cauchy_comm A L).
  rewrite (cauchy_ext A (coef (ib g)) (den []) (coef (fb f)) (coef (fb f))) by (auto; intros; rewrite Hb; symmetry; apply (den_nil A L)).
  apply (cauchy_one A L).
Qed.
Print Assumptions C142_fir_inverse.

(** y[n] = x[n] - x[n-1]/2 undone by z[n] = y[n] + z[n-1]/2. *)
Example C142_inverse_example :
  let f := @mkFir QA DFloat [q 1 1; q (-1) 2] [q 0 1; q 0 1] in
  fir_at_rest DFloat f /\ iir_at_rest DFloat ex_f /\
  (forall n, den (ia ex_f) n = coef (fb f) n) /\ (forall n, coef (ib ex_f) n = coef [one] n) /\
  rqs (snd (fir_filter f [q 4 1; q 5 1; q 7 1])) = Ok [4 # 1; 3 # 1; 9 # 2]%Q /\
  rqs (snd (iir_filter ex_f [q 4 1; q 3 1; q 9 2])) = Ok [4 # 1; 5 # 1; 7 # 1]%Q.
Proof.
  cbv zeta. split; [|split; [|split; [|split; [|split]]]]; try (vm_compute; reflexivity).
  - split; [|split; reflexivity]. exists (mkArr DFloat [q 1 1; q (-1) 2]), (mkArr DFloat []), [].
    split; [repeat constructor|]. eexists; split; reflexivity.
  - apply C142_example.
  - intros [|[|[|n]]]; apply Qc_is_canon; vm_compute; reflexivity.
  - intros [|[|[|n]]]; apply Qc_is_canon; vm_compute; reflexivity.
Qed.

(** 1/(1-z/2) + (1+z)/(1-z/3) = (2 + z/6 - z^2/2) / (1 - 5z/6 + z^2/6). *)
Example C142_parallel_example :
  qs (map (fun n => add (cauchy (coef (ib ex_f)) (den (ia ex_g)) n) (cauchy (coef (ib ex_g)) (den (ia ex_f)) n)) (seq 0 4)) =
    [2 # 1; 1 # 6; -1 # 2; 0 # 1]%Q /\
  rqs (snd (iir_filter (mkIir DFloat [q 0 1; q 5 6; q (-1) 6] [q 2 1; q 1 6; q (-1) 2] [q 0 1; q 0 1; q 0 1])
                       [q 1 1; q 0 1; q 0 1])) = Ok [2 # 1; 11 # 6; 25 # 36]%Q /\
  rqs (snd (iir_filter ex_f [q 1 1; q 0 1; q 0 1])) = Ok [1 # 1; 1 # 2; 1 # 4]%Q /\
  rqs (snd (iir_filter ex_g [q 1 1; q 0 1; q 0 1])) = Ok [1 # 1; 4 # 3; 4 # 9]%Q.
Proof. split; [|split; [|split]]; vm_compute; reflexivity. Qed.

(** C143.  Time invariance: a delayed signal gives the delayed output. *)
Theorem C143_iir_time_invariance (A : Arith) (L : Laws A) dt (f : iir A) (x : list A) (d : nat) :
  iir_at_rest dt f -> x <> [] -> Forall (fits dt) x ->
  exists f' f'' y, iir_filter f x = (f', Ok y) /\ iir_filter f (zeros d ++ x) = (f'', Ok (zeros d ++ y)).
Proof.
  intros Hf Hx Tx.
  destruct (iir_rest_run L dt f x Hf Hx Tx) as (f' & y & Ef & Df & _ & Hy & Ty).
  destruct (iir_rest_run L dt f (zeros d ++ x) Hf) as (f'' & z & Ez & Dz & Uz & _).
  - destruct x; [congruence|]. destruct d; discriminate.
  - apply Forall_app. split; [apply (Forall_zeros A L)|exact Tx].
  - exists f', f'', y. split; [exact Ef|]. rewrite (Uz (zeros d ++ y)); [exact Ez|]. apply (delay_series A L). exact Df.
Qed.
Print Assumptions C143_iir_time_invariance.

Theorem C143_fir_time_invariance (A : Arith) (L : Laws A) dt (f : fir A) (x : list A) (d : nat) :
  fir_at_rest dt f -> x <> [] -> Forall (fits dt) x ->
  exists f' f'' y, fir_filter f x = (f', Ok y) /\ fir_filter f (zeros d ++ x) = (f'', Ok (zeros d ++ y)).
Proof.
  intros Hf Hx Tx.
  destruct (fir_rest_run L dt f x Hf Hx Tx) as (f' & y & Ef & Df & _ & Hy & Ty).
  destruct (fir_rest_run L dt f (zeros d ++ x) Hf) as (f'' & z & Ez & Dz & Uz & _).
  - destruct x; [congruence|]. destruct d; discriminate.
  - apply Forall_app. split; [apply (Forall_zeros A L)|exact Tx].
  - exists f', f'', y. split; [exact Ef|]. rewrite (Uz (zeros d ++ y)); [exact Ez|]. apply (delay_series A L). exact Df.
Qed.
Print Assumptions C143_fir_time_invariance.

Example C143_example :
  rqs (snd (iir_filter ex_g [q 1 1; q 2 1])) = Ok [1 # 1; 10 # 3]%Q /\
  rqs (snd (iir_filter ex_g (zeros 2 ++ [q 1 1; q 2 1]))) = Ok [0 # 1; 0 # 1; 1 # 1; 10 # 3]%Q.
Proof. split; vm_compute; reflexivity. Qed.

(** From a nonzero state the delayed signal meets another state. *)
Theorem C143_any_state_refuted : exists (b s : arr QA) f x,
  arr_ok b /\ fir_used b s [] f /\
  rqs (snd (fir_filter f x)) = Ok [6 # 1]%Q /\ rqs (snd (fir_filter f (zeros 1 ++ x))) = Ok [5 # 1; 1 # 1]%Q.
Proof.
  exists (mkArr DFloat [q 1 1; q 1 1]), (mkArr DFloat [q 5 1; q 0 1]). eexists. exists [q 1 1].
  split; [repeat constructor|]. split; [eexists; split; reflexivity|]. split; vm_compute; reflexivity.
Qed.
Print Assumptions C143_any_state_refuted.
