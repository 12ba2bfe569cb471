(** Small cases the larger theorems leave open: the group delay where the response is zero,
    an empty signal beside lists, and PolyphaseRateFilter.reset. *)
From Coq Require Import String List Arith ZArith Bool Reals Lra Lia Qcanon.
From Coquelicot Require Import Complex.
From Verif Require Import Base BaseLemmas PyString Instances FirModel FirDesignProofs IirModel PolyC ZModel ZProofs ZProps IirDesignProofs IirDesignProps RankModel
  AnalysisModel AnalysisProofs AnalysisProps ListModel PolyphaseModel.
Import ListNotations.

(** Where the response is zero the delay is reported as 0: scipy replaces the value at a
    singular point, and zero counts as singular. *)
Theorem C126_fir_delay_null singular (f : fir CA) (L c : Z) y ax k : singular (RtoC 0) = true ->
  fir_delay singular f L c = Ok (y, ax) -> (k < Z.to_nat L)%nat -> (k <> 0%nat \/ (L <= 2)%Z) ->
  fir_at (fb f) (PI * sampled_at L (nth k ax 0)) = RtoC 0 -> nth k y 0%R = 0%R.
Proof.
  intros Hs. unfold fir_delay. destruct (Z.leb_spec L 0) as [|HL]; [discriminate|]. destruct (Z.leb_spec c 0) as [|Hc]; [discriminate|].
  intros E Hk Hk0. injection E as <- <-. destruct (axis_bin L k HL Hk) as [Ea Eb]. rewrite Ea. intros Hz.
  set (raw := map _ _).
  assert (V : nth k raw 0%R = 0%R).
  { unfold raw. rewrite (nth_indep _ 0%R (0 * IZR c)%R) by (rewrite map_length, length_rotate_half; unfold group_delay; rewrite map_length, length_unit_points; exact Hk).
    rewrite (map_nth (fun v => v * IZR c)%R). unfold group_delay. rewrite nth_rotated by exact Hk. rewrite Eb.
    rewrite pe_conv. unfold fir_at in Hz. rewrite Hz. rewrite Cmult_0_l. rewrite Hs. ring. }
  destruct (Z.ltb_spec 2 L); [|exact V]. rewrite nth_extrapolate by (destruct Hk0; lia). exact V.
Qed.
Print Assumptions C126_fir_delay_null.
(** A differencer at frequency 0. *)
Example C126_null_example : exists y ax, fir_delay zero_test (fir_of [RtoC 1; RtoC (-1)]) 4 3 = Ok (y, ax) /\
  fir_at (fb (fir_of [RtoC 1; RtoC (-1)])) (PI * sampled_at 4 (nth 2 ax 0)) = RtoC 0 /\ nth 2 y 0%R = 0%R.
Proof.
  do 2 eexists. split; [reflexivity|].
  assert (Z : fir_at (fb (fir_of [RtoC 1; RtoC (-1)])) (PI * sampled_at 4 (nth 2 (linspace (-1) (1 - 2 / INR 4) 4) 0)) = RtoC 0).
  { destruct (axis_bin 4 2 ltac:(lia) ltac:(cbn; lia)) as [Ea _]. change (Z.to_nat 4) with 4%nat in Ea. rewrite Ea.
    assert (S0 : sampled_at 4 (-1 + 2 * INR 2 / IZR 4) = 0%R) by (unfold sampled_at; cbn; field). rewrite S0, Rmult_0_r.
    unfold fir_at, fir_of. cbn [fb pe]. rewrite Ropp_0. unfold cis. rewrite cos_0, sin_0. apply injective_projections; cbn; ring. }
  split; [exact Z|].
  eapply (C126_fir_delay_null zero_test (fir_of [RtoC 1; RtoC (-1)]) 4 3 _ _ 2); [|reflexivity|cbn; lia|left; lia|exact Z].
  unfold zero_test. rewrite Cmod_0. destruct (Rltb 0 0) eqn:Q; [|reflexivity]. apply Rltb_iff in Q. lra.
Qed.

(** An empty signal is refused before any sample enters, whatever b and s are. *)
Theorem C177_fir_empty (A : Arith) (b s : vec A) (t : dtype) :
  vfir_filter b s (mkArr t []) = (s, Err ValueError).
Proof. reflexivity. Qed.
Print Assumptions C177_fir_empty.
Example C177_fir_empty_example : vfir_filter (A := QA) (VL [(DFloat, q 1 2)]) (VL [(DInt, q 3 1)]) (mkArr DComplex []) = (VL [(DInt, q 3 1)], Err ValueError).
Proof. reflexivity. Qed.

(** PolyphaseRateFilter.reset: a value fills every register and leaves rate and position
    alone; an argument that is not a scalar is refused and changes nothing. *)
Theorem C184_poly_reset (O : OArith) (f : @poly O) :
  poly_reset f None = (f, Err ValueError) /\
  forall v, exists f', poly_reset f (Some v) = (f', Ok tt) /\ pindex f' = pindex f /\ PolyphaseModel.prate f' = PolyphaseModel.prate f /\
    length (ps f') = length (ps f) /\ Forall (fun s => s = v) (ps f').
Proof.
  split; [reflexivity|]. intros v. eexists. split; [reflexivity|]. cbn. rewrite map_length. repeat split.
  apply Forall_forall. intros s Hs. apply in_map_iff in Hs. destruct Hs as (? & <- & _). reflexivity.
Qed.
Print Assumptions C184_poly_reset.
Example C184_poly_reset_example : @poly_reset QO (@mkPoly QO (q 1 2) (q 3 1) [q 1 1; q 2 1]) (Some (q 5 1)) =
  (@mkPoly QO (q 1 2) (q 3 1) [q 5 1; q 5 1], Ok tt).
Proof. reflexivity. Qed.
