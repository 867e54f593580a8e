From Coq Require Import List Arith ZArith Reals Lra Lia.
From Verif Require Import Star CReal PureModel DdhoProofs FourierModel FourierSpec FourierProofs FourierFacts PacketProofs.
Import ListNotations.
Local Open Scope nat_scope.
Add Ring CRPacketC : (k_ring CR).

Lemma wave_case : exists x, ffTransformCV 8 (fun m => if m =? 5 then k1 else k0) DIR_KX = Some x /\ (forall j, j < 8 -> x j = wave 8 1 5 j) /\ ffTransformCV 6 (fun _ => k0) DIR_KX = None.
Proof.
  exists (ffLine (2 ^ 3) (fun m => if m =? 5 then k1 else k0) DIR_KX). split; [exact (ffCV_some 3 _ DIR_KX)|]. split; [|reflexivity].
  intros j J. rewrite (proj2 (fin_wave 3 1 (fun m => if m =? 5 then k1 else k0) j one_nz J)). cbn [common]. unfold to_position.
  rewrite (ksum_ext _ (fun m => kmul (if m =? 5 then k1 else k0) (wave (2 ^ 3) 1 m j))) by (intros; ring). rewrite (ksum_pick (fun m => wave (2 ^ 3) 1 m j) 5 (2 ^ 3)) by (cbn; lia). rewrite kconj_1. change (2 ^ 3) with 8. ring.
Qed.
Lemma eigenstate_case : exists a, particleAverage 2 (Pure (fun y => if hd 0 y =? 3 then k1 else k0)) = Some a /\ nth 0 a 0%R = 1%R /\ nth 1 a 0%R = 1%R /\ overlap (2 ^ 2) (fun m => if m =? 3 then k1 else k0) (fun m => if m =? 3 then k1 else k0) = k1.
Proof.
  eexists. split; [reflexivity|]. split; [|split].
  - cbn [nth diagOf hd seq]. rewrite (rsum_ext_range _ (fun i => gridK (2 ^ 2) 1 i * csq (if i =? 3 then k1 else k0))%R) by (intros; now rewrite (proj1 (space_grid 2 1 _ one_nz))). unfold rsum, gridK, csq. cbn. lra.
  - cbn [nth diagOf hd seq]. rewrite (rsum_ext_range _ (fun i => gridK (2 ^ 2) 1 i * gridK (2 ^ 2) 1 i * csq (if i =? 3 then k1 else k0))%R) by (intros; now rewrite (proj1 (space_grid 2 1 _ one_nz))). unfold rsum, gridK, csq. cbn. lra.
  - unfold overlap. apply cr_eq; cbn; ring.
Qed.
Lemma default_refuted : exists p, (0 < pOmrec p)%R /\ pVClass p <> 0%R /\ iSig (pInit p) = 0%R /\ iK0 (pInit p) = 0%R /\ pHoInitn p = 0%Z /\
  ~ samples (2 ^ pFin p) (gridX (2 ^ pFin p) 1) (fun x => RC (ground (pOmrec p) (Rabs (pVClass p)) (PI * iX0 (pInit p)) x)) (pumpedInit p false).
Proof. exists badPars. split; [cbn; lra|]. split; [cbn; lra|]. split; [reflexivity|]. split; [reflexivity|]. split; [reflexivity|]. exact default_bad. Qed.
Lemma hermite_case : exists j, j < 2 ^ 3 /\ RC (exp (- (gridX (2 ^ 3) 1 j * gridX (2 ^ 3) 1 j) / 2) * hermite 2 (gridX (2 ^ 3) 1 j)) <> k0.
Proof.
  exists 4. split; [cbn; lia|]. intros H. apply (f_equal fst) in H. cbn [RC fst k0 CR] in H. rewrite hermite_SS, hermite_1, hermite_0 in H.
  assert (E : gridX (2 ^ 3) 1 4 = 0%R). { unfold gridX. change (2 ^ 3) with 8. cbn [INR]. field. } rewrite E in H. cbn [INR Nat.add] in H. replace (- (0 * 0) / 2)%R with 0%R in H by field. rewrite exp_0 in H. lra.
Qed.
