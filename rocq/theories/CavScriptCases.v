(** The configuration with the particle moving orthogonally to the cavity, and interaction picture, for CavScriptProperties.v *)
From Coq Require Import List Arith Bool ZArith Lia Reals Lra.
From Coquelicot Require Import Coquelicot.
From Verif Require Import Star CReal Arr HermSpec MasterSpec TriModel TriSpec FreeExactModel FreeExactSpec FreeExactProofs ElementModel ElementSpec ElementProofs ModeModel ModeSpec ModeProofs ModeFacts CompositeModel ParticleModel ParticleSpec ParticleWaves
  RotOps ParticleProofs ParticleFacts ParticleComposition ParticlePictures ParticleCases InteractionModel InteractionSpec InteractionProofs InteractionWaves InteractionFacts InteractionParticles InteractionLaws InteractionCases AverageSpec MatHamModel ScriptSpec
  CavScriptModel CavScriptSpec CavScriptProofs CavScriptFacts.
Import ListNotations.
Add Ring CRcc : (k_ring CR).
Local Open Scope nat_scope.

Lemma orth_made p : sensible p -> (0 <= oUnot p * oVClass p)%R -> exists sm spp h e Kp, script1 1 p SCH = Made sm spp h /\ strength 1 p e /\ ihDims h = [msDim sm; 2 ^ psFin spp] /\ ihDims h = [pCutoff (oMode p); 2 ^ oFin p] /\
  no_jump_generator sm (modeGenerator (oMode p)) /\ part_generator spp Kp /\ kinetic_and (oFin p) (oOmrec p) (potential (oVClass p) (oPump p)) Kp /\
  forall F, mult (grid (oFin p)) (mfValue (oPump p)) F -> has_generator h [modeRate sm; particleRate spp] any_state (overI (hOrthogonal e F)).
Proof.
  intros (Hq & Hk & Hf) Hs. pose proof Hq as (Hpos & _).
  destruct (parts_sch p (pDelta (oMode p)) Hq) as (sm & sp & spp & K & Kp & M1 & M2 & M3 & M4 & P1 & P2 & P3 & P4 & P5 & Q1 & Q2 & Q3 & Q4 & Q5). rewrite withDelta_same in M1, M4.
  destruct (eta_some _ _ Hs) as (e & E1 & E2).
  destruct (orthogonal_fact false (mkCavity (pCutoff (oMode p)) None) (grid (oFin p)) e (oPump p) eq_refl eq_refl ltac:(discriminate) Hpos (proj2 Hf)) as (h & A & B & C).
  exists sm, spp, h, e, Kp. split.
  { unfold script1. cbv zeta. cbn [Z.eqb Pos.eqb isSch]. rewrite M1, P1, Q1, (cav_of _ _ M2), E1, (grid_of _ Q2), Q3, A. reflexivity. }
  split; [exact E2|]. split; [rewrite B, M3, Q3; reflexivity|]. split; [exact B|]. split; [exact M4|]. split; [exact Q4|]. split; [exact Q5|].
  intros F HF. rewrite <- (rates_sch sm spp (pCutoff (oMode p)) M2 Q2), Q3. exact (C F HF).
Qed.
Lemma orth_right p : sensible p -> (0 <= oUnot p * oVClass p)%R -> isComplexMF (fst (oPump p)) = false ->
  exists sm sp h, script1 1 p SCH = Made sm sp h /\ right_system 1 p sm sp h.
Proof.
  intros Hp Hs Hr. destruct (orth_made p Hp Hs) as (sm & spp & h & e & Kp & A & B & D & D' & M & P & Q & C). exists sm, spp, h. split; [exact A|].
  exists e, Kp. split; [exact B|]. split; [exact Q|]. intros W F _ HF. split; [exact D|]. do 3 eexists. split; [exact M|]. split; [exact P|]. split; [exact (C F HF)|].
  change (scattered 1 p) with (mfValue (oPump p)) in HF.
  assert (HH : forall i j, i < pDim (grid (oFin p)) -> j < pDim (grid (oFin p)) -> F i j = kconj (F j i)).
  { apply (real_mult_herm (grid (oFin p)) (mfValue (oPump p))); [|exact HF]. intros x. destruct (oPump p) as [[] K]; cbn in *; try discriminate Hr; apply cr_eq; cbn; ring. }
  rewrite D'. intros y x Hy Hx. destruct (inr2_inv _ _ _ Hy) as (i & k & -> & Hi & Hk). destruct (inr2_inv _ _ _ Hx) as (j & l & -> & Hj & Hl).
  change (shiftOf 1 p) with 0%R. unfold cavityAndParticle, overI, hAlong, hOrthogonal, plusO, timesO, hc. cbn [kron]. rewrite !kconj_mul, kconj_1, <- (HH k l Hk Hl), creation_conj, annihilation_conj.
  change (RC 0) with (k0 : CR). ring.
Qed.
Lemma orth_wrong p : sensible p -> (0 < oUnot p * oVClass p)%R -> isComplexMF (fst (oPump p)) = true -> snd (oPump p) <> 0%Z -> (Z.abs (snd (oPump p)) < 2 ^ Z.of_nat (oFin p))%Z -> 1 < pCutoff (oMode p) ->
  exists sm sp h, script1 1 p SCH = Made sm sp h /\ ~ right_system 1 p sm sp h.
Proof.
  intros Hp Hs Hr H0 HK Hc. destruct (orth_made p Hp ltac:(lra)) as (sm & spp & h & e & Kp & A & B & D & D' & M & P & Q & C). exists sm, spp, h. split; [exact A|].
  intros (e' & K' & B' & _ & X). set (F := mfM (oPump p)).
  assert (HF : mult (grid (oFin p)) (scattered 1 p) F) by (apply mfM_mult).
  destruct (potential_there (grid (oFin p)) (oCav p)) as [W HW].
  assert (HW' : mult (grid (oFin p)) (intensity (oCav p)) (fun i j => kadd (W i j) (kmul (RC (meanOf (oCav p))) (one i j)))).
  { eapply mult_ext; [|exact (mult_add (grid (oFin p)) _ _ _ _ HW (mult_scale (grid (oFin p)) (RC (meanOf (oCav p))) _ _ (one_mult (grid (oFin p)))))]. intros x. unfold potential, intensity, meanOf. apply cr_eq; cbn; ring. }
  destruct (X _ F HW' HF) as (_ & Gm & Gp & Gi & _ & _ & G3 & G4). specialize (C F HF). clear X.
  assert (kl : exists k l, k < 2 ^ oFin p /\ l < 2 ^ oFin p /\ k <> l /\ F k l = k1 /\ F l k = k0).
  { assert (W1 : exists L, F = waveM L /\ Z.abs L = Z.abs (snd (oPump p))).
    { unfold F, mfM. destruct (oPump p) as [[] K]; cbn in *; try discriminate Hr; eexists; split; try reflexivity; lia. }
    destruct W1 as (L & -> & HL). assert (Z2 : (2 ^ Z.of_nat (oFin p))%Z = Z.of_nat (2 ^ oFin p)) by (rewrite Nat2Z.inj_pow; reflexivity). unfold waveM.
    destruct (Z_lt_le_dec 0 L).
    - exists (Z.to_nat L), 0. repeat split; try lia; match goal with |- context [(?a =? ?b)%Z] => destruct (Z.eqb_spec a b); [|] end; try reflexivity; lia.
    - exists 0, (Z.to_nat (- L)). repeat split; try lia; match goal with |- context [(?a =? ?b)%Z] => destruct (Z.eqb_spec a b); [|] end; try reflexivity; lia. }
  destruct kl as (k & l & Hk & Hl & Hn & F1 & F0).
  assert (Iy : inr (ihDims h) [0; k]) by (rewrite D'; repeat constructor; lia). assert (Ix : inr (ihDims h) [1; l]) by (rewrite D'; repeat constructor; lia).
  pose proof (generator_entry _ _ _ _ _ [0; k] [1; l] G3 C I Iy Ix) as E. specialize (G4 _ _ Iy Ix). rewrite E in G4. clear E.
  unfold cavityAndParticle, overI, hAlong, hOrthogonal, plusO, timesO, hc in G4. cbn [kron] in G4. rewrite !kconj_mul, F0, F1, kconj_0 in G4. unfold one, ElementSpec.identity in G4.
  destruct (Nat.eqb_spec k l); [contradiction|]. cbn [Nat.eqb] in G4. change (shiftOf 1 p) with 0%R in G4. change (RC 0) with (k0 : CR) in G4.
  assert (A1 : annihilation 0 1 = k1) by (unfold annihilation; cbn [Nat.eqb Nat.add INR]; now rewrite sqrt_1). rewrite A1 in G4. change (creation 0 1) with (k0 : CR) in G4. change (annihilation 1 0) with (k0 : CR) in G4. rewrite kconj_0 in G4.
  assert (Z : kmul (kopp CI) (RC e) = k0). { transitivity (kadd (kadd (kmul (modeGenerator (oMode p) 0 1) k0) k0) (kmul (kopp CI) (RC e)) : CR); [ring|]. etransitivity; [|etransitivity; [symmetry; exact G4|ring]]. ring. }
  assert (e = 0)%R. { apply (f_equal (fun z : CR => cim z)) in Z. cbn in Z. lra. }
  subst e. destruct B as [B _]. change (0 * 0 = oUnot p * oVClass p)%R in B. lra.
Qed.

(** ** Interaction picture *)
Definition cosCav : onePars := mkOne (mkPars (1 / 2) 0 0 2 k0 1 0) 2 1 0 (MCos, 1%Z) 1 1 (MCos, 1%Z).
Lemma cos_sensible : sensible cosCav /\ driven 4 cosCav.
Proof. split; [|intros E; discriminate E]. split; [repeat split; cbn; try lra; lia|]. split; cbn; [lia|]. split; cbn; lia. Qed.
Lemma kinetic_unique fin om V K K' : kinetic_and fin om V K -> kinetic_and fin om V K' -> forall m n, m < 2 ^ fin -> n < 2 ^ fin -> K m n = K' m n.
Proof.
  intros (W & H1 & H2) (W' & H1' & H2') m n Hm Hn. rewrite H2, H2' by auto. now rewrite (unique_fact (grid fin) V W W' H1 H1' m n Hm Hn).
Qed.
Lemma ip_wrong : exists sm sp h, script1 4 cosCav IP = Made sm sp h /\ ~ right_system 4 cosCav sm sp h.
Proof.
  destruct (proj1 cos_sensible) as (Hq & _ & _).
  destruct disp_refuted as (h & h0 & G & E & E0 & H0 & N).
  destruct (mode_made (oMode cosCav) IP (pDelta (oMode cosCav) - lightShift (oUnot cosCav) (oCav cosCav)) Hq) as (sm & M1 & M2 & M3).
  destruct (free_particle false 2 1) as (sp & K & P1 & _). destruct (pumped_particle false 2 1 0 (MCos, 1%Z)) as (spp & Kp & Q1 & Q2 & Q3 & Q4).
  pose proof (pumped_exact _ _ _ _ _ _ Q1) as Q5. cbv iota in Q5.
  assert (Mz : msExact sm = Some (RC 1)).
  { revert M1. unfold make, makeLossy. cbn [withDelta oMode cosCav pKappa pEta pNTh]. 
    assert (R1 : Reqb 1 0 = false) by (destruct (Reqb 1 0) eqn:Z; auto; apply Reqb_eq in Z; lra). rewrite R1, isNonZero_0, (proj2 (Reqb_eq 0 0) eq_refl). cbn [negb switch]. unfold cLossyMode. intros Y. injection Y as <-.
    cbn [msExact]. unfold decayRate. cbn [pKappa pDelta withDelta oUnot oCav cosCav lightShift fst isComplexMF oMode]. unfold lightShift. cbn [fst isComplexMF]. replace (- (1 / 2 - 1 / 2))%R with 0%R by field. reflexivity. }
  assert (C1 : cavityOf (withDelta (pDelta (oMode cosCav) - lightShift (oUnot cosCav) (oCav cosCav)) (oMode cosCav)) sm = q2) by (unfold cavityOf; rewrite Mz; reflexivity).
  assert (C2 : particleOf spp = i4) by (unfold particleOf; rewrite Q2, Q5; reflexivity).
  exists sm, spp, h. split.
  { unfold script1. cbv zeta. cbn [Z.eqb Pos.eqb isSch]. rewrite M1. change (oFin cosCav) with 2. change (oOmrec cosCav) with 1%R. change (oVClass cosCav) with 0%R. change (oPump cosCav) with (MCos, 1%Z).
    rewrite P1, Q1, eta_zero, C1, C2. change (oUnot cosCav) with 1%R. change (oCav cosCav) with (MCos, 1%Z). now rewrite E. }
  intros (e & K' & He & HK & X). change (e = 0%R) in He. subst e. change (standing 4 cosCav) with (potential 0 (MCos, 1%Z)) in HK. change (oFin cosCav) with 2 in *. change (oOmrec cosCav) with 1%R in HK.
  destruct (potential_there (grid 2) (MCos, 1%Z)) as [W HW].
  assert (HW' : mult (grid 2) (intensity (MCos, 1%Z)) (fun i j => kadd (W i j) (kmul (RC (meanOf (MCos, 1%Z))) (one i j)))).
  { eapply mult_ext; [|exact (mult_add (grid 2) _ _ _ _ HW (mult_scale (grid 2) (RC (meanOf (MCos, 1%Z))) _ _ (one_mult (grid 2))))]. intros x. unfold potential, intensity, meanOf. apply cr_eq; cbn; field. }
  assert (HF : mult (grid 2) (scattered 4 cosCav) (fun i j => kmul k0 (one i j))).
  { eapply mult_ext; [|exact (mult_scale (grid 2) k0 _ _ (one_mult (grid 2)))]. intros x. change (kmul k0 k1 = (k0 : CR)). ring. }
  destruct (X _ _ HW' HF) as (D & Gm & Gp & Gi & G1 & G2 & G3 & G4).
  assert (D4 : ihDims h = [2; 4]) by (rewrite D, M2, Q2; reflexivity).
  assert (Es : [modeRate sm; particleRate spp] = [cavRate q2; partRate i4]) by (unfold modeRate, particleRate, cavRate, partRate, q2, i4; rewrite Mz, Q5, Q2; reflexivity).
  rewrite Es in G3. apply N. apply (generator_ext h _ _ Gi); [|exact G3]. intros y x Hy Hx.
  destruct (unpumped_fact false c2 p4 1 0 (MCos, 1%Z)) as (h0' & E0' & B0 & C0); [reflexivity..|discriminate|cbn; lia|split; cbn; lia|]. rewrite E0 in E0'. injection E0' as <-.
  assert (HF4 : mult p4 (fun x => kconj (mfValue (MCos, 1%Z) x)) (adj (mfM (MCos, 1%Z)))) by apply mult_adj, mfM_mult.
  specialize (C0 W _ HW HF4). 
  rewrite (unique_generator h0 _ G _ H0 C0 y x) by (rewrite B0; rewrite D4 in Hy, Hx; assumption).
  specialize (G4 y x Hy Hx). rewrite D4 in Hy, Hx.
  change (shiftOf 4 cosCav) with 1%R in G4.
  rewrite (sum_right (oMode cosCav) 2 (grid 2) K' 1 0 (MCos, 1%Z) W _ (adj (mfM (MCos, 1%Z))) (fun i j => kmul k0 (one i j)) y x eq_refl HW HW' ltac:(auto) Hy Hx) in G4.
  destruct (inr2_inv _ _ _ Hy) as (i & k & -> & Hi & Hk). destruct (inr2_inv _ _ _ Hx) as (j & l & -> & Hj & Hl). cbn [kron] in G4.
  assert (T1 : Gm i j = modeGenerator (withDelta (pDelta (oMode cosCav) - lightShift 1 (MCos, 1%Z)) (oMode cosCav)) i j) by (apply (generator_unique sm [] 0%R _ _ (G1 [] 0%R) (M3 [] 0%R)); rewrite M2; cbn; lia).
  assert (T2 : Gp k l = K' k l).
  { rewrite (generator_determined spp Gp Kp G2 Q3 k l) by (rewrite Q2; assumption). apply (kinetic_unique 2 1 _ Kp K' Q4 HK); assumption. }
  rewrite T1, T2 in G4. set (u := kadd (kmul (modeGenerator _ i j) _) _) in G4.
  transitivity (ksub (kadd u (Gi [i; k] [j; l])) u); [ring|]. rewrite <- G4. ring.
Qed.
