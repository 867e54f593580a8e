From Coq Require Import List Arith Bool ZArith Lia Reals Lra.
From Coquelicot Require Import Coquelicot.
From Verif Require Import Star CReal Arr HermSpec MasterSpec TriModel TriSpec FreeExactModel FreeExactSpec FreeExactProofs ElementModel ElementSpec ElementProofs ModeModel ModeSpec ModeProofs ModeFacts CompositeModel ParticleModel ParticleSpec ParticleWaves
  RotOps ParticleProofs ParticleFacts ParticleComposition ParticlePictures ParticleCases InteractionModel InteractionSpec InteractionProofs InteractionWaves InteractionFacts InteractionParticles InteractionLaws InteractionCases AverageSpec MatHamModel ScriptSpec
  CavScriptModel CavScriptSpec CavScriptProofs CavScriptFacts TwoPartModel TwoPartSpec.
Import ListNotations.
Add Ring CRtp : (k_ring CR).
Local Open Scope nat_scope.

(** the mode with its detuning corrected, and what is left of the light shifts *)
Lemma two_sum q d D K u e k W W' F y x : D = mkParticle d None ->
  mult D (potential 1 (MCos, k)) W -> mult D (intensity (MCos, k)) W' -> inr [pCutoff q; pDim D; pDim D] y -> inr [pCutoff q; pDim D; pDim D] x ->
  cavityAndParticles q K K (hAlong u e W' F) y x =
  kadd (kadd (kadd (kron [modeGenerator (withDelta (pDelta q - u) q); one; one] y x) (kron [one; K; one] y x)) (kron [one; one; K] y x))
       (kadd (withFirst (overI (hAlong u e W F)) y x) (withSecond (overI (hAlong u e W F)) y x)).
Proof.
  intros -> HW HW' Hy Hx. destruct (inr3_inv _ _ _ _ Hy) as (i & j & k1' & -> & Hi & Hj & Hk). destruct (inr3_inv _ _ _ _ Hx) as (i' & j' & k' & -> & Hi' & Hj' & Hk').
  unfold cavityAndParticles, withFirst, withSecond, overI, hAlong, plusO, timesO, hc. cbn [kron].
  rewrite shifted_gen, (intensity_split _ _ W W' HW HW' j j' Hj Hj'), (intensity_split _ _ W W' HW HW' k1' k' Hk Hk').
  change (meanOf (MCos, k)) with (/ 2)%R.
  assert (E : kmul CI (RC u) = kmul CI (kmul (RC u) (kadd (RC (/ 2)) (RC (/ 2))))) by (apply cr_eq; cbn; field).
  rewrite E. clear E. ring.
Qed.

Definition onlyOne (p : twoPars) : onePars := let o := tOne p in mkOne (oMode o) (oFin o) (oOmrec o) (pumpDepth p) (oPump o) (oSig o) (oUnot o) (cosine p).
Lemma two_made p : sensible_two p -> (0 <= tAlphaSquare p)%R -> exists sm sp h e K, twoScript p SCH = Made sm sp h /\ scattering p e /\ msDim sm = pCutoff (oMode (tOne p)) /\ psFin sp = oFin (tOne p) /\
  kinetic_and (oFin (tOne p)) (oOmrec (tOne p)) (potential (pumpDepth p) (oPump (tOne p))) K /\
  forall W F, mult (grid (oFin (tOne p))) (intensity (cosine p)) W -> mult (grid (oFin (tOne p))) (overlap (cosine p) (oPump (tOne p))) F ->
    simulates_two sm sp h (away_from_edges (2 ^ oFin (tOne p)) (snd (cosine p))) (cavityAndParticles (oMode (tOne p)) K K (hAlong (oUnot (tOne p)) e W F)).
Proof.
  intros (Hq & Hk & Hf) Ha. pose proof Hq as (Hpos & _). set (o := tOne p) in *.
  destruct (parts_sch (onlyOne p) (pDelta (oMode o) - oUnot o) Hq) as (sm & _ & spp & _ & Kp & M1 & M2 & M3 & M4 & _ & _ & _ & _ & _ & Q1 & Q2 & Q3 & Q4 & Q5).
  cbn [onlyOne oMode oFin oOmrec oVClass oPump] in *. fold o in M1, M3, M4, Q1, Q3, Q5.
  assert (cv : cavIs false (mkCavity (pCutoff (oMode o)) None)) by reflexivity. assert (gr : partIs false (grid (oFin o))) by reflexivity.
  destruct (potential_there (grid (oFin o)) (cosine p)) as [W HW].
  assert (S : (0 <= oUnot o * pumpDepth p)%R). { unfold pumpDepth. fold o. replace (oUnot o * (oUnot o * tAlphaSquare p))%R with (oUnot o * oUnot o * tAlphaSquare p)%R by ring. apply Rmult_le_pos; [nra|exact Ha]. }
  destruct (eta_some _ _ S) as (e & E1 & E2 & E3).
  destruct (along_sch_fact (mkCavity (pCutoff (oMode o)) None) (grid (oFin o)) (oUnot o) e (cosine p) (oPump o) cv gr Hpos Hk Hf) as (h & A & B & C).
  exists sm, spp, h, e, Kp. split.
  { unfold twoScript. fold o. cbv zeta. cbn [isSch]. change (oUnot o * tAlphaSquare p)%R with (pumpDepth p). rewrite Q1, M1, E1, (cav_of _ _ M2). cbn [pCutoff withDelta]. rewrite (grid_of _ Q2), Q3.
    change (MCos, snd (oCav o)) with (cosine p). rewrite A. reflexivity. }
  split. { split; [|exact E3]. rewrite E2. unfold pumpDepth. fold o. ring. }
  split; [exact M3|]. split; [exact Q3|]. split; [exact Q5|]. intros W' F HW' HF.
  split; [rewrite B, M3, Q3; reflexivity|]. do 3 eexists. split; [exact M4|]. split; [exact Q4|]. split.
  - rewrite <- (rates_sch sm spp (pCutoff (oMode o)) M2 Q2), Q3. exact (C W F HW HF).
  - rewrite M3, Q3. intros y x Hy Hx. apply (two_sum (oMode o) (oFin o) (grid (oFin o)) Kp (oUnot o) e (snd (oCav o)) W W' F y x eq_refl HW HW' Hy Hx).
Qed.
Lemma two_right p : sensible_two p -> (0 <= tAlphaSquare p)%R -> identical p -> exists sm sp h, twoScript p SCH = Made sm sp h /\ right_two p sm sp h.
Proof.
  intros Hs Ha (I1 & I2 & I3). destruct (two_made p Hs Ha) as (sm & sp & h & e & K & T & S & _ & _ & Q & G). exists sm, sp, h. split; [exact T|].
  exists e, K, K. split; [exact S|]. split; [exact Q|]. split; [rewrite I1, I2, I3; exact Q|]. exact G.
Qed.
Lemma two_signs p qmp : sensible_two p -> oUnot (tOne p) <> 0%R -> (tAlphaSquare p < 0)%R -> twoScript p qmp = SignDiscrepancy.
Proof.
  intros (Hq & _ & _) U A. unfold twoScript. cbv zeta.
  destruct (mode_made (oMode (tOne p)) qmp (pDelta (oMode (tOne p)) - oUnot (tOne p)) Hq) as (sm & M1 & _).
  destruct (pumped_particle (isSch qmp) (oFin (tOne p)) (oOmrec (tOne p)) (oUnot (tOne p) * tAlphaSquare p) (oPump (tOne p))) as (spp & Kp & Q1 & _).
  rewrite M1, Q1, eta_none; [reflexivity|]. assert (0 < oUnot (tOne p) * oUnot (tOne p))%R by nra.
  replace (oUnot (tOne p) * (oUnot (tOne p) * tAlphaSquare p))%R with (oUnot (tOne p) * oUnot (tOne p) * tAlphaSquare p)%R by ring. nra.
Qed.
(** the second particle has the recoil frequency of the first *)
Lemma gridK_half fin i : gridK fin 1 i = (INR i - INR (2 ^ fin) / 2)%R.
Proof.
  unfold gridK, kMax, deltaX, xMax. assert (0 < INR (2 ^ fin))%R by (apply lt_0_INR; pose proof (Nat.pow_nonzero 2 fin); lia). pose proof PI_RGT_0. field. split; lra.
Qed.
Lemma two_recoil p : sensible_two p -> (0 <= tAlphaSquare p)%R -> tFin2 p = oFin (tOne p) -> tPump2 p = oPump (tOne p) -> tOmrec2 p <> oOmrec (tOne p) -> 0 < oFin (tOne p) ->
  exists sm sp h, twoScript p SCH = Made sm sp h /\ ~ right_two p sm sp h.
Proof.
  intros Hs Ha I1 I3 I2 Hfin. destruct (two_made p Hs Ha) as (sm & sp & h & e0 & K0 & T & _ & D1 & D2 & _). exists sm, sp, h. split; [exact T|].
  intros (e & K1 & K2 & _ & (W1 & A1 & B1) & (W2 & A2 & B2) & G). set (o := tOne p) in *. rewrite I1, I3 in *.
  destruct Hs as ((Hpos & _) & _ & _). fold o in Hpos.
  destruct (potential_exists (grid (oFin o)) (cosine p)) as [W HW].
  assert (HW' : mult (grid (oFin o)) (intensity (cosine p)) (fun i j => kadd (W i j) (kmul (RC (meanOf (cosine p))) (one i j)))).
  { eapply mult_ext; [|exact (mult_add _ _ _ _ _ HW (mult_scale _ (RC (meanOf (cosine p))) _ _ (one_mult _)))]. intros x. unfold potential, intensity, meanOf. apply cr_eq; cbn; ring. }
  destruct (overlap_exists (grid (oFin o)) (cosine p) (oPump o)) as [F HF].
  destruct (G _ F HW' HF) as (_ & Gm & Gp & Gi & _ & _ & _ & E).
  assert (P2 : 2 <= 2 ^ oFin o). { destruct (oFin o) as [|f]; [lia|]. cbn [Nat.pow]. pose proof (Nat.pow_nonzero 2 f). lia. }
  rewrite D1, D2 in E. fold o in E.
  assert (R : forall j k, j < 2 -> k < 2 -> inr [pCutoff (oMode o); 2 ^ oFin o; 2 ^ oFin o] [0; j; k]) by (intros j k Hj Hk; repeat constructor; lia).
  pose proof (E [0; 0; 1] [0; 0; 1] ltac:(apply R; lia) ltac:(apply R; lia)) as E1. pose proof (E [0; 1; 0] [0; 1; 0] ltac:(apply R; lia) ltac:(apply R; lia)) as E2.
  unfold cavityAndParticles, withFirst, withSecond, overI, hAlong, plusO, timesO, hc in E1, E2. cbn [kron] in E1, E2.
  assert (S0 : kadd (K1 0 0) (K2 1 1) = kadd (K1 1 1) (K2 0 0)).
  { change (one 0 0) with (k1 : CR) in E1, E2. change (one 1 1) with (k1 : CR) in E1, E2. change (number 0 0) with (RC (INR 0)) in E1, E2.
    assert (C0 : creation 0 0 = k0) by reflexivity. rewrite C0 in E1, E2. 
    apply (f_equal (fun z => ksub z (modeGenerator (oMode o) 0 0))) in E1. apply (f_equal (fun z => ksub z (modeGenerator (oMode o) 0 0))) in E2.
    change (RC (INR 0)) with (k0 : CR) in E1, E2. rewrite !kconj_mul, kconj_0 in E1, E2.
    match type of E1 with _ = ?r => transitivity r end; [rewrite <- E1; ring|]. match type of E2 with _ = ?r => transitivity r end; [ring|]. rewrite <- E2. ring. }
  rewrite !B1, !B2 in S0 by lia. rewrite !(multiplies_unique _ _ _ W2 W1 _ _ A2 A1) in S0 by lia.
  cbn [Nat.eqb] in S0. rewrite !gridK_half in S0. apply (f_equal cim) in S0. cbn in S0.
  apply I2. fold o. set (c := INR (2 ^ oFin o)) in *. assert (c <> 1%R). { unfold c. intros X. apply (INR_eq (2 ^ oFin o) 1) in X. lia. } nra.
Qed.
(** ** exchange of the particles *)
Lemma exchange_same q K H y x : length y = 3 -> length x = 3 -> cavityAndParticles q K K H (exchange y) (exchange x) = cavityAndParticles q K K H y x.
Proof.
  destruct y as [|i [|j [|k [|l y]]]]; try discriminate. destruct x as [|i' [|j' [|k' [|l' x]]]]; try discriminate. intros _ _.
  unfold cavityAndParticles, exchange, overI, plusO, timesO, withFirst, withSecond. cbn [kron]. ring.
Qed.
(** ** the initial state *)
Lemma boson_state dim f a b : symmetric (particlesState dim true f a b).
Proof. intros i j. unfold particlesState, particlesRaw, product. ring. Qed.
Lemma fermion_state dim a b : antisymmetric (particlesState dim false true a b).
Proof. intros i j. unfold particlesState, particlesRaw, product. ring. Qed.
Lemma plain_state dim a b : exists c, forall i j, particlesState dim false false a b [i; j] = kmul c (kmul (a [i]) (b [j])).
Proof. eexists. intros i j. unfold particlesState, particlesRaw, product. reflexivity. Qed.
Lemma cre_kadd (a b : CR) : cre (kadd a b) = (cre a + cre b)%R. Proof. reflexivity. Qed.
Lemma cim_kadd (a b : CR) : cim (kadd a b) = (cim a + cim b)%R. Proof. reflexivity. Qed.
Lemma cim_sq (z : CR) : cim (kmul z (kconj z)) = 0%R. Proof. cbn. ring. Qed.
Lemma cre_sq (z : CR) : (0 <= cre (kmul z (kconj z)))%R. Proof. cbn. nra. Qed.
Lemma norm_zero dims psi : cre (norm_sq dims psi) = 0%R -> vanishes dims psi.
Proof.
  intros H y Hy. unfold norm_sq in H. assert (N : forall z : CR, (0 <= cre (kmul z (kconj z)))%R) by (intros z; cbn; nra).
  assert (G : forall l, cre (ksum (fun y => kmul (psi y) (kconj (psi y))) l) = 0%R -> (forall y, In y l -> psi y = k0) /\ True).
  { assert (Pos : forall l, (0 <= cre (ksum (fun y => kmul (psi y) (kconj (psi y))) l))%R) by (induction l as [|x l IH]; [cbn; lra|]; cbn [ksum]; specialize (N (psi x)); rewrite cre_kadd; lra).
    induction l as [|x l IH]; [split; [contradiction|trivial]|]. cbn [ksum]. intros E. pose proof (N (psi x)) as Nx. pose proof (Pos l) as Pl.
    assert (cre (kmul (psi x) (kconj (psi x))) = 0 /\ cre (ksum (fun y => kmul (psi y) (kconj (psi y))) l) = 0)%R as [E1 E2] by (rewrite cre_kadd in E; lra).
    split; [|trivial]. intros z [<-|Iz]; [|now apply IH]. assert (Z1 : (cre (psi x) * cre (psi x) = 0)%R) by (cbn in E1; unfold cre, cim; nra). assert (Z2 : (cim (psi x) * cim (psi x) = 0)%R) by (cbn in E1; unfold cre, cim; nra).
      apply cr_eq; [now destruct (Rmult_integral _ _ Z1)|now destruct (Rmult_integral _ _ Z2)]. }
  apply (proj1 (G _ H)). now apply in_indices.
Qed.
Lemma norm_real dims psi : cim (norm_sq dims psi) = 0%R.
Proof. unfold norm_sq, isum. induction (indices dims) as [|x l IH]; [reflexivity|]. cbn [ksum]. now rewrite cim_kadd, IH, cim_sq, Rplus_0_r. Qed.
Lemma norm_pos dims psi : (0 <= cre (norm_sq dims psi))%R.
Proof. unfold norm_sq, isum. induction (indices dims) as [|x l IH]; [cbn; lra|]. cbn [ksum]. rewrite cre_kadd. pose proof (cre_sq (psi x)). lra. Qed.
Lemma particles_normed dim bo fe a b : ~ vanishes [dim; dim] (particlesRaw bo fe a b) -> norm_sq [dim; dim] (particlesState dim bo fe a b) = k1.
Proof.
  intros H. unfold particlesState. set (psi := particlesRaw bo fe a b) in *. cbv zeta.
  assert (P : (0 < cre (norm_sq [dim; dim] psi))%R). { destruct (norm_pos [dim; dim] psi) as [P|P]; [exact P|]. exfalso. apply H. now apply norm_zero. }
  unfold normOf. fold (norm_sq [dim; dim] psi). set (s := sqrt (cre (norm_sq [dim; dim] psi))).
  assert (S : (0 < s)%R) by now apply sqrt_lt_R0.
  transitivity (kmul (RC (/ s * / s)) (norm_sq [dim; dim] psi)).
  - unfold norm_sq. rewrite <- isum_scal_l. apply isum_ext. intros y _. rewrite kconj_mul. apply cr_eq; cbn; ring.
  - assert (Q : (s * s = cre (norm_sq [dim; dim] psi))%R) by (apply sqrt_sqrt; lra). pose proof (norm_real [dim; dim] psi) as Z. set (N := norm_sq [dim; dim] psi) in *. clearbody N.
    assert (E : N = RC (s * s)) by (apply cr_eq; [exact (eq_sym Q)|exact Z]). rewrite E. apply cr_eq; cbn; [field; lra|ring].
Qed.
Lemma fermions_alike dim a : vanishes [dim; dim] (particlesRaw false true a a).
Proof. intros y _. unfold particlesRaw. ring. Qed.
(** ** the correlation of momenta *)
Lemma sum_left (f : nat -> R) l s : fold_left (fun s n => (s + f n)%R) l s = (s + cre (ksum (fun n => RC (f n)) l))%R.
Proof. revert s. induction l as [|x l IH]; intros s; cbn [fold_left ksum]; [cbn; ring|]. rewrite IH, cre_kadd. change (cre (RC (f x))) with (f x). ring. Qed.
Lemma fold_ext {A} (f g : A -> nat -> A) l : (forall a n, f a n = g a n) -> forall s, fold_left f l s = fold_left g l s.
Proof. intros H. induction l as [|x l IH]; intros s; [reflexivity|]. cbn [fold_left]. now rewrite H, IH. Qed.
Lemma cre_ksum_RC {A} (f : A -> CR) l : cre (ksum (fun n => RC (cre (f n))) l) = cre (ksum f l).
Proof. induction l as [|x l IH]; [reflexivity|]. cbn [ksum]. rewrite !cre_kadd, IH. reflexivity. Qed.
Lemma cre_scaled (a b : R) (z : CR) : cre (kmul (kmul (RC a) (kmul (RC b) k1)) z) = (a * b * cre z)%R.
Proof. destruct z as [r i]. unfold cre, cim, RC. cbn. ring. Qed.
Lemma momentum_correlation f1 f2 rho : momentumCorrelation (2 ^ f1) (2 ^ f2) rho = cre (mean [2 ^ f1; 2 ^ f2] (kron [momentumOf f1; momentumOf f2]) rho).
Proof.
  unfold mean, mtrace, mmul. rewrite (isum_ext _ _ (fun x => kmul (kron [momentumOf f1; momentumOf f2] x x) (rho x x))).
  2:{ intros x Hx. apply (isum_single [2 ^ f1; 2 ^ f2] (fun k => kmul (kron [momentumOf f1; momentumOf f2] x k) (rho k x)) x Hx). intros y Hy N.
      destruct (inr2_inv _ _ _ Hx) as (i & j & -> & _). destruct (inr2_inv _ _ _ Hy) as (k & l & -> & _). cbn [kron]. unfold momentumOf.
      destruct (Nat.eqb_spec i k) as [->|Ni]; [|ring]. destruct (Nat.eqb_spec j l) as [->|Nj]; [contradiction|ring]. }
  unfold momentumCorrelation.
  rewrite (fold_ext _ (fun s n => (s + cre (isum [(2 ^ f2)%nat] (fun y => kmul (kron [momentumOf f1; momentumOf f2] (n :: y) (n :: y)) (rho (n :: y) (n :: y)))))%R)).
  - rewrite sum_left, Rplus_0_l, cre_ksum_RC, isum_cons. reflexivity.
  - intros a n. rewrite sum_left. f_equal. rewrite isum_cons. rewrite <- (cre_ksum_RC (fun i => isum [] _)). f_equal. apply ksum_ext. intros m _. f_equal. rewrite isum_nil. cbn [kron]. unfold momentumOf. rewrite !Nat.eqb_refl, !gridK_half, cre_scaled. ring.
Qed.
