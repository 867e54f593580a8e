(** The facts behind the properties of the interactions, and concrete cases. *)
From Coq Require Import List Arith Bool ZArith Lia Reals Lra.
From Coquelicot Require Import Coquelicot.
From Verif Require Import Star CReal Arr TriModel TriSpec TriProofs TriPropagate TriLemmas FreeExactModel FreeExactSpec FreeExactProofs ElementModel ElementSpec ElementProofs ModeModel ModeProofs CompositeModel ParticleModel ParticleSpec ParticleWaves
  ParticleProofs ParticleFacts ParticleComposition ParticlePictures ParticleCases InteractionModel InteractionSpec RotProofs RotOps InteractionProofs InteractionWaves RotSums InteractionFacts InteractionParticles InteractionLaws.
Import ListNotations.
Add Ring CRIc : (k_ring CR).
Local Open Scope nat_scope.

Lemma oscillating_pure f g : oscillating f g -> Z.abs (snd f) = Z.abs (snd g) -> pure f g.
Proof.
  intros (H1 & H2 & H3) E. specialize (H3 E). split; [exact H1|]. destruct f as [k K], g as [l L]. unfold runs in H3. cbn [fst snd] in *.
  destruct k, l; try contradiction; try congruence; unfold flipNegative;
  repeat match goal with |- context [(?a <? ?b)%Z] => destruct (Z.ltb_spec a b) end; cbn [fst snd pureKinds]; first [exact I|exfalso; lia].
Qed.
Lemma overlap_exists p f g : exists F, mult p (overlap f g) F.
Proof. exists (polyM (prodP (adjP (mfPoly f)) (mfPoly g))). eapply mult_ext; [|apply mult_poly]. intros s. unfold overlap. now rewrite polyV_prod, <- polyV_adj, !mfValue_poly. Qed.

(** ** ParticleTwoModes *)
Lemma two_modes_fact b m0 m1 p fac mf0 mf1 : cavIs b m0 -> cavIs b m1 -> partIs b p -> (b = true -> oscillating mf0 mf1) -> 0 < cvDim m0 -> 0 < cvDim m1 -> fits p mf0 mf1 ->
  exists h, twoModes m0 m1 p fac mf0 mf1 = Ok h /\ ihDims h = [cvDim m0; cvDim m1; pDim p] /\ forall F, mult p (overlap mf0 mf1) F ->
    has_generator h [cavRate m0; cavRate m1; partRate p] (away_from_edges (pDim p) (snd mf0))
      (overI (hTwoModes (if (Z.abs (snd mf0) =? Z.abs (snd mf1))%Z then fac else kconj fac) F)).
Proof.
  intros H0 H1 Hp HK D0 D1 [F1 F2]. destruct (Z.eqb_spec (Z.abs (snd mf0)) (Z.abs (snd mf1))) as [E|E].
  - destruct (twoSpecial_gen m0 m1 p fac mf0 mf1 b H0 H1 Hp (fun e => oscillating_pure _ _ (HK e) E) D0 D1 E F1) as [h [A [B C]]]. exists h. split; [exact A|]. split; [exact B|]. intros F HF. exact (generator_P _ _ _ _ _ (fun psi _ => I) (C F HF)).
  - destruct (twoGeneral_gen m0 m1 p fac mf0 mf1 b H0 H1 Hp) as [h [A [B C]]]; auto; [|lia|].
    + intros e. destruct (HK e) as (K1 & K2 & _). auto.
    + exists h. auto.
Qed.
Lemma exp_phase u : cexp (kmul CI (RC u)) = ((cos u, sin u) : CR).
Proof. rewrite <- exp_iu. f_equal. apply cr_eq; cbn; ring. Qed.
Lemma factor_real u0 u1 phi fac : sin phi = 0%R -> factor u0 u1 phi = Some fac -> kconj fac = fac.
Proof.
  intros Hs. unfold factor. destruct (Rlt_dec _ _); [discriminate|]. intros E. injection E as <-.
  rewrite exp_phase, Hs. apply cr_eq; cbn; ring.
Qed.
Lemma two_modes_real_fact b m0 m1 p u0 u1 phi fac mf0 mf1 : cavIs b m0 -> cavIs b m1 -> partIs b p -> (b = true -> oscillating mf0 mf1) -> 0 < cvDim m0 -> 0 < cvDim m1 -> fits p mf0 mf1 ->
  factor u0 u1 phi = Some fac -> sin phi = 0%R ->
  exists h, twoModes m0 m1 p fac mf0 mf1 = Ok h /\ forall F, mult p (overlap mf0 mf1) F ->
    has_generator h [cavRate m0; cavRate m1; partRate p] (away_from_edges (pDim p) (snd mf0)) (overI (hTwoModes fac F)).
Proof.
  intros H0 H1 Hp HK D0 D1 Hf HF Hs. destruct (two_modes_fact b m0 m1 p fac mf0 mf1 H0 H1 Hp HK D0 D1 Hf) as [h [A [_ C]]]. exists h. split; [exact A|]. intros F HF'. specialize (C F HF'). rewrite (factor_real _ _ _ _ Hs HF) in C. now destruct (_ =? _)%Z.
Qed.
Lemma factor_quarter : factor 1 1 (PI / 2) = Some CI.
Proof.
  unfold factor. destruct (Rlt_dec _ _); [lra|]. f_equal. unfold rsign. destruct (Rlt_dec 1 0); [lra|]. rewrite !Rmult_1_l, sqrt_1, exp_phase, cos_PI2, sin_PI2. apply cr_eq; cbn; ring.
Qed.
Definition c2 := mkCavity 2 None.
Definition p4 := mkParticle 2 None.
Lemma overlap_special : mult p4 (overlap (MPlus, 1%Z) (MMinus, 1%Z)) (waveM (-2)).
Proof. eapply mult_ext; [|apply (mult_wave p4)]. intros x. unfold overlap, mfValue. cbn [fst snd]. rewrite wave_parts, !exp_iu. replace (IZR (-2)) with (-2)%R by reflexivity. replace (-2 * x)%R with (- (2 * x))%R by ring. rewrite cos_neg, sin_neg. replace (IZR 1 * x)%R with x by ring. rewrite cos_neg, sin_neg, cos_2a, sin_2a. apply cr_eq; cbn; ring. Qed.
Lemma overlap_general : mult p4 (overlap (MPlus, 0%Z) (MMinus, 2%Z)) (waveM (-2)).
Proof. eapply mult_ext; [|apply (mult_wave p4)]. intros x. unfold overlap, mfValue. cbn [fst snd]. rewrite wave_parts, !exp_iu. replace (IZR (-2) * x)%R with (- (IZR 2 * x))%R by (replace (IZR (-2)) with (- IZR 2)%R by (now rewrite <- opp_IZR); ring). replace (IZR 0 * x)%R with 0%R by ring. rewrite cos_0, sin_0. apply cr_eq; cbn; ring. Qed.
Lemma unit_away dim k x0 j : (Z.abs k <= Z.of_nat j)%Z -> (Z.of_nat j + Z.abs k < Z.of_nat dim)%Z -> away_from_edges dim k (unit_state (x0 ++ [j])).
Proof.
  intros H1 H2 x i Hi. unfold unit_state. destruct (listnat_eqb_spec (x ++ [i]) (x0 ++ [j])) as [E|_]; [|reflexivity]. apply app_inj_tail in E. destruct E as [_ ->]. lia.
Qed.
Lemma two_modes_refuted : ~ exists H : CR -> mat -> op, forall m0 m1 p u0 u1 phi mf0 mf1 fac h F,
  cavIs false m0 -> cavIs false m1 -> partIs false p -> 0 < cvDim m0 -> 0 < cvDim m1 -> fits p mf0 mf1 ->
  factor u0 u1 phi = Some fac -> twoModes m0 m1 p fac mf0 mf1 = Ok h -> multiplies (pDim p) (pK p) (overlap mf0 mf1) F ->
  has_generator h [cavRate m0; cavRate m1; partRate p] (away_from_edges (pDim p) (snd mf0)) (overI (H fac F)).
Proof.
  intros [H HH]. assert (F1 : fits p4 (MPlus, 1%Z) (MMinus, 1%Z)) by (split; cbn; lia). assert (F2 : fits p4 (MPlus, 0%Z) (MMinus, 2%Z)) by (split; cbn; lia).
  assert (D2 : 0 < cvDim c2) by (cbn; lia). assert (NK : forall A : Prop, false = true -> A) by (intros; discriminate).
  destruct (two_modes_fact false c2 c2 p4 CI (MPlus, 1%Z) (MMinus, 1%Z) eq_refl eq_refl eq_refl (NK _) D2 D2 F1) as [h [A [B C]]].
  destruct (two_modes_fact false c2 c2 p4 CI (MPlus, 0%Z) (MMinus, 2%Z) eq_refl eq_refl eq_refl (NK _) D2 D2 F2) as [h' [A' [B' C']]].
  specialize (C _ overlap_special). specialize (C' _ overlap_general).
  pose proof (HH c2 c2 p4 1%R 1%R (PI / 2)%R _ _ _ _ _ eq_refl eq_refl eq_refl D2 D2 F1 factor_quarter A overlap_special) as X.
  pose proof (HH c2 c2 p4 1%R 1%R (PI / 2)%R _ _ _ _ _ eq_refl eq_refl eq_refl D2 D2 F2 factor_quarter A' overlap_general) as X'.
  assert (Iy : inr [2; 2; 4] [1; 0; 0]) by (repeat constructor). assert (Ix : inr [2; 2; 4] [0; 1; 2]) by (repeat constructor; lia).
  assert (U : forall k, (Z.abs k <= 1)%Z -> away_from_edges (pDim p4) k (unit_state [0; 1; 2])) by (intros k Hk; apply (unit_away 4 k [0; 1] 2); lia).
  assert (E : overI (H CI (waveM (-2))) [1; 0; 0] [0; 1; 2] = overI (hTwoModes CI (waveM (-2))) [1; 0; 0] [0; 1; 2]).
  { eapply generator_entry; [exact X|exact C|apply U; cbn; lia|rewrite B; exact Iy|rewrite B; exact Ix]. }
  assert (E' : overI (H CI (waveM (-2))) [1; 0; 0] [0; 1; 2] = overI (hTwoModes (kconj CI) (waveM (-2))) [1; 0; 0] [0; 1; 2]).
  { eapply generator_entry; [exact X'|exact C'|apply U; cbn; lia|rewrite B'; exact Iy|rewrite B'; exact Ix]. }
  rewrite E in E'. unfold overI, hTwoModes, timesO, plusO, hc in E'. rewrite !kron3 in E'. unfold creation, annihilation, waveM in E'. cbn -[INR sqrt] in E'. apply (f_equal (fun z : CR => cre z)) in E'. cbn -[INR sqrt] in E'. cbn [INR] in E'. rewrite sqrt_1 in E'. lra.
Qed.
Lemma two_modes_case : sin PI = 0%R /\ factor 1 4 PI = Some (RC (-2)) /\ fits p4 (MSin, 1%Z) (MCos, 1%Z) /\ oscillating (MSin, 1%Z) (MCos, 1%Z) /\ oscillating (MPlus, 1%Z) (MSin, 2%Z) /\
  (exists h F, twoModes c2 c2 p4 (RC (-2)) (MSin, 1%Z) (MCos, 1%Z) = Ok h /\ multiplies (pDim p4) (pK p4) (overlap (MSin, 1%Z) (MCos, 1%Z)) F /\ F 2 0 = ((0, - / 4)%R : CR)) /\
  away_from_edges (pDim p4) 1 (unit_state [1; 0; 2]).
Proof.
  split; [exact sin_PI|]. split.
  { unfold factor. destruct (Rlt_dec _ _); [lra|]. f_equal. unfold rsign. destruct (Rlt_dec 1 0); [lra|]. rewrite exp_phase, cos_PI, sin_PI. replace (1 * 4)%R with (2 * 2)%R by ring. rewrite sqrt_square by lra. apply cr_eq; cbn; ring. }
  split; [split; cbn; lia|]. split; [repeat split; cbn; try lia; discriminate|]. split; [repeat split; cbn; lia|]. split.
  - destruct (two_modes_fact false c2 c2 p4 (RC (-2)) (MSin, 1%Z) (MCos, 1%Z)) as [h [A _]]; try reflexivity; try discriminate; [cbn; lia..|split; cbn; lia|].
    exists h. eexists. split; [exact A|]. split.
    + eapply mult_ext; [|apply (mult_scale p4 (RC (/ 2))), (mfM_mult p4 (MSin, 2%Z))]. intros x. unfold overlap, mfValue. cbn [fst snd]. replace (IZR 1 * x)%R with x by ring. replace (IZR 2 * x)%R with (2 * x)%R by reflexivity. rewrite sin_2a. apply cr_eq; cbn; field.
    + unfold mfM, sinM, waveM. cbn. apply cr_eq; cbn; field.
  - apply (unit_away 4 1 [1; 0] 2); lia.
Qed.

(** ** ParticleAlongCavity *)
Lemma along_fact b m p uNot eta mf mfPart : cavIs b m -> partIs b p -> (b = true -> oscillating mf mfPart /\ (uNot = 0%R \/ isComplexMF (fst mf) = true)) -> 0 < cvDim m -> (0 <= snd mf)%Z -> fits p mf mfPart ->
  exists h, alongTwo m p uNot eta mf mfPart = Ok h /\ ihDims h = [cvDim m; pDim p] /\ forall W F, mult p (potential 1 mf) W -> mult p (overlap mf mfPart) F ->
    has_generator h [cavRate m; partRate p] (away_from_edges (pDim p) (snd mf)) (overI (hAlong uNot eta W F)).
Proof.
  intros Hm Hp HK Hd H0 [F1 F2]. destruct (Z.eq_dec (snd mf) (Z.abs (snd mfPart))) as [E|E].
  - destruct (alongSpecial_gen m p uNot eta mf mfPart b Hm Hp) as [h [A [B C]]]; auto; [|lia|].
    + intros e. destruct (HK e) as [K1 K2]. split; [|exact K2]. apply oscillating_pure; [exact K1|lia].
    + exists h. split; [exact A|]. split; [exact B|]. intros W F HW HF. exact (generator_P _ _ _ _ _ (fun psi _ => I) (C W F HW HF)).
  - destruct (alongGeneral_gen m p uNot eta mf mfPart b Hm Hp) as [h [A [B C]]]; auto.
    + intros e. destruct (HK e) as [(K1 & K2 & _) K3]. auto.
    + exists h. auto.
Qed.
Lemma along_special_fact b m p uNot eta mf mfPart : cavIs b m -> partIs b p -> (b = true -> oscillating mf mfPart /\ (uNot = 0%R \/ isComplexMF (fst mf) = true)) -> 0 < cvDim m -> (0 <= snd mf)%Z -> fits p mf mfPart ->
  snd mf = Z.abs (snd mfPart) ->
  exists h, alongTwo m p uNot eta mf mfPart = Ok h /\ ihDims h = [cvDim m; pDim p] /\ forall W F, mult p (potential 1 mf) W -> mult p (overlap mf mfPart) F ->
    has_generator h [cavRate m; partRate p] any_state (overI (hAlong uNot eta W F)).
Proof.
  intros Hm Hp HK Hd H0 [F1 F2] E. destruct (alongSpecial_gen m p uNot eta mf mfPart b Hm Hp) as [h [A [B C]]]; auto; [|lia|].
  - intros e. destruct (HK e) as [K1 K2]. split; [|exact K2]. apply oscillating_pure; [exact K1|lia].
  - exists h. auto.
Qed.
Lemma unpumped_fact b m p uNot eta mf : cavIs b m -> partIs b p -> (b = true -> snd mf <> 0%Z /\ (uNot = 0%R \/ isComplexMF (fst mf) = true)) -> 0 < cvDim m -> fits p mf mf ->
  exists h, alongOne m p uNot eta mf = Ok h /\ ihDims h = [cvDim m; pDim p] /\ forall W F, mult p (potential 1 mf) W -> mult p (fun x => kconj (mfValue mf x)) F ->
    has_generator h [cavRate m; partRate p] any_state (overI (hAlong uNot eta W F)).
Proof.
  intros Hm Hp HK Hd [F1 _]. destruct (alongOne_gen m p uNot eta mf b Hm Hp HK Hd F1) as [h [A [B C]]]. exists h. split; [exact A|]. split; [exact B|]. intros W F HW HF.
  assert (HF' : mult p (mfValue mf) (adj F)) by (eapply mult_ext; [|exact (mult_adj p _ _ HF)]; intros x; apply kconj_invol). specialize (C W _ HW HF'). eapply generator_ext; [|exact C].
  rewrite B. intros y x Hy Hx. destruct (inr2_inv _ _ _ Hy) as (i & j & -> & _). destruct (inr2_inv _ _ _ Hx) as (k & l & -> & _). unfold overI, hAlong, hOrthogonal, timesO, plusO, hc. rewrite !kron2, !kconj_mul.
  rewrite <- (adj_annihilation i k), <- (adj_annihilation k i). unfold adj. rewrite !kconj_invol. ring.
Qed.
Lemma orthogonal_fact b m p eta mf : cavIs b m -> partIs b p -> (b = true -> snd mf <> 0%Z) -> 0 < cvDim m -> (Z.abs (snd mf) <= Z.of_nat (pDim p))%Z ->
  exists h, orthogonal m p eta mf = Ok h /\ ihDims h = [cvDim m; pDim p] /\ forall F, mult p (mfValue mf) F -> has_generator h [cavRate m; partRate p] any_state (overI (hOrthogonal eta F)).
Proof. exact (orth_gen b m p eta mf). Qed.
Lemma effective_fact u v : (forall e, etaEff u v = Some e -> (e * e = u * v)%R /\ (0 <= e * u)%R) /\ (etaEff u v = None <-> (u * v < 0)%R).
Proof.
  unfold etaEff. destruct (Rle_dec 0 (u * v)) as [L|L].
  - split; [|split; [discriminate|lra]]. intros e E. injection E as <-. pose proof (sqrt_sqrt _ L) as S. pose proof (sqrt_pos (u * v)) as P. unfold rsign. destruct (Rlt_dec u 0); split; nra.
  - split; [discriminate|]. split; [lra|reflexivity].
Qed.

(** ** Pictures *)
Lemma cexp_real_one t : cexp (RC t) = k1 -> t = 0%R.
Proof.
  intros E. apply (f_equal (fun z : CR => cre z)) in E. unfold cexp in E. cbn in E. rewrite cos_0, Rmult_1_r in E. destruct (Rtotal_order t 0) as [L|[L|L]]; auto.
  - apply exp_increasing in L. rewrite exp_0 in L. lra.
  - apply exp_increasing in L. rewrite exp_0 in L. lra.
Qed.
Definition q2 := mkCavity 2 (Some (RC 1, 0%R)).
(** a qbit in the interaction picture and a mode in the Schroedinger picture *)
Lemma mixed_refuted : exists h h0 G, makeJaynesCummings (AQbit (Some (RC 1, 0%R))) c2 k1 = Ok h /\ makeJaynesCummings (AQbit None) c2 k1 = Ok h0 /\
  has_generator h0 [atomRate (AQbit None); cavRate c2] any_state G /\ ~ has_generator h [atomRate (AQbit (Some (RC 1, 0%R))); cavRate c2] any_state G.
Proof.
  destruct (jc_gen false (AQbit None) c2 k1 eq_refl eq_refl ltac:(cbn; lia)) as [h0 [E0 [Ed0 H0]]].
  destruct (sigma_rot true (AQbit (Some (RC 1, 0%R)))) as [s [Es Hs]]; [split; reflexivity|]. destruct (cav_rot false c2 eq_refl ltac:(cbn; lia)) as [a [Ea Ha]].
  pose proof (kron_scale1 _ _ _ _ (kconj k1) _ Hs) as Hs'. pose proof (rot_dagger_kron _ _ _ _ _ Ha) as Ha'. cbn [map] in Ha'.
  destruct (prod_frozen _ _ _ _ _ _ _ _ _ _ Hs' Ha' (or_intror eq_refl)) as [t [Et Ht]]. destruct (frozen_minusHC _ _ Ht) as [h [Eh Hh]].
  assert (NZ : isNonZero (k1 : CR) = true) by (destruct (isNonZero (k1 : CR)) eqn:Z; auto; apply zero_isNonZero in Z; apply (f_equal (fun z : CR => cre z)) in Z; cbn in Z; lra).
  exists (mkIntH [2; 2] [h] None), h0, (overI (hJaynesCummings k1 annihilation)). split.
  { unfold makeJaynesCummings. cbn zeta. rewrite NZ, Es, Ea. cbn [bind]. rewrite Et. cbn [bind]. rewrite Eh. reflexivity. }
  split; [exact E0|]. split; [exact H0|]. intros HG.
  pose proof (frozen_generator [2; 2] h _ _ Hh HG [0; 1] [1; 0] 1%R ltac:(repeat constructor) ltac:(repeat constructor)) as X.
  assert (G1 : overI (hJaynesCummings k1 annihilation) [0; 1] [1; 0] = k1).
  { unfold overI, hJaynesCummings, timesO, plusO, hc. rewrite !kron2. unfold annihilation, creation. cbn -[INR sqrt]. cbn [INR]. rewrite sqrt_1. apply cr_eq; cbn; ring. }
  assert (T0 : kmul (RC 1) (together [atomRate (AQbit (Some (RC 1, 0%R))); cavRate c2] [0; 1]) = RC 0) by (cbn [together atomRate]; unfold cavRate; cbn [c2 cvExact eigenvalue]; apply cr_eq; cbn; ring).
  assert (T1 : kmul (RC 1) (together [atomRate (AQbit (Some (RC 1, 0%R))); cavRate c2] [1; 0]) = RC (-1)) by (cbn [together atomRate]; unfold cavRate; cbn [c2 cvExact eigenvalue]; apply cr_eq; cbn; ring).
  rewrite G1, T0, T1 in X.
  assert (E1 : cexp (RC (-1)) = k1).
  { transitivity (kmul k1 (cexp (RC (-1)))); [ring|]. rewrite <- X. unfold cexp. apply cr_eq; cbn; rewrite exp_0, ?cos_0, ?sin_0; ring. }
  apply cexp_real_one in E1. lra.
Qed.
(** CoupledModes with CM_NX and the second mode in the interaction picture, as is the first *)
Lemma nx_refuted : exists h h0 G, makeCoupledModes CM_NX q2 q2 k1 = Ok h /\ makeCoupledModes CM_NX c2 c2 k1 = Ok h0 /\
  has_generator h0 [cavRate c2; cavRate c2] any_state G /\ ~ has_generator h [cavRate q2; cavRate q2] any_state G.
Proof.
  destruct (coupled_gen CM_NX c2 c2 k1 eq_refl ltac:(cbn; lia) ltac:(cbn; lia)) as [h0 [E0 [Ed0 H0]]].
  destruct (cavN_rot q2 (rate [cavRate q2]) ltac:(cbn; lia)) as [n [En Hn]]. destruct (cavX_rot true q2) as [x [Ex Hx]]; [split; reflexivity|cbn; lia|].
  destruct (prod_frozen _ _ _ _ _ _ _ _ _ _ (kron_scale1 _ _ _ _ (RC (cre k1)) _ Hn) Hx (or_introl eq_refl)) as [t [Et Ht]].
  assert (NZ : isNonZero (k1 : CR) = true) by (destruct (isNonZero (k1 : CR)) eqn:Z; auto; apply zero_isNonZero in Z; apply (f_equal (fun z : CR => cre z)) in Z; cbn in Z; lra).
  exists (mkIntH [2; 2] [scale (kopp CI) t] None), h0, (overI (hCoupledModes CM_NX k1)). split.
  { unfold makeCoupledModes, coupledH. cbn zeta. rewrite NZ, En. cbn [bind]. rewrite Ex. cbn [bind]. rewrite Et. reflexivity. }
  split; [exact E0|]. split; [exact H0|]. intros HG.
  pose proof (frozen_generator [2; 2] _ _ _ (frozen_scale _ (kopp CI) _ Ht) HG [1; 0] [1; 1] 1%R ltac:(repeat constructor) ltac:(repeat constructor)) as X.
  set (g := overI (hCoupledModes CM_NX k1) [1; 0] [1; 1]) in *.
  assert (G1 : kmul CI g = RC (/ sqrt 2)).
  { unfold g, overI, hCoupledModes, timesO. rewrite kron2. unfold number, position, annihilation, creation. cbn -[INR sqrt]. cbn [INR]. rewrite sqrt_1. apply cr_eq; cbn; ring. }
  cbn [together] in X.
  replace (kmul (RC 1) (kadd (cavRate q2 1) (kadd (cavRate q2 0) k0))) with (RC (-1)) in X by (unfold cavRate; cbn [q2 cvExact eigenvalue]; apply cr_eq; cbn; ring).
  replace (kmul (RC 1) (kadd (cavRate q2 1) (kadd (cavRate q2 1) k0))) with (RC (-2)) in X by (unfold cavRate; cbn [q2 cvExact eigenvalue]; apply cr_eq; cbn; ring).
  assert (X' : kmul (cexp (RC (-1))) (RC (/ sqrt 2)) = kmul (RC (/ sqrt 2)) (cexp (RC (-2)))) by (rewrite <- G1; transitivity (kmul CI (kmul (cexp (RC (-1))) g)); [ring|rewrite X; ring]).
  apply (f_equal (fun z : CR => cre z)) in X'. unfold cexp in X'. cbn in X'. rewrite cos_0, sin_0 in X'. assert (S2 : (0 < / sqrt 2)%R) by (apply Rinv_0_lt_compat, sqrt_lt_R0; lra).
  assert (L : (exp (-2) < exp (-1))%R) by (apply exp_increasing; lra). nra.
Qed.
(** the dispersive term of ParticleAlongCavity with the mode and the particle in the interaction picture *)
Definition i4 := mkParticle 2 (Some 1%R).
Lemma disp_refuted : exists h h0 G, alongOne q2 i4 1 0 (MCos, 1%Z) = Ok h /\ alongOne c2 p4 1 0 (MCos, 1%Z) = Ok h0 /\
  has_generator h0 [cavRate c2; partRate p4] any_state G /\ ~ has_generator h [cavRate q2; partRate i4] any_state G.
Proof.
  destruct (unpumped_fact false c2 p4 1 0 (MCos, 1%Z)) as [h0 [E0 [Ed0 H0]]]; [reflexivity..|discriminate|cbn; lia|split; cbn; lia|].
  assert (HF : mult p4 (fun x => kconj (mfValue (MCos, 1%Z) x)) (adj (mfM (MCos, 1%Z)))) by apply mult_adj, mfM_mult.
  assert (HW : mult p4 (potential 1 (MCos, 1%Z)) (fun y x => kmul (RC (1 / 2)) (mfM (MCos, 2%Z) y x))).
  { eapply mult_ext; [|exact (mult_scale p4 (RC (1 / 2)) _ _ (mfM_mult p4 (MCos, 2%Z)))]. intros s. rewrite potential_real by auto. unfold mfValue. cbn [fst snd]. now rewrite RC_mul. }
  specialize (H0 _ _ HW HF).
  destruct (cavN_rot q2 (rate [cavRate q2]) ltac:(cbn; lia)) as [n [En Hn]].
  destruct (mf_rot true i4 (MCos, 2%Z)) as [c [Ec Hc]]; [reflexivity|discriminate|cbn; lia|]. unfold mfNKX in Ec. cbn [fst snd] in Ec.
  destruct (prod_frozen _ _ _ _ _ _ _ _ _ _ (kron_scale1 _ _ _ _ (RC 1) _ (kron_scale1 _ _ _ _ (RC 1) _ Hn)) Hc (or_introl eq_refl)) as [t [Et Ht]].
  assert (R1 : Reqb 1 0 = false) by (destruct (Reqb 1 0) eqn:Z; auto; apply Reqb_eq in Z; lra). assert (R0 : Reqb 0 0 = true) by now apply Reqb_eq.
  eexists _, h0, _. split.
  { unfold alongOne, dispersive. cbn [fst snd isComplexMF]. rewrite R1. cbn [negb andb]. rewrite En. cbn [bind]. change (Z.shiftl 1 1) with 2%Z. rewrite Ec. cbn [bind]. rewrite Et. cbn [bind]. rewrite R0. reflexivity. }
  split; [exact E0|]. split; [exact H0|]. intros HG.
  pose proof (frozen_generator [2; 4] _ _ _ (frozen_scale _ ((0, - / 2)%R : CR) _ Ht) HG [1; 0] [1; 2] (PI / 4) ltac:(repeat constructor) ltac:(repeat constructor)) as X.
  set (g := overI (hAlong _ _ _ _) [1; 0] [1; 2]) in *.
  assert (G1 : kmul CI g = RC (/ 4)).
  { unfold g, overI, hAlong, timesO, plusO, hc. rewrite !kron2. unfold number, creation, adj, mfM, cosM, waveM. cbn -[INR sqrt]. cbn [INR]. apply cr_eq; cbn; field. }
  assert (X' : kmul (cexp (kmul (RC (PI / 4)) (together [cavRate q2; partRate i4] [1; 0]))) (RC (/ 4)) = kmul (RC (/ 4)) (cexp (kmul (RC (PI / 4)) (together [cavRate q2; partRate i4] [1; 2])))).
  { rewrite <- G1. transitivity (kmul CI (kmul (cexp (kmul (RC (PI / 4)) (together [cavRate q2; partRate i4] [1; 0]))) g)); [ring|]. rewrite X. ring. }
  assert (T0 : kmul (RC (PI / 4)) (together [cavRate q2; partRate i4] [1; 0]) = ((- PI / 4, - PI)%R : CR)).
  { cbn [together]. unfold cavRate, partRate, pK, gridK, kMax, deltaX, xMax. cbn. pose proof PI_RGT_0. apply cr_eq; cbn; field; lra. }
  assert (T2 : kmul (RC (PI / 4)) (together [cavRate q2; partRate i4] [1; 2]) = ((- PI / 4, 0)%R : CR)).
  { cbn [together]. unfold cavRate, partRate, pK, gridK, kMax, deltaX, xMax. cbn. pose proof PI_RGT_0. apply cr_eq; cbn; field; lra. }
  rewrite T0, T2 in X'. apply (f_equal (fun z : CR => cre z)) in X'. unfold cexp in X'. cbn in X'. rewrite cos_neg, cos_PI, cos_0 in X'. pose proof (exp_pos (- PI / 4)). nra.
Qed.

(** ** The norm *)
Lemma norm_jc b a m g : atomIs b a -> cavIs b m -> 0 < cvDim m -> exists h, makeJaynesCummings a m g = Ok h /\ norm_kept h [atomRate a; cavRate m] any_state.
Proof. intros H1 H2 H3. destruct (jc_gen b a m g H1 H2 H3) as [h [A [B C]]]. exists h. split; [exact A|]. exact (generator_norm _ _ _ _ C (herm_jc _ _ _)). Qed.
Lemma norm_coupled c b m1 m2 u : cavIs b m1 -> cavIs b m2 -> (c = CM_NX -> b = false) -> 0 < cvDim m1 -> 0 < cvDim m2 ->
  exists h, makeCoupledModes c m1 m2 u = Ok h /\ norm_kept h [cavRate m1; cavRate m2] any_state.
Proof.
  intros H1 H2 Hb D1 D2. destruct (coupled_gen c m1 m2 u) as [h [A [B C]]]; auto.
  - destruct c; cbn; eauto. now rewrite <- (Hb eq_refl).
  - exists h. split; [exact A|]. apply (generator_norm _ _ _ _ C). rewrite B. apply herm_coupled.
Qed.
Lemma norm_dicke b m s (u y : R) : cavIs b m -> spinIs b s -> 0 < cvDim m -> exists h, generalDicke m s (RC u) (RC y) = Ok h /\ norm_kept h [cavRate m; spinRate s] any_state.
Proof. intros H1 H2 H3. destruct (dicke_gen b m s (RC u) (RC y) H1 H2 H3) as [h [A [B C]]]. exists h. split; [exact A|]. apply (generator_norm _ _ _ _ C). rewrite B. apply herm_dicke. Qed.
Lemma norm_orth b m p eta mf : cavIs b m -> partIs b p -> (b = true -> snd mf <> 0%Z) -> 0 < cvDim m -> (Z.abs (snd mf) <= Z.of_nat (pDim p))%Z ->
  exists h, orthogonal m p eta mf = Ok h /\ norm_kept h [cavRate m; partRate p] any_state.
Proof. intros H1 H2 H3 H4 H5. destruct (orth_gen b m p eta mf H1 H2 H3 H4 H5) as [h [A [B C]]]. exists h. split; [exact A|]. exact (generator_norm _ _ _ _ (C _ (mfM_mult p mf)) (herm_orth _ _ _)). Qed.
Lemma potential_exists p mf : exists W, mult p (potential 1 mf) W.
Proof.
  destruct (isComplexMF (fst mf)) eqn:E.
  - exists (polyM []). eapply mult_ext; [|apply mult_poly]. intros s. rewrite potential_complex by auto. reflexivity.
  - eexists. eapply mult_ext; [|exact (mult_scale p (RC ((match fst mf with MSin => -1 | _ => 1 end) / 2)) _ _ (mfM_mult p (MCos, (2 * snd mf)%Z)))].
    intros s. rewrite potential_real by auto. unfold mfValue. cbn [fst snd]. now rewrite RC_mul.
Qed.
Lemma norm_along b m p uNot eta mf mfPart : cavIs b m -> partIs b p -> (b = true -> oscillating mf mfPart /\ (uNot = 0%R \/ isComplexMF (fst mf) = true)) -> 0 < cvDim m -> (0 <= snd mf)%Z -> fits p mf mfPart ->
  exists h, alongTwo m p uNot eta mf mfPart = Ok h /\ norm_kept h [cavRate m; partRate p] (away_from_edges (pDim p) (snd mf)).
Proof.
  intros H1 H2 H3 H4 H5 H6. destruct (along_fact b m p uNot eta mf mfPart H1 H2 H3 H4 H5 H6) as [h [A [B C]]]. exists h. split; [exact A|].
  destruct (potential_exists p mf) as [W HW]. destruct (overlap_exists p mf mfPart) as [F HF]. apply (generator_norm _ _ _ _ (C W F HW HF)). rewrite B. exact (herm_along _ p _ _ mf _ _ HW).
Qed.
Lemma norm_along_special b m p uNot eta mf mfPart : cavIs b m -> partIs b p -> (b = true -> oscillating mf mfPart /\ (uNot = 0%R \/ isComplexMF (fst mf) = true)) -> 0 < cvDim m -> (0 <= snd mf)%Z -> fits p mf mfPart ->
  snd mf = Z.abs (snd mfPart) -> exists h, alongTwo m p uNot eta mf mfPart = Ok h /\ norm_kept h [cavRate m; partRate p] any_state.
Proof.
  intros H1 H2 H3 H4 H5 H6 H7. destruct (along_special_fact b m p uNot eta mf mfPart H1 H2 H3 H4 H5 H6 H7) as [h [A [B C]]]. exists h. split; [exact A|].
  destruct (potential_exists p mf) as [W HW]. destruct (overlap_exists p mf mfPart) as [F HF]. apply (generator_norm _ _ _ _ (C W F HW HF)). rewrite B. exact (herm_along _ p _ _ mf _ _ HW).
Qed.
Lemma norm_unpumped b m p uNot eta mf : cavIs b m -> partIs b p -> (b = true -> snd mf <> 0%Z /\ (uNot = 0%R \/ isComplexMF (fst mf) = true)) -> 0 < cvDim m -> fits p mf mf ->
  exists h, alongOne m p uNot eta mf = Ok h /\ norm_kept h [cavRate m; partRate p] any_state.
Proof.
  intros H1 H2 H3 H4 H5. destruct (unpumped_fact b m p uNot eta mf H1 H2 H3 H4 H5) as [h [A [B C]]]. exists h. split; [exact A|].
  destruct (potential_exists p mf) as [W HW]. pose proof (mult_adj p _ _ (mfM_mult p mf)) as HF. apply (generator_norm _ _ _ _ (C W _ HW HF)). rewrite B. exact (herm_along _ p _ _ mf _ _ HW).
Qed.
Lemma norm_two b m0 m1 p fac mf0 mf1 : cavIs b m0 -> cavIs b m1 -> partIs b p -> (b = true -> oscillating mf0 mf1) -> 0 < cvDim m0 -> 0 < cvDim m1 -> fits p mf0 mf1 ->
  exists h, twoModes m0 m1 p fac mf0 mf1 = Ok h /\ norm_kept h [cavRate m0; cavRate m1; partRate p] (away_from_edges (pDim p) (snd mf0)).
Proof.
  intros H0 H1 Hp HK D0 D1 Hf. destruct (two_modes_fact b m0 m1 p fac mf0 mf1 H0 H1 Hp HK D0 D1 Hf) as [h [A [B C]]]. exists h. split; [exact A|].
  destruct (overlap_exists p mf0 mf1) as [F HF]. exact (generator_norm _ _ _ _ (C F HF) (herm_two _ _ _)).
Qed.
(** a rate which is not zero *)
Lemma norm_entry h es G psi : has_generator h es any_state G -> norm_kept h es any_state ->
  norm_rate (ihDims h) psi (fun y => isum (ihDims h) (fun x => kmul (G y x) (psi x))) = k0.
Proof.
  intros HG HN. destruct (HG [] 0%R psi (fun _ => k0) I) as [d [E D]]. rewrite <- (HN [] 0%R psi d I E). unfold norm_rate.
  f_equal; apply isum_ext; intros y Hy; rewrite !carried_zero.
  - f_equal. rewrite (isum_ext _ _ (fun x => kmul (G y x) (carried es 0 psi x))) by (intros; now rewrite carried_zero). rewrite <- D by auto. rewrite carried_zero. ring.
  - f_equal. f_equal. rewrite (isum_ext _ _ (fun x => kmul (G y x) (carried es 0 psi x))) by (intros; now rewrite carried_zero). rewrite <- D by auto. rewrite carried_zero. ring.
Qed.
Definition s1 := mkSpin 1 0 None.
Lemma dicke_refuted : exists h, generalDicke c2 s1 CI k0 = Ok h /\ ~ norm_kept h [cavRate c2; spinRate s1] any_state.
Proof.
  destruct (dicke_gen false c2 s1 CI k0 eq_refl eq_refl ltac:(cbn; lia)) as [h [A [B C]]]. exists h. split; [exact A|]. intros HN.
  pose proof (norm_entry _ _ _ (unit_state [1; 1]) C HN) as X. rewrite B in X. assert (I1 : inr [cvDim c2; spDim s1] [1; 1]) by (repeat constructor).
  unfold norm_rate in X. rewrite (isum_ext _ (fun y => kmul (kconj (isum _ _)) _) (fun y => kmul (kconj (overI (hGeneralDicke 1 CI k0) y [1; 1])) (unit_state [1; 1] y))) in X by (intros y _; rewrite isum_unit by exact I1; reflexivity).
  rewrite isum_unit in X by exact I1.
  rewrite (isum_ext _ _ (fun y => kmul (overI (hGeneralDicke 1 CI k0) y [1; 1]) (unit_state [1; 1] y))) in X.
  2:{ intros y _. rewrite isum_unit by exact I1. unfold unit_state. destruct (listnat_eqb y [1; 1]); apply cr_eq; cbn; ring. }
  rewrite isum_unit in X by exact I1. unfold overI, hGeneralDicke, timesO, plusO in X. rewrite !kron2 in X. unfold number in X. apply (f_equal (fun z : CR => cre z)) in X. cbn in X. lra.
Qed.
Definition edge_state : array := fun y => match y with [1; 1] => k1 | [0; 0] => CI | _ => k0 end.
Lemma edge_sum (f : list nat -> CR) : isum [2; 4] (fun x => kmul (f x) (edge_state x)) = kadd (kmul (f [0; 0]) CI) (f [1; 1]).
Proof. rewrite !isum_cons. cbn [seq ksum]. rewrite !isum_cons. cbn [seq ksum]. rewrite !isum_nil. cbn [edge_state]. ring. Qed.
Lemma edge_refuted : exists h, alongTwo c2 p4 0 1 (MPlus, 1%Z) (MPlus, 2%Z) = Ok h /\ ~ norm_kept h [cavRate c2; partRate p4] any_state.
Proof.
  destruct (alongGeneral_raw c2 p4 0 1 (MPlus, 1%Z) (MPlus, 2%Z) false) as [h [A [B C]]]; try reflexivity; try discriminate; try (cbn; lia). exists h. split; [exact A|]. intros HN.
  destruct (potential_exists p4 (MPlus, 1%Z)) as [W HW]. specialize (C W HW).
  pose proof (norm_entry _ _ _ edge_state C HN) as X. rewrite B in X. clear - X. change [cvDim c2; pDim p4] with [2; 4] in X. set (G := plusO _ _) in X.
  unfold norm_rate in X. rewrite (isum_ext _ (fun y => kmul (kconj (isum _ _)) _) (fun y => kmul (kconj (kadd (kmul (G y [0; 0]) CI) (G y [1; 1]))) (edge_state y))) in X by (intros y _; now rewrite edge_sum).
  rewrite (isum_ext _ (fun y => kmul (kconj _) (isum _ _)) (fun y => kconj (kmul (kconj (kadd (kmul (G y [0; 0]) CI) (G y [1; 1]))) (edge_state y)))) in X by (intros y _; rewrite edge_sum, kconj_mul, kconj_invol; ring).
  rewrite <- isum_conj, !edge_sum in X.
  assert (E : forall i j k l, G [i; j] [k; l] = kmul (kopp CI) (kadd (kmul (annihilation i k) (mmulC 4 (adj (mfM (MPlus, 2%Z))) (mfM (MPlus, 1%Z)) j l)) (kmul (creation i k) (mmulC 4 (mfM (MPlus, 2%Z)) (adj (mfM (MPlus, 1%Z))) j l)))).
  { intros i j k l. unfold G, plusO, timesO, overI. rewrite !kron2. change (pDim p4) with 4. generalize (mmulC 4 (adj (mfM (MPlus, 2%Z))) (mfM (MPlus, 1%Z)) j l) (mmulC 4 (mfM (MPlus, 2%Z)) (adj (mfM (MPlus, 1%Z))) j l).
    generalize (number i k) (W j l) (annihilation i k) (creation i k). intros [a1 a2] [b1 b2] [d1 d2] [e1 e2] [f1 f2] [g1 g2]. apply cr_eq; cbn; ring. }
  rewrite !E in X. clear E G. unfold annihilation, creation in X. cbn [Nat.eqb Nat.add] in X. unfold mmulC, lsum in X. cbn [seq ksum] in X. unfold adj, mfM, waveM in X. cbn -[sqrt INR] in X. cbn [INR] in X. rewrite sqrt_1 in X.
  apply (f_equal (fun z : CR => cre z)) in X. cbn in X. lra.
Qed.

(** ** Concrete cases *)
Lemma jc_case : atomIs true (AQbit (Some (RC 1, 0%R))) /\ atomIs true (ASpin (mkSpin 3 0 (Some CI))) /\ cavIs true q2 /\ cavRate q2 1 = RC (-1) /\
  overI (hJaynesCummings CI annihilation) [0; 1] [1; 0] = kopp CI /\ overI (hJaynesCummings CI annihilation) [1; 0] [0; 1] = kopp CI.
Proof.
  split; [split; reflexivity|]. split; [reflexivity|]. split; [split; reflexivity|]. split; [unfold cavRate; cbn [q2 cvExact eigenvalue]; apply cr_eq; cbn; ring|].
  split; unfold overI, hJaynesCummings, timesO, plusO, hc; rewrite !kron2; unfold annihilation, creation; cbn -[INR sqrt]; cbn [INR]; rewrite sqrt_1; apply cr_eq; cbn; ring.
Qed.
Lemma coupled_case : cavIs true q2 /\ cavIs false c2 /\ overI (hCoupledModes CM_XX_RWA CI) [0; 1] [1; 0] = kopp CI /\ hCoupledModes CM_XX (RC 4) [1; 1] [0; 0] = RC 2.
Proof.
  split; [split; reflexivity|]. split; [reflexivity|]. split; unfold overI, hCoupledModes, timesO, plusO, hc; rewrite !kron2; unfold position, annihilation, creation; cbn -[INR sqrt]; cbn [INR]; rewrite sqrt_1.
  - apply cr_eq; cbn; ring.
  - assert (S2 : (/ sqrt 2 * / sqrt 2 = / 2)%R) by (rewrite <- Rinv_mult, sqrt_sqrt; lra). revert S2. generalize (/ sqrt 2)%R. intros r S2. apply cr_eq; cbn; nra.
Qed.
Lemma dicke_case : spinIs true (mkSpin 1 0 (Some CI)) /\ cavIs true q2 /\ hGeneralDicke 1 (RC 3) (RC 2) [1; 1] [1; 1] = RC 3 /\ hGeneralDicke 1 (RC 3) (RC 2) [1; 0] [0; 1] = RC 1.
Proof.
  split; [reflexivity|]. split; [split; reflexivity|]. split; unfold hGeneralDicke, timesO, plusO; rewrite !kron2; unfold number, spinX, spinLower, annihilation, creation; cbn -[INR sqrt]; cbn [INR]; rewrite ?sqrt_1; apply cr_eq; cbn; field.
Qed.
Lemma along_case : cavIs true q2 /\ partIs true i4 /\ oscillating (MPlus, 1%Z) (MMinus, 1%Z) /\ isComplexMF MPlus = true /\ fits i4 (MPlus, 1%Z) (MMinus, 1%Z) /\ fits p4 (MCos, 1%Z) (MCos, 2%Z) /\
  multiplies (pDim p4) (pK p4) (overlap (MPlus, 1%Z) (MMinus, 1%Z)) (waveM (-2)) /\ hAlong 0 3 (fun _ _ => k0) (waveM (-2)) [1; 0] [0; 2] = RC 3 /\
  etaEff (-4) (-9) = Some (-6)%R.
Proof.
  split; [split; reflexivity|]. split; [reflexivity|]. split; [split; [discriminate|split; [discriminate|intros _; reflexivity]]|]. split; [reflexivity|]. split; [split; cbn; lia|]. split; [split; cbn; lia|]. split; [exact overlap_special|]. split.
  - unfold hAlong, timesO, plusO, hc. rewrite !kron2. unfold number, creation, waveM. cbn -[INR sqrt]. cbn [INR]. rewrite sqrt_1. apply cr_eq; cbn; ring.
  - unfold etaEff. destruct (Rle_dec _ _) as [_|H]; [|lra]. f_equal. unfold rsign. destruct (Rlt_dec _ _); [|lra]. replace (-4 * -9)%R with (6 * 6)%R by ring. rewrite sqrt_square; lra.
Qed.
Lemma unique_generator h es G G' : has_generator h es any_state G -> has_generator h es any_state G' -> forall y x, inr (ihDims h) y -> inr (ihDims h) x -> G y x = G' y x.
Proof. intros H H' y x Hy Hx. exact (generator_entry h es any_state G G' y x H H' I Hy Hx). Qed.
Lemma coupled_fact b c m1 m2 u : cavIs b m1 -> cavIs b m2 -> (c = CM_NX -> b = false) -> 0 < cvDim m1 -> 0 < cvDim m2 ->
  exists h, makeCoupledModes c m1 m2 u = Ok h /\ ihDims h = [cvDim m1; cvDim m2] /\ has_generator h [cavRate m1; cavRate m2] any_state (overI (hCoupledModes c u)).
Proof. intros H1 H2 Hb D1 D2. apply coupled_gen; auto. destruct c; cbn; eauto. now rewrite <- (Hb eq_refl). Qed.
Lemma along_sch_fact m p uNot eta mf mfPart : cavIs false m -> partIs false p -> 0 < cvDim m -> (0 <= snd mf)%Z -> fits p mf mfPart ->
  exists h, alongTwo m p uNot eta mf mfPart = Ok h /\ ihDims h = [cvDim m; pDim p] /\ forall W F, mult p (potential 1 mf) W -> mult p (overlap mf mfPart) F ->
    has_generator h [cavRate m; partRate p] (away_from_edges (pDim p) (snd mf)) (overI (hAlong uNot eta W F)).
Proof. intros Hm Hp. apply (along_fact false); auto; discriminate. Qed.
Lemma unpumped_sch_fact m p uNot eta mf : cavIs false m -> partIs false p -> 0 < cvDim m -> fits p mf mf ->
  exists h, alongOne m p uNot eta mf = Ok h /\ ihDims h = [cvDim m; pDim p] /\ forall W F, mult p (potential 1 mf) W -> mult p (fun x => kconj (mfValue mf x)) F ->
    has_generator h [cavRate m; partRate p] any_state (overI (hAlong uNot eta W F)).
Proof. intros Hm Hp. apply (unpumped_fact false); auto; discriminate. Qed.
Lemma matrices_fact p mf mfPart : (exists W, mult p (potential 1 mf) W) /\ (exists F, mult p (overlap mf mfPart) F).
Proof. split; [apply potential_exists|apply overlap_exists]. Qed.
