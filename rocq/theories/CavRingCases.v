(** The three-body system of the ring, and the wave numbers of Ring_Evolved, for CavScriptProperties.v *)
From Coq Require Import List Arith Bool ZArith Lia Reals Lra.
From Coquelicot Require Import Coquelicot.
From Verif Require Import Star CReal Arr HermSpec MasterSpec TriModel TriSpec FreeExactModel FreeExactSpec FreeExactProofs ElementModel ElementSpec ElementProofs ModeModel ModeSpec ModeProofs ModeFacts CompositeModel ParticleModel ParticleSpec ParticleWaves
  RotOps ParticleProofs ParticleFacts ParticleComposition ParticlePictures ParticleCases InteractionModel InteractionSpec InteractionProofs InteractionWaves InteractionFacts InteractionParticles InteractionLaws InteractionCases AverageSpec MatHamModel ScriptSpec
  CavScriptModel CavScriptSpec CavScriptProofs CavScriptFacts CavRing.
Import ListNotations.
Add Ring CRcd : (k_ring CR).
Local Open Scope nat_scope.

Lemma make_pict q qmp s : make q qmp = Ok s -> if isSch qmp then msExact s = None else exists z, msExact s = Some z.
Proof.
  destruct qmp; cbn [isSch]; [apply make_ip| |apply make_sch].
  unfold make, makePumped, makeLossy, makePlain, switch, cMode, cPumpedMode, cLossyModeUIP, cPumpedLossyModeUIP, withIP.
  repeat match goal with |- context [if ?b then _ else _] => destruct b end;
  try match goal with |- context [hamiltonianIP ?a ?b ?c ?d ?e ?f] => destruct (hamiltonianIP a b c d e f) end; cbn [bind]; intros H; try discriminate H; injection H as <-; eexists; reflexivity.
Qed.
Lemma cav_pict q d qmp s : plain q -> make (withDelta d q) qmp = Ok s -> cavIs (negb (isSch qmp)) (cavityOf (withDelta d q) s).
Proof.
  intros (_ & _ & _ & K & _) H. apply make_pict in H. unfold cavIs, cavityOf. destruct (isSch qmp); cbn [negb].
  - now rewrite H.
  - destruct H as [z ->]. cbn. auto.
Qed.
Lemma part_pict qmp fin om s : makeParticle (isSch qmp) fin om = Ok s -> partIs (negb (isSch qmp)) (particleOf s).
Proof. intros H. apply free_exact in H. unfold partIs, particleOf. cbn [pExact]. rewrite H. now destruct (isSch qmp). Qed.
Lemma cav_rate q s n : cavRate (cavityOf q s) n = modeRate s n.
Proof. unfold cavRate, cavityOf, modeRate. cbn [cvExact]. now destruct (msExact s). Qed.
Lemma generator_rates h es es' P G : (forall y, together es y = together es' y) -> has_generator h es P G -> has_generator h es' P G.
Proof.
  intros E H dts dt psi d Hp. destruct (H dts dt psi d Hp) as (d' & A & B). exists d'. split; [exact A|]. intros y Hy. specialize (B y Hy). unfold carried in *. rewrite <- E, B. apply isum_ext. intros x _. now rewrite E.
Qed.
Lemma factor_0 u0 u1 : (0 <= u0 * u1)%R -> factor u0 u1 0 = Some (RC (rsign u0 * sqrt (u0 * u1))).
Proof.
  intros H. unfold factor. destruct (Rlt_dec _ _); [lra|]. f_equal. rewrite exp_phase, cos_0, sin_0. apply cr_eq; cbn; ring.
Qed.
Lemma ring_made p fin om qmp : plain (rP p) -> plain (rM p) -> (0 <= rUnotP p * rUnotM p)%R -> fits (grid fin) (rCavP p) (rCavM p) -> fits (grid fin) (rCavM p) (rCavP p) ->
  (qmp = SCH \/ (isComplexMF (fst (rCavP p)) = true /\ isComplexMF (fst (rCavM p)) = true /\ oscillating (rCavP p) (rCavM p))) ->
  exists r c K, ringScript p fin om qmp = Some r /\ mixing (rUnotP p) (rUnotM p) c /\ kinetic_and fin om (fun _ => k0) K /\
    forall W0 W1 F, mult (grid fin) (intensity (rCavP p)) W0 -> mult (grid fin) (intensity (rCavM p)) W1 -> mult (grid fin) (overlap (rCavP p) (rCavM p)) F ->
      ring_simulates r (away_from_edges (2 ^ fin) (snd (rCavP p))) (ringGenerator (rP p) (rM p) K (hRing (rUnotP p) (rUnotM p) c W0 W1 F)).
Proof.
  intros HP HM Hu [F1 F2] [F3 F4] Hb. pose proof HP as (D0 & _). pose proof HM as (D1 & _).
  destruct (mode_made (rP p) qmp (pDelta (rP p) - lightShift (rUnotP p) (rCavP p)) HP) as (sP & A1 & A2 & A3).
  destruct (mode_made (rM p) qmp (pDelta (rM p) - lightShift (rUnotM p) (rCavM p)) HM) as (sM & B1 & B2 & B3).
  destruct (free_particle (isSch qmp) fin om) as (sp & K & P1 & P2 & P3 & P4).
  pose proof (cav_pict _ _ _ _ HP A1) as CP. pose proof (cav_pict _ _ _ _ HM B1) as CM. pose proof (part_pict _ _ _ _ P1) as CK.
  set (b := negb (isSch qmp)) in *. set (cP := cavityOf _ sP) in CP. set (cM := cavityOf _ sM) in CM.
  assert (bt : b = true -> isComplexMF (fst (rCavP p)) = true /\ isComplexMF (fst (rCavM p)) = true /\ oscillating (rCavP p) (rCavM p)).
  { intros Eb. destruct Hb as [->|Hb]; [discriminate Eb|exact Hb]. }
  assert (Dp : pDim (particleOf sp) = 2 ^ fin) by (unfold pDim, particleOf; cbn [pFin]; now rewrite P2).
  assert (Gr : forall f W, mult (grid fin) f W -> mult (particleOf sp) f W).
  { intros f W H. unfold pDim, pK, particleOf, grid in *. cbn [pFin pExact] in *. rewrite P2. exact H. }
  destruct (unpumped_fact b cP (particleOf sp) (rUnotP p) 0 (rCavP p) CP CK) as (hP & U1 & U2 & U3).
  { intros Eb. destruct (bt Eb) as (c1 & c2' & o1 & o2 & _). auto. } { exact D0. } { rewrite <- P2 in F1. split; [exact F1|]. change (pDim (grid (psFin sp))) with (pDim (particleOf sp)) in F1. lia. }
  destruct (unpumped_fact b cM (particleOf sp) (rUnotM p) 0 (rCavM p) CM CK) as (hM & V1 & V2 & V3).
  { intros Eb. destruct (bt Eb) as (c1 & c2' & o1 & o2 & _). auto. } { exact D1. } { rewrite <- P2 in F3. split; [exact F3|]. change (pDim (grid (psFin sp))) with (pDim (particleOf sp)) in F3. lia. }
  destruct (two_modes_fact b cP cM (particleOf sp) (RC (rsign (rUnotP p) * sqrt (rUnotP p * rUnotM p))) (rCavP p) (rCavM p) CP CM CK) as (hPM & T1 & T2 & T3).
  { intros Eb. apply (bt Eb). } { exact D0. } { exact D1. } { rewrite <- P2 in F1, F2. split; [exact F1|exact F2]. }
  exists (mkRingSys sP sM sp hP hM hPM), (rsign (rUnotP p) * sqrt (rUnotP p * rUnotM p))%R, K. split.
  { unfold ringScript. cbv zeta. unfold shifted. rewrite A1, B1, P1, !eta_zero, (factor_0 _ _ Hu). fold cP cM. rewrite U1, V1, T1. reflexivity. }
  split; [now apply mixing_there|]. split; [exact P4|]. intros W0 W1 F HW0 HW1 HF.
  destruct (potential_there (grid fin) (rCavP p)) as [w0 Hw0]. destruct (potential_there (grid fin) (rCavM p)) as [w1 Hw1].
  assert (HfP : mult (grid fin) (fun x => kconj (mfValue (rCavP p) x)) (adj (mfM (rCavP p)))) by apply mult_adj, mfM_mult.
  assert (HfM : mult (grid fin) (fun x => kconj (mfValue (rCavM p) x)) (adj (mfM (rCavM p)))) by apply mult_adj, mfM_mult.
  specialize (U3 _ _ (Gr _ _ Hw0) (Gr _ _ HfP)). specialize (V3 _ _ (Gr _ _ Hw1) (Gr _ _ HfM)). specialize (T3 _ (Gr _ _ HF)).
  assert (Rc : forall c : R, kconj (RC c) = RC c) by (intros; apply RC_conj). rewrite Rc in T3.
  assert (T3' : has_generator hPM [cavRate cP; cavRate cM; partRate (particleOf sp)] (away_from_edges (pDim (particleOf sp)) (snd (rCavP p)))
     (overI (hTwoModes (RC (rsign (rUnotP p) * sqrt (rUnotP p * rUnotM p))) F))) by (destruct (Z.abs (snd (rCavP p)) =? Z.abs (snd (rCavM p)))%Z; exact T3). clear T3.
  assert (RP : forall n, cavRate cP n = modeRate sP n) by (intros; apply cav_rate). assert (RM : forall n, cavRate cM n = modeRate sM n) by (intros; apply cav_rate).
  split; [cbn [rsIntPM rsP rsM rsPart]; rewrite T2, A2, B2, P2, Dp; reflexivity|].
  split; [cbn [rsIntP rsP rsPart]; rewrite U2, A2, P2, Dp; reflexivity|]. split; [cbn [rsIntM rsM rsPart]; rewrite V2, B2, P2, Dp; reflexivity|].
  cbn [rsP rsM rsPart rsIntP rsIntM rsIntPM]. do 6 eexists. split; [exact A3|]. split; [exact B3|]. split; [exact P3|].
  split. { eapply generator_rates; [|exact U3]. intros [|i [|k [|]]]; cbn [together]; rewrite ?RP; reflexivity. }
  split. { eapply generator_rates; [|exact V3]. intros [|i [|k [|]]]; cbn [together]; rewrite ?RM; reflexivity. }
  split. { rewrite <- Dp. eapply generator_rates; [|exact T3']. intros [|i [|k [|l [|]]]]; cbn [together]; rewrite ?RP, ?RM; reflexivity. }
  rewrite T2, Dp. intros y x Hy Hx. destruct (inr3_inv _ _ _ _ Hy) as (i & j & k & -> & Hi & Hj & Hk). destruct (inr3_inv _ _ _ _ Hx) as (i' & j' & k' & -> & Hi' & Hj' & Hk').
  pose proof (intensity_split (grid fin) _ _ _ Hw0 HW0 k k' Hk Hk') as S0. pose proof (intensity_split (grid fin) _ _ _ Hw1 HW1 k k' Hk Hk') as S1.
  unfold ringGenerator, hRing, onP, onM, overI, hAlong, plusO, timesO. rewrite !kron3, !kron2, !shifted_gen, !shift_mean, S0, S1. change (RC 0) with (k0 : CR).
  replace (RC (rUnotP p * meanOf (rCavP p))) with (kmul (RC (rUnotP p)) (RC (meanOf (rCavP p)))) by (apply cr_eq; cbn; ring).
  replace (RC (rUnotM p * meanOf (rCavM p))) with (kmul (RC (rUnotM p)) (RC (meanOf (rCavM p)))) by (apply cr_eq; cbn; ring). ring.
Qed.
Lemma ring_refused p fin om qmp b : (rUnotP p * rUnotM p < 0)%R -> ringScript p fin om qmp = None /\ ringRhs p b = None.
Proof.
  intros H. split.
  - unfold ringScript. cbv zeta. destruct (make _ qmp); [|reflexivity..]. destruct (make _ qmp); [|reflexivity..]. destruct (makeParticle _ _ _); [|reflexivity..].
    rewrite !eta_zero. unfold factor. destruct (Rlt_dec _ _); [reflexivity|contradiction].
  - unfold ringRhs. cbv zeta. destruct (Rlt_dec _ _); [reflexivity|contradiction].
Qed.

(** ** A wave number which is not 1 *)
Definition ring2 : ringPars := mkRing (mkPars 0 0 0 2 k0 0 0) (mkPars 0 0 0 3 k0 0 0) 1 1 (MPlus, 2%Z) (MMinus, 2%Z) (1 / 4).
Definition halfway : op := fun y x => if (listnat_eqb y [0; 0] || listnat_eqb y [0; 1]) && (listnat_eqb x [0; 0] || listnat_eqb x [0; 1]) then RC (1 / 2) else k0.
Lemma is23 (f : list nat -> CR) : isum [2; 3] f = kadd (kadd (kadd (f [0; 0]) (f [0; 1])) (f [0; 2])) (kadd (kadd (f [1; 0]) (f [1; 1])) (f [1; 2])).
Proof. rewrite isum_cons. unfold ksum. cbn [seq map fold_right]. rewrite !isum_cons. unfold ksum. cbn [seq map fold_right]. rewrite !isum_nil. ring. Qed.
Lemma halfway_case : mtrace [2; 3] halfway = k1 /\ room2 2 3 halfway /\ mean [2; 3] (kron [annihilation; one]) halfway = k0 /\ mean [2; 3] (kron [one; annihilation]) halfway = RC (1 / 2).
Proof.
  split; [|split; [|split]].
  - unfold mtrace. rewrite is23. unfold halfway. cbn [listnat_eqb Nat.eqb andb orb]. apply cr_eq; cbn; lra.
  - intros i j y x H. unfold halfway. split; destruct i as [|i], j as [|[|j]]; try lia; cbn [listnat_eqb Nat.eqb andb orb]; rewrite ?andb_false_r; reflexivity.
  - unfold mean, mtrace, mmul. rewrite is23, !is23. unfold halfway. cbn [listnat_eqb Nat.eqb andb orb kron]. unfold annihilation, one, ElementSpec.identity. cbn [Nat.eqb Nat.add]. ring.
  - unfold mean, mtrace, mmul. rewrite is23, !is23. unfold halfway. cbn [listnat_eqb Nat.eqb andb orb kron]. unfold annihilation, one, ElementSpec.identity. cbn [Nat.eqb Nat.add INR]. rewrite sqrt_1. change (RC 1) with (k1 : CR). ring.
Qed.
Lemma ring2_plain : plain (rP ring2) /\ plain (rM ring2) /\ mixing (rUnotP ring2) (rUnotM ring2) 1.
Proof. repeat split; cbn; try lia; lra. Qed.
Lemma ring2_wrong : ~ follows ring2 1 (ringRhs ring2).
Proof.
  intros H. destruct ring2_plain as (HP & HM & Hc). destruct halfway_case as (Ht & Hr & M0 & M1). specialize (H halfway Ht Hr). cbv zeta in H.
  pose proof (ring_value ring2 1 halfway _ HP HM Hc Ht Hr eq_refl) as X. cbv zeta in X. rewrite X in H. clear X. change (pCutoff (rP ring2)) with 2 in H. change (pCutoff (rM ring2)) with 3 in H. rewrite M0, M1 in H.
  unfold ringRhs in H. cbv zeta in H. change (rUnotP ring2) with 1%R in H. change (rUnotM ring2) with 1%R in H. destruct (Rlt_dec (1 * 1) 0); [lra|]. apply (f_equal (fun o : option (CR * CR) => match o with Some u => fst u | None => k0 end)) in H. cbn [fst snd] in H.
  assert (E : kmul (kmul (kconj (modeFunctionAt (fst (rCavP ring2)) (PI * rX0 ring2))) (modeFunctionAt (fst (rCavM ring2)) (PI * rX0 ring2))) (RC 1) = kopp CI).
  { change (fst (rCavP ring2)) with MPlus. change (fst (rCavM ring2)) with MMinus. change (rX0 ring2) with (1 / 4)%R. unfold modeFunctionAt.
    replace (kopp (kmul CI (RC (PI * (1 / 4))))) with (kmul CI (RC (- (PI / 4)))) by (apply cr_eq; cbn; field). replace (PI * (1 / 4))%R with (PI / 4)%R by field.
    rewrite !exp_phase, cos_neg, sin_neg, cos_PI4, sin_PI4. pose proof (sqrt_sqrt 2 ltac:(lra)) as Q. assert (sqrt 2 <> 0)%R by (intros Z; rewrite Z in Q; lra).
    assert (Q' : (1 / sqrt 2 * (1 / sqrt 2) = 1 / 2)%R) by (rewrite <- Q at 3; field; assumption). set (t := (1 / sqrt 2)%R) in *. apply cr_eq; cbn; nra. }
  assert (E' : overlap (rCavP ring2) (rCavM ring2) (PI * rX0 ring2) = kopp k1).
  { unfold overlap, mfValue. change (rCavP ring2) with (MPlus, 2%Z). change (rCavM ring2) with (MMinus, 2%Z). change (rX0 ring2) with (1 / 4)%R. cbn [fst snd].
    replace (IZR 2 * (PI * (1 / 4)))%R with (PI / 2)%R by (cbn; field). rewrite !exp_iu, cos_neg, sin_neg, cos_PI2, sin_PI2. apply cr_eq; cbn; ring. }
  rewrite E' in H. revert H. set (fP := modeFunctionAt (fst (rCavP ring2)) (PI * rX0 ring2)) in *. set (fM := modeFunctionAt (fst (rCavM ring2)) (PI * rX0 ring2)) in *.
  assert (R1 : (rsign 1 * sqrt (1 * 1))%R = 1%R) by (unfold rsign; destruct (Rlt_dec 1 0); [lra|]; rewrite !Rmult_1_l; apply sqrt_1). rewrite R1. change (pEta (rP ring2)) with (k0 : CR). intros H.
  assert (Z : kmul (kmul CI (kopp CI)) (RC (1 / 2)) = kmul CI (RC (- (1 / 2)))).
  { rewrite <- E. match type of H with ?a = ?b => transitivity (kopp a); [change (RC 1) with (k1 : CR); ring|]; rewrite H end. change (RC 1) with (k1 : CR).
    replace (RC (- (1 / 2))) with (kopp (RC (1 / 2))) by (apply cr_eq; cbn; ring). ring. }
  apply (f_equal (fun z : CR => cre z)) in Z. cbn in Z. lra.
Qed.
(** ** Cases *)
Definition ring1 : ringPars := mkRing (mkPars 0 0 0 2 k0 0 0) (mkPars 0 0 0 3 k0 0 0) 1 1 (MPlus, 1%Z) (MMinus, 1%Z) (1 / 4).
Lemma ring1_case : plain (rP ring1) /\ plain (rM ring1) /\ mixing (rUnotP ring1) (rUnotM ring1) 1 /\ snd (rCavP ring1) = 1%Z /\ snd (rCavM ring1) = 1%Z /\
  fits (grid 2) (rCavP ring1) (rCavM ring1) /\ fits (grid 2) (rCavM ring1) (rCavP ring1) /\ isComplexMF (fst (rCavP ring1)) = true /\ isComplexMF (fst (rCavM ring1)) = true /\ oscillating (rCavP ring1) (rCavM ring1) /\
  mtrace [2; 3] halfway = k1 /\ room2 2 3 halfway /\ mean [2; 3] (kron [one; annihilation]) halfway = RC (1 / 2).
Proof.
  destruct halfway_case as (H1 & H2 & _ & H3).
  repeat match goal with |- _ /\ _ => split end; try assumption; cbn; try lia; try lra; try (intros; discriminate); auto; try reflexivity.
  all: repeat split; cbn; try lia; try lra; try reflexivity; intros; discriminate.
Qed.
Definition runningPump : onePars := mkOne (mkPars 1 0 0 3 (RC 1) 1 0) 3 1 2 (MPlus, 1%Z) 1 2 (MSin, 1%Z).
Lemma running_case : sensible runningPump /\ driven 2 runningPump /\ driven 3 runningPump /\ (0 < oUnot runningPump * oVClass runningPump)%R /\ isComplexMF (fst (oPump runningPump)) = true /\ snd (oPump runningPump) <> 0%Z /\
  (Z.abs (snd (oPump runningPump)) < 2 ^ Z.of_nat (oFin runningPump))%Z /\ 1 < pCutoff (oMode runningPump).
Proof.
  split; [|split; [|split]].
  - split; [repeat split; cbn; try lia; lra|]. split; [cbn; lia|]. split; cbn; lia.
  - intros _. cbn. split; [|lra]. right. lra.
  - intros E. discriminate E.
  - repeat split; cbn; try lia; lra.
Qed.
