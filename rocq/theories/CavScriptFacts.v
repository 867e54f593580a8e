(** The configurations of 1particle1mode, for CavScriptProperties.v *)
From Coq Require Import List Arith Bool ZArith Lia Reals Lra.
From Coquelicot Require Import Coquelicot.
From Verif Require Import Star CReal Arr HermSpec MasterSpec TriModel TriSpec FreeExactModel FreeExactSpec FreeExactProofs ElementModel ElementSpec ElementProofs ModeModel ModeSpec ModeProofs ModeFacts CompositeModel ParticleModel ParticleSpec ParticleWaves
  RotOps ParticleProofs ParticleFacts ParticleComposition ParticlePictures ParticleCases InteractionModel InteractionSpec InteractionProofs InteractionWaves InteractionFacts InteractionParticles InteractionLaws InteractionCases AverageSpec MatHamModel ScriptSpec
  CavScriptModel CavScriptSpec CavScriptProofs.
Import ListNotations.
Add Ring CRcf : (k_ring CR).
Local Open Scope nat_scope.

Lemma pumped_exact sch fin om v f s : makePumpedParticle sch fin om v f = Ok s -> psExact s = if sch then None else Some om.
Proof.
  unfold makePumpedParticle. destruct sch.
  - destruct (partHamSch fin om v f); cbn [bind]; intros H; try discriminate H. now injection H as <-.
  - destruct (partHamIP fin om v f); cbn [bind]; intros H; try discriminate H. now injection H as <-.
Qed.
Lemma free_exact sch fin om s : makeParticle sch fin om = Ok s -> psExact s = if sch then None else Some om.
Proof.
  unfold makeParticle. destruct sch.
  - destruct (ofDiagonal (partDiagonal fin (- om))); cbn [bind]; intros H; try discriminate H. now injection H as <-.
  - intros H. now injection H as <-.
Qed.
Lemma grid_of s : psExact s = None -> particleOf s = grid (psFin s).
Proof. destruct s as [f e h]. cbn. now intros ->. Qed.
Lemma cav_of q s : msExact s = None -> cavityOf q s = mkCavity (pCutoff q) None.
Proof. unfold cavityOf. now intros ->. Qed.
Lemma rates_sch sm sp q : msExact sm = None -> psExact sp = None -> [cavRate (mkCavity q None); partRate (grid (psFin sp))] = [modeRate sm; particleRate sp].
Proof. intros H1 H2. unfold cavRate, partRate, modeRate, particleRate, grid. rewrite H1, H2. reflexivity. Qed.
Lemma potential_there p f : exists W, mult p (potential 1 f) W. Proof. apply potential_exists. Qed.

Lemma parts_sch p d : plain (oMode p) -> exists sm sp spp K Kp, make (withDelta d (oMode p)) SCH = Ok sm /\ msExact sm = None /\ msDim sm = pCutoff (oMode p) /\
  no_jump_generator sm (modeGenerator (withDelta d (oMode p))) /\
  makeParticle true (oFin p) (oOmrec p) = Ok sp /\ psExact sp = None /\ psFin sp = oFin p /\ part_generator sp K /\ kinetic_and (oFin p) (oOmrec p) (fun _ => k0) K /\
  makePumpedParticle true (oFin p) (oOmrec p) (oVClass p) (oPump p) = Ok spp /\ psExact spp = None /\ psFin spp = oFin p /\ part_generator spp Kp /\ kinetic_and (oFin p) (oOmrec p) (potential (oVClass p) (oPump p)) Kp.
Proof.
  intros Hp. destruct (mode_made (oMode p) SCH d Hp) as (sm & M1 & M2 & M3). destruct (free_particle true (oFin p) (oOmrec p)) as (sp & K & P1 & P2 & P3 & P4).
  destruct (pumped_particle true (oFin p) (oOmrec p) (oVClass p) (oPump p)) as (spp & Kp & Q1 & Q2 & Q3 & Q4).
  exists sm, sp, spp, K, Kp. repeat split; auto; [exact (make_sch _ _ M1)|exact (free_exact _ _ _ _ P1)|exact (pumped_exact _ _ _ _ _ _ Q1)].
Qed.

Lemma along_right conf p : (conf = 2 \/ conf = 3 \/ conf = 4)%Z -> sensible p -> driven conf p -> (conf = 4%Z \/ 0 <= oUnot p * oVClass p)%R ->
  exists sm sp h, script1 conf p SCH = Made sm sp h /\ right_system conf p sm sp h.
Proof.
  intros Hc (Hq & Hk & Hf) Hd Hs. pose proof Hq as (Hpos & _).
  destruct (parts_sch p (pDelta (oMode p) - lightShift (oUnot p) (oCav p)) Hq) as (sm & sp & spp & K & Kp & M1 & M2 & M3 & M4 & P1 & P2 & P3 & P4 & P5 & Q1 & Q2 & Q3 & Q4 & Q5).
  assert (N1 : (conf =? 1)%Z = false) by (apply Z.eqb_neq; lia).
  assert (fits1 : fits (grid (oFin p)) (oCav p) (oCav p)) by (destruct Hf as [F1 _]; split; [exact F1|lia]).
  assert (cv : cavIs false (mkCavity (pCutoff (oMode p)) None)) by reflexivity. assert (gr : partIs false (grid (oFin p))) by reflexivity.
  destruct (potential_there (grid (oFin p)) (oCav p)) as [W HW].
  assert (CF : mult (grid (oFin p)) (fun x => kconj (mfValue (oCav p) x)) (adj (mfM (oCav p)))) by apply mult_adj, mfM_mult.
  unfold script1. cbv zeta. rewrite N1. cbn [isSch]. rewrite M1, P1, Q1, (cav_of _ _ M2). cbn [pCutoff withDelta]. rewrite (grid_of _ P2), (grid_of _ Q2), P3, Q3.
  destruct Hc as [-> | [-> | ->]]; cbn [Z.eqb Pos.eqb].
  - destruct Hs as [Hs|Hs]; [discriminate|]. destruct (Hd eq_refl) as [D1 D2].
    assert (B1 : negb (isNonZero (pEta (oMode p))) && Reqb (oVClass p) 0 = false).
    { destruct (Reqb (oVClass p) 0) eqn:E; [|apply andb_false_r]. apply Reqb_eq in E. destruct D1 as [D1|D1]; [|contradiction]. rewrite andb_true_r.
      destruct (isNonZero (pEta (oMode p))) eqn:Z; [reflexivity|]. exfalso. apply D1. now apply isNonZero_false. }
    assert (B2 : Reqb (oSig p) 0 = false) by (destruct (Reqb (oSig p) 0) eqn:E; auto; apply Reqb_eq in E; contradiction).
    rewrite B1, B2. destruct (eta_some _ _ Hs) as (e & E1 & E2). rewrite E1.
    destruct (unpumped_fact false (mkCavity (pCutoff (oMode p)) None) (grid (oFin p)) (oUnot p) e (oCav p) cv gr ltac:(discriminate) Hpos fits1) as (h & A & B & C).
    rewrite A. cbn [made]. exists sm, sp, h. split; [reflexivity|]. exists e, K. split; [exact E2|]. split; [exact P5|]. intros W' F HW' HF.
    split; [rewrite B, M3, P3; reflexivity|]. do 3 eexists. split; [exact M4|]. split; [exact P4|]. split.
    + rewrite <- (rates_sch sm sp (pCutoff (oMode p)) M2 P2), P3. exact (C W F HW HF).
    + rewrite B. intros y x Hy Hx. apply (sum_right _ (oFin p) (grid (oFin p)) K (oUnot p) e (oCav p) W W' F F y x eq_refl HW HW'); auto.
  - destruct Hs as [Hs|Hs]; [discriminate|]. destruct (eta_some _ _ Hs) as (e & E1 & E2). rewrite E1.
    destruct (along_sch_fact (mkCavity (pCutoff (oMode p)) None) (grid (oFin p)) (oUnot p) e (oCav p) (oPump p) cv gr Hpos Hk Hf) as (h & A & B & C).
    rewrite A. cbn [made]. exists sm, spp, h. split; [reflexivity|]. exists e, Kp. split; [exact E2|]. split; [exact Q5|]. intros W' F HW' HF.
    split; [rewrite B, M3, Q3; reflexivity|]. do 3 eexists. split; [exact M4|]. split; [exact Q4|]. split.
    + rewrite <- (rates_sch sm spp (pCutoff (oMode p)) M2 Q2), Q3. exact (C W F HW HF).
    + rewrite B. intros y x Hy Hx. apply (sum_right _ (oFin p) (grid (oFin p)) Kp (oUnot p) e (oCav p) W W' F F y x eq_refl HW HW'); auto.
  - rewrite eta_zero.
    destruct (unpumped_fact false (mkCavity (pCutoff (oMode p)) None) (grid (oFin p)) (oUnot p) 0 (oCav p) cv gr ltac:(discriminate) Hpos fits1) as (h & A & B & C).
    rewrite A. cbn [made]. exists sm, spp, h. split; [reflexivity|]. exists 0%R, Kp. split; [reflexivity|]. split; [exact Q5|]. intros W' F HW' HF.
    split; [rewrite B, M3, Q3; reflexivity|]. do 3 eexists. split; [exact M4|]. split; [exact Q4|]. split.
    + rewrite <- (rates_sch sm spp (pCutoff (oMode p)) M2 Q2), Q3. exact (C W _ HW CF).
    + rewrite B. intros y x Hy Hx. apply (sum_right _ (oFin p) (grid (oFin p)) Kp (oUnot p) 0 (oCav p) W W' _ F y x eq_refl HW HW'); auto.
Qed.
Lemma sign_refused conf p qmp : (conf = 1 \/ conf = 2 \/ conf = 3)%Z -> sensible p -> driven conf p -> (oUnot p * oVClass p < 0)%R -> script1 conf p qmp = SignDiscrepancy.
Proof.
  intros Hc (Hq & Hk & Hf) Hd Hs. unfold script1. cbv zeta.
  assert (X : forall d, exists sm, make (withDelta d (oMode p)) qmp = Ok sm) by (intros d; destruct (mode_made (oMode p) qmp d Hq) as (sm & M1 & _); eauto).
  set (q := if (conf =? 1)%Z then _ else _). assert (Y : exists sm, make q qmp = Ok sm).
  { unfold q. destruct (conf =? 1)%Z; [|apply X]. destruct (X (pDelta (oMode p))) as [sm H]. rewrite withDelta_same in H. eauto. }
  destruct Y as [sm M1]. destruct (free_particle (isSch qmp) (oFin p) (oOmrec p)) as (sp & K & P1 & _). destruct (pumped_particle (isSch qmp) (oFin p) (oOmrec p) (oVClass p) (oPump p)) as (spp & Kp & Q1 & _).
  rewrite M1, P1, Q1, (eta_none _ _ Hs). clearbody q. clear M1. destruct Hc as [-> | [-> | ->]]; cbn [Z.eqb Pos.eqb]; try reflexivity.
  destruct (Hd eq_refl) as [D1 D2].
  assert (B1 : Reqb (oVClass p) 0 = false) by (destruct (Reqb (oVClass p) 0) eqn:E; auto; apply Reqb_eq in E; rewrite E in Hs; lra).
  assert (B2 : Reqb (oSig p) 0 = false) by (destruct (Reqb (oSig p) 0) eqn:E; auto; apply Reqb_eq in E; contradiction).
  now rewrite B1, B2, andb_false_r.
Qed.
(** what the script says otherwise *)
Lemma complains p qmp : sensible p ->
  (forall conf, (conf < 1 \/ 4 < conf)%Z -> script1 conf p qmp = Unrecognized) /\
  (pEta (oMode p) = k0 -> oVClass p = 0%R -> script1 2 p qmp = NoDriving) /\
  ((pEta (oMode p) <> k0 \/ oVClass p <> 0%R) -> oSig p = 0%R -> script1 2 p qmp = NoSpread).
Proof.
  intros (Hq & Hk & Hf). destruct (free_particle (isSch qmp) (oFin p) (oOmrec p)) as (sp & K & P1 & _). destruct (pumped_particle (isSch qmp) (oFin p) (oOmrec p) (oVClass p) (oPump p)) as (spp & Kp & Q1 & _).
  destruct (mode_made (oMode p) qmp (pDelta (oMode p) - lightShift (oUnot p) (oCav p)) Hq) as (sm & M1 & _).
  split; [|split].
  - intros conf Hc. unfold script1. cbv zeta. rewrite (proj2 (Z.eqb_neq conf 1)), (proj2 (Z.eqb_neq conf 2)), (proj2 (Z.eqb_neq conf 3)), (proj2 (Z.eqb_neq conf 4)) by lia. now rewrite M1, P1, Q1.
  - intros E1 E2. unfold script1. cbv zeta. cbn [Z.eqb Pos.eqb]. rewrite M1, P1, Q1, E1, E2. rewrite (proj2 (Reqb_eq 0 0) eq_refl), andb_true_r. rewrite isNonZero_0. reflexivity.
  - intros D E. unfold script1. cbv zeta. cbn [Z.eqb Pos.eqb]. rewrite M1, P1, Q1, E, (proj2 (Reqb_eq 0 0) eq_refl).
    assert (B1 : negb (isNonZero (pEta (oMode p))) && Reqb (oVClass p) 0 = false).
    { destruct (Reqb (oVClass p) 0) eqn:Z; [|apply andb_false_r]. apply Reqb_eq in Z. destruct D as [D|D]; [|contradiction]. rewrite andb_true_r.
      destruct (isNonZero (pEta (oMode p))) eqn:Z'; [reflexivity|]. exfalso. apply D. now apply isNonZero_false. }
    now rewrite B1.
Qed.
