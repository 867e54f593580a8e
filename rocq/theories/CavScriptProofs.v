(** Proofs for CavScriptProperties.v: one particle and one mode *)
From Coq Require Import List Arith Bool ZArith Lia Reals Lra.
From Coquelicot Require Import Coquelicot.
From Verif Require Import Star CReal Arr HermSpec MasterSpec TriModel TriSpec FreeExactModel FreeExactSpec FreeExactProofs ElementModel ElementSpec ElementProofs ModeModel ModeSpec ModeProofs ModeFacts CompositeModel ParticleModel ParticleSpec ParticleWaves
  ParticleProofs ParticleFacts ParticleComposition ParticlePictures ParticleCases InteractionModel InteractionSpec InteractionProofs InteractionWaves InteractionFacts InteractionParticles InteractionLaws InteractionCases AverageSpec MatHamModel ScriptSpec
  CavScriptModel CavScriptSpec.
Import ListNotations.
Add Ring CRcs : (k_ring CR).
Local Open Scope nat_scope.

Definition meanOf (f : modeFunction) : R := if isComplexMF (fst f) then 1%R else (/ 2)%R.
Lemma shift_mean u f : lightShift u f = (u * meanOf f)%R.
Proof. unfold lightShift, meanOf. destruct (isComplexMF (fst f)); field. Qed.
Lemma one_mult p : mult p (fun _ => k1) one.
Proof.
  pose proof (mult_one p (fun _ => k1) ltac:(reflexivity)) as H. intros i j Hi Hj. specialize (H i j Hi Hj). cbv zeta in *.
  replace (one i j) with (waveM 0 i j); [exact H|]. unfold waveM, one, ElementSpec.identity. 
  destruct (Nat.eqb_spec i j), (Z.eqb_spec (Z.of_nat i) (Z.of_nat j + 0)); try lia; reflexivity.
Qed.
Lemma intensity_split p f W W' : mult p (potential 1 f) W -> mult p (intensity f) W' -> forall i j, i < pDim p -> j < pDim p -> W' i j = kadd (W i j) (kmul (RC (meanOf f)) (one i j)).
Proof.
  intros H H'. apply (unique_fact p (intensity f)); [exact H'|].
  eapply mult_ext; [|exact (mult_add p _ _ _ _ H (mult_scale p (RC (meanOf f)) _ _ (one_mult p)))].
  intros x. unfold potential, intensity, meanOf. apply cr_eq; cbn; ring.
Qed.
Lemma shifted_gen q s m n : modeGenerator (withDelta (pDelta q - s) q) m n = ksub (modeGenerator q m n) (kmul (kmul CI (RC s)) (number m n)).
Proof.
  unfold modeGenerator, withDelta, number. cbn [pKappa pNTh pDelta pKerr pKerrAlter pEta]. destruct (m =? n); apply cr_eq; cbn; ring.
Qed.
Lemma make_sch q s : make q SCH = Ok s -> msExact s = None.
Proof.
  unfold make, makePumped, makeLossy, makePlain, switch, cModeSch, cPumpedModeSch, cLossyModeSch, cPumpedLossyModeSch, withSch.
  repeat match goal with |- context [if ?b then _ else _] => destruct b end;
  match goal with |- context [hamiltonianSch ?a ?b ?c ?d ?e] => destruct (hamiltonianSch a b c d e) end; cbn [bind]; intros H; try discriminate H; injection H as <-; reflexivity.
Qed.
Lemma make_ip q s : make q IP = Ok s -> exists z, msExact s = Some z.
Proof.
  unfold make, makePumped, makeLossy, makePlain, switch, cMode, cPumpedMode, cLossyMode, cPumpedLossyMode, withIP.
  repeat match goal with |- context [if ?b then _ else _] => destruct b end;
  try match goal with |- context [hamiltonianIP ?a ?b ?c ?d ?e ?f] => destruct (hamiltonianIP a b c d e f) end; cbn [bind]; intros H; try discriminate H; injection H as <-; eexists; reflexivity.
Qed.
Lemma mode_made q qmp d : plain q -> exists s, make (withDelta d q) qmp = Ok s /\ msDim s = pCutoff q /\ no_jump_generator s (modeGenerator (withDelta d q)).
Proof.
  intros (H1 & H2 & H3 & H4 & H5). destruct (make_generator (withDelta d q) qmp) as (s & A & B & _ & C); [exact H1|exact H3|split; left; assumption|]. eauto.
Qed.
Lemma withDelta_same q : withDelta (pDelta q) q = q. Proof. destruct q. reflexivity. Qed.

Lemma eta_zero u : etaEff u 0 = Some 0%R.
Proof. unfold etaEff. rewrite Rmult_0_r. destruct (Rle_dec 0 0); [|lra]. now rewrite sqrt_0, Rmult_0_r. Qed.
Lemma eta_some u v : (0 <= u * v)%R -> exists e, etaEff u v = Some e /\ (e * e = u * v)%R /\ (0 <= e * u)%R.
Proof.
  intros H. destruct (etaEff u v) as [e|] eqn:E; [exists e; split; [reflexivity|]; now apply (proj1 (effective_fact u v))|].
  apply (proj2 (effective_fact u v)) in E. lra.
Qed.
Lemma eta_none u v : (u * v < 0)%R -> etaEff u v = None.
Proof. apply (proj2 (effective_fact u v)). Qed.

(** the sum is the generator of all *)
Lemma sum_right q d D K u e f W W' F F' y x : D = mkParticle d None -> 
  mult D (potential 1 f) W -> mult D (intensity f) W' -> (forall i j, i < pDim D -> j < pDim D -> e = 0%R \/ F i j = F' i j) ->
  inr [pCutoff q; pDim D] y -> inr [pCutoff q; pDim D] x ->
  cavityAndParticle q K u e W' F' y x =
  kadd (kadd (kron [modeGenerator (withDelta (pDelta q - lightShift u f) q); one] y x) (kron [one; K] y x)) (overI (hAlong u e W F) y x).
Proof.
  intros -> HW HW' HF Hy Hx. destruct (inr2_inv _ _ _ Hy) as (i & k & -> & Hi & Hk). destruct (inr2_inv _ _ _ Hx) as (j & l & -> & Hj & Hl).
  unfold cavityAndParticle, overI, hAlong, plusO, timesO, hc. cbn [kron]. rewrite !kconj_mul, shifted_gen, shift_mean, (intensity_split _ f W W' HW HW' k l Hk Hl).
  assert (E : kmul (RC e) (F k l) = kmul (RC e) (F' k l) /\ kmul (RC e) (kconj (F l k)) = kmul (RC e) (kconj (F' l k))).
  { destruct (HF k l Hk Hl) as [Z1|Z1], (HF l k Hl Hk) as [Z2|Z2]; rewrite ?Z1, ?Z2; split; try reflexivity; change (RC 0) with (k0 : CR); ring. }
  destruct E as [E1 E2]. rewrite kconj_1. 
  replace (RC (u * meanOf f)) with (kmul (RC u) (RC (meanOf f))) by (apply cr_eq; cbn; ring).
  set (ef := kmul (RC e) (F k l)) in *. set (ef' := kmul (RC e) (kconj (F l k))) in *.
  transitivity (kadd (kadd (kmul (modeGenerator q i j) (kmul (one k l) k1)) (kmul (one i j) (kmul (K k l) k1)))
     (kmul (kopp CI) (kadd (kmul (RC u) (kmul (number i j) (kmul (kadd (W k l) (kmul (RC (meanOf f)) (one k l))) k1)))
        (kadd (kmul (creation i j) (kmul (RC e) (F' k l))) (kmul (kconj (creation j i)) (kmul (RC e) (kconj (F' l k)))))))); [ring|].
  rewrite <- E1, <- E2. unfold ef, ef'. ring.
Qed.
