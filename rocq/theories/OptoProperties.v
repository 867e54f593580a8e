(** C135: the script of optomechanics. *)
From Coq Require Import List Arith Bool Reals.
From Verif Require Import Star CReal Arr HermSpec MasterSpec TriModel ElementModel ElementSpec ModeModel ModeSpec DampSpec InteractionSpec AverageSpec ScriptSpec CavScriptSpec OptoModel OptoSpec OptoProofs.
Import ListNotations.
Local Open Scope nat_scope.

(** The system made is that of - u n (b + b^dagger), with the drive and the losses of the parameters. Missing: in the Schroedinger picture *)
Theorem C135_generator_partial : forall qA qB u, plain qA -> plain qB ->
  exists s, optoScript qA qB u SCH = Ok s /\ opto_simulates s (optoGenerator qA (undriven qB) u) (modeJumps qA) (modeJumps (undriven qB)).
Proof. exact opto_made. Qed.
Print Assumptions C135_generator_partial.
(** in the interaction pictures, the first of which is the default, the coupling is not this one whenever the mirror has a frequency *)
Theorem C135_picture_refuted : forall qA qB u qmp, plain qA -> plain qB -> 1 < pCutoff qA -> 1 < pCutoff qB -> qmp <> SCH -> u <> 0%R -> pDelta qB <> 0%R ->
  exists s, optoScript qA qB u qmp = Ok s /\ ~ has_generator (osInt s) [modeRate (osA s); modeRate (osB s)] any_state (overI (hOpto u)).
Proof. exact opto_picture. Qed.
Print Assumptions C135_picture_refuted.
(** With this generator the photons push the mirror, its displacement shifts the frequency of the light, and the number of photons is not affected by the coupling; for states which do not populate the highest levels *)
Theorem C135_motion : forall qA qB u rho, plain qA -> plain qB -> let dims := [pCutoff qA; pCutoff qB] in mtrace dims rho = k1 -> room2 (pCutoff qA) (pCutoff qB) rho ->
  let d := evolution dims (optoGenerator qA qB u) (optoJumps qA qB) rho in let m A := mean dims A rho in
  mean_rate dims mirrorAmplitude rho d = kadd (kadd (kmul ((- pKappa qB, pDelta qB)%R : CR) (m mirrorAmplitude)) (pEta qB)) (kmul (kmul CI (RC u)) (m photons)) /\
  mean_rate dims lightAmplitude rho d = kadd (kadd (kmul ((- pKappa qA, pDelta qA)%R : CR) (m lightAmplitude)) (pEta qA)) (kmul (kmul CI (RC u)) (m lightTimesDisplacement)) /\
  mean_rate dims photons rho d = mean_rate dims photons rho (evolution dims (plusO (kron [modeGenerator qA; one]) (kron [one; modeGenerator qB])) (optoJumps qA qB) rho).
Proof. exact motion. Qed.
Print Assumptions C135_motion.
(** one photon, and the mirror in its ground state *)
Example C135_case : plain lightPars /\ plain mirrorPars /\ 1 < pCutoff lightPars /\ 1 < pCutoff mirrorPars /\ pDelta mirrorPars <> 0%R /\
  mtrace [3; 2] onePhoton = k1 /\ room2 3 2 onePhoton /\ mean [3; 2] photons onePhoton = k1.
Proof. exact photon_case. Qed.
