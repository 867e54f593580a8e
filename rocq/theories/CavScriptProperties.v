(** C124-C125: the scripts of a particle in cavities. *)
From Coq Require Import List Arith ZArith Reals.
From Verif Require Import Star CReal Arr HermSpec MasterSpec TriModel ElementModel ElementSpec ModeModel ModeSpec DampSpec ParticleModel ParticleSpec InteractionModel InteractionSpec AverageSpec ScriptSpec CavScriptModel CavScriptSpec
  CavScriptProofs CavScriptFacts CavScriptCases CavRing CavRingCases.
Import ListNotations.
Local Open Scope nat_scope.

(** C124 in the Schroedinger picture, for the particle moving along the cavity: the detuning given to the mode and the interaction together are the detuning of the user and the whole light shift. Missing: other
    pictures (refuted below for standing waves). *)
Theorem C124_along_partial : forall conf p, (conf = 2 \/ conf = 3 \/ conf = 4)%Z -> sensible p -> driven conf p -> (conf = 4%Z \/ 0 <= oUnot p * oVClass p)%R ->
  exists sm sp h, script1 conf p SCH = Made sm sp h /\ right_system conf p sm sp h.
Proof. exact along_right. Qed.
Print Assumptions C124_along_partial.
(** moving orthogonally to it, pumped by a standing wave *)
Theorem C124_orthogonal_partial : forall p, sensible p -> (0 <= oUnot p * oVClass p)%R -> isComplexMF (fst (oPump p)) = false ->
  exists sm sp h, script1 1 p SCH = Made sm sp h /\ right_system 1 p sm sp h.
Proof. exact orth_right. Qed.
Print Assumptions C124_orthogonal_partial.
(** pumped by a running wave, the particle gets the recoil of the opposite direction *)
Theorem C124_orthogonal_refuted : forall p, sensible p -> (0 < oUnot p * oVClass p)%R -> isComplexMF (fst (oPump p)) = true -> snd (oPump p) <> 0%Z -> (Z.abs (snd (oPump p)) < 2 ^ Z.of_nat (oFin p))%Z ->
  1 < pCutoff (oMode p) -> exists sm sp h, script1 1 p SCH = Made sm sp h /\ ~ right_system 1 p sm sp h.
Proof. exact orth_wrong. Qed.
Print Assumptions C124_orthogonal_refuted.
(** in the interaction picture, which is the default, the light shift of a standing wave is not the right one *)
Theorem C124_picture_refuted : sensible cosCav /\ driven 4 cosCav /\ exists sm sp h, script1 4 cosCav IP = Made sm sp h /\ ~ right_system 4 cosCav sm sp h.
Proof. exact (conj (proj1 cos_sensible) (conj (proj2 cos_sensible) ip_wrong)). Qed.
Print Assumptions C124_picture_refuted.
(** couplings of opposite signs are refused where there is scattering, and so is what the script has messages for, in all pictures *)
Theorem C124_signs : forall conf p qmp, (conf = 1 \/ conf = 2 \/ conf = 3)%Z -> sensible p -> driven conf p -> (oUnot p * oVClass p < 0)%R -> script1 conf p qmp = SignDiscrepancy.
Proof. exact sign_refused. Qed.
Print Assumptions C124_signs.
Theorem C124_messages : forall p qmp, sensible p ->
  (forall conf, (conf < 1 \/ 4 < conf)%Z -> script1 conf p qmp = Unrecognized) /\
  (pEta (oMode p) = k0 -> oVClass p = 0%R -> script1 2 p qmp = NoDriving) /\
  ((pEta (oMode p) <> k0 \/ oVClass p <> 0%R) -> oSig p = 0%R -> script1 2 p qmp = NoSpread).
Proof. exact complains. Qed.
Print Assumptions C124_messages.
Example C124_case : sensible runningPump /\ driven 2 runningPump /\ driven 3 runningPump /\ (0 < oUnot runningPump * oVClass runningPump)%R /\ isComplexMF (fst (oPump runningPump)) = true /\ snd (oPump runningPump) <> 0%Z /\
  (Z.abs (snd (oPump runningPump)) < 2 ^ Z.of_nat (oFin runningPump))%Z /\ 1 < pCutoff (oMode runningPump).
Proof. exact running_case. Qed.

(** C125: the system of Ring.cc, in all pictures for waves running in opposite directions, otherwise in the Schroedinger picture *)
Theorem C125_ring_partial : forall p fin om qmp, plain (rP p) -> plain (rM p) -> (0 <= rUnotP p * rUnotM p)%R -> fits (grid fin) (rCavP p) (rCavM p) -> fits (grid fin) (rCavM p) (rCavP p) ->
  (qmp = SCH \/ (isComplexMF (fst (rCavP p)) = true /\ isComplexMF (fst (rCavM p)) = true /\ oscillating (rCavP p) (rCavM p))) ->
  exists r c K, ringScript p fin om qmp = Some r /\ mixing (rUnotP p) (rUnotM p) c /\ kinetic_and fin om (fun _ => k0) K /\
    forall W0 W1 F, mult (grid fin) (intensity (rCavP p)) W0 -> mult (grid fin) (intensity (rCavM p)) W1 -> mult (grid fin) (overlap (rCavP p) (rCavM p)) F ->
      ring_simulates r (away_from_edges (2 ^ fin) (snd (rCavP p))) (ringGenerator (rP p) (rM p) K (hRing (rUnotP p) (rUnotM p) c W0 W1 F)).
Proof. exact ring_made. Qed.
Print Assumptions C125_ring_partial.
(** Ring_Evolved integrates the amplitudes of the modes of the same system with the particle at rest, if the wave numbers are 1 *)
Theorem C125_evolved_partial : forall p c, plain (rP p) -> plain (rM p) -> mixing (rUnotP p) (rUnotM p) c -> snd (rCavP p) = 1%Z -> snd (rCavM p) = 1%Z -> follows p c (ringRhs p).
Proof. exact ring_right. Qed.
Print Assumptions C125_evolved_partial.
(** it does not look at the wave numbers *)
Theorem C125_wave_number_refuted : plain (rP ring2) /\ plain (rM ring2) /\ mixing (rUnotP ring2) (rUnotM ring2) 1 /\ ~ follows ring2 1 (ringRhs ring2).
Proof. exact (conj (proj1 ring2_plain) (conj (proj1 (proj2 ring2_plain)) (conj (proj2 (proj2 ring2_plain)) ring2_wrong))). Qed.
Print Assumptions C125_wave_number_refuted.
(** couplings of opposite signs: one script throws, the other integrates no numbers *)
Theorem C125_signs : forall p fin om qmp b, (rUnotP p * rUnotM p < 0)%R -> ringScript p fin om qmp = None /\ ringRhs p b = None.
Proof. exact ring_refused. Qed.
Print Assumptions C125_signs.
Example C125_case : plain (rP ring1) /\ plain (rM ring1) /\ mixing (rUnotP ring1) (rUnotM ring1) 1 /\ snd (rCavP ring1) = 1%Z /\ snd (rCavM ring1) = 1%Z /\
  fits (grid 2) (rCavP ring1) (rCavM ring1) /\ fits (grid 2) (rCavM ring1) (rCavP ring1) /\ isComplexMF (fst (rCavP ring1)) = true /\ isComplexMF (fst (rCavM ring1)) = true /\ oscillating (rCavP ring1) (rCavM ring1) /\
  mtrace [2; 3] halfway = k1 /\ room2 2 3 halfway /\ mean [2; 3] (kron [one; annihilation]) halfway = RC (1 / 2).
Proof. exact ring1_case. Qed.
