(** C92. *)
From Coq Require Import List Arith Bool Reals Lra.
From Verif Require Import Star CReal TriModel ElementModel ElementSpec ModeModel ModeSpec BichromaticModel BichromaticSpec BichromaticProofs.
Import ListNotations.

(** C92 as stated: at every time t, wherever the last exact propagation t0 was made, the second drive has the phase of time t. It is refuted for all modes with two
    different drives: at the very moment of an exact propagation the second drive acts as at time zero, not as at that time. *)
Theorem C92_phase_refuted : forall p qmp, (1 < pCutoff (biMode p))%nat -> (0 <= pNTh (biMode p))%R -> pKerr (biMode p) = 0%R -> biEtaOther p <> k0 -> pDelta (biMode p) <> biDeltaOther p ->
  exists sys t0, makeBichromatic p qmp = Ok sys /\ evolves_with sys t0 t0 (biGenerator p 0) /\ ~ evolves_with sys t0 t0 (biGenerator p t0).
Proof. exact bichromatic_wrong. Qed.
Print Assumptions C92_phase_refuted.
(** What holds: the phase is that of the time since the last exact propagation, so up to the first one the property holds. Missing: all times after. *)
Theorem C92_since_propagation_partial : forall p qmp, (0 < pCutoff (biMode p))%nat -> (0 <= pNTh (biMode p))%R -> pKerr (biMode p) = 0%R -> biEtaOther p <> k0 ->
  exists sys, makeBichromatic p qmp = Ok sys /\ msDim sys = pCutoff (biMode p) /\ forall t t0, evolves_with sys t t0 (biGenerator p (t - t0)).
Proof. exact bichromatic_at. Qed.
Print Assumptions C92_since_propagation_partial.
(** With equal detunings it holds always, the two drives adding up to one. *)
Theorem C92_equal_detunings_partial : forall p qmp, (0 < pCutoff (biMode p))%nat -> (0 <= pNTh (biMode p))%R -> pKerr (biMode p) = 0%R -> biEtaOther p <> k0 ->
  pDelta (biMode p) = biDeltaOther p ->
  exists sys, makeBichromatic p qmp = Ok sys /\ no_jump_generator sys (modeGenerator (bothDrives p)) /\ forall t t0, evolves_with sys t t0 (biGenerator p t).
Proof. exact bichromatic_degenerate. Qed.
Print Assumptions C92_equal_detunings_partial.
(** Without the second drive it is the mode with one. *)
Theorem C92_single_drive : forall p qmp, biEtaOther p = k0 -> makeBichromatic p qmp = make (biMode p) qmp.
Proof. exact bichromatic_single. Qed.
Print Assumptions C92_single_drive.
Example C92_case : let p := mkBiPars (mkPars (-1) 0 0 10 ((1, 1)%R : CR) 1 0) 3 ((2, 0)%R : CR) in
  (1 < pCutoff (biMode p))%nat /\ (0 <= pNTh (biMode p))%R /\ pKerr (biMode p) = 0%R /\ biEtaOther p <> k0 /\ pDelta (biMode p) <> biDeltaOther p.
Proof.
  cbn. split; [auto with arith|]. split; [lra|]. split; [reflexivity|]. split; [|lra]. intros E. apply (f_equal fst) in E. cbn in E. lra.
Qed.
