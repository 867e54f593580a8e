(** C109-C111: the scripts integrating equations of motion of expectation values. *)
From Coq Require Import List Arith Reals.
From Verif Require Import Star CReal Arr HermSpec MasterSpec TriModel ElementModel ElementSpec ModeModel ModeSpec InteractionSpec AverageSpec BichromaticModel BichromaticSpec ScriptModel ScriptSpec ScriptBloch.
Import ListNotations.
Local Open Scope nat_scope.

(** C109: the numbers PTLA_Evolved starts from are the components of the Bloch vector *)
Theorem C109_start : forall rho, state [2] rho -> ptlaStart rho = bloch rho.
Proof. exact bloch_start. Qed.
Print Assumptions C109_start.
(** and these change as they do in the master equation with the operators of PumpedTwoLevelAtom *)
Theorem C109_rate : forall gamma delta eta G J rho, (0 <= gamma)%R -> atom_is gamma delta eta G J -> state [2] rho ->
  bloch (evolution [2] (kron [G]) [kron [J]] rho) = ptlaRhs gamma delta eta (bloch rho).
Proof. exact bloch_rate. Qed.
Print Assumptions C109_rate.
(** there are such operators for all parameters *)
Theorem C109_operators : forall gamma delta eta, (0 <= gamma)%R -> exists G J, atom_is gamma delta eta G J.
Proof. exact (fun gamma delta eta H => ex_intro _ _ (ex_intro _ _ (atom_made gamma delta eta H))). Qed.
Print Assumptions C109_operators.
Example C109_case : state [2] vacuum /\ exists G J, atom_is 1 2 (RC 3) G J.
Proof. split; [apply vacuum_case|]. apply C109_operators. apply Rle_0_1. Qed.

(** C110: d<a>/dt in a mode with two drives *)
Theorem C110_value : forall p qmp, let q := biMode p in plain q ->
  exists sys Js, makeBichromatic p qmp = Ok sys /\ Forall2 (describes (pCutoff q)) (msLindblads sys) Js /\
    forall t, evolves_with sys t 0 (biGenerator p t) /\ forall rho, mtrace [pCutoff q] rho = k1 -> room (pCutoff q) rho ->
      mean_rate [pCutoff q] (kron [annihilation]) rho (evolution [pCutoff q] (kron [biGenerator p t]) (ops Js) rho) =
      kadd (kadd (kmul ((- pKappa q, pDelta q)%R : CR) (mean [pCutoff q] (kron [annihilation]) rho)) (pEta q)) (secondDrive p t).
Proof. exact bi_value. Qed.
Print Assumptions C110_value.
(** whenever there is a second drive at a frequency not that of the mode itself, the script integrates something else *)
Theorem C110_refuted : forall p, let q := biMode p in plain q -> biEtaOther p <> k0 -> biDeltaOther p <> 0%R ->
  exists sys Js t, makeBichromatic p SCH = Ok sys /\ evolves_with sys t 0 (biGenerator p t) /\ Forall2 (describes (pCutoff q)) (msLindblads sys) Js /\ (0 < t)%R /\
    forall rho, mtrace [pCutoff q] rho = k1 -> room (pCutoff q) rho ->
      mean_rate [pCutoff q] (kron [annihilation]) rho (evolution [pCutoff q] (kron [biGenerator p t]) (ops Js) rho) <> modeRhs p (mean [pCutoff q] (kron [annihilation]) rho) t.
Proof. exact bi_wrong. Qed.
Print Assumptions C110_refuted.
(** otherwise it is right *)
Theorem C110_partial : forall p qmp, let q := biMode p in plain q -> biEtaOther p = k0 \/ biDeltaOther p = 0%R ->
  exists sys Js, makeBichromatic p qmp = Ok sys /\ Forall2 (describes (pCutoff q)) (msLindblads sys) Js /\
    forall t, evolves_with sys t 0 (biGenerator p t) /\ forall rho, mtrace [pCutoff q] rho = k1 -> room (pCutoff q) rho ->
      mean_rate [pCutoff q] (kron [annihilation]) rho (evolution [pCutoff q] (kron [biGenerator p t]) (ops Js) rho) = modeRhs p (mean [pCutoff q] (kron [annihilation]) rho) t.
Proof. exact bi_right. Qed.
Print Assumptions C110_partial.
Example C110_case : plain littlePars /\ pCutoff littlePars = 2 /\ mtrace [2] vacuum = k1 /\ room 2 vacuum.
Proof. split; [exact little_plain|]. split; [reflexivity|]. split; apply vacuum_case. Qed.

(** C111: the mode coupled to a two-level system, with a coupling which is not real *)
Theorem C111_refuted : forall q gamma delta eta g, plain q -> (0 <= gamma)%R -> cim g <> 0%R ->
  jc_made q gamma delta eta g /\ forall rho, mtrace [2; pCutoff q] rho = k1 -> room (pCutoff q) rho -> let m A := mean [2; pCutoff q] A rho in m atomAmplitude <> k0 ->
    mean_rate [2; pCutoff q] modeAmplitude rho (evolution [2; pCutoff q] (jcGenerator q gamma delta eta g) (jcJumps q gamma delta eta) rho) <>
    fst (qbitModeRhs q gamma delta eta g (m modeAmplitude, m atomAmplitude)).
Proof. exact jc_wrong. Qed.
Print Assumptions C111_refuted.
(** with a real one *)
Theorem C111_mode_partial : forall q gamma delta eta g, plain q -> (0 <= gamma)%R -> cim g = 0%R ->
  jc_made q gamma delta eta g /\ forall rho, mtrace [2; pCutoff q] rho = k1 -> room (pCutoff q) rho -> let m A := mean [2; pCutoff q] A rho in
    mean_rate [2; pCutoff q] modeAmplitude rho (evolution [2; pCutoff q] (jcGenerator q gamma delta eta g) (jcJumps q gamma delta eta) rho) =
    fst (qbitModeRhs q gamma delta eta g (m modeAmplitude, m atomAmplitude)).
Proof. exact jc_right. Qed.
Print Assumptions C111_mode_partial.
(** the two-level system, with any coupling: what is neglected is proportional to the excitation *)
Theorem C111_atom : forall q gamma delta eta g, plain q -> (0 <= gamma)%R ->
  jc_made q gamma delta eta g /\ forall rho, mtrace [2; pCutoff q] rho = k1 -> room (pCutoff q) rho -> let m A := mean [2; pCutoff q] A rho in
    mean_rate [2; pCutoff q] atomAmplitude rho (evolution [2; pCutoff q] (jcGenerator q gamma delta eta g) (jcJumps q gamma delta eta) rho) =
    kadd (snd (qbitModeRhs q gamma delta eta g (m modeAmplitude, m atomAmplitude))) (kmul (RC 2) (kadd (kmul eta (m excitation)) (kmul g (m excitationAmplitude)))).
Proof. exact jc_atom_rate. Qed.
Print Assumptions C111_atom.
(** the same of the two-level atom alone (PTLA_EvolvedHL) *)
Theorem C111_alone : forall gamma delta eta G J rho, (0 <= gamma)%R -> atom_is gamma delta eta G J -> state [2] rho ->
  let d := evolution [2] (kron [G]) [kron [J]] rho in let b := ptlaHLRhs gamma delta eta (ptlaHLStart rho) in
  ptlaHLStart rho = (cre (mean [2] (kron [sigmaMinus]) rho), cim (mean [2] (kron [sigmaMinus]) rho)) /\
  mean [2] (kron [sigmaMinus]) d = kadd ((fst b, snd b) : CR) (kmul (kmul (kadd k1 k1) eta) (mean [2] (kron [ketbra 1 1]) rho)).
Proof. exact hl_rate. Qed.
Print Assumptions C111_alone.
Example C111_case : plain littlePars /\ mtrace [2; 2] between = k1 /\ room 2 between /\ mean [2; 2] atomAmplitude between = RC (1/2).
Proof. split; [exact little_plain|]. exact between_case. Qed.
