(** C136: the script of an ion in a cavity with phonons. *)
From Coq Require Import List Arith Bool Reals.
From Verif Require Import Star CReal Arr TriModel ElementModel ElementSpec ModeModel ModeSpec DampSpec InteractionSpec CavScriptSpec SigmaModel SigmaSpec Ca40Model Ca40Spec Ca40Proofs.
Import ListNotations.
Local Open Scope nat_scope.

(** Every part of the system in terms of the parameters: the atom driven on the transitions which change the magnetic quantum number, the motion, the cavity, and the two couplings, with the square roots of the weights of the
    transitions, which sum to 1. Missing: the decays and the detuning of the laser *)
Theorem C136_couplings_partial : forall p, 0 < aPhononCutoff p -> 0 < aCavityCutoff p ->
  exists s dp dc, caScript p = Ok s /\ csPhononInt s = MMade (Ok dp) /\ csCavityInt s = MMade (Ok dc) /\
    is_operator 8 (fun psi => csH s psi (fun _ => k0)) (ionGenerator (aEta p)) /\
    no_jump_generator (csPhonon s) (modeGenerator (motion (aOmega p) (aPhononCutoff p))) /\ msLindblads (csPhonon s) = [] /\
    no_jump_generator (csCavity s) (modeGenerator (resonator (aDeltaEta p) (aDeltaG p) (aEtaC p) (aCavityCutoff p))) /\
    Forall2 (describes (aCavityCutoff p)) (msLindblads (csCavity s)) (modeJumps (resonator (aDeltaEta p) (aDeltaG p) (aEtaC p) (aCavityCutoff p))) /\
    mljc_generator [8; aPhononCutoff p] [no_rate; modeRate (csPhonon s)] dp (overI (phononCoupling (aPhononFactor p) (aEta p))) /\
    mljc_generator [8; aCavityCutoff p] [no_rate; modeRate (csCavity s)] dc (overI (cavityCoupling (aG p))) /\
    forall j, In j levelsP -> (fold_right Rplus 0%R (map (fun i => weightD i j) levelsD) = 1 /\ fold_right Rplus 0%R (map (fun i => weightS i j) levelsS) = 1)%R.
Proof. exact ca_parts. Qed.
Print Assumptions C136_couplings_partial.
(** the Clebsch-Gordan amplitudes multiply the rates: the levels of P1/2 decay too fast into both multiplets, and the branching ratio within S1/2 is sqrt 2 instead of 2 *)
Theorem C136_decay_refuted : (~ decays_right caDecays /\ forall j, In j levelsP ->
  (decayInto caDecays levelsS j > rateS)%R /\ (decayInto caDecays levelsD j > rateD)%R /\
  (decayTo caDecays 1 j * decayTo caDecays 1 j = decayTo caDecays 0 j * decayTo caDecays 0 j * (if j =? 2 then 2 else / 2))%R) /\
  forall p s, caScript p = Ok s -> forall j, In j levelsP -> width (csH s) j = (decayInto caDecays levelsS j + decayInto caDecays levelsD j)%R /\ (width (csH s) j > rateS + rateD)%R.
Proof. exact (conj (conj decays_not_right decay_wrong) too_wide). Qed.
Print Assumptions C136_decay_refuted.
(** transition by transition: the square roots of the weights multiply the rates *)
Theorem C136_each_rate : forall i j, In j levelsP ->
  (In i levelsS -> decayTo caDecays i j = (sqrt (weightS i j) * rateS)%R) /\ (In i levelsD -> decayTo caDecays i j = (sqrt (weightD i j) * rateD)%R).
Proof. exact single_rates. Qed.
Print Assumptions C136_each_rate.
(** by how much: the sums of the amplitudes, which exceed 1, multiply the rates *)
Theorem C136_rates : forall j, In j levelsP ->
  decayInto caDecays levelsS j = ((sqrt (1 / 3) + sqrt (2 / 3)) * rateS)%R /\ decayInto caDecays levelsD j = ((sqrt (1 / 2) + sqrt (1 / 3) + sqrt (1 / 6)) * rateD)%R.
Proof. exact decay_rates. Qed.
Print Assumptions C136_rates.
(** the detuning of the laser is not that of the parameters, unless this is 0 *)
Theorem C136_detuning_refuted : forall p s, caScript p = Ok s -> aDeltaEta p <> 0%R -> ~ laser_detuned (aDeltaEta p) (csH s).
Proof. exact detuning_ignored. Qed.
Print Assumptions C136_detuning_refuted.
(** the default values *)
Example C136_case : 0 < aPhononCutoff caExample /\ 0 < aCavityCutoff caExample /\ aDeltaEta caExample <> 0%R /\ (0 < strengthOf (caGs caExample) 2)%R.
Proof. exact ca_example. Qed.
