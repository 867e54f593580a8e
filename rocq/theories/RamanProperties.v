(** C140: Raman transitions. *)
From Coq Require Import List Arith Bool Reals.
From Verif Require Import Star CReal Arr TriModel ElementModel ElementSpec ModeModel ModeSpec DampSpec CompositeModel InteractionSpec CavScriptSpec SigmaModel SigmaSpec RamanModel RamanSpec RamanProofs.
Import ListNotations.
Local Open Scope nat_scope.

(** The atom of the script has the generator and the jumps of a Lambda atom *)
Theorem C140_atom : forall e0 e1 g0 g1 deltas, (0 <= g0)%R -> (0 <= g1)%R ->
  is_operator 3 (fun psi => laH (ramanScript e0 e1 g0 g1 deltas None) psi (fun _ => k0)) (lambdaGenerator e0 e1 g0 g1 deltas) /\
  Forall2 (fun l J => describes 3 l J /\ rate_of_jump 3 l J) (laLoss (ramanScript e0 e1 g0 g1 deltas None)) (radiativeOps (lambdaDecays g0 g1)).
Proof. exact (fun e0 e1 g0 g1 deltas A B => conj (raman_h e0 e1 g0 g1 deltas None) (raman_jumps e0 e1 g0 g1 deltas A B)). Qed.
Print Assumptions C140_atom.
(** The states trapped are those in which the two pumps cancel: with two-photon resonance, or with one of the lower levels empty *)
Theorem C140_trapped : forall e0 e1 g0 g1 deltas psi, (0 <= g0)%R -> (0 <= g1)%R -> (0 < g0 + g1)%R ->
  trapped (ramanScript e0 e1 g0 g1 deltas None) psi <-> dark e0 e1 psi /\ (deltas 0 = deltas 1 \/ psi 0 = k0 \/ psi 1 = k0).
Proof. exact trapped_dark. Qed.
Print Assumptions C140_trapped.
(** On resonance, the population of a dark state changes under the Master equation only by decay from above into it, so that it does not decrease *)
Theorem C140_pumping : forall e0 e1 g0 g1 deltas psi (rho : mat), (0 <= g0)%R -> (0 <= g1)%R -> dark e0 e1 psi -> deltas 0 = deltas 1 ->
  let rate := populationOf psi (masterOf 3 (lambdaGenerator e0 e1 g0 g1 deltas) (radiativeOps (lambdaDecays g0 g1)) rho) in
  rate = kmul (RC (2 * (g0 * csq (psi 0%nat) + g1 * csq (psi 1%nat)))) (rho 2 2) /\ ((0 <= cre (rho 2%nat 2%nat))%R -> (0 <= cre rate)%R).
Proof. exact pumping_rate. Qed.
Print Assumptions C140_pumping.
(** With a cavity on one of the transitions, the parts are those of the parameters *)
Theorem C140_cavity_made : forall e g g0 g1 deltas q, (0 <= g0)%R -> (0 <= g1)%R -> 0 < pCutoff q -> (0 <= pKappa q)%R -> (0 <= pNTh q)%R -> pKerr q = 0%R -> pKerrAlter q = 0%R ->
  exists s d, cavityRaman e g g0 g1 deltas None q = Ok s /\ clInt s = MMade (Ok d) /\ msDim (clMode s) = pCutoff q /\
    is_operator 3 (fun psi => laH (clAtom s) psi (fun _ => k0)) (lambdaGenerator e k0 g0 g1 deltas) /\
    Forall2 (describes 3) (laLoss (clAtom s)) (radiativeOps (lambdaDecays g0 g1)) /\
    no_jump_generator (clMode s) (modeGenerator q) /\ Forall2 (describes (pCutoff q)) (msLindblads (clMode s)) (modeJumps q) /\
    mljc_generator [3; pCutoff q] [no_rate; modeRate (clMode s)] d (overI (hMLJC (cavityGs g))).
Proof. exact cavity_made. Qed.
Print Assumptions C140_cavity_made.
(** and without loss and drive, on two-photon resonance, there is a state for each number of photons below the cutoff which stays as it is but for a phase *)
Theorem C140_cavity : forall e g g0 g1 deltas q n y, pKappa q = 0%R -> pEta q = k0 -> pKerr q = 0%R -> pKerrAlter q = 0%R -> deltas 0 = (deltas 1%nat + pDelta q)%R -> n + 1 < pCutoff q ->
  inr [3; pCutoff q] y ->
  isum [3; pCutoff q] (fun x => kmul (cavityGenerator e g g0 g1 deltas q y x) (darkPair e g n x)) = kmul (kmul CI (RC (deltas 0%nat + INR n * pDelta q))) (darkPair e g n y).
Proof. exact cavity_dark. Qed.
Print Assumptions C140_cavity.
(** The initial state of the script is normalised, with both of the lower levels alike, and it is trapped exactly if the pumps are opposite, on resonance *)
Theorem C140_initial : forall e0 e1 g0 g1 deltas, (0 <= g0)%R -> (0 <= g1)%R -> (0 < g0 + g1)%R ->
  lsum 3 (fun m => RC (csq (ramanInitial m))) = k1 /\ ramanInitial 0 = ramanInitial 1 /\
  (trapped (ramanScript e0 e1 g0 g1 deltas None) ramanInitial <-> kadd e0 e1 = k0 /\ deltas 0 = deltas 1).
Proof. exact initial_state. Qed.
Print Assumptions C140_initial.
(** The default parameters: a state which is trapped, the initial one is not *)
Example C140_case : dark eta0 eta1 (three eta1 (kopp eta0) k0) /\ trapped (ramanScript eta0 eta1 10 5 defaultDeltas None) (three eta1 (kopp eta0) k0) /\
  ~ trapped (ramanScript eta0 eta1 10 5 defaultDeltas None) ramanInitial.
Proof. exact raman_case. Qed.
