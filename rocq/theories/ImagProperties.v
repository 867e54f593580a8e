(** C137: imaginary time. *)
From Coq Require Import List Arith Bool Reals.
From Verif Require Import Star CReal Arr TriModel ElementModel ElementSpec ModeModel ModeSpec CompositeModel ParticleModel InteractionModel InteractionSpec MatHamModel ImagModel ImagSpec ImagProofs.
Import ListNotations.
Local Open Scope nat_scope.

(** The system made has, without jumps, the generator - H but for a real constant. Missing: modes with temperature or Kerr terms and tilted spins, of which the script takes no account *)
Theorem C137_generator_partial : forall p, 0 < pCutoff (iMode p) -> pNTh (iMode p) = 0%R -> pKerr (iMode p) = 0%R -> pKerrAlter (iMode p) = 0%R ->
  exists s, imagScript p = Ok s /\ ihDims (imInt s) = imDims p /\ imag_simulates s (imaginary (hDicke p) (- (sOmega (iSpin p) * (INR (sTwoS (iSpin p)) / 2)))).
Proof. exact imag_made. Qed.
Print Assumptions C137_generator_partial.
(** With this generator the energy does not increase, whatever the constant and the state *)
Theorem C137_energy : forall p (u y c : R) psi, iU p = RC u -> iY p = RC y -> (0 < norm2 (imDims p) psi)%R ->
  (energy_rate (imDims p) (hDicke p) psi (acting (imDims p) (imaginary (hDicke p) c) psi) <= 0)%R.
Proof. exact imag_descent. Qed.
Print Assumptions C137_energy.
(** the states projected upon are the rows of the matrix of the Hamiltonian, for a spin 1/2 they are not eigenstates; and they are as many as the dimension, whatever their number was to be *)
Theorem C137_states_refuted : (exists h, generalDicke (mkCavity 2 None) (mkSpin 1 0 None) (iU (prepared halfSpin)) (iY (prepared halfSpin)) = Ok h /\
    forall res0 nops, let M := calculateMatrix (intAct 0) [2; 2]%nat h res0 in ~ Forall (is_eigenvector 4 M) (projectionStates M 4 nops false)) /\
  forall M dim nops, nops < dim -> length (projectionStates M dim nops false) <> nops.
Proof. exact states_not. Qed.
Print Assumptions C137_states_refuted.
(** a spin 1/2 and a mode of two levels *)
Example C137_case : 0 < pCutoff (iMode halfSpin) /\ pNTh (iMode halfSpin) = 0%R /\ pKerr (iMode halfSpin) = 0%R /\ pKerrAlter (iMode halfSpin) = 0%R /\ iU halfSpin = RC 0 /\ iY halfSpin = RC (2 * sqrt 2) /\
  (0 < norm2 (imDims halfSpin) (unit_state [0; 0]%nat))%R.
Proof. exact imag_case. Qed.
