(** Light and a moving mirror: what the script is to simulate. *)
From Coq Require Import List Arith Bool ZArith Reals.
From Verif Require Import Star CReal Arr HermSpec MasterSpec TriModel FreeExactModel FreeExactSpec ElementModel ElementSpec ModeModel ModeSpec DampSpec CompositeModel ParticleModel InteractionModel InteractionSpec AverageSpec ScriptSpec
  CavScriptModel CavScriptSpec OptoModel.
Import ListNotations.
Local Open Scope nat_scope.

(** b + b^dagger *)
Definition displacement : mat := fun m n => kadd (annihilation m n) (creation m n).
(** - u n (b + b^dagger) *)
Definition hOpto (u : R) : op := timesO (RC (- u)) (kron [number; displacement]).
Definition undriven (q : modePars) : modePars := mkPars (pDelta q) (pKerr q) (pKerrAlter q) (pCutoff q) k0 (pKappa q) (pNTh q).
(** the generator of all, without jumps, and the jumps *)
Definition optoGenerator (qA qB : modePars) (u : R) : op := plusO (plusO (kron [modeGenerator qA; one]) (kron [one; modeGenerator qB])) (overI (hOpto u)).
Definition optoJumps (qA qB : modePars) : list op := map (fun J => kron [J; one]) (modeJumps qA) ++ map (fun J => kron [one; J]) (modeJumps qB).
(** the modes and their interaction together have the generator G and the jumps JA and JB *)
Definition opto_simulates (s : opto) (G : op) (JA JB : list mat) : Prop :=
  ihDims (osInt s) = [msDim (osA s); msDim (osB s)] /\ Forall2 (describes (msDim (osA s))) (msLindblads (osA s)) JA /\ Forall2 (describes (msDim (osB s))) (msLindblads (osB s)) JB /\
  exists GA GB Gi, no_jump_generator (osA s) GA /\ no_jump_generator (osB s) GB /\ has_generator (osInt s) [modeRate (osA s); modeRate (osB s)] any_state Gi /\
    forall y x, inr (ihDims (osInt s)) y -> inr (ihDims (osInt s)) x -> G y x = kadd (kadd (kron [GA; one] y x) (kron [one; GB] y x)) (Gi y x).
(** <a>, <b>, the number of photons, a (b + b^dagger) *)
Definition lightAmplitude : op := kron [annihilation; one].
Definition mirrorAmplitude : op := kron [one; annihilation].
Definition photons : op := kron [number; one].
Definition lightTimesDisplacement : op := kron [annihilation; displacement].
