(** Model of the script CPPQEDscripts/GeneralDickeImaginaryEvolution.cc: a mode and a spin in imaginary time, and the states it projects upon. Not modelled: reading the parameters, the driver, the output. *)
From Coq Require Import List Arith Bool Reals.
From Verif Require Import Star CReal TriModel ElementModel ElementSpec ModeModel ParticleModel InteractionModel CavScriptModel.
Import ListNotations.

(** spin::Pars, Spin.cc:74-81 *)
Record spinPars := mkSpinPars { sTwoS : nat; sDimPar : nat; sTheta : R; sPhi : R; sOmega : R; sGamma : R }.
(** mode::ParsLossy, spin::Pars, u, y, lines 41-48 *)
Record imPars := mkIm { iMode : modePars; iSpin : spinPars; iU : CR; iY : CR }.
(** lines 60-62: u/=ps.twoS+1; y/=sqrt(ps.twoS+1); plm.kappa=ps.gamma=0 *)
Definition withKappa (q : modePars) (delta kappa : R) : modePars := mkPars delta (pKerr q) (pKerrAlter q) (pCutoff q) k0 kappa (pNTh q).
Definition withOmega (s : spinPars) (omega gamma : R) : spinPars := mkSpinPars (sTwoS s) (sDimPar s) (sTheta s) (sPhi s) omega gamma.
Definition prepared (p : imPars) : imPars :=
  mkIm (withKappa (iMode p) (pDelta (iMode p)) 0) (withOmega (iSpin p) (sOmega (iSpin p)) 0)
       (kmul (RC (/ INR (sTwoS (iSpin p) + 1))) (iU p)) (kmul (RC (/ sqrt (INR (sTwoS (iSpin p) + 1)))) (iY p)).
(** lines 112-115: u*=-1i; y*=-1i; swap(plm.delta,plm.kappa); plm.kappa*=-1; swap(ps.omega,ps.gamma); ps.omega*=-1 *)
Definition mapped (p : imPars) : imPars :=
  mkIm (withKappa (iMode p) (pKappa (iMode p)) (- pDelta (iMode p))) (withOmega (iSpin p) (- sGamma (iSpin p)) (sOmega (iSpin p)))
       (kmul (kopp CI) (iU p)) (kmul (kopp CI) (iY p)).
(** class Spin, Spin.h:117-133: theta=phi=0, the propagator exp(-z i t) (FreeExactModel.spinUpdateU) has the form of that of a mode, no jumps *)
Definition spinSys (s : spinPars) : modeSys := mkMode (decideDimension (sTwoS s) (sDimPar s)) (Some ((sGamma s, sOmega s) : CR)) None [].
(** lines 119-133: the mode, the spin and the interaction given to binary::make *)
Record imag := mkImag { imM : modeSys; imS : modeSys; imInt : intH }.
Definition imagScript (p0 : imPars) : outcome imag :=
  let p := mapped (prepared p0) in
  bind (makeLossy (iMode p) IP) (fun m => bind (generalDicke (cavityOf (iMode p) m) (mkSpin (sTwoS (iSpin p)) (sDimPar (iSpin p)) (msExact (spinSys (iSpin p)))) (iU p) (iY p)) (fun h =>
  Ok (mkImag m (spinSys (iSpin p)) h))).
(** lines 66-106, the states given to ProjectingMCWF_Trajectory: eigenVectors is a copy of the matrix of the Hamiltonian, the call which would have calculated the eigenvectors in place (line 100) is commented out;
    the number of states asked for, set on line 66, is not looked at any more *)
Definition projectionStates (hamiltonian : dmat) (dim nops : nat) (noEigenStates : bool) : list ket :=
  if noEigenStates then [] else map (fun i => hamiltonian i) (seq 0 dim).
