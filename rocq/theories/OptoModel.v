(** Model of the script CPPQEDscripts/Optomechanics.cc: the system made of the parameters. Not modelled: reading the parameters, the initial state, the driver, ModeCorrelations. *)
From Coq Require Import List Arith Bool ZArith Reals.
From Verif Require Import Star CReal TriModel ElementModel ModeModel ParticleModel InteractionModel CavScriptModel.
Import ListNotations.

(** the two modes and the interaction given to binary::make *)
Record opto := mkOpto { osA : modeSys; osB : modeSys; osInt : intH }.
(** Optomechanics.cc:36-40: pA of mode::ParsPumpedLossy, pB of mode::ParsLossy (the drive of which is not there, whatever pEta is), u; the coupling given is -sqrt(2)*u, converted to dcomp *)
Definition optoScript (pA pB : modePars) (u : R) (qmp : picture) : outcome opto :=
  bind (make pA qmp) (fun sA => bind (makeLossy pB qmp) (fun sB =>
  bind (makeCoupledModes CM_NX (cavityOf pA sA) (cavityOf pB sB) (RC (- sqrt 2 * u))) (fun h => Ok (mkOpto sA sB h)))).
