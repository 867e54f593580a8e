(** Model of the scripts CPPQEDscripts/Raman.cc and CavityRaman.cc: the systems made of the parameters, levels 0 and 1 below, level 2 above. Not modelled: reading the parameters, the driver. *)
From Coq Require Import List Arith Bool Reals.
From Verif Require Import Star CReal TriModel ElementModel ModeModel ParticleModel InteractionModel SigmaModel CavScriptModel.
Import ListNotations.

(** Decays, Raman.cc:13, CavityRaman.cc:17 *)
Definition lambdaDecays (g0 g1 : R) : list decay := [mkDecay 0 2 g0; mkDecay 1 2 g1].
(** Pumps, Raman.cc:11 *)
Definition ramanPumps (e0 e1 : CR) : list pump := [mkPump 0 2 e0; mkPump 1 2 e1].
(** H/i and the jumps of the atom, makePumpedLossySch, Raman.cc:38; [diffusion]: gamma_parallel, MultiLevel.h:395-421 *)
Record lambdaAtom := mkLambda { laH : ket -> ket -> ket; laLoss : list lindbladOp }.
Definition ramanScript (e0 e1 : CR) (g0 g1 : R) (deltas : nat -> R) (diffusion : option (list R)) : lambdaAtom :=
  mkLambda (multiLevelH 3 (multiLevelZ deltas (lambdaDecays g0 g1)) (ramanPumps e0 e1)) (multiLevelLoss 3 (lambdaDecays g0 g1) diffusion).
(** the initial state, Raman.cc:35 *)
Definition ramanInitial : ket := fun n => match n with 0 | 1 => RC (/ sqrt 2) | _ => k0 end%nat.
(** CavityRaman.cc:16-19, 45: one transition is pumped, the other one is coupled to a mode in interaction picture *)
Definition cavityPumps (e : CR) : list pump := [mkPump 0 2 e].
Definition cavityGs (g : CR) : list mlCoupling := [mkCoupling 1 2 g].
Record cavityLambda := mkCavLambda { clAtom : lambdaAtom; clMode : modeSys; clInt : mljcResult }.
Definition cavityRaman (e g : CR) (g0 g1 : R) (deltas : nat -> R) (diffusion : option (list R)) (q : modePars) : outcome cavityLambda :=
  bind (make q IP) (fun s => Ok (mkCavLambda
    (mkLambda (multiLevelH 3 (multiLevelZ deltas (lambdaDecays g0 g1)) (cavityPumps e)) (multiLevelLoss 3 (lambdaDecays g0 g1) diffusion))
    s (makeMLJC false (cavityOf q s) (cavityGs g)))).
