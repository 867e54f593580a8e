(** Model of the scripts in CPPQEDscripts which integrate equations of motion of expectation values: PTLA_Evolved.cc, PTLA_EvolvedHL.cc, PumpedLossyMode_Evolved.cc,
    QbitMode_Evolved.cc. What is modelled is the initial array and the right-hand side given to simulated::makeBoost. Not modelled: parameters, the first time step, the run
    (OdeModel, RunModel). *)
From Coq Require Import List Arith Reals.
From Verif Require Import Star CReal ElementModel ModeModel BichromaticModel.
Import ListNotations.
Local Open Scope K_scope.

Notation rho2 := (list nat -> list nat -> CR).
(** PTLA_Evolved.cc:36-43: z, x, y from the density operator *)
Definition ptlaStart (rho : rho2) : R * R * R :=
  (2 * cre (rho [0%nat] [0%nat]) - 1,
   2 * cre (rho [0%nat] [1%nat]), - 2 * cim (rho [0%nat] [1%nat]))%R.
(** the right-hand side, PTLA_Evolved.cc:45-56 *)
Definition ptlaRhs (gamma delta : R) (eta : CR) (b : R * R * R) : R * R * R :=
  let '(z, b1, b2) := b in
  let Omega := ((- gamma, delta)%R : CR) in let s := ((b1, - b2)%R : CR) in
  let temp := RC (-2) * kconj eta * RC z + kconj Omega * s in
  (2 * cre (kmul eta s) + 2 * gamma * (1 - z), cre temp, - cim temp)%R.
(** PTLA_EvolvedHL.cc:38-42, 44-53 *)
Definition ptlaHLStart (rho : rho2) : R * R := (cre (rho [1%nat] [0%nat]), cim (rho [1%nat] [0%nat])).
Definition ptlaHLRhs (gamma delta : R) (eta : CR) (b : R * R) : R * R :=
  let Omega := ((- gamma, delta)%R : CR) in let sigma := ((fst b, snd b)%R : CR) in
  let temp := Omega * sigma - eta in (cre temp, cim temp).
(** PumpedLossyMode_Evolved.cc:31-33 *)
Definition modeRhs (p : biPars) (b : CR) (t : R) : CR :=
  let q := biMode p in
  ((- pKappa q, pDelta q)%R : CR) * b + pEta q + biEtaOther p * cexp (CI * RC t * RC (biDeltaOther p + pDelta q)).
(** QbitMode_Evolved.cc:43-47: the mode, and gamma, delta, eta of the qbit *)
Definition qbitModeRhs (q : modePars) (gamma delta : R) (eta g : CR) (b : CR * CR) : CR * CR :=
  (((- pKappa q, pDelta q)%R : CR) * fst b + g * snd b + pEta q,
   ((- gamma, delta)%R : CR) * snd b - g * fst b - eta).
