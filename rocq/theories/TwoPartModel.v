(** Model of the example of a custom script with its custom element: CustomScriptsExample/2ParticlesRingCavitySine.cc, CustomElementsExample/interactions/MomentumCorrelation.cc.
    What is modelled is the system made of the parameters, the initial state of the particles, and the averages of the element. *)
From Coq Require Import List Arith Bool ZArith Reals.
From Verif Require Import Star CReal Arr TriModel ElementModel ModeModel ParticleModel CavScriptModel.
Import ListNotations.
Local Open Scope nat_scope.
Notation amplitudes := (list nat -> CR).

(** the parameters of the mode, of the first particle, and the coupling (of its mode function the wave number is used), as in CavScriptModel.v; those of the second particle; alphasquare *)
Record twoPars := mkTwo { tOne : onePars; tFin2 : nat; tOmrec2 : R; tPump2 : modeFunction; tAlphaSquare : R }.
(** 2ParticlesRingCavitySine.cc:31-41: the mode, the particle, and the interaction given for <0,1> and for <0,2>; the particle and the interaction are one object each. The constructor of
    ParticleAlongCavity is that for pumped particles, ParticleCavity_.h:74-75. ParsLossy: the mode is not pumped, pEta=0 *)
Definition twoScript (p : twoPars) (qmp : picture) : script :=
  let o := tOne p in
  let cav := (MCos, snd (oCav o)) in
  let v := (oUnot o * tAlphaSquare p)%R in
  let q := withDelta (pDelta (oMode o) - oUnot o) (oMode o) in
  match makePumpedParticle (isSch qmp) (oFin o) (oOmrec o) v (oPump o), make q qmp with
  | Ok sp, Ok sm => match etaEff (oUnot o) v with Some e => made sm sp (alongTwo (cavityOf q sm) (particleOf sp) (oUnot o) e cav (oPump o)) | None => SignDiscrepancy end
  | _, _ => Broken
  end.

(** ** The initial state of the particles, 2ParticlesRingCavitySine.cc:43-55 *)
Definition product (a b : amplitudes) : amplitudes := fun y => match y with [i; j] => kmul (a [i]) (b [j]) | _ => k0 end.
Definition particlesRaw (bosons fermions : bool) (a b : amplitudes) : amplitudes :=
  if bosons then fun y => kadd (product a b y) (product b a y) else if fermions then fun y => ksub (product a b y) (product b a y) else product a b.
(** renorm, StateVector.h:148-153; meaningless if the norm vanishes *)
Definition normOf (dims : list nat) (psi : amplitudes) : R := sqrt (cre (isum dims (fun y => kmul (psi y) (kconj (psi y))))).
Definition particlesState (dim : nat) (bosons fermions : bool) (a b : amplitudes) : amplitudes :=
  let psi := particlesRaw bosons fermions a b in fun y => kmul (RC (/ normOf [dim; dim] psi)) (psi y).

(** ** MomentumCorrelation::average_v, MomentumCorrelation.cc:12-24 *)
Definition momentumCorrelation (dim1 dim2 : nat) (matrix : list nat -> list nat -> CR) : R :=
  fold_left (fun s n => fold_left (fun s m => (s + (- (INR dim1 / 2) + INR n) * (- (INR dim2 / 2) + INR m) * cre (matrix [n; m] [n; m]))%R) (seq 0 dim2) s) (seq 0 dim1) 0%R.
