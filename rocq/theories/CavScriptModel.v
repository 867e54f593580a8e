(** Model of the scripts of a particle in cavities: CPPQEDscripts/1particle1mode.cc, Ring.cc, Ring_Evolved.cc. What is modelled is the system made of the parameters, and the
    right-hand side given to simulated::makeBoost. Not modelled: reading the parameters, the initial states, the drivers. *)
From Coq Require Import List Arith Bool ZArith Reals.
From Verif Require Import Star CReal TriModel ElementModel ModeModel ParticleModel.
Import ListNotations.
Local Open Scope K_scope.

(** the parameters: mode::ParsPumpedLossy, particle::ParsPumped (fin, omrec, vClass, modePart with kPart, init.getSig()), particlecavity::ParsAlong (uNot, modeCav with kCav) *)
Record onePars := mkOne { oMode : modePars; oFin : nat; oOmrec : R; oVClass : R; oPump : modeFunction; oSig : R; oUnot : R; oCav : modeFunction }.
Definition withDelta (d : R) (q : modePars) : modePars := mkPars d (pKerr q) (pKerrAlter q) (pCutoff q) (pEta q) (pKappa q) (pNTh q).
(** uNot/(isComplex(modeCav) ? 1. : 2.), 1particle1mode.cc:38, Ring.cc:23-24 *)
Definition lightShift (uNot : R) (f : modeFunction) : R := (uNot / (if isComplexMF (fst f) then 1 else 2))%R.
(** the mode as the interaction sees it: dynamic cast to mode::Exact, Mode.cc:288-294; and so the particle, Particle.cc *)
Definition cavityOf (q : modePars) (s : modeSys) : cavity := mkCavity (pCutoff q) (option_map (fun z => (z, pKerr q)) (msExact s)).
Definition particleOf (s : partSys) : particle := mkParticle (psFin s) (psExact s).

(** what becomes of the script: a message and the return value 1; the exception of etaEff; an exception or undefined behaviour in the making of operators; or the constituents and their interaction
    given to binary::make *)
Inductive script := Unrecognized | NoDriving | NoSpread | SignDiscrepancy | Broken | Made (m : modeSys) (p : partSys) (h : intH).
Definition made (m : modeSys) (p : partSys) (o : outcome intH) : script := match o with Ok h => Made m p h | _ => Broken end.
Definition isSch (qmp : picture) : bool := match qmp with SCH => true | _ => false end.
(** 1particle1mode.cc:38-79; the constructors of ParticleAlongCavity chosen are ParticleCavity.cc:86-88 for configurations 2 and 4, 90-91 for 3 *)
Definition script1 (conf : Z) (p : onePars) (qmp : picture) : script :=
  let q := if (conf =? 1)%Z then oMode p else withDelta (pDelta (oMode p) - lightShift (oUnot p) (oCav p)) (oMode p) in
  match make q qmp, makeParticle (isSch qmp) (oFin p) (oOmrec p), makePumpedParticle (isSch qmp) (oFin p) (oOmrec p) (oVClass p) (oPump p) with
  | Ok sm, Ok sp, Ok spp =>
      let m := cavityOf q sm in
      if (conf =? 1)%Z then
        match etaEff (oUnot p) (oVClass p) with Some e => made sm spp (orthogonal m (particleOf spp) e (oPump p)) | None => SignDiscrepancy end
      else if (conf =? 2)%Z then
        if negb (isNonZero (pEta (oMode p))) && Reqb (oVClass p) 0 then NoDriving
        else if Reqb (oSig p) 0 then NoSpread
        else match etaEff (oUnot p) (oVClass p) with Some e => made sm sp (alongOne m (particleOf sp) (oUnot p) e (oCav p)) | None => SignDiscrepancy end
      else if (conf =? 3)%Z then
        match etaEff (oUnot p) (oVClass p) with Some e => made sm spp (alongTwo m (particleOf spp) (oUnot p) e (oCav p) (oPump p)) | None => SignDiscrepancy end
      else if (conf =? 4)%Z then
        match etaEff (oUnot p) 0 with Some e => made sm spp (alongOne m (particleOf spp) (oUnot p) e (oCav p)) | None => SignDiscrepancy end
      else Unrecognized
  | _, _, _ => Broken
  end.

(** ** The ring *)
(** modeFunction(mf,x), ModeFunction.cc:38-47 *)
Definition modeFunctionAt (k : mft) (x : R) : CR :=
  match k with MSin => RC (sin x) | MCos => RC (cos x) | MPlus => cexp (CI * RC x) | MMinus => cexp (- (CI * RC x)) end.
(** the parameters of both modes: ParsPumpedLossy and ParsAlong, P and M; x0 of the particle in units of pi *)
Record ringPars := mkRing { rP : modePars; rM : modePars; rUnotP : R; rUnotM : R; rCavP : modeFunction; rCavM : modeFunction; rX0 : R }.
(** Ring_Evolved.cc:35-48; [None]: the square root of a negative number, a NaN *)
Definition ringRhs (p : ringPars) (b : CR * CR) : option (CR * CR) :=
  let x := (PI * rX0 p)%R in
  let fP := modeFunctionAt (fst (rCavP p)) x in
  let fM := modeFunctionAt (fst (rCavM p)) x in
  let z1 := CI * RC (pDelta (rP p) - rUnotP p * csq fP) - RC (pKappa (rP p)) in
  let z2 := CI * RC (pDelta (rM p) - rUnotM p * csq fM) - RC (pKappa (rM p)) in
  if Rlt_dec (rUnotP p * rUnotM p) 0 then None
  else let g := RC (rsign (rUnotP p) * sqrt (rUnotP p * rUnotM p)) * kconj fP * fM in
       Some (z1 * fst b + pEta (rP p) - CI * g * snd b, z2 * snd b + pEta (rM p) - CI * kconj g * fst b).
(** Ring.cc:22-39: the modes, the particle, and the interactions of <1,0>, <2,0>, <1,2,0>; [None]: an exception *)
Record ring := mkRingSys { rsP : modeSys; rsM : modeSys; rsPart : partSys; rsIntP : intH; rsIntM : intH; rsIntPM : intH }.
Definition shifted (q : modePars) (uNot : R) (f : modeFunction) : modePars := withDelta (pDelta q - lightShift uNot f) q.
Definition ringScript (p : ringPars) (fin : nat) (omrec : R) (qmp : picture) : option ring :=
  let qP := shifted (rP p) (rUnotP p) (rCavP p) in
  let qM := shifted (rM p) (rUnotM p) (rCavM p) in
  match make qP qmp, make qM qmp, makeParticle (isSch qmp) fin omrec with
  | Ok sP, Ok sM, Ok sp =>
      let pt := particleOf sp in
      match etaEff (rUnotP p) 0, etaEff (rUnotM p) 0, factor (rUnotP p) (rUnotM p) 0 with
      | Some eP, Some eM, Some c =>
          match alongOne (cavityOf qP sP) pt (rUnotP p) eP (rCavP p), alongOne (cavityOf qM sM) pt (rUnotM p) eM (rCavM p),
                twoModes (cavityOf qP sP) (cavityOf qM sM) pt c (rCavP p) (rCavM p) with
          | Ok hP, Ok hM, Ok hPM => Some (mkRingSys sP sM sp hP hM hPM)
          | _, _, _ => None
          end
      | _, _, _ => None
      end
  | _, _, _ => None
  end.
