(** A particle in cavities: what the scripts are to simulate. *)
From Coq Require Import List Arith ZArith Reals.
From Verif Require Import Star CReal Arr HermSpec MasterSpec TriModel FreeExactModel FreeExactSpec ElementModel ElementSpec ModeModel ModeSpec DampSpec CompositeModel ParticleModel ParticleSpec InteractionModel InteractionSpec AverageSpec MatHamModel ScriptSpec
  CavScriptModel.
Import ListNotations.
Local Open Scope nat_scope.

Notation mult p := (multiplies (pDim p) (pK p)).
(** the grid of the particle *)
Definition grid (fin : nat) : particle := mkParticle fin None.
(** |f(x)|^2, the whole of it *)
Definition intensity (f : modeFunction) (x : R) : CR := RC (csq (mfValue f x)).
Definition modeRate (s : modeSys) (n : nat) : CR := match msExact s with Some z => eigenvalue (EMode z) n | None => k0 end.
Definition particleRate (s : partSys) : nat -> CR := eigenOf (psExact s) (gridK (psFin s) 1).
(** the mode, the particle and their interaction together have the generator G, on the states in P: it is the sum of their own *)
Definition simulates (sm : modeSys) (sp : partSys) (h : intH) (P : array -> Prop) (G : op) : Prop :=
  ihDims h = [msDim sm; 2 ^ psFin sp] /\
  exists Gm Gp Gi, no_jump_generator sm Gm /\ part_generator sp Gp /\ has_generator h [modeRate sm; particleRate sp] P Gi /\
    forall y x, inr (ihDims h) y -> inr (ihDims h) x -> G y x = kadd (kadd (kron [Gm; one] y x) (kron [one; Gp] y x)) (Gi y x).

(** ** One particle and one mode *)
(** the potential in which the particle moves, and the mode function of what scatters it into the cavity, by configuration *)
Definition standing (conf : Z) (p : onePars) : R -> CR := if (conf =? 2)%Z then fun _ => k0 else potential (oVClass p) (oPump p).
Definition scattered (conf : Z) (p : onePars) : R -> CR :=
  if (conf =? 1)%Z then mfValue (oPump p) else if (conf =? 2)%Z then fun x => kconj (mfValue (oCav p) x) else if (conf =? 3)%Z then overlap (oCav p) (oPump p) else fun _ => k0.
(** the strength of scattering: eta^2 = U0 V, with the sign of U0; none in configuration 4 *)
Definition strength (conf : Z) (p : onePars) (e : R) : Prop := if (conf =? 4)%Z then e = 0%R else (e * e = oUnot p * oVClass p)%R /\ (0 <= e * oUnot p)%R.
(** the light shift is there if the particle moves along the cavity *)
Definition shiftOf (conf : Z) (p : onePars) : R := if (conf =? 1)%Z then 0%R else oUnot p.
(** the generator of all: the mode with its detuning as given, the particle in the potential, U0 n |f(x)|^2 + eta (a^dagger conj(f) g + h.c.) *)
Definition cavityAndParticle (q : modePars) (K : mat) (u e : R) (W F : mat) : op :=
  plusO (plusO (kron [modeGenerator q; one]) (kron [one; K])) (overI (hAlong u e W F)).
Definition allowed (conf : Z) (p : onePars) : array -> Prop := if (conf =? 3)%Z then away_from_edges (2 ^ oFin p) (snd (oCav p)) else any_state.
Definition right_system (conf : Z) (p : onePars) (sm : modeSys) (sp : partSys) (h : intH) : Prop :=
  exists e K, strength conf p e /\ kinetic_and (oFin p) (oOmrec p) (standing conf p) K /\
    forall W F, mult (grid (oFin p)) (intensity (oCav p)) W -> mult (grid (oFin p)) (scattered conf p) F ->
      simulates sm sp h (allowed conf p) (cavityAndParticle (oMode p) K (shiftOf conf p) e W F).
(** the script does not complain *)
Definition driven (conf : Z) (p : onePars) : Prop := conf = 2%Z -> (pEta (oMode p) <> k0 \/ oVClass p <> 0%R) /\ oSig p <> 0%R.
Definition sensible (p : onePars) : Prop := plain (oMode p) /\ (0 <= snd (oCav p))%Z /\ fits (grid (oFin p)) (oCav p) (oPump p).

(** ** The ring *)
(** the coupling of the modes by the particle: its square is the product of U0 and U1 *)
Definition mixing (u0 u1 c : R) : Prop := (c * c = u0 * u1)%R /\ (0 <= c * u0)%R.
(** an operator of a mode and the particle as one of both modes and the particle *)
Definition onP (A : op) : op := fun y x => match y, x with [i; j; k], [i'; j'; k'] => kmul (one j j') (A [i; k] [i'; k']) | _, _ => k0 end.
Definition onM (A : op) : op := fun y x => match y, x with [i; j; k], [i'; j'; k'] => kmul (one i i') (A [j; k] [j'; k']) | _, _ => k0 end.
(** U0 n0 |f0|^2 + U1 n1 |f1|^2 + (c a0^dagger a1 conj(f0) f1 + h.c.), functions of the position being matrices *)
Definition hRing (u0 u1 c : R) (W0 W1 F : mat) : op :=
  plusO (plusO (timesO (RC u0) (kron [number; one; W0])) (timesO (RC u1) (kron [one; number; W1]))) (hTwoModes (RC c) F).
Definition ringGenerator (q0 q1 : modePars) (K : mat) (H : op) : op :=
  plusO (plusO (plusO (kron [modeGenerator q0; one; one]) (kron [one; modeGenerator q1; one])) (kron [one; one; K])) (overI H).
Definition ring_simulates (r : ring) (P : array -> Prop) (G : op) : Prop :=
  let rP := modeRate (rsP r) in let rM := modeRate (rsM r) in let rK := particleRate (rsPart r) in
  ihDims (rsIntPM r) = [msDim (rsP r); msDim (rsM r); 2 ^ psFin (rsPart r)] /\
  ihDims (rsIntP r) = [msDim (rsP r); 2 ^ psFin (rsPart r)] /\ ihDims (rsIntM r) = [msDim (rsM r); 2 ^ psFin (rsPart r)] /\
  exists GP GM K IP IM IPM, no_jump_generator (rsP r) GP /\ no_jump_generator (rsM r) GM /\ part_generator (rsPart r) K /\
    has_generator (rsIntP r) [rP; rK] any_state IP /\ has_generator (rsIntM r) [rM; rK] any_state IM /\ has_generator (rsIntPM r) [rP; rM; rK] P IPM /\
    forall y x, inr (ihDims (rsIntPM r)) y -> inr (ihDims (rsIntPM r)) x ->
      G y x = kadd (kadd (kadd (kadd (kadd (kron [GP; one; one] y x) (kron [one; GM; one] y x)) (kron [one; one; K] y x)) (onP IP y x)) (onM IM y x)) (IPM y x).
(** the modes alone, the particle being at the position x: functions of the position are numbers *)
Definition hFixed (u0 u1 c w0 w1 : R) (f : CR) : op :=
  plusO (plusO (timesO (RC (u0 * w0)) (kron [number; one])) (timesO (RC (u1 * w1)) (kron [one; number])))
        (let T := timesO (kmul (RC c) f) (kron [creation; annihilation]) in plusO T (hc T)).
Definition fixedGenerator (p : ringPars) (c : R) : op :=
  let x := (PI * rX0 p)%R in
  plusO (plusO (kron [modeGenerator (rP p); one]) (kron [one; modeGenerator (rM p)]))
        (overI (hFixed (rUnotP p) (rUnotM p) c (csq (mfValue (rCavP p) x)) (csq (mfValue (rCavM p) x)) (overlap (rCavP p) (rCavM p) x))).
Definition bothJumps (p : ringPars) : list op := map (fun J => kron [J; one]) (modeJumps (rP p)) ++ map (fun J => kron [one; J]) (modeJumps (rM p)).
(** the highest levels are not populated *)
Definition room2 (a b : nat) (rho : op) : Prop := forall i j y x, a <= i + 1 \/ b <= j + 1 -> rho [i; j] x = k0 /\ rho y [i; j] = k0.
(** d<a0>/dt, d<a1>/dt are what f makes of <a0>, <a1> *)
Definition follows (p : ringPars) (c : R) (f : CR * CR -> option (CR * CR)) : Prop :=
  forall rho, let dims := [pCutoff (rP p); pCutoff (rM p)] in mtrace dims rho = k1 -> room2 (pCutoff (rP p)) (pCutoff (rM p)) rho ->
    let d := evolution dims (fixedGenerator p c) (bothJumps p) rho in let a0 := kron [annihilation; one] in let a1 := kron [one; annihilation] in
    f (mean dims a0 rho, mean dims a1 rho) = Some (mean_rate dims a0 rho d, mean_rate dims a1 rho d).
