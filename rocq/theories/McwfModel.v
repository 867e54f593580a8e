(** Model of the Monte Carlo wave-function trajectory: CPPQEDcore/quantumtrajectory/MCWF_Trajectory.h and
    MCWF_TrajectoryLogger.cc. Real numbers; the system (Hamiltonian, exact part, jumps), the controlled ODE stepper and the
    random engine are parameters. *)
From Coq Require Import List Arith Reals.
From Verif Require Import Star CReal OdeModel DensityModel PureModel.
Import ListNotations.
Local Open Scope R_scope.

(** dtTry may become infinite (dpLimit/totalRate with a vanishing rate), if there is no Hamiltonian *)
Inductive ext := Fin (x : R) | Inf.
Definition extMin (a b : ext) : ext :=
  match a, b with
  | Fin x, Fin y => Fin (Rmin x y)
  | Fin x, Inf => Fin x
  | Inf, b => b
  end.
Definition extMax (a b : ext) : ext :=
  match a, b with
  | Fin x, Fin y => Fin (Rmax x y)
  | _, _ => Inf
  end.

(** mcwf::Logger, MCWF_TrajectoryLogger.h:96-99 *)
Record mlog := mkLog {
  nMCWFsteps : nat; nOvershot : nat; nTolOvershot : nat;
  dpMaxOvershoot : ext; dpTolMaxOvershoot : R; normMaxDeviation : R;
  lTraj : list (R * nat) }.
(** Logger::Logger, MCWF_TrajectoryLogger.cc:18-23 *)
Definition newLog : mlog := mkLog 0 0 0 (Fin 0) 0 0 [].
(** Logger::step, :42; stepBack, :45-51; overshot, :54-60; processNorm, :63-67; jumpOccured, :70-75 *)
Definition logStep (l : mlog) : mlog :=
  mkLog (S (nMCWFsteps l)) (nOvershot l) (nTolOvershot l) (dpMaxOvershoot l) (dpTolMaxOvershoot l) (normMaxDeviation l) (lTraj l).
Definition logStepBack (dp : R) (logControl : bool) (l : mlog) : mlog :=
  mkLog (nMCWFsteps l) (nOvershot l) (S (nTolOvershot l)) (dpMaxOvershoot l)
        (if logControl then Rmax (dpTolMaxOvershoot l) dp else dpTolMaxOvershoot l) (normMaxDeviation l) (lTraj l).
Definition logOvershot (dp : ext) (logControl : bool) (l : mlog) : mlog :=
  mkLog (nMCWFsteps l) (S (nOvershot l)) (nTolOvershot l)
        (if logControl then extMax (dpMaxOvershoot l) dp else dpMaxOvershoot l) (dpTolMaxOvershoot l) (normMaxDeviation l) (lTraj l).
Definition logNorm (norm : R) (l : mlog) : mlog :=
  mkLog (nMCWFsteps l) (nOvershot l) (nTolOvershot l) (dpMaxOvershoot l) (dpTolMaxOvershoot l)
        (Rmax (normMaxDeviation l) (Rabs (1 - norm))) (lTraj l).
Definition logJump (t : R) (k : nat) (l : mlog) : mlog :=
  mkLog (nMCWFsteps l) (nOvershot l) (nTolOvershot l) (dpMaxOvershoot l) (dpTolMaxOvershoot l) (normMaxDeviation l)
        (lTraj l ++ [(t, k)]).

(** structure::Liouvillean, Liouvillean.h:54-60: rates(t,psi) and actWithJ(t,psi,m) *)
Record liouvillean := mkLi { liRates : R -> carr CR -> list R; liJump : R -> carr CR -> nat -> carr CR }.
(** The system as seen by QuantumSystemWrapper, Structure.h:134-140: addContribution(t,psi,dpsidt=0,t0), actWithU(t,psi,t0) *)
Record msystem := mkSys {
  sysHa : option (R -> carr CR -> R -> carr CR);
  sysEx : option (R -> carr CR -> R -> carr CR);
  sysLi : option liouvillean }.

(** The time-dependence levels, TimeDependence.h:18-63, dispatched in HamiltonianTimeDependenceDispatched, Hamiltonian.h:65-84 *)
Definition twoTimeHa (f : R -> R -> carr CR -> carr CR) (t : R) (psi : carr CR) (t0 : R) : carr CR := f t t0 psi.
Definition oneTimeHa (f : R -> carr CR -> carr CR) (t : R) (psi : carr CR) (t0 : R) : carr CR := f (t - t0) psi.
Definition noTimeHa (f : carr CR -> carr CR) (t : R) (psi : carr CR) (t0 : R) : carr CR := f psi.

Section Mcwf.
Context {Rng : Type}.
(** the controlled stepper: given the right-hand side as a function of state and time *)
Variable odeTry : (carr CR -> R -> carr CR) -> carr CR -> R -> R -> attempt (carr CR) * nat.
(** sampleRandom, MCWF_Trajectory.h:161 *)
Variable sample : Rng -> R * Rng.
Variable sys : msystem.
Variables dpLimit overshootTolerance : R.

(** data members, MCWF_Trajectory.h:179-193; [tInf]: the dtTry of the ODE engine is infinite *)
Record traj := mkTraj { tTime : R; tT0 : R; tPsi : carr CR; tOde : engine; tInf : bool; tRng : Rng; tLog : mlog }.

Definition setDtDid (d : R) (e : engine) : engine := mkEngine d (dtTry e) (nDerivs e) (nSteps e) (nFailed e).
Definition setDtTry (d : R) (e : engine) : engine := mkEngine (dtDid e) d (nDerivs e) (nSteps e) (nFailed e).
Definition getTry (x : traj) : ext := if tInf x then Inf else Fin (dtTry (tOde x)).
Definition setTry (d : ext) (x : traj) : traj :=
  match d with
  | Fin r => mkTraj (tTime x) (tT0 x) (tPsi x) (setDtTry r (tOde x)) false (tRng x) (tLog x)
  | Inf => mkTraj (tTime x) (tT0 x) (tPsi x) (tOde x) true (tRng x) (tLog x)
  end.
Definition setLog (l : mlog) (x : traj) : traj :=
  mkTraj (tTime x) (tT0 x) (tPsi x) (tOde x) (tInf x) (tRng x) l.

(** right-hand side, MCWF_Trajectory.h:254-257 *)
Definition rhs (h : R -> carr CR -> R -> carr CR) (t0 : R) (psi : carr CR) (t : R) : carr CR := h t psi t0.

(** coherentTimeDevelopment, MCWF_Trajectory.h:250-276, first part (253-262). [None]: the ODE step does not return *)
Definition evolve (odeFuel : nat) (Dt : R) (x : traj) : option traj :=
  match sysHa sys with
  | Some h =>
      if tInf x then None else
      match step (odeTry (rhs h (tT0 x))) odeFuel Dt (tOde x) (tTime x) (tPsi x) with
      | Some (e, t, psi) => Some (mkTraj t (tT0 x) psi e (tInf x) (tRng x) (tLog x))
      | None => None
      end
  | None =>
      let stepToDo := match sysLi sys with
                      | Some _ => match getTry x with Fin d => Rmin d Dt | Inf => Dt end
                      | None => Dt
                      end in
      Some (mkTraj (tTime x + stepToDo) (tT0 x) (tPsi x) (setDtDid stepToDo (tOde x)) (tInf x) (tRng x) (tLog x))
  end.
(** lines 269-272 *)
Definition applyExact (x : traj) : traj :=
  match sysEx sys with
  | Some u => mkTraj (tTime x) (tTime x) (u (tTime x) (tPsi x) (tT0 x)) (tOde x) (tInf x) (tRng x) (tLog x)
  | None => x
  end.
(** line 274 *)
Definition renormalise (x : traj) : traj :=
  let (n, psi) := renormSV (tPsi x) in
  mkTraj (tTime x) (tT0 x) psi (tOde x) (tInf x) (tRng x) (logNorm n (tLog x)).
Definition coherent (odeFuel : nat) (Dt : R) (x : traj) : option traj :=
  option_map (fun y => renormalise (applyExact y)) (evolve odeFuel Dt x).

(** calculateSpecialRates, MCWF_Trajectory.h:279-291: from channel [i] on; the array in the tuple shares its storage with
    psiTemp, so it is the renormalised one *)
Fixpoint calculateSpecialRates (li : liouvillean) (t : R) (psi : carr CR) (i : nat) (rates : list R)
  : list R * list (nat * carr CR) :=
  match rates with
  | [] => ([], [])
  | r :: rates' =>
      let (rs, specials) := calculateSpecialRates li t psi (S i) rates' in
      if Rlt_dec r 0
      then let (n, jumped) := renormSV (liJump li t psi i) in (n * n :: rs, (i, jumped) :: specials)
      else (r :: rs, specials)
  end.

Definition total (rates : list R) : R := fold_right Rplus 0 rates.
(** dpLimit_/totalRate, line 301 *)
Definition suggested (totalRate : R) : ext := if Req_EM_T totalRate 0 then Inf else Fin (dpLimit / totalRate).

(** manageTimeStep, MCWF_Trajectory.h:294-317 *)
Definition manageTimeStep (rates : list R) (tCache dtDidCache : R) (logControl : bool) (x : traj) : bool * traj :=
  let totalRate := total rates in
  let did := dtDid (tOde x) in
  if Rlt_dec (overshootTolerance * dpLimit) (totalRate * did)
  then let x1 := mkTraj tCache (tT0 x) (tPsi x) (setDtDid dtDidCache (tOde x)) (tInf x) (tRng x) (tLog x) in
       let x2 := setTry (suggested totalRate) x1 in
       (true, setLog (logStepBack (totalRate * did) logControl (tLog x2)) x2)
  else let dpTry := match getTry x with
                    | Fin d => Fin (totalRate * d)
                    | Inf => if Req_EM_T totalRate 0 then Fin 0 else Inf  (* 0*inf is NaN, not > dpLimit *)
                    end in
       let over := match getTry x with
                   | Fin d => if Rlt_dec dpLimit (totalRate * d) then true else false
                   | Inf => if Rlt_dec 0 totalRate then true else false
                   end in
       let x1 := if over then setLog (logOvershot dpTry logControl (tLog x)) x else x in
       (false, setTry (match sysHa sys with Some _ => extMin (getTry x1) (suggested totalRate) | None => suggested totalRate end) x1).

(** the loop choosing the jump, MCWF_Trajectory.h:323-327: rest of random, lindbladNo *)
Fixpoint chooseLoop (random : R) (no : nat) (rates : list R) : R * nat :=
  match rates with
  | [] => (random, no)
  | r :: rates' => if Rlt_dec 0 random then chooseLoop (random - r) (S no) rates' else (random, no)
  end.
(** lines 329-330 *)
Definition chooseJump (random : R) (rates : list R) : option nat :=
  let (rest, no) := chooseLoop random 0 rates in if Rlt_dec rest 0 then Some (pred no) else None.

Definition findSpecial (k : nat) (specials : list (nat * carr CR)) : option (carr CR) :=
  option_map snd (find (fun p => Nat.eqb k (fst p)) specials).

(** performJump, MCWF_Trajectory.h:320-344. The check for an infinite square root is not modelled. *)
Definition performJump (li : liouvillean) (rates : list R) (specials : list (nat * carr CR)) (x : traj) : traj * option nat :=
  let (u, rng') := sample (tRng x) in
  let x1 := mkTraj (tTime x) (tT0 x) (tPsi x) (tOde x) (tInf x) rng' (tLog x) in
  match chooseJump (u / dtDid (tOde x)) rates with
  | None => (x1, None)
  | Some k =>
      let psi := match findSpecial k specials with
                 | Some jumped => jumped
                 | None => scaleBy (liJump li (tTime x) (tPsi x) k) (/ sqrt (nth k rates 0))
                 end in
      (mkTraj (tTime x) (tT0 x) psi (tOde x) (tInf x) rng' (logJump (tTime x) k (tLog x)), Some k)
  end.

(** What happened in a step, for the statement about the log: the norm before the renormalisation at each coherent
    development, the jump probability at each step-back, the one with the next timestep at each overshoot, the jump *)
Inductive event := ENorm (norm : R) | EBack (dp : R) | EOver (dp : ext) | EJump (t : R) (k : nat) | EDone.

Definition normBefore (odeFuel : nat) (Dt : R) (x : traj) : R :=
  match evolve odeFuel Dt x with Some y => frobeniusNorm (tPsi (applyExact y)) | None => 0 end.

Definition ratesAt (li : liouvillean) (x : traj) : list R * list (nat * carr CR) :=
  calculateSpecialRates li (tTime x) (tPsi x) 0 (liRates li (tTime x) (tPsi x)).

(** the while loop of step, MCWF_Trajectory.h:360-365, [x] being the trajectory after a coherent development; [None]: more than
    [fuel] step-backs, or an ODE step does not return *)
Fixpoint stepLoop (fuel odeFuel : nat) (li : liouvillean) (Dt : R) (psiCache : carr CR) (tCache dtDidCache : R) (x : traj)
  : option (traj * list event) :=
  let (rates, specials) := ratesAt li x in
  match manageTimeStep rates tCache dtDidCache true x with
  | (true, y) =>
      match fuel with
      | O => None
      | S f => let z := mkTraj (tTime y) (tT0 y) psiCache (tOde y) (tInf y) (tRng y) (tLog y) in
               match coherent odeFuel Dt z with
               | Some w => match stepLoop f odeFuel li Dt psiCache tCache dtDidCache w with
                           | Some (r, ev) => Some (r, EBack (total rates * dtDid (tOde x)) :: ENorm (normBefore odeFuel Dt z) :: ev)
                           | None => None
                           end
               | None => None
               end
      end
  | (false, y) =>
      let (r, jump) := performJump li rates specials y in
      Some (r, (match getTry x with
                | Fin d => if Rlt_dec dpLimit (total rates * d) then [EOver (Fin (total rates * d))] else []
                | Inf => if Rlt_dec 0 (total rates) then [EOver Inf] else []
                end) ++ match jump with Some k => [EJump (tTime r) k] | None => [] end)
  end.

(** step, MCWF_Trajectory.h:347-374 *)
Definition mstep (fuel odeFuel : nat) (Dt : R) (x : traj) : option (traj * list event) :=
  match coherent odeFuel Dt x with
  | None => None
  | Some y =>
      match (match sysLi sys with
             | Some li => stepLoop fuel odeFuel li Dt (tPsi x) (tTime x) (dtDid (tOde x)) y
             | None => Some (y, [])
             end) with
      | Some (z, ev) => Some (setLog (logStep (tLog z)) z, ENorm (normBefore odeFuel Dt x) :: ev ++ [EDone])
      | None => None
      end
  end.

(** a sequence of steps *)
Fixpoint msteps (fuel odeFuel : nat) (Dts : list R) (x : traj) : option (traj * list event) :=
  match Dts with
  | [] => Some (x, [])
  | Dt :: Dts' => match mstep fuel odeFuel Dt x with
                  | Some (y, ev) => match msteps fuel odeFuel Dts' y with
                                    | Some (z, ev') => Some (z, ev ++ ev')
                                    | None => None
                                    end
                  | None => None
                  end
  end.

(** constructor, MCWF_Trajectory.h:103-118 *)
Definition newTraj (psi : carr CR) (dtInit : R) (rng : Rng) : traj :=
  let x := mkTraj 0 0 psi (newEngine dtInit) false rng newLog in
  match sysLi sys with
  | Some li => snd (manageTimeStep (fst (calculateSpecialRates li (tTime x) psi 0 (liRates li 0 psi))) 0 0 false x)
  | None => x
  end.

(** stateIO, MCWF_Trajectory.h:138-147: what is in the archive, saving, loading into an existing trajectory *)
Definition archive : Type := carr CR * R * (engine * bool) * Rng * mlog.
Definition save (x : traj) : archive := (tPsi x, tTime x, (tOde x, tInf x), tRng x, tLog x).
Definition load (a : archive) (x : traj) : traj :=
  match a with (psi, t, (e, inf), rng, l) => mkTraj t t psi e inf rng l end.
End Mcwf.
Arguments traj : clear implicits.
