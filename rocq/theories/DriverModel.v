(** Model of the making of trajectories from parameters and an initial state which lives in the memory of the caller:
    mcwf::make, mcwf::makeEnsemble (CPPQEDcore/quantumtrajectory/MCWF_Trajectory.h:207-243), Ensemble
    (CPPQEDutils/StochasticTrajectory.h:186-267), evolve (Evolution_.h:85-130), the parameters concerned
    (StochasticTrajectory.h:22-40, Random.h:125-153), and of DensityOperatorStreamer.h. *)
From Coq Require Import List Arith NArith Reals String.
From Verif Require Import Star CReal OdeModel DensityModel PureModel McwfModel.
From Verif Require CompositeModel.
Import ListNotations.
Local Open Scope nat_scope.

(** The parameters: references into the parameter table, so a change made through them remains, also when the aggregate is
    received by constant reference. Those of the ODE engine are in the stepper; nBins, nJumpsPerBin and the ones of run() are left out. *)
Record pars := mkPars { pSeed : N; pStream : N; pNTraj : nat; pNoise : bool; pDpLimit : R; pTolerance : R; pLogLevel : Z }.
(** incrementForNextStream, Random.h:153; unsigned long of 64 bits *)
Definition incrementForNextStream (p : pars) : pars :=
  mkPars (pSeed p) ((pStream p + 1) mod 2 ^ 64)%N (pNTraj p) (pNoise p) (pDpLimit p) (pTolerance p) (pLogLevel p).
Definition withLogLevel (l : Z) (p : pars) : pars :=
  mkPars (pSeed p) (pStream p) (pNTraj p) (pNoise p) (pDpLimit p) (pTolerance p) l.

(** Storage of state vectors: the next free address, and the contents. A StateVector is the address of its (reference counted) data. *)
Record heap := mkHeap { hNext : nat; hMem : nat -> carr CR }.
Definition write (h : heap) (a : nat) (psi : carr CR) : heap :=
  mkHeap (hNext h) (fun b => if Nat.eqb b a then psi else hMem h b).
Definition alloc (h : heap) (psi : carr CR) : heap * nat :=
  (mkHeap (Datatypes.S (hNext h)) (fun b => if Nat.eqb b (hNext h) then psi else hMem h b), hNext h).
(** StateVector(const StateVector&), StateVector.h:77-78: deep copy; StateVector(StateVector&&), :84: the same data *)
Definition copySV (h : heap) (a : nat) : heap * nat := alloc h (hMem h a).
Definition moveSV (h : heap) (a : nat) : heap * nat := (h, a).

Section Driver.
Context {Rng : Type}.
Variable odeTry : (carr CR -> R -> carr CR) -> carr CR -> R -> R -> attempt (carr CR) * nat.
Variable sample : Rng -> R * Rng.
(** the random engine constructed from seed and stream, EngineWithParameters, Random.h:116 *)
Variable engineOf : N -> N -> Rng.
(** bounds for the loops: step-backs, failed ODE steps, steps of an advance *)
Variables fuel odeFuel advFuel : nat.

(** a MCWF_Trajectory with its psi_ in the heap: the component tPsi of [hRest] is not used *)
Record htraj := mkH { hAddr : nat; hSys : msystem; hDp : R; hTol : R; hRest : traj Rng }.
Definition withPsi (psi : carr CR) (x : traj Rng) : traj Rng := mkTraj (tTime x) (tT0 x) psi (tOde x) (tInf x) (tRng x) (tLog x).
(** the trajectory as seen through its member functions: getStateVector, MCWF_Trajectory.h:154 *)
Definition view (h : heap) (x : htraj) : traj Rng := withPsi (hMem h (hAddr x)) (hRest x).

(** The constructor, MCWF_Trajectory.h:98-118, from an address already obtained by copying or moving; make, :207-214.
    The noise parameter occurs in neither. *)
Definition make (sys : msystem) (dtInit : R) (h : heap) (a : nat) (p : pars) : heap * htraj :=
  let (h1, b) := moveSV h a in
  (h1, mkH b sys (pDpLimit p) (pTolerance p)
         (newTraj sys (pDpLimit p) (pTolerance p) (hMem h1 b) dtInit (engineOf (pSeed p) (pStream p)))).

(** makeEnsemble, :217-243: the loop, lines 228-231, and the reduction of the logging, line 226 *)
Fixpoint makeLoop (sys : msystem) (dtInit : R) (n : nat) (a : nat) (h : heap) (p : pars) : heap * list htraj * pars :=
  match n with
  | O => (h, [], p)
  | Datatypes.S n' => let (h1, b) := copySV h a in
              let (h2, x) := make sys dtInit h1 b p in
              match makeLoop sys dtInit n' a h2 (incrementForNextStream p) with
              | (h3, xs, p3) => (h3, x :: xs, p3)
              end
  end.
Definition makeEnsemble (sys : msystem) (dtInit : R) (h : heap) (a : nat) (p : pars) : heap * list htraj * pars :=
  makeLoop sys dtInit (pNTraj p) a h (withLogLevel (if (0 <? pLogLevel p)%Z then 1%Z else pLogLevel p) p).

(** step, with psi_ modified in place: the ODE stepper, actWithU, renorm, the assignments psi_=psiCache, psi_=special and
    actWithJ (MCWF_Trajectory.h:250-374) all write into the data psi_ refers to *)
Definition hstep (s : heap * htraj) (Dt : R) : option (heap * htraj) :=
  let (h, x) := s in
  match mstep odeTry sample (hSys x) (hDp x) (hTol x) fuel odeFuel Dt (view h x) with
  | Some (y, _) => Some (write h (hAddr x) (tPsi y), mkH (hAddr x) (hSys x) (hDp x) (hTol x) y)
  | None => None
  end.
(** advance, Trajectory.h:42-50 *)
Definition hadvance (s : heap * htraj) (deltaT : R) : option (heap * htraj) :=
  option_map fst (advance (fun s => tTime (hRest (snd s))) hstep advFuel s deltaT).
(** stateIO(iarchive&), MCWF_Trajectory.h:138-147: a new array is read, and psi_ made to refer to that *)
Definition hload (ar : @archive Rng) (s : heap * htraj) : heap * htraj :=
  let (h, x) := s in
  let r := load ar (hRest x) in
  let (h1, b) := alloc h (tPsi r) in
  (h1, mkH b (hSys x) (hDp x) (hTol x) r).

(** Ensemble::advance, StochasticTrajectory.h:216 *)
Fixpoint advanceEnsemble (h : heap) (xs : list htraj) (deltaT : R) : option (heap * list htraj) :=
  match xs with
  | [] => Some (h, [])
  | x :: rest => match hadvance (h, x) deltaT with
                 | Some (h1, y) => match advanceEnsemble h1 rest deltaT with
                                   | Some (h2, ys) => Some (h2, y :: ys)
                                   | None => None
                                   end
                 | None => None
                 end
  end.
Fixpoint runEnsemble (h : heap) (xs : list htraj) (dts : list R) : option (heap * list htraj) :=
  match dts with
  | [] => Some (h, xs)
  | d :: dts' => match advanceEnsemble h xs d with Some (h1, ys) => runEnsemble h1 ys dts' | None => None end
  end.

(** run(), Trajectory.h:505-626, of a single trajectory, as far as its state is concerned: if there is a state file, the last
    archive is read (:514-528), then the trajectory is advanced or stepped again and again *)
Inductive move := Step (Dt : R) | Advance (deltaT : R).
Definition moveOnce (s : heap * htraj) (m : move) : option (heap * htraj) :=
  match m with Step Dt => hstep s Dt | Advance d => hadvance s d end.
Fixpoint moves (s : heap * htraj) (ms : list move) : option (heap * htraj) :=
  match ms with
  | [] => Some s
  | m :: ms' => match moveOnce s m with Some s' => moves s' ms' | None => None end
  end.
(** evolve with evol==SINGLE from a state vector which is an lvalue, Evolution_.h:114-117 *)
Definition evolveSingle (sys : msystem) (dtInit : R) (stateFile : option archive) (ms : list move) (h : heap) (a : nat) (p : pars)
  : option (heap * htraj) :=
  let s := make sys dtInit h a p in
  moves (match stateFile with Some ar => hload ar s | None => s end) ms.
End Driver.
Arguments htraj : clear implicits.

(** ** DensityOperatorStreamer, DensityOperatorStreamer.h:30-88 *)
Section Streamer.
Import CompositeModel.
Local Open Scope string_scope.
(** negPT, mutualInformation and purityOfPartialTrace for the subsystem V, EntanglementMeasures.h:40-120 *)
Variables negPT mutualInformation purityOfPartialTrace : op -> R.
(** isV_empty, line 84; ems_, line 82 *)
Variable isVEmpty : bool.
Variables ems0 ems1 ems2 : bool.

(** structure::stream, Structure.h:46-60 *)
Definition streamAv (av : option averaged) (t : R) (rho : op) (os : list token) : option (list token * list R) :=
  match av with
  | Some a => match checked (avN a) (avAverage a t rho) with
              | Some l => let l' := avProcess a l in Some (streamCommon l' os, l')
              | None => None
              end
  | None => Some (os, [])
  end.
(** one of the blocks of lines 43-57 *)
Definition appendIf (b : bool) (v : R) (s : list token * list R) : list token * list R :=
  if b then ((fst s ++ [Tab; Num v])%list, (snd s ++ [v])%list) else s.
(** operator(), lines 38-61 *)
Definition streamRho (av : option averaged) (t : R) (rho : op) (os : list token) : option (list token * list R) :=
  option_map (fun s => if isVEmpty then s else
    appendIf ems2 (purityOfPartialTrace rho) (appendIf ems1 (mutualInformation rho) (appendIf ems0 (negPT rho) s)))
    (streamAv av t rho os).
Definition labelIf (b : bool) (s : string) (x : list token * nat) : list token * nat :=
  if b then ((fst x ++ [Label (snd x) s])%list, Datatypes.S (snd x)) else x.
(** streamKey, lines 63-73 *)
Definition keyRho (av : option averaged) (x : list token * nat) : list token * nat :=
  let y := match av with Some a => keyStream (avTitle a) (avLabels a) (fst x) (snd x) | None => x end in
  if isVEmpty then y else
    labelIf ems2 "purity of partial trace" (labelIf ems1 "mutual information" (labelIf ems0 "negativity"
      (if (ems0 || ems1 || ems2)%bool then ((fst y ++ [Title "Trajectory"])%list, snd y) else y))).
(** streamKey of Master (Master.h:104) and Ensemble (StochasticTrajectory.h:239) *)
Definition keyOfTrajectory (av : option averaged) (os : list token) : list token := fst (keyRho av (os, 3)).
End Streamer.
