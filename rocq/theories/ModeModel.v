(** Model of the Hamiltonians and of the classes of CPPQEDelements/frees/Mode.cc, Mode_.h, Mode.tcc, of the tridiagonal Hamiltonian
    of CPPQEDcore/quantumoperator/TridiagonalHamiltonian.h, and of the Hamiltonians of HomodynedMode.cc and Spin.h, Spin.cc. *)
From Coq Require Import List Arith Bool Reals.
From Verif Require Import Star CReal TriModel ElementModel.
Import ListNotations.

Definition bind {A B} (o : outcome A) (f : A -> outcome B) : outcome B :=
  match o with
  | Ok a => f a
  | TimeMismatch => TimeMismatch | StructureMismatch => StructureMismatch | FreqMismatch => FreqMismatch
  | ConsistencyError => ConsistencyError | UB => UB
  end.

(** a Tridiagonal::Diagonal of given size and elements *)
Definition vecOf (n : nat) (f : nat -> CR) : arr CR := mkArr [n] (fun x => f (nth 0 x 0)).
Definition noDiag : arr CR := emptyArr 1.

(** isNonZero, ComplexExtensions.h:19 *)
Definition isNonZero (z : CR) : bool := negb (CReqb z k0).

(** KERRDIAGONAL, Mode.cc:54: d=(i-1.)*i; d*=o/1i *)
Definition kerrElem (o : R) (i : nat) : CR := kmul (RC ((INR i - 1) * INR i)) (kmul (RC o) (kopp CI)).
(** mainDiagonal, Mode.cc:56-63 *)
Definition mainDiagonal (z : CR) (omegaKerr : R) (dim : nat) : arr CR :=
  vecOf dim (fun i => kadd (kmul (RC (INR i)) z) (kerrElem omegaKerr i)).
(** the unary constructor with a main diagonal only, and without arguments, Tridiagonal.h:122-128 *)
Definition ofDiagonal (d : arr CR) : outcome (tri CR R) := unary 0%R d 0 noDiag noDiag false.
Definition emptyTri : outcome (tri CR R) := ofDiagonal noDiag.
(** aop(size_t), Mode.cc:277-282 *)
Definition aop (dim : nat) : outcome (tri CR R) :=
  unary 0%R noDiag 1 noDiag (vecOf (dim - 1) (fun i => RC (sqrt (INR i + 1)))) false.
(** pumping, Mode.cc:66-69 *)
Definition pumping (eta : CR) (dim : nat) : outcome (tri CR R) :=
  bind (aop dim) (fun a => minusHC CReqb (scale eta (dagger a))).
(** hOverI, Mode.cc:75-86 *)
Definition hOverI (z eta : CR) (omegaKerr : R) (dim : nat) : outcome (tri CR R) :=
  if isNonZero z then
    bind (ofDiagonal (mainDiagonal (kopp z) omegaKerr dim)) (fun res =>
    if isNonZero eta then bind (pumping eta dim) (fun p => add CReqb res p) else Ok res)
  else if isNonZero eta then pumping eta dim
  else emptyTri.
(** FILLKERR, Mode.cc:92 *)
Definition kerrTerm (omegaKerrAlter : R) (dim : nat) : outcome (tri CR R) := ofDiagonal (vecOf dim (kerrElem omegaKerrAlter)).

(** Hamiltonian<true>, Mode.cc:95-100, and Hamiltonian<false>, Mode.cc:102-107 *)
Definition hamiltonianIP (zSch zI eta : CR) (omegaKerr omegaKerrAlter : R) (dim : nat) : outcome (list (tri CR R)) :=
  bind (hOverI zSch eta omegaKerr dim) (fun h =>
  bind (furnish h (mainDiagonal zI omegaKerr dim)) (fun h' =>
  bind (kerrTerm omegaKerrAlter dim) (fun k => Ok [h'; k]))).
Definition hamiltonianSch (zSch eta : CR) (omegaKerr omegaKerrAlter : R) (dim : nat) : outcome (list (tri CR R)) :=
  bind (hOverI zSch eta omegaKerr dim) (fun h =>
  bind (kerrTerm omegaKerrAlter dim) (fun k => Ok [h; k])).

(** TDH_Base::addContribution_v, TridiagonalHamiltonian.h:42-47: in the time-dependent case every member of the list is propagated
    (in place) to the time before it is applied *)
Definition addContribution (timeDependent : bool) (t : R) (hs : list (tri CR R)) (psi dpsidt : list nat -> CR) :
    list (tri CR R) * (list nat -> CR) :=
  let hs' := if timeDependent then map (propagate t) hs else hs in
  (hs', fold_left (fun d h => apply h psi d) hs' dpsidt).
(** the list after calls at the times [ts] *)
Definition afterCalls (timeDependent : bool) (ts : list R) (hs : list (tri CR R)) : list (tri CR R) :=
  fold_left (fun hs t => fst (addContribution timeDependent t hs (fun _ => k0) (fun _ => k0))) ts hs.

(** a mode: its zI if derived from Exact, its Hamiltonian (with time dependence) if it has one, its Lindblads *)
Record modeSys := mkMode { msDim : nat; msExact : option CR; msH : option (bool * list (tri CR R)); msLindblads : list lindbladOp }.

(** parameters: Pars, ParsPumped, ParsLossy, ParsPumpedLossy in ParsMode.h *)
Record modePars := mkPars { pDelta : R; pKerr : R; pKerrAlter : R; pCutoff : nat; pEta : CR; pKappa : R; pNTh : R }.
Inductive picture := IP | UIP | SCH.

(** finiteTemperatureHamiltonianDecay, Mode_.h:88-93 *)
Definition decayRate (temperature : bool) (p : modePars) : R :=
  if temperature then (pKappa p * (2 * pNTh p + 1))%R else pKappa p.
(** Liouvillean<TEMPERATURE,ALT>(kappa,nTh) *)
Definition modeLindblads (temperature alt : bool) (p : modePars) : list lindbladOp :=
  if temperature then modeThermal alt (pCutoff p) (pKappa p) (pNTh p) else modeLoss alt (pCutoff p) (pKappa p).
Definition withIP (zSch zI eta : CR) (p : modePars) (ls : list lindbladOp) : outcome modeSys :=
  bind (hamiltonianIP zSch zI eta (pKerr p) (pKerrAlter p) (pCutoff p)) (fun hs => Ok (mkMode (pCutoff p) (Some zI) (Some (true, hs)) ls)).
Definition withSch (z eta : CR) (p : modePars) (ls : list lindbladOp) : outcome modeSys :=
  bind (hamiltonianSch z eta (pKerr p) (pKerrAlter p) (pCutoff p)) (fun hs => Ok (mkMode (pCutoff p) None (Some (false, hs)) ls)).

(** the constructors, Mode.tcc:96-198 *)
Definition cMode (p : modePars) : outcome modeSys := Ok (mkMode (pCutoff p) (Some ((0, - pDelta p)%R : CR)) None []).
Definition cModeSch (p : modePars) : outcome modeSys := withSch (0, - pDelta p)%R k0 p [].
Definition cPumpedMode (p : modePars) : outcome modeSys := withIP k0 (0, - pDelta p)%R (pEta p) p [].
Definition cPumpedModeSch (p : modePars) : outcome modeSys := withSch (0, - pDelta p)%R (pEta p) p [].
Definition cLossyMode (temp : bool) (p : modePars) : outcome modeSys :=
  Ok (mkMode (pCutoff p) (Some ((decayRate temp p, - pDelta p)%R : CR)) None (modeLindblads temp false p)).
Definition cLossyModeUIP (temp : bool) (p : modePars) : outcome modeSys :=
  withIP (decayRate temp p, 0)%R (0, - pDelta p)%R k0 p (modeLindblads temp false p).
Definition cLossyModeSch (temp : bool) (p : modePars) : outcome modeSys :=
  withSch (decayRate temp p, - pDelta p)%R k0 p (modeLindblads temp false p).
Definition cPumpedLossyMode (temp : bool) (p : modePars) : outcome modeSys :=
  withIP k0 (decayRate temp p, - pDelta p)%R (pEta p) p (modeLindblads temp false p).
Definition cPumpedLossyModeUIP (temp : bool) (p : modePars) : outcome modeSys :=
  withIP (decayRate temp p, 0)%R (0, - pDelta p)%R (pEta p) p (modeLindblads temp false p).
Definition cPumpedLossyModeSch (temp : bool) (p : modePars) : outcome modeSys :=
  withSch (decayRate temp p, - pDelta p)%R (pEta p) p (modeLindblads temp false p).
(** PumpedLossyModeAlternative, Mode.tcc:203-211 *)
Definition cPumpedLossyModeAlternative (temp : bool) (p : modePars) : outcome modeSys :=
  withIP k0 (pKappa p, - pDelta p)%R (pEta p) p (modeLindblads temp true p).

(** the dispatch SWITCH_helper, Mode.tcc:12-18; ModeUIP and PumpedModeUIP are Mode and PumpedMode, Mode_.h:352-355, 393-396 *)
Definition switch {A} (qmp : picture) (ip uip sch : A) : A := match qmp with IP => ip | UIP => uip | SCH => sch end.
(** mode::make, Mode.tcc:22-57, for all the types of parameters (those absent are zero) *)
Definition makePlain (p : modePars) (qmp : picture) : outcome modeSys := switch qmp (cMode p) (cMode p) (cModeSch p).
Definition makeLossy (p : modePars) (qmp : picture) : outcome modeSys :=
  if Reqb (pKappa p) 0 then makePlain p qmp
  else let temp := negb (Reqb (pNTh p) 0) in switch qmp (cLossyMode temp p) (cLossyModeUIP temp p) (cLossyModeSch temp p).
Definition makePumped (p : modePars) (qmp : picture) : outcome modeSys :=
  if negb (isNonZero (pEta p)) then makePlain p qmp
  else switch qmp (cPumpedMode p) (cPumpedMode p) (cPumpedModeSch p).
Definition make (p : modePars) (qmp : picture) : outcome modeSys :=
  if Reqb (pKappa p) 0 then makePumped p qmp
  else if negb (isNonZero (pEta p)) then makeLossy p qmp
  else let temp := negb (Reqb (pNTh p) 0) in
       switch qmp (cPumpedLossyMode temp p) (cPumpedLossyModeUIP temp p) (cPumpedLossyModeSch temp p).

(** the qbits, Qbit_.h:90-117 and Qbit.cc:87-164, are modes of cutoff 2 with -eta and without Kerr terms and temperature; make, Qbit.cc:216-246,
    chooses as that of the mode *)
Definition qbitPars (delta gamma : R) (eta : CR) : modePars := mkPars delta 0 0 2 (kopp eta) gamma 0.
Definition qbitMake (delta gamma : R) (eta : CR) (qmp : picture) : outcome modeSys := make (qbitPars delta gamma eta) qmp.
(** with phase noise, Qbit.cc:167-201 and make, Qbit.cc:249-266: the Schroedinger picture is not available, interaction picture is used instead *)
Definition qbitNoiseMake (delta gamma gammaPar : R) (eta : CR) (qmp : picture) : outcome modeSys :=
  let p := qbitPars delta gamma eta in
  let ls := qbitPhaseNoise gamma gammaPar in
  if Reqb gammaPar 0 then qbitMake delta gamma eta qmp
  else match qmp with
       | UIP => if isNonZero eta then withIP (gamma, 0)%R (0, - delta)%R (kopp eta) p ls else withIP (gamma, 0)%R (0, - delta)%R k0 p ls
       | _ => if isNonZero eta then withIP k0 (gamma, - delta)%R (kopp eta) p ls else Ok (mkMode 2 (Some ((gamma, - delta)%R : CR)) None ls)
       end.

(** HomodynedBase, HomodynedMode.cc:4-11 (finiteTemperatureHamiltonianDecay<true>) *)
Definition homodyneMode (h : CR) (p : modePars) : outcome modeSys :=
  bind (hamiltonianSch (decayRate true p, - pDelta p)%R (pEta p) (pKerr p) (pKerrAlter p) (pCutoff p)) (fun hs =>
  bind (aop (pCutoff p)) (fun a =>
  bind (plusHC CReqb (scale (kconj h) a)) (fun x =>
  bind (match hs with
        | front :: rest => bind (sub CReqb front (scale (RC (sqrt (pKappa p / 2) * (sqrt (pNTh p) + sqrt (pNTh p + 1)))) x)) (fun f => Ok (f :: rest))
        | [] => UB
        end) (fun hs' =>
  Ok (mkMode (pCutoff p) None (Some (false, hs')) (homodyned (pCutoff p) h (pKappa p) (pNTh p))))))).

(** ** Spin, Spin.cc:35-65, Spin.h:27-53; without frequencies (isExact=false) *)
Definition splus (dim twoS : nat) : outcome (tri CR R) :=
  unary 0%R noDiag 1 (vecOf (dim - 1) (fun i => RC (sqrt ((INR twoS - INR i) * (INR i + 1))))) noDiag false.
Definition sz (dim twoS : nat) : outcome (tri CR R) := ofDiagonal (vecOf dim (fun i => RC (INR i - INR twoS / 2))).
Definition sx (dim twoS : nat) : outcome (tri CR R) :=
  bind (splus dim twoS) (fun s => bind (add CReqb s (dagger s)) (fun x => Ok (scale (RC (/ 2)) x))).
Definition sy (dim twoS : nat) : outcome (tri CR R) :=
  bind (splus dim twoS) (fun s => bind (sub CReqb s (dagger s)) (fun x => Ok (scale (kmul (RC (/ 2)) (kopp CI)) x))).
Definition sn (dim twoS : nat) (theta phi : R) : outcome (tri CR R) :=
  bind (sx dim twoS) (fun x => bind (sy dim twoS) (fun y => bind (sz dim twoS) (fun z =>
  bind (add CReqb (scale (RC (cos phi)) x) (scale (RC (sin phi)) y)) (fun xy =>
  add CReqb (scale (RC (sin theta)) xy) (scale (RC (cos theta)) z))))).
(** SpinSch and LossySpinSch, Spin.h:136-171: H/i = -z S_n, z=(gamma,omega) *)
Definition lossySpinSch (twoS dimPar : nat) (theta phi omega gamma : R) : outcome modeSys :=
  let dim := decideDimension twoS dimPar in
  bind (sn dim twoS theta phi) (fun s =>
  Ok (mkMode dim None (Some (false, [scale (kopp ((gamma, omega) : CR)) s])) (spinLoss dim twoS gamma))).
(** Spin and LossySpin, Spin.h:117-133, 152-160: theta=phi=0, the propagator exp(-z i t) (FreeExactModel.spinUpdateU) has the form of that of a mode *)
Definition lossySpin (twoS dimPar : nat) (omega gamma : R) : outcome modeSys :=
  let dim := decideDimension twoS dimPar in Ok (mkMode dim (Some ((gamma, omega) : CR)) None (spinLoss dim twoS gamma)).
