(** C37-C40 and the Master half of C36: the Master equation, and the time at which Hamiltonians are evaluated. *)
From Coq Require Import List Arith Reals Lra Lia.
From Verif Require Import Star CReal Arr HermSpec OdeModel DensityModel PureModel McwfModel McwfSpec McwfCases MasterModel MasterSpec MasterProofs MasterCases
  MasterLemmas MasterFacts.
Import ListNotations.
Local Open Scope R_scope.

(** * C36 for Master: the loaded trajectory is the saved one *)
Theorem C36_master : forall odeTry sys odeFuel rho dtInit x0 Dts x, newMaster sys rho dtInit = Some x0 ->
  masterSteps odeTry sys odeFuel Dts x0 = Some x -> forall y, loadMaster (saveMaster x) y = x.
Proof. exact load_master. Qed.
Print Assumptions C36_master.
Example C36_master_case : exists y z, newMaster driveQ plus 1 = Some y /\ masterSteps eulerA driveQ 0 [1; 1] y = Some z /\ mRho z [0%nat; 1%nat] = RC (1/2).
Proof. destruct drive_master_differ as (y & z & _ & E1 & _ & E2 & _ & E3 & _). exact (ex_intro _ y (ex_intro _ z (conj E1 (conj E2 E3)))). Qed.

(** * C37: the exact part is conjugation by U, for every array rho *)
Theorem C37_exact : forall (K : StarRing) dims (u : (list nat -> K) -> list nat -> K) U rho,
  (forall k, In k dims -> (0 < k)%nat) -> acts_as dims u U ->
  exists rho', exactPart dims u rho = Some rho' /\ mmeq dims (asOp rho') (conjugated dims U (asOp rho)).
Proof. exact @exactPart_spec. Qed.
Print Assumptions C37_exact.
(** two subsystems, a non-unitary propagator, a non-Hermitian matrix, computed *)
Example C37_case : acts_as [2;2]%nat (matop [2;2]%nat numU) numU /\ numCheck = true.
Proof. exact (conj (matop_acts [2;2]%nat numU) numCheck_ok). Qed.

(** * C38: the right-hand side has the Lindblad form *)
Theorem C38_lindblad : forall sys t0 rho t hnh js, (forall k, In k (qDims sys) -> (0 < k)%nat) ->
  hermitian (qDims sys) (asOp rho) -> hamiltonian_is (qDims sys) (option_map (fun h => h t t0) (qHa sys)) hnh ->
  Forall2 (channel_is (qDims sys)) (qLi sys t) js ->
  let d := asOp (derivative sys t0 rho t) in
  mmeq (qDims sys) d (lindblad (qDims sys) hnh js (asOp rho)) /\ hermitian (qDims sys) d /\
  (forall h, hermitian (qDims sys) h -> mmeq (qDims sys) hnh (nonHermitian (qDims sys) h js) -> mtrace (qDims sys) d = k0).
Proof. exact lindblad_fact. Qed.
Print Assumptions C38_lindblad.
(** the excited atom decays, with the superoperator given by the system and without *)
Example C38_case : forall super t t0, hermitian [2%nat] (asOp excited) /\ hermitian [2%nat] atomH /\
  hamiltonian_is [2%nat] (option_map (fun h => h t t0) (qHa (atomQ super))) (nonHermitian [2%nat] atomH [atomJ]) /\
  Forall2 (channel_is [2%nat]) (qLi (atomQ super) t) [atomJ] /\
  derivative (atomQ super) t0 excited t [1%nat; 1%nat] = kopp k1 /\ derivative (atomQ super) t0 excited t [0%nat; 0%nat] = k1.
Proof.
  intros super t t0. exact (conj excited_hermitian (conj atomH_hermitian (conj (atom_hamiltonian super t t0) (conj (atom_channels super t) (atom_decays super t t0))))).
Qed.

(** * C39: after every step rho is Hermitian with unit trace, whatever the ODE step has delivered; what is already so is not changed *)
Theorem C39_unit_trace : forall odeTry sys odeFuel Dt x y e t rho u, (forall k, In k (qDims sys) -> (0 < k)%nat) ->
  step (odeTry (derivative sys (mT0 x))) odeFuel Dt (mOde x) (mTime x) (mRho x) = Some (e, t, rho) ->
  propagator_is sys t (mT0 x) u -> cre (mtrace (qDims sys) (asOp rho)) <> 0%R ->
  masterStep odeTry sys odeFuel Dt x = Some y ->
  hermitian (qDims sys) (asOp (mRho y)) /\ mtrace (qDims sys) (asOp (mRho y)) = k1 /\ mTime y = t /\
  (hermitian (qDims sys) (asOp rho) -> mtrace (qDims sys) (asOp rho) = k1 ->
   mmeq (qDims sys) (asOp (mRho y)) (conjugated (qDims sys) u (asOp rho))).
Proof. exact unit_fact. Qed.
Print Assumptions C39_unit_trace.
Example C39_case : forall super, newMaster (atomQ super) excited 1 = Some (atomM super) /\
  exists e t rho y, step (eulerA (derivative (atomQ super) 0)) 0 1 (newEngine 1) 0 excited = Some (e, t, rho) /\
    mtrace [2%nat] (asOp rho) = k1 /\ propagator_is (atomQ super) t 0 (fun i j => if listnat_eqb i j then k1 else k0) /\
    masterStep eulerA (atomQ super) 0 1 (atomM super) = Some y /\
    mRho y [0%nat; 0%nat] = k1 /\ mRho y [1%nat; 1%nat] = k0.
Proof. exact atom_master. Qed.

(** * C40: refuted for Master: in the second step, the Hamiltonian t|1><1| is evaluated at time 0 instead of 1; and, for MCWF, after
    loading. *)
Theorem C40_master_refuted : exists x0 y z, newMaster driveQ plus 1 = Some x0 /\ newMaster driveAbs plus 1 = Some x0 /\
  masterSteps eulerA driveQ 0 [1; 1] x0 = Some y /\ masterSteps eulerA driveAbs 0 [1; 1] x0 = Some z /\
  mRho y [0%nat; 1%nat] = RC (1/2) /\ mRho z [0%nat; 1%nat] = ((1/2, 1/2) : CR).
Proof. exact drive_master_differ. Qed.
Print Assumptions C40_master_refuted.
Theorem C40_reload_refuted : exists x ev, msteps eulerTry (fixed 0) driveSys (1/100) 10 0 0 [1] drive0 = Some (x, ev) /\
  exists r ev1 r' ev2, msteps eulerTry (fixed 0) driveSys (1/100) 10 0 0 [1] x = Some (r, ev1) /\
    msteps eulerTry (fixed 0) driveSys (1/100) 10 0 0 [1] (load (save x) drive0) = Some (r', ev2) /\ tPsi r <> tPsi r'.
Proof. exact drive_differ. Qed.
Print Assumptions C40_reload_refuted.
(** What holds: a fresh MCWF trajectory without exact part develops as if the Hamiltonian were always evaluated at the time of the
    trajectory. *)
Theorem C40_mcwf_partial : forall Rng odeTry (sample : Rng -> R * Rng) dpLimit tol li (f : R -> carr CR -> carr CR) psi dtInit rng Dts fuel odeFuel,
  let dispatched := mkSys (Some (oneTimeHa f)) None li in
  let absolute := mkSys (Some (fun t psi _ => f t psi)) None li in
  msteps odeTry sample dispatched dpLimit tol fuel odeFuel Dts (newTraj dispatched dpLimit tol psi dtInit rng) =
  msteps odeTry sample absolute dpLimit tol fuel odeFuel Dts (newTraj absolute dpLimit tol psi dtInit rng).
Proof. exact @mcwf_time. Qed.
Print Assumptions C40_mcwf_partial.
(** a run in which the second step sees the Hamiltonian at time 1 *)
Example C40_case : exists x ev, msteps eulerTry (fixed 0) driveSys (1/100) 10 0 0 [1] drive0 = Some (x, ev) /\ 
  exists r ev1, msteps eulerTry (fixed 0) driveSys (1/100) 10 0 0 [1] x = Some (r, ev1).
Proof. destruct drive_differ as (x & ev & E & r & ev1 & _ & _ & E1 & _). exact (ex_intro _ x (ex_intro _ ev (conj E (ex_intro _ r (ex_intro _ ev1 E1))))). Qed.
