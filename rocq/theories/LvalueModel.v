(** Model of whose memory a trajectory evolves: evolve and evolution::_ in CPPQEDcore/quantumtrajectory/Evolution_.h, the constructors, steps and
    state input of MCWF_Trajectory.h and Master.h, averagingUtils::Transferring in CPPQEDelements/utils/AveragingUtils.h, and the script
    CPPQEDscripts/QbitMode_Matrix.cc, upon the model of the ownership of arrays ([AliasModel]).

    Simplified: what the stepper, the exact propagator and the jumps compute are arbitrary functions of the elements, which write
    their results into the array they are given (ODE_Engine::step takes the state by reference); step sizes, times, random numbers and logs do not
    occur: which trials, and which jump, a step consists of is given.  The array in a state file has the dimensions of the state. *)
From Coq Require Import List Arith Bool.
From Verif Require Import AliasModel.
Import ListNotations.

Section Lvalue.
  Variables (K : Type) (kz : K) (kadd ksub kmul kdiv : K -> K -> K) (kneg kconj : K -> K).
  Variable norm : list K -> K.
  (** the name of the first of the temporaries *)
  Variable B : nat.

  Notation state := (state K). Notation outcome := (outcome K).
  Definition prog := state -> outcome.
  Definition skip : prog := fun s => Ok K s.
  Definition one (c : cmd K) : prog := fun s => exec K kz kadd ksub kmul kdiv kneg kconj s c.
  Definition thenDo (p q : prog) : prog := fun s => andThen K (p s) q.
  Definition inOrder (ps : list prog) : prog := fold_right thenDo skip ps.

  (** a function which writes into the array given to it, element after element *)
  Definition inPlace (x : nat) (f : list K -> list K) : prog := fun s =>
    match look K kz s x with
    | Some (_, _, v) => inOrder (map (fun i => one (Write K x i (nth i (f v) kz))) (seq 0 (length v))) s
    | None => Undefined K
    end.
  (** StateVector::renorm, StateVector.h:142-147 *)
  Definition renorm (x : nat) : prog := fun s =>
    match look K kz s x with Some (_, _, v) => one (DivBy K x (norm v)) s | None => Undefined K end.

  (** coherentTimeDevelopment, MCWF_Trajectory.h:229-256: the stepper (if the system is Hamiltonian), the exact propagator (if exact), renorm *)
  Record attempt := mkAttempt { a_ode : option (list K -> list K); a_exact : option (list K -> list K) }.
  Definition ifAny (x : nat) (f : option (list K -> list K)) : prog := match f with Some g => inPlace x g | None => skip end.
  Definition coherent (T : nat) (a : attempt) : prog := inOrder [ifAny T (a_ode a); ifAny T (a_exact a); renorm T].

  (** temporaries: [temp] of stateIO, psiCache of step, psiTemp of calculateSpecialRates for each of the special jumps *)
  Definition temp : nat := B.
  Definition cache : nat := B + 1.
  Definition special (i : nat) : nat := B + 2 + i.

  (** calculateSpecialRates, MCWF_Trajectory.h:259-271 *)
  Definition specialRate (T : nat) (ij : nat * (list K -> list K)) : prog :=
    inOrder [one (Copy K (special (fst ij)) T); inPlace (special (fst ij)) (snd ij); renorm (special (fst ij))].
  Definition specialRates (T : nat) (js : list (list K -> list K)) : prog :=
    inOrder (map (specialRate T) (combine (seq 0 (length js)) js)).

  (** performJump, MCWF_Trajectory.h:318-341 *)
  Inductive jump := NoJump | Normal (j : list K -> list K) (normFactor : K) | Special (i : nat).
  Definition performJump (T : nat) (j : jump) : prog :=
    match j with
    | NoJump => skip
    | Normal j f => inOrder [inPlace T j; one (DivBy K T f)]
    | Special i => one (Assign K T (special i))
    end.

  (** MCWF_Trajectory::step, MCWF_Trajectory.h:344-371: the trials after the first one begin with [psi_=psiCache] *)
  Record mcwfStep := mkStep { m_first : attempt; m_again : list attempt; m_specials : list (list K -> list K); m_jump : jump }.
  Definition retry (T : nat) (js : list (list K -> list K)) (a : attempt) : prog :=
    inOrder [one (Assign K T cache); coherent T a; specialRates T js].
  Definition step (T : nat) (d : mcwfStep) : prog :=
    inOrder [one (Copy K cache T); coherent T (m_first d); specialRates T (m_specials d);
             inOrder (map (retry T (m_specials d)) (m_again d)); performJump T (m_jump d)].

  (** stateIO and readFromArrayOnlyArchive, MCWF_Trajectory.h:151-166, Master.h:92-106: the array read, and [psi_.getArray().reference(temp)] *)
  Definition readState (T : nat) (file : option (list K)) : prog :=
    match file with
    | None => skip
    | Some w => fun s => match look K kz s T with
                         | Some (k, d, _) => inOrder [one (New K temp k d (Some w)); one (Ref K T temp)] s
                         | None => Undefined K
                         end
    end.

  (** a single MCWF trajectory, Evolution_.h:116-120: the constructor [psi_{std::forward<StateVector>(psi)}] (MCWF_Trajectory.h:117-130), also of an
      lvalue, is the move constructor.  [T] is psi_. *)
  Definition construct (T psi : nat) (js : list (list K -> list K)) : prog := inOrder [one (Move K T psi); specialRates T js].
  Definition evolveSingle (T psi : nat) (js : list (list K -> list K)) (file : option (list K)) (ds : list mcwfStep) : prog :=
    inOrder [construct T psi js; readState T file; inOrder (map (step T) ds)].

  (** Master::step, Master.h:150-208: everything in the memory of rho_, [f], then DensityOperator::renorm, which divides by the trace [tr] *)
  Variable tr : list K -> K.
  Definition masterStep (T : nat) (f : list K -> list K) : prog := fun s =>
    andThen K (inPlace T f s) (fun s => match look K kz s T with Some (_, _, v) => one (DivBy K T (tr v)) s | None => Undefined K end).
  (** the Master equation from a density operator (Evolution_.h:111-113) and from a state vector (Evolution_.h:125-127: a temporary density operator) *)
  Definition evolveMasterRho (T rho : nat) (file : option (list K)) (fs : list (list K -> list K)) : prog :=
    inOrder [one (Move K T rho); readState T file; inOrder (map (masterStep T) fs)].
  Definition evolveMasterPsi (T psi : nat) (file : option (list K)) (fs : list (list K -> list K)) : prog :=
    inOrder [one (Dyad K cache psi); evolveMasterRho T cache file fs].

  (** the trajectories of an ensemble, makeEnsemble, MCWF_Trajectory.h:188-203: each has a copy; then each is stepped *)
  Definition construct1 (psi : nat) (js : list (list K -> list K)) (T : nat) : prog := inOrder [one (Copy K temp psi); construct T temp js].
  Definition evolveEnsemble (psi : nat) (js : list (list K -> list K)) (tds : list (nat * list mcwfStep)) : prog :=
    inOrder [inOrder (map (fun td => construct1 psi js (fst td)) tds); inOrder (map (fun td => inOrder (map (step (fst td)) (snd td))) tds)].

  (** what is streamed during the run, MCWF_Trajectory::stream, MCWF_Trajectory.h:144: the elements of psi_; of Transferring, AveragingUtils.h:200-235:
      those of the other state, [ldo_] *)
  Definition seen (s : state) (x : nat) : list K := match look K kz s x with Some (_, _, v) => v | None => [] end.
  Fixpoint streamed (T : nat) (x : nat) (dss : list (list mcwfStep)) (s : state) : option (state * list (list K)) :=
    match dss with
    | [] => Some (s, [seen s x])
    | ds :: dss' =>
        match inOrder (map (step T) ds) s with
        | Ok _ s1 => match streamed T x dss' s1 with Some (s2, os) => Some (s2, seen s x :: os) | None => None end
        | Undefined _ => None
        end
    end.
  (** QbitMode_Matrix.cc:46-54: psi2 a state of the qbit and the mode, psi1 the same memory as a vector, which is evolved; the averages are those of psi2 *)
  Definition qbitModeMatrix (T psi1 psi2 : nat) (dim : nat) (file : option (list K)) (dss : list (list mcwfStep)) (s : state) : option (state * list (list K)) :=
    match inOrder [one (View K psi1 psi2 [dim] (seq 0 dim)); construct T psi1 []; readState T file] s with
    | Ok _ s1 => streamed T psi2 dss s1
    | Undefined _ => None
    end.
End Lvalue.
