(** Model of the averaging of an ensemble of MCWF trajectories: CPPQEDcore/quantumtrajectory/MCWF_Trajectory.h:406-420,
    Ensemble::averaged, CPPQEDutils/StochasticTrajectory.h:245, and of the generic averaging, lines 158-171. *)
From Coq Require Import Reals List Arith.
From Verif Require Import Star CReal DensityModel PureModel.
Import ListNotations.

(** AverageTrajectories<MCWF_Trajectory>::_, MCWF_Trajectory.h:409-418: [rho] is ensembleAverageResult_ with its former
    contents, [trajs] the state vectors of the members. None: dereferencing begin() of an empty vector. *)
Definition averageTrajectories (rho : carr CR) (trajs : list (carr CR)) : option (carr CR) :=
  match trajs with
  | [] => None
  | psi :: rest => Some (scaleBy (fold_left (fun r p => addTo p r k1) rest (assignSV rho psi)) (/ INR (length trajs)))
  end.

(** the arrays added and divided elementwise: operator+ and operator/ of DensityOperator (ArrayBase.h:69-70,
    boost::operators) *)
Definition addArr (a b : carr CR) : carr CR := mkCarr (cSh a) (fun p => kadd (cDat a p) (cDat b p)).
(** AverageTrajectories<SingleTrajectory>::_, StochasticTrajectory.h:162-169, with the members being ensembles:
    accumulate(++begin,end,begin->averaged(),init+s.averaged())/size *)
Definition averageGeneric (avs : list (carr CR)) : option (carr CR) :=
  match avs with
  | [] => None
  | a :: rest => Some (scaleBy (fold_left addArr rest a) (/ INR (length avs)))
  end.
(** an ensemble of ensembles: each member is averaged into its own result, then the results *)
Fixpoint averageMembers (rho : carr CR) (ens : list (list (carr CR))) : option (list (carr CR)) :=
  match ens with
  | [] => Some []
  | e :: rest => match averageTrajectories rho e, averageMembers rho rest with
                 | Some a, Some l => Some (a :: l)
                 | _, _ => None
                 end
  end.
Definition averageEnsembles (rho : carr CR) (ens : list (list (carr CR))) : option (carr CR) :=
  match averageMembers rho ens with Some l => averageGeneric l | None => None end.
