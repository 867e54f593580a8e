(** Model of the projection of quantum trajectories on given states, CPPQEDcore/quantumtrajectory/ProjectingMCWF_Trajectory.tcc and .h. The files belong to an earlier interface
    of the trajectories; what is modelled is their text. The inversion of matrices is LAPACK's (getrf, getri), a parameter. In real arithmetic. *)
From Coq Require Import List Arith Bool Reals String.
From Verif Require Import Star CReal Arr.
Import ListNotations.
Local Open Scope nat_scope.

Definition state := list nat -> CR.
Definition matrix := nat -> nat -> CR.
Definition zeroState : state := fun _ => k0.
Definition setAt (i j : nat) (v : CR) (m : matrix) : matrix := fun i' j' => if (i' =? i) && (j' =? j) then v else m i' j'.

Section Proj.
(** the dimensions of the system, and lapack::trf followed by lapack::tri of a matrix of the given size, in place *)
Variable dims : list nat.
Variable invert : nat -> matrix -> matrix.
(** what the memory of a new array contains *)
Variable memory : matrix.

(** braket, StateVector.h:186-190; norm *)
Definition braket (a b : state) : CR := isum dims (fun i => kmul (kconj (a i)) (b i)).
Definition norm (a : state) : R := sqrt (cre (braket a a)).

Definition nthState (basis : list state) (i : nat) : state := nth i basis zeroState.
(** help, ProjectingMCWF_Trajectory.tcc:18-45: the loops of lines 26-30, and the inversion if there are states *)
Definition metricEntry (basis : list state) (i : nat) (m : matrix) (j : nat) : matrix :=
  let v := braket (nthState basis i) (nthState basis j) in setAt j i (kconj v) (setAt i j v m).
Definition metricRow (basis : list state) (m : matrix) (i : nat) : matrix :=
  fold_left (metricEntry basis i) (seq 0 (List.length basis)) (setAt i i (RC (norm (nthState basis i))) m).
Definition metric (basis : list state) : matrix := fold_left (metricRow basis) (seq 0 (List.length basis)) memory.
Definition metricTensor_uu (basis : list state) : matrix := if List.length basis =? 0 then metric basis else invert (List.length basis) (metric basis).

(** stream_v, ProjectingMCWF_Trajectory.tcc:49-71: the columns in addition to those of the trajectory *)
Definition term (basis : list state) (psi : state) (i j : nat) : R :=
  cre (kmul (kmul (braket psi (nthState basis j)) (braket (nthState basis i) psi)) (metricTensor_uu basis j i)).
Definition streamed (basis : list state) (psi : state) : list R :=
  let dim := List.length basis in
  if dim =? 0 then []
  else (map (fun i => csq (braket (nthState basis i) psi)) (seq 0 dim)
        ++ [fold_left (fun sumR i => (sumR + fold_left (fun temp j => temp + term basis psi i j) (seq 0 dim) 0)%R) (seq 0 dim) 0%R])%list.
(** streamKey_v, ProjectingMCWF_Trajectory.tcc:74-81: the columns from ... to ..., and what they are; [i]: the number of the first one *)
Definition key (basis : list state) (i : nat) : list (nat * nat * string) :=
  [(i, i + List.length basis - 1, "Overlap of Monte-Carlo state vector with basis vectors"%string); (i + List.length basis, i + List.length basis, "Sum of overlaps"%string)].
End Proj.
