(** Model of CPPQEDcore/quantumdata/EntanglementMeasures.h. Density operators of the dimensions [dims] as functions of the ket and of the bra multi-index; the array of
    negPT is that of HermModel.v, the reduction of mutualInformation and purityOfPartialTrace is reduceDO of DensityModel.v, from the array [arr] indexed by both
    multi-indices. The two eigenvalue solvers of Eigen are parameters. Eigen matrices are stored column by column, so that the matrix they see in a C-ordered array
    is the transposed one. *)
From Coq Require Import List Arith Bool Reals.
From Verif Require Import Star CReal Arr SliceModel HermModel HermSpec DensityModel PureModel.
Import ListNotations.
Local Open Scope R_scope.

Section Measures.
(** Eigen::ComplexEigenSolver and Eigen::SelfAdjointEigenSolver, eigenvalues() of a matrix of given dimensions *)
Variable complexEigenvalues : list nat -> (list nat -> list nat -> CR) -> list CR.
Variable selfAdjointEigenvalues : list nat -> (list nat -> list nat -> CR) -> list R.

(** std::abs *)
Definition cabs (z : CR) : R := sqrt (csq z).
(** negPT, EntanglementMeasures.h:40-86; zero for the empty list V; None: the list of transpositions is ill-formed *)
Definition negPT (rank : nat) (V : list nat) (o : obj CR) : option R :=
  match V with
  | [] => Some 0
  | _ => match partialTranspose rank V o with
         | Some o' => Some ((fold_left (fun v e => v + cabs e) (complexEigenvalues (firstn rank (oShape o')) (transp (fun i j => oRead o' (i ++ j)))) 0 - 1) / 2)
         | None => None
         end
  end.
(** entropy, EntanglementMeasures.h:89-96 *)
Definition entropy (dims : list nat) (rho : list nat -> list nat -> CR) : R :=
  fold_left (fun v e => v - e * (if Rlt_dec 0 e then ln e else 0)) (selfAdjointEigenvalues dims (transp rho)) 0.
(** mutualInformation, EntanglementMeasures.h:99-105 *)
Definition mutualInformation (fuel : nat) (V dims : list nat) (arr : list nat -> CR) : option R :=
  let W := negated (length dims) V in
  match reduceDO fuel V dims arr, reduceDO fuel W dims arr with
  | Some a, Some b => Some (entropy (shapeOf V dims) a + entropy (shapeOf W dims) b - entropy dims (fun i j => arr (i ++ j)))
  | _, _ => None
  end.
End Measures.
(** purityOfPartialTrace, EntanglementMeasures.h:108-112, with purity, DensityOperator.h:308-312 *)
Definition purityOf (dims : list nat) (rho : list nat -> list nat -> CR) : R := rsum (fun i => rsum (fun j => csq (rho i j)) (indices dims)) (indices dims).
Definition purityOfPartialTrace (fuel : nat) (V dims : list nat) (arr : list nat -> CR) : option R :=
  match reduceDO fuel V dims arr with Some a => Some (purityOf (shapeOf V dims) a) | None => None end.
