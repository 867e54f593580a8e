(** What collecting has to keep, and how a multi-matrix is seen as a matrix. *)
From Coq Require Import List Arith Reals.
From Verif Require Import Star CReal Arr CompositeModel AverageModel.
Import ListNotations.
Local Open Scope nat_scope.

(** every element gives as many averages as it has labels, processing keeps the number *)
Definition proper (t : R) (m : op) (e : averaged) : Prop :=
  avN e = List.length (avLabels e) /\ List.length (avAverage e t m) = avN e /\ forall w, List.length w = avN e -> List.length (avProcess e w) = avN e.
(** rows and columns are the multi-indices in their order *)
Definition linear_view (dims : list nat) (rho : op) : nat -> nat -> CR := fun p q => rho (nth p (indices dims) []) (nth q (indices dims) []).
