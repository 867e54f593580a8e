(** Specification of the projection on a set of states *)
From Coq Require Import String List Arith Bool Reals.
From Verif Require Import Star CReal Arr ProjModel.
Import ListNotations.
Local Open Scope nat_scope.

Section Spec.
Variable dims : list nat.
(** superpositions of the states *)
Definition superposition (basis : list state) (c : nat -> CR) : state := fun x => ksum (fun j => kmul (c j) (nthState basis j x)) (seq 0 (length basis)).
Definition inSpan (basis : list state) (phi : state) : Prop := exists c, forall x, inr dims x -> phi x = superposition basis c x.
Definition orthogonalTo (basis : list state) (phi : state) : Prop := forall k, k < length basis -> braket dims (nthState basis k) phi = k0.
(** the part of [psi] in the span *)
Definition projectionOf (basis : list state) (psi phi : state) : Prop := inSpan basis phi /\ orthogonalTo basis (fun x => ksub (psi x) (phi x)).
Definition weight (phi : state) : R := cre (braket dims phi phi).
(** the inverse of the matrix of overlaps: there is one if the states are linearly independent *)
Definition inverseOfOverlaps (basis : list state) (g : matrix) : Prop :=
  forall k i, k < length basis -> i < length basis ->
    ksum (fun j => kmul (braket dims (nthState basis k) (nthState basis j)) (g j i)) (seq 0 (length basis)) = if k =? i then k1 else k0.
(** LAPACK inverts this matrix. [overlaps]: any matrix of these elements *)
Definition inverts (invert : nat -> matrix -> matrix) (basis : list state) : Prop :=
  forall m, (forall i j, i < length basis -> j < length basis -> m i j = braket dims (nthState basis i) (nthState basis j)) -> inverseOfOverlaps basis (invert (length basis) m).
Definition orthonormal (basis : list state) : Prop :=
  forall i j, i < length basis -> j < length basis -> braket dims (nthState basis i) (nthState basis j) = if i =? j then k1 else k0.
End Spec.
(** how many columns the lines of a key announce *)
Definition announced (k : list (nat * nat * string)) : nat := fold_right (fun e n => (snd (fst e) + 1 - fst (fst e)) + n) 0 k.
