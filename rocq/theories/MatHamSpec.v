(** What a matrix of a Hamiltonian is *)
From Coq Require Import List Arith Reals.
From Verif Require Import Star CReal Arr CompositeModel.
Import ListNotations.

Section Spec.
Context {St : Type}.
Variable act : St -> array -> array -> St * array.
(** the states of the Hamiltonian which calls lead to *)
Inductive called (s : St) : St -> Prop :=
| called_not : called s s
| called_once s' psi d : called s s' -> called s (fst (act s' psi d)).
(** whenever called, what the Hamiltonian contributes to the derivative (zero otherwise) of the state psi is f psi *)
Definition contributes (dims : list nat) (s : St) (f : array -> array) : Prop :=
  forall s' psi y, called s s' -> inr dims y -> snd (act s' psi (fun _ => k0)) y = f psi y.
End Spec.
Definition linear (dims : list nat) (f : array -> array) : Prop :=
  (forall c psi phi y, inr dims y -> f (fun x => kadd (kmul c (psi x)) (phi x)) y = kadd (kmul c (f psi y)) (f phi y)) /\
  (forall psi phi y, (forall x, inr dims x -> psi x = phi x) -> inr dims y -> f psi y = f phi y).
Definition total (dims : list nat) : nat := fold_right Nat.mul 1 dims.
