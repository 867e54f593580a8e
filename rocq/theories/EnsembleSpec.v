(** The mean of dyads; positivity; expectation values. *)
From Coq Require Import Reals List.
From Verif Require Import Star CReal Arr HermSpec DensitySpec.
Import ListNotations.

Notation op := (list nat -> list nat -> CR).
(** 1/n sum_k |psi_k><psi_k| *)
Definition meanDyad (psis : list (list nat -> CR)) : op :=
  fun i j => kmul (RC (/ INR (length psis))) (ksum (fun psi => pure psi i j) psis).
(** <v|a|v> is real and nonnegative for every vector *)
Definition positive (dims : list nat) (a : op) : Prop :=
  forall v : list nat -> CR, exists x : R, (0 <= x)%R /\
    isum dims (fun i => isum dims (fun j => kmul (kmul (kconj (v i)) (a i j)) (v j))) = RC x.
(** Tr(A rho) *)
Definition expectation (dims : list nat) (A rho : op) : CR := isum dims (fun i => isum dims (fun j => kmul (A i j) (rho j i))).
(** <psi|psi> = 1 *)
Definition normalised (dims : list nat) (psi : list nat -> CR) : Prop := isum dims (fun i => kmul (kconj (psi i)) (psi i)) = k1.
