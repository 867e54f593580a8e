(** What the remaining Python tools should compute. *)
From Coq Require Import List Arith Reals.
From Verif Require Import Star Arr CReal PyModel PySpec.
Import ListNotations.
Local Open Scope nat_scope.

(** the array with the matrix elements of sum |psi><phi| *)
Definition dyads := list ((list nat -> CR) * (list nat -> CR)).
Definition is_dyads (sh : list nat) (r : ndarray) (l : dyads) : Prop :=
  shape r = sh ++ sh /\ forall y z, inr sh y -> inr sh z -> elem r (y ++ z) = ksum (fun e => kmul (fst e y) (kconj (snd e z))) l.
(** each of the states taken from position to momentum space, and back *)
Definition to_momentum_space (sh axes : list nat) (psi : list nat -> CR) : list nat -> CR := fold_left (momentum_in sh) axes psi.
Definition to_position_space (sh axes : list nat) (psi : list nat -> CR) : list nat -> CR := fold_left (position_in sh) axes psi.
Definition each (f : (list nat -> CR) -> list nat -> CR) (l : dyads) : dyads := map (fun e => (f (fst e), f (snd e))) l.
(** different axes, with an even number of points each (with a power of two) *)
Definition evenAxes (sh axes : list nat) : Prop := NoDup axes /\ forall p, In p axes -> p < length sh /\ 0 < nth p sh 0 /\ Nat.even (nth p sh 0) = true.
Definition binaryAxes (sh axes : list nat) : Prop := NoDup axes /\ forall p, In p axes -> p < length sh /\ exists fin, 2 <= fin /\ nth p sh 0 = 2 ^ fin.
