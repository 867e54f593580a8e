(** Comparisons with tolerance. *)
From Coq Require Import Reals.
Local Open Scope R_scope.

(** ten times the distance from 1 to the next double *)
Definition tolerance : R := 10 / 2 ^ 52.
Definition larger (a b : R) : R := Rmax (Rabs a) (Rabs b).
(** six ways of comparing two numbers *)
Record comparisons := mkComparisons { lt : R -> R -> bool; eq : R -> R -> bool; gt : R -> R -> bool; le : R -> R -> bool; ge : R -> R -> bool; ne : R -> R -> bool }.
(** exactly one of less, equal and greater, and the others are what their names say *)
Definition coherent (c : comparisons) : Prop := forall a b,
  (lt c a b = true \/ eq c a b = true \/ gt c a b = true) /\
  ~ (lt c a b = true /\ eq c a b = true) /\ ~ (gt c a b = true /\ eq c a b = true) /\ ~ (lt c a b = true /\ gt c a b = true) /\
  (le c a b = true <-> lt c a b = true \/ eq c a b = true) /\ (ge c a b = true <-> gt c a b = true \/ eq c a b = true) /\ (ne c a b = true <-> eq c a b <> true).
(** less means less, and by more than the tolerance; equal is what differs by rounding errors only *)
Definition tolerant (c : comparisons) : Prop := forall a b,
  (lt c a b = true -> a < b) /\ (gt c a b = true -> b < a) /\
  (Rabs (a - b) <= tolerance * larger a b -> eq c a b = true) /\ (eq c a b = true -> Rabs (a - b) <= 2 * tolerance * larger a b).
Definition transitive (f : R -> R -> bool) : Prop := forall a b c, f a b = true -> f b c = true -> f a c = true.
(** a comparison the other way round gives the same *)
Definition mirrored (c d : comparisons) : Prop := forall a b, lt c a b = gt d b a /\ gt c a b = lt d b a /\ eq c a b = eq d b a.
