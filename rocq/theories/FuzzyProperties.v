(** C128 *)
From Coq Require Import Reals Bool.
From Verif Require Import FuzzyModel FuzzySpec FuzzyProofs FuzzyCases.
Local Open Scope R_scope.

(** Whichever of the two numbers is a fuzzy one: exactly one of less, equal and greater; the other comparisons follow them *)
Theorem C128_coherent_partial c : c = fuzzy \/ c = fuzzyDouble \/ c = doubleFuzzy -> coherent c.
Proof. exact (fuzzy_coherent c). Qed.
Print Assumptions C128_coherent_partial.
(** Less and greater mean what they say; what differs by rounding errors is equal, and what is equal differs by rounding errors *)
Theorem C128_tolerant_partial c : c = fuzzy \/ c = fuzzyDouble \/ c = doubleFuzzy -> tolerant c.
Proof. exact (fuzzy_tolerant c). Qed.
Print Assumptions C128_tolerant_partial.
(** Less is transitive, and it makes no difference on which side a number is. Missing: equality is transitive *)
Theorem C128_order_partial : transitive (lt fuzzy) /\ transitive (lt fuzzyDouble) /\ transitive (lt doubleFuzzy) /\ mirrored fuzzy fuzzy /\ mirrored fuzzyDouble doubleFuzzy.
Proof.
  exact (conj (fuzzy_transitive fuzzy (or_introl eq_refl)) (conj (fuzzy_transitive fuzzyDouble (or_intror (or_introl eq_refl)))
    (conj (fuzzy_transitive doubleFuzzy (or_intror (or_intror eq_refl))) fuzzy_mirrored))).
Qed.
Print Assumptions C128_order_partial.
Example C128_case : eqFD (3 / 10 ^ 4 * (1 + / 2 ^ 52)) (3 / 10 ^ 4) = true /\ 3 / 10 ^ 4 * (1 + / 2 ^ 52) <> 3 / 10 ^ 4 /\
  ltFF (314 / 100) (3141 / 1000) = true /\ gtDF (3141 / 1000) (314 / 100) = true.
Proof. exact test_case. Qed.
(** Two numbers equal to a third one need not be equal: the order is not total, and sorting is undefined *)
Theorem C128_equality_refuted c : c = fuzzy \/ c = fuzzyDouble \/ c = doubleFuzzy -> exists x y z, eq c x y = true /\ eq c y z = true /\ eq c x z <> true /\ lt c x z = true.
Proof. exact (equality_refuted c). Qed.
Print Assumptions C128_equality_refuted.
