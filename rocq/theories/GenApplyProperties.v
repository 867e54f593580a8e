(** C131: the generator of specialised code for applying tridiagonal operators. *)
From Coq Require Import List Arith Bool.
From Verif Require Import Star Arr TriModel TriSpec TriProofs TriLemmas GenApplyModel GenApplyProofs GenApplyCases.
Import ListNotations.

(** The code generated for the rank of an operator adds matrix times vector, and touches nothing else *)
Theorem C131_matrix : forall (K : StarRing) (T : Type) (t : tri K T) (psi dpsidt : list nat -> K), wf t -> 0 < rankOf t ->
  (forall y, inr (dims t) y -> generatedApply (rankOf t) t psi dpsidt y = kadd (dpsidt y) (isum (dims t) (fun x => kmul (tmat t y x) (psi x)))) /\
  (forall y, ~ inr (dims t) y -> generatedApply (rankOf t) t psi dpsidt y = dpsidt y).
Proof. exact generated_matrix. Qed.
Print Assumptions C131_matrix.
(** it can replace the general code *)
Theorem C131_replaces : forall (K : StarRing) (T : Type) (t : tri K T) rank psi dpsidt, 0 < rank -> rankOf t = rank -> length (diffs t) = rank ->
  forall y, generatedApply rank t psi dpsidt y = apply t psi dpsidt y.
Proof. exact (fun K T t => generated_right t). Qed.
Print Assumptions C131_replaces.
(** each diagonal appears in exactly one statement, in the order they are stored *)
Theorem C131_diagonals rank : 0 < rank -> map sJ (generate rank) = seq 0 (3 ^ rank).
Proof. exact (generated_count rank). Qed.
Print Assumptions C131_diagonals.
(** the operator of C17_case *)
Example C131_case : match direct Nat.eqb (get dflt exA) (get dflt exB') with Ok t => wf t /\ 0 < rankOf t /\ rankOf t = 2 | _ => False end.
Proof. exact generated_case. Qed.
Example C131_case_code : generate 1 = [mkStmt 0 [(0, Whole)] [(0, Whole)] [(0, Whole)]; mkStmt 1 [(0, High)] [(0, Low)] [(0, Low)]; mkStmt 2 [(0, Low)] [(0, Low)] [(0, High)]].
Proof. exact code_case. Qed.
