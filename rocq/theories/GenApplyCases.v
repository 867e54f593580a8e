From Coq Require Import List Arith Bool Lia.
From Verif Require Import Star Arr TriModel TriSpec TriProofs TriLemmas GenApplyModel GenApplyProofs.
Import ListNotations.

Lemma generated_matrix (K : StarRing) (T : Type) (t : tri K T) (psi dpsidt : list nat -> K) : wf t -> 0 < rankOf t ->
  (forall y, inr (dims t) y -> generatedApply (rankOf t) t psi dpsidt y = kadd (dpsidt y) (isum (dims t) (fun x => kmul (tmat t y x) (psi x)))) /\
  (forall y, ~ inr (dims t) y -> generatedApply (rankOf t) t psi dpsidt y = dpsidt y).
Proof.
  intros W H. pose proof (proj1 (proj2 W)) as L. split; intros y Hy; rewrite (generated_right t (rankOf t) psi dpsidt H eq_refl L y).
  - now apply apply_matrix. - now apply apply_outside.
Qed.
Lemma generated_case : match direct Nat.eqb (get dflt exA) (get dflt exB') with Ok t => wf t /\ 0 < rankOf t /\ rankOf t = 2 | _ => False end.
Proof.
  pose proof exAB_wf as W. destruct (direct Nat.eqb (get dflt exA) (get dflt exB')) as [t| | | | |] eqn:E; try easy.
  split; [exact W|]. injection E as <-. vm_compute. split; [lia|reflexivity].
Qed.
Lemma code_case : generate 1 = [mkStmt 0 [(0, Whole)] [(0, Whole)] [(0, Whole)]; mkStmt 1 [(0, High)] [(0, Low)] [(0, Low)]; mkStmt 2 [(0, Low)] [(0, Low)] [(0, High)]].
Proof. reflexivity. Qed.
