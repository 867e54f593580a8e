(** C127: projections of a quantum trajectory on given states *)
From Coq Require Import String List Arith Bool Reals.
From Verif Require Import Star CReal Arr ProjModel ProjSpec ProjProofs ProjCases.
Import ListNotations.
Local Open Scope nat_scope.

(** the last column is the weight of the state vector in the span of the states, whether or not they are orthogonal *)
Theorem C127_weight dims invert memory basis psi : basis <> [] -> inverts dims invert basis ->
  (exists phi, projectionOf dims basis psi phi) /\ forall phi, projectionOf dims basis psi phi -> last (streamed dims invert memory basis psi) 0%R = weight dims phi.
Proof. exact (sum_is_weight dims invert memory basis psi). Qed.
Print Assumptions C127_weight.
Example C127_weight_case : inverts [2] invertTilted [up; tilted] /\ [up; tilted] <> [] /\ last (streamed [2] invertTilted nothing [up; tilted] up) 0%R = 1%R.
Proof. exact span_case. Qed.
(** it is between 0 and the norm squared of the state vector, which it reaches exactly for superpositions of the states *)
Theorem C127_complete dims invert memory basis psi : basis <> [] -> inverts dims invert basis ->
  (0 <= last (streamed dims invert memory basis psi) 0 <= weight dims psi)%R /\
  (last (streamed dims invert memory basis psi) 0%R = weight dims psi <-> inSpan dims basis psi).
Proof. exact (bounds dims invert memory basis psi). Qed.
Print Assumptions C127_complete.

(** It is the sum of the columns before. Missing: for states which are orthonormal *)
Theorem C127_sum_partial dims invert memory basis psi : basis <> [] -> orthonormal dims basis -> inverts dims invert basis ->
  last (streamed dims invert memory basis psi) 0%R = fold_right Rplus 0%R (map (fun i => nth i (streamed dims invert memory basis psi) 0%R) (seq 0%nat (List.length basis))).
Proof. exact (orthonormal_sum dims invert memory basis psi). Qed.
Print Assumptions C127_sum_partial.
Example C127_sum_case : [up; down] <> [] /\ orthonormal [2] [up; down] /\ inverts [2] invertUnit [up; down].
Proof. exact orthonormal_case. Qed.
(** otherwise it is not: two normalised states with overlap 3/5, and the first of them as the state vector *)
Theorem C127_sum_refuted : inverts [2] invertTilted [up; tilted] /\ weight [2] up = 1%R /\ weight [2] tilted = 1%R /\
  streamed [2] invertTilted nothing [up; tilted] up = [1%R; (9 / 25)%R; 1%R] /\ (1 + 9 / 25 <> 1)%R.
Proof. exact sum_refuted. Qed.
Print Assumptions C127_sum_refuted.

(** The columns are those of the key. Missing: for at least one state *)
Theorem C127_key_partial dims invert memory basis psi i : basis <> [] -> List.length (streamed dims invert memory basis psi) = announced (key basis i) /\
  forall k, k < List.length basis -> nth k (streamed dims invert memory basis psi) 0%R = csq (braket dims (nthState basis k) psi).
Proof. exact (columns_of_key dims invert memory basis psi i). Qed.
Print Assumptions C127_key_partial.
Example C127_key_case : announced (key [up; tilted] 3) = 3.
Proof. exact eq_refl. Qed.
(** without states the key announces a column which is not there *)
Theorem C127_key_refuted dims invert memory psi i : 0 < i -> streamed dims invert memory [] psi = [] /\ announced (key [] i) = 1.
Proof. exact (key_refuted dims invert memory psi i). Qed.
Print Assumptions C127_key_refuted.
