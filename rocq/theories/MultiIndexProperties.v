(** C14: multi-index iteration. *)
From Coq Require Import List Arith Sorting.Sorted.
From Verif Require Import MultiIndexModel MultiIndexSpec MultiIndexProofs.
Import ListNotations.

(** For every rank >= 1 and all bounds lbound <= ubound, the loop from begin to end terminates (for any
    fuel not smaller than the number of multi-indices) and visits exactly the multi-indices between the
    bounds, each once, in strictly increasing lexicographic order (i.e. last index fastest). *)
Theorem C14_multi_index_iteration :
  forall lb ub : list nat, lb <> [] -> Forall2 le lb ub ->
  forall fuel, box_size lb ub <= fuel ->
  exists l, mii_visit fuel lb ub = Some l
    /\ (forall x, In x l <-> between lb ub x)
    /\ NoDup l /\ StronglySorted lex_lt l.
Proof. exact visit_ok. Qed.
Print Assumptions C14_multi_index_iteration.

(** Hypotheses are met, e.g. for the bounds (0,1,0)..(1,2,2): 12 multi-indices. *)
Example C14_case : [0;1;0] <> [] /\ Forall2 le [0;1;0] [1;2;2] /\ box_size [0;1;0] [1;2;2] = 12.
Proof. repeat split; [discriminate | repeat constructor]. Qed.
