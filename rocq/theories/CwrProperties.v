(** C23: bosonic basis states of identical particles are enumerated exactly once. *)
From Coq Require Import List Arith.
From Verif Require Import CwrModel CwrProofs.
Import ListNotations.

(** N>0 sites, k particles: each distribution is found at exactly one position, *)
Theorem C23_each_once : forall N k c, 0 < N -> length c = N -> list_sum c = k ->
  exists i, i < length (cwrDir N k) /\ byPosition (cwrDir N k) i = Some c /\ forall j, byPosition (cwrDir N k) j = Some c -> j = i.
Proof. exact cwr_exactly_once. Qed.
Print Assumptions C23_each_once.
(** nothing else is in the table, *)
Theorem C23_nothing_else : forall N k i c, 0 < N -> byPosition (cwrDir N k) i = Some c -> length c = N /\ list_sum c = k.
Proof. exact cwr_only. Qed.
Print Assumptions C23_nothing_else.
(** the two lookups are inverse to each other, *)
Theorem C23_lookups_inverse : forall N k i c, 0 < N -> (byContent (cwrDir N k) c = Some i <-> byPosition (cwrDir N k) i = Some c).
Proof. exact cwr_inverse. Qed.
Print Assumptions C23_lookups_inverse.
(** and exactly what is no such distribution is refused. *)
Theorem C23_refused : forall N k c, 0 < N -> (byContent (cwrDir N k) c = None <-> ~ (length c = N /\ list_sum c = k)).
Proof. exact cwr_refused. Qed.
Print Assumptions C23_refused.

Example C23_case : cwrDir 3 2 = [[0;0;2];[0;1;1];[0;2;0];[1;0;1];[1;1;0];[2;0;0]].
Proof. reflexivity. Qed.
