(** C13: the stopping criterion compares with the true moving average. *)
From Coq Require Import List Arith Bool Reals Lra Lia.
From Verif Require Import AutostopModel AutostopSpec AutostopProofs AutostopCases.
Import ListNotations.
Local Open Scope R_scope.

(** For every sequence of records of one width w>0, every repetition n>0 and precision, the run is stopped exactly at the first record
    that has at least n predecessors besides the very first record (which is never taken into account)
    and is settled with respect to the mean of the n records before it; if there is none, it is not stopped. *)
Theorem C13_stops_at_first_settled : forall eps epsAbs n w, (0 < n)%nat -> (0 < w)%nat -> 0 < epsAbs ->
  forall records, (forall r, In r records -> length r = w) ->
  let due j := (n + 1 <= j < length records)%nat /\ settled eps epsAbs w records n j in
  match stopsAt eps epsAbs n records with
  | Some j => due j /\ forall i, (i < j)%nat -> ~ due i
  | None => forall i, ~ due i
  end.
Proof. exact stops_first. Qed.
Print Assumptions C13_stops_at_first_settled.

(** With repetition 0 the criterion is off. *)
Theorem C13_switched_off : forall eps epsAbs records, stopsAt eps epsAbs 0 records = None.
Proof. exact no_repetition. Qed.
Print Assumptions C13_switched_off.

(** one column 5, 1, 2, 1.5, 9 with repetition 2 and precision 1/10: the mean of 1 and 2 is met by 1.5, record number 3 *)
Example C13_case : stopsAt (1/10) (1/1000) 2 [[5]; [1]; [2]; [3/2]; [9]] = Some 3%nat.
Proof. exact ex_stop. Qed.
Example C13_case_first_ignored : stopsAt (1/10) (1/1000) 1 [[5]; [5]; [5]] = Some 2%nat.
Proof. exact ex_first. Qed.
