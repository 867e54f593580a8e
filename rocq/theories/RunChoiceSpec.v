(** Which of the parameters decide how a trajectory is run. *)
From Coq Require Import Arith.

(** streaming is by the number of steps: the trajectory proceeds in steps, and a number dc is given *)
Definition countsSteps (hasStep : bool) (dc : nat) : Prop := hasStep = true /\ dc <> 0.
