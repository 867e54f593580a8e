(** C120, C121 *)
From Coq Require Import List Arith Bool Reals String Ascii.
From Verif Require Import Star CReal Arr VerdictModel VerdictSpec VerdictProofs VerdictCases.
Import ListNotations.
Local Open Scope nat_scope.

(** The full verification succeeds exactly if all outputs agree with the expected ones. Missing: trajectories of a single line or column, single states against several of them; the other kinds of verification *)
Theorem C120_full_partial m runs : m = None \/ m = Some "full"%string -> Forall proper runs -> verifierRun m runs = Succeeds <-> Forall agreeing runs.
Proof. exact (run_spec m runs). Qed.
Print Assumptions C120_full_partial.
Example C120_case :
  verifierRun None [(outOf (twoLines (/ 10 ^ 6)), outOf (twoLines 0))] = Succeeds /\ verifierRun None [(outOf (twoLines (/ 10 ^ 4)), outOf (twoLines 0))] <> Succeeds.
Proof. exact verify_case. Qed.
Example C120_proper d : Forall proper [(outOf (twoLines d), outOf (twoLines 0))].
Proof. constructor; [exact (twoLines_proper d)|constructor]. Qed.
(** The verification of the outcome never succeeds, also if everything agrees *)
Theorem C120_outcome_refuted : (exists runs, Forall proper runs /\ Forall agreeing runs /\ runs <> []) /\ forall runs, verifierRun (Some "outcome"%string) runs <> Succeeds.
Proof. exact outcome_refuted. Qed.
Print Assumptions C120_outcome_refuted.
(** Files which are missing, or the lines of which are not equally long, do not succeed *)
Theorem C120_unreadable this other runs : (forall a, trajectory this = Some a -> ragged a) \/ (forall a, trajectory other = Some a -> ragged a) ->
  verifierRun None ((this, other) :: runs) = Raises.
Proof. exact (unreadable this other runs). Qed.
Print Assumptions C120_unreadable.
Example C120_ragged : ragged [[NaN]; [NaN; NaN]].
Proof. exact ragged_case. Qed.
(** A name which is misspelt makes everything succeed *)
Theorem C120_other_refuted : exists runs, Forall proper runs /\ ~ Forall agreeing runs /\ forall m, m <> "full"%string -> m <> "outcome"%string -> verifierRun (Some m) runs = Succeeds.
Proof. exact other_refuted. Qed.
Print Assumptions C120_other_refuted.
(** A run which wrote one line succeeds against two *)
Theorem C120_one_line_refuted : verifierRun None [(outOf single, outOf late)] = Succeeds /\ ~ closeTrajectories single late.
Proof. exact one_line. Qed.
Print Assumptions C120_one_line_refuted.
(** So does a run which saved one state against two, and the other way round *)
Theorem C120_one_state_refuted : verifierRun None [(withStates states1, withStates states2)] = Succeeds /\ verifierRun None [(withStates states2, withStates states1)] = Succeeds /\
  ~ closeStates states1 states2.
Proof. exact one_state. Qed.
Print Assumptions C120_one_state_refuted.

(** Without an expected message: the test succeeds exactly if everything compiles. Missing: with one *)
Theorem C121_plain_partial deps rc std err : compileRun deps rc std err None = Succeeds <-> Forall (fun c => c = 0) deps /\ rc = 0.
Proof. exact (compile_plain deps rc std err). Qed.
Print Assumptions C121_plain_partial.
Example C121_case : compileRun [0; 0] 0 [] [] None = Succeeds /\ compileRun [0; 1] 0 [] [] None = Exits.
Proof. exact (conj eq_refl eq_refl). Qed.
(** With an expected message the test never succeeds *)
Theorem C121_message_refuted deps rc std err e : compileRun deps rc std err (Some e) <> Succeeds.
Proof. exact (compile_error deps rc std err e). Qed.
Print Assumptions C121_message_refuted.
Example C121_message_case : occurs (chars "Argument not even") (chars "error: Argument not even.") /\
  compileRun [0] 2 [] (chars "error: Argument not even.") (Some (chars "Argument not even")) = Raises.
Proof. exact (conj occurs_case eq_refl). Qed.
