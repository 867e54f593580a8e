(** C119 *)
From Coq Require Import List Arith Bool String Ascii.
From Verif Require Import TestConfModel TestConfSpec TestConfProofs TestConfCases.
Import ListNotations.
Local Open Scope string_scope.

(** The answer is the value in the nearest section of the chain of imports, whatever has been looked up before *)
Theorem C119_nearest limit c calls s l k a : chain c s l -> List.length l <= limit -> k <> "import" ->
  snd (getOption limit (afterCalls limit c calls) s k) = a <-> (exists v, means c l k v /\ a = match v with Some v => Value v | None => Default end).
Proof. exact (option_answer limit c calls s l k a). Qed.
Print Assumptions C119_nearest.
(** It fails exactly if the imports never end, are deeper than the recursion allowed, or lead to a missing section *)
Theorem C119_failure limit c s k : snd (getOption limit c s k) = Error <-> ~ exists l, chain c s l /\ List.length l <= limit.
Proof. exact (option_error limit c s k). Qed.
Print Assumptions C119_failure.

Example C119_chain : chain physics "ph_QbitMode_CPPQED" physicsChain.
Proof. exact physics_chain. Qed.
Example C119_case :
  snd (getOption 1000 physics "ph_QbitMode_CPPQED" "columns_compare_ptla") = Value "2,3,4,5" /\
  snd (getOption 1000 physics "ph_QbitMode_CPPQED" "runmodes") = Value "ensemble,master" /\
  snd (getOption 1000 physics "ph_QbitMode_CPPQED" "postprocess_local") = Default /\
  snd (getOption 1000 (afterCalls 1000 physics [("ph_PTLA_CPPQED", "opts"); ("ph_QbitMode_CPPQED", "other"); ("ph_PTLA_Evolved", "this")]) "ph_QbitMode_CPPQED" "opts") = Value "--gamma 1.2" /\
  snd (getOption 1000 circular "a" "opts") = Error.
Proof. repeat split. Qed.

(** The run modes of a test are those of the nearest section, restricted to those the section itself keeps for the kind of test *)
Theorem C119_runmodes limit c test s l : chain c s l -> List.length l <= limit -> exists modes, filterRunmodes limit c test s = Some modes /\ runmodesMean c s l test modes.
Proof. exact (runmodes_mean limit c test s l). Qed.
Print Assumptions C119_runmodes.
Example C119_runmodes_case :
  filterRunmodes 1000 [("a", [("import", "b"); ("runmodes_full_local", "single,master")]); ("b", [("runmodes", "single,ensemble")])] "full" "a" = Some ["single"] /\
  filterRunmodes 1000 [("a", [("import", "b"); ("runmodes_full_local", "single,master")]); ("b", [("runmodes", "single,ensemble")])] "cont" "a" = Some ["single"; "ensemble"] /\
  filterRunmodes 1000 [("a", [("opts", "")])] "full" "a" = Some ["generic"].
Proof. repeat split. Qed.
(** Different run modes of a test write into different files, beside each other, and so do trajectories and states *)
Theorem C119_files dir m s x m' x' : dotFree m -> dotFree m' ->
  (exists q, output dir m s x = dir ++ "/" ++ s ++ q) /\ (output dir m s x = output dir m' s x' -> m = m' /\ x = x').
Proof. exact (fun D D' => conj (output_dir dir m s x) (output_inj dir m s x m' x' D D')). Qed.
Print Assumptions C119_files.
Example C119_files_case : output "out" "generic" "test" false = "out/test" /\ output "out" "generic" "test" true = "out/test.state" /\ output "out" "master" "test" true = "out/test_master.state".
Proof. repeat split. Qed.
