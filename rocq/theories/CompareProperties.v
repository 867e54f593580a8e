(** C122, C123 *)
From Coq Require Import List Arith Bool Reals Ascii String.
From Verif Require Import TestConfModel TestConfSpec.
From Verif Require Import Star CReal Arr ElementModel AverageModel ScriptModel VerdictModel CompareModel CompareSpec CompareProofs CompareCases.
Import ListNotations.
Local Open Scope R_scope.

(** The comparison succeeds exactly if the integral of the square of the difference of the polygons is less than epsilon; only for differences which are linear in time. [higher]: the nodes and weights of orders above 3 *)
Theorem C122_trajectories_partial higher refTs refYs f ts ys g p q eps :
  polygon refTs refYs f -> polygon ts ys g -> firstTime refTs <= firstTime ts -> lastTime ts <= lastTime refTs ->
  (forall t, firstTime ts <= t <= lastTime ts -> f t - g t = p + q * t) ->
  compareTrajectories higher refTs refYs ts ys eps = Succeeds <-> deviation f g (firstTime ts) (lastTime ts) < eps.
Proof. exact (trajectories_affine higher refTs refYs f ts ys g p q eps). Qed.
Print Assumptions C122_trajectories_partial.
(** The same for a function as reference *)
Theorem C122_function_partial higher f ts ys g p q eps :
  polygon ts ys g -> (forall t, firstTime ts <= t <= lastTime ts -> f t - g t = p + q * t) ->
  compareFunction higher f ts ys eps = Succeeds <-> deviation f g (firstTime ts) (lastTime ts) < eps.
Proof. exact (function_affine higher f ts ys g p q eps). Qed.
Print Assumptions C122_function_partial.
Example C122_case higher : compareTrajectories higher caseTs [1 / 2; 1 / 2; 1 / 2] caseTs [0; 0; 0] 1 = Succeeds /\
  compareTrajectories higher caseTs [1 / 2; 1 / 2; 1 / 2] caseTs [0; 0; 0] (1 / 4) <> Succeeds.
Proof. exact (compare_case higher). Qed.
(** A reference which does not cover the times of the data is refused *)
Theorem C122_uncovered higher refTs refYs ts ys eps t : In t ts -> t < firstTime refTs \/ lastTime refTs < t -> compareTrajectories higher refTs refYs ts ys eps = Raises.
Proof. exact (uncovered higher refTs refYs ts ys eps t). Qed.
Print Assumptions C122_uncovered.
Example C122_uncovered_case : In 1 caseTs /\ lastTime [0; 1 / 2] < 1.
Proof. exact uncovered_case. Qed.
(** Data which differ at one time only, by however much, are accepted *)
Theorem C122_missed_refuted higher d eps : 0 < eps ->
  polygon missTs [0; 0; 0; 0] (fun _ => 0) /\ polygon missTs (missYs d) (bump d) /\ deviation (fun _ => 0) (bump d) (firstTime missTs) (lastTime missTs) = d ^ 2 / 15 /\
  compareTrajectories higher missTs [0; 0; 0; 0] missTs (missYs d) eps = Succeeds.
Proof. exact (missed_refuted higher d eps). Qed.
Print Assumptions C122_missed_refuted.
(** The run modes compared are those of the section which are selected; the key has to end in _local *)
Theorem C122_runmodes_partial limit c test s l all sel : chain c s l -> (List.length l <= limit)%nat -> means c l "runmodes" (Some all) ->
  written c s ("runmodes_" ++ test ++ "_local")%string = Some sel ->
  exists modes, filterRunmodes limit c test s = Some modes /\ forall m, In m modes <-> In m (split ","%char all) /\ In m (split ","%char sel).
Proof. exact (runmodes_selected limit c test s l all sel). Qed.
Print Assumptions C122_runmodes_partial.
Example C122_runmodes_case : filterRunmodes 1000 asCoded "cmp" "run" = Some ["master"%string].
Proof. exact eq_refl. Qed.
(** The key described in the documentation has no effect *)
Theorem C122_runmodes_refuted : written asDocumented "run" "runmodes_cmp" = Some "master"%string /\ filterRunmodes 1000 asDocumented "cmp" "run" = Some ["single"%string; "master"%string].
Proof. exact runmodes_ignored. Qed.
Print Assumptions C122_runmodes_refuted.

(** The test of the final temperature compares with the thermal state; only for 4 photons *)
Theorem C123_temperature_partial p dim rho eps : thermal 4 p -> compareState 4 dim rho eps = Succeeds <-> distance dim rho (diagonalState p) < eps.
Proof. exact (temperature_four p dim rho eps). Qed.
Print Assumptions C123_temperature_partial.
Example C123_thermal nTh : 0 <= nTh -> thermal nTh (fun n => (nTh / (1 + nTh)) ^ n / (1 + nTh)).
Proof. exact (thermal_exists nTh). Qed.
(** At any other temperature the thermal state itself is refused, with some epsilon *)
Theorem C123_temperature_refuted nTh p dim : 0 <= nTh -> nTh <> 4 -> thermal nTh p -> (1 <= dim)%nat ->
  exists eps, 0 < eps /\ compareState nTh dim (diagonalState p) eps <> Succeeds.
Proof. exact (temperature_other nTh p dim). Qed.
Print Assumptions C123_temperature_refuted.
(** What is made of the output of the Bloch equations are the columns of the simulated atom *)
Theorem C123_bloch_partial (rho : list nat -> list nat -> CR) t dt n t' :
  rho [1%nat] [0%nat] = kconj (rho [0%nat] [1%nat]) -> cre (rho [0%nat] [0%nat]) + cre (rho [1%nat] [1%nat]) = 1 ->
  ptlaPostprocess (let '(z, x, y) := ptlaStart rho in [t; dt; z; x; y]) = ([t; dt] ++ qbitAverage n t' rho)%list.
Proof. exact (bloch_columns rho t dt n t'). Qed.
Print Assumptions C123_bloch_partial.
Example C123_bloch_case : exists rho : list nat -> list nat -> CR,
  rho [1%nat] [0%nat] = kconj (rho [0%nat] [1%nat]) /\ cre (rho [0%nat] [0%nat]) + cre (rho [1%nat] [1%nat]) = 1 /\ cim (rho [1%nat] [0%nat]) = 1 / 4.
Proof. exact bloch_case. Qed.
