(** C126: time averages of a quantum trajectory *)
From Coq Require Import List Arith Bool Reals.
From Verif Require Import RunModel RunSpec TimeAvModel TimeAvSpec TimeAvProofs TimeAvCases.
Import ListNotations.
Local Open Scope nat_scope.

(** at the end of a run the means of the samples streamed after the relaxation time are displayed, once; zeros if there was none.
    Whatever the times streamed at, the stopping criterion and the saving of states *)
Theorem C126_mean {Traj Saved AH : Type} (getTime : Traj -> R) (advanceBy tstep : Traj -> R -> Traj) (lineOf : Traj -> sample) (save : Traj -> Saved)
    (ahStep : AH -> sample -> option AH) process tau n c x x' es :
  (forall y, length (snd (lineOf y)) = n) -> session getTime advanceBy tstep lineOf save ahStep c x x' es ->
  displayed process tau (constructed n) es = [process (timeMeans tau (linesOf es) n)].
Proof. exact (display_mean getTime advanceBy tstep lineOf save ahStep process tau n c x x' es). Qed.
Print Assumptions C126_mean.
Example C126_mean_case : exists es, tSession false 0%R (0 + 1)%R es /\ displayed (fun l => l) 0 (constructed 1) es = [[1%R]].
Proof. exact mean_case. Qed.

(** Any number of sessions, each resumed from the state file: the means of the samples of all of them. Missing: that each session but the last ended by saving its state *)
Theorem C126_resumed_partial {Traj Saved AH : Type} (getTime : Traj -> R) (advanceBy tstep : Traj -> R -> Traj) (lineOf : Traj -> sample) (save : Traj -> Saved)
    (load : Saved -> Traj -> option Traj) (ahStep : AH -> sample -> option AH) process tau n :
  (forall y, length (snd (lineOf y)) = n) -> forall x l,
  sessions getTime advanceBy tstep lineOf save load ahStep tau false x (constructed n) l ->
  (forall e, In e (removelast l) -> savedLast (snd e)) ->
  exists l' a es, l = l' ++ [(a, es)] /\ displayed process tau a es = [process (timeMeans tau (flat_map (fun e => linesOf (snd e)) l) n)].
Proof. exact (sessions_last getTime advanceBy tstep lineOf save load ahStep process tau n). Qed.
Print Assumptions C126_resumed_partial.
Example C126_resumed_case : exists a' es1 es2, tSessions 0%R false 0%R (constructed 1) [(constructed 1, es1); (a', es2)] /\ savedLast es1 /\
  displayed (fun l => l) 0 a' es2 = [[(3 / 2)%R]].
Proof. exact partial_case. Qed.

(** which sessions end so, when the number of intervals is given: unless the period of saving divides it *)
Theorem C126_saved_last {Traj Saved AH : Type} (getTime : Traj -> R) (advanceBy tstep : Traj -> R -> Traj) (lineOf : Traj -> sample) (save : Traj -> Saved)
    (ahStep : AH -> sample -> option AH) N Dt sdf fuel si fss c h x x' es r :
  (0 < N)%nat -> (0 < Dt)%R -> (getTime x + INR N * Dt <> 0)%R -> ~ In EStopped es ->
  runFrom getTime advanceBy tstep lineOf save ahStep fuel (NDt N Dt) sdf si fss c h x = Some (x', es, r) ->
  savedLast es <-> sdf = 0 \/ N mod sdf <> 0.
Proof. exact (saved_last_iff getTime advanceBy tstep lineOf save ahStep N Dt sdf fuel si fss c h x x' es r). Qed.
Print Assumptions C126_saved_last.
Example C126_saved_last_case : exists es r, tRun 3 (NDt 1 1) 1 false true false tt 0%R = Some ((0 + 1)%R, es, r) /\ ~ In EStopped es /\ 1 mod 1 = 0.
Proof. exact saved_case. Qed.

(** a session which does not end so: its last sample is missing from the averages of the next one *)
Theorem C126_lost {Traj Saved AH : Type} (getTime : Traj -> R) (advanceBy tstep : Traj -> R -> Traj) (lineOf : Traj -> sample) (save : Traj -> Saved)
    (load : Saved -> Traj -> option Traj) (ahStep : AH -> sample -> option AH) process tau n :
  (forall y, length (snd (lineOf y)) = n) -> forall c x es1 es2 a2,
  sessions getTime advanceBy tstep lineOf save load ahStep tau c x (constructed n) [(constructed n, es1); (a2, es2)] -> ~ savedLast es1 ->
  displayed process tau a2 es2 = [process (timeMeans tau (removelast (linesOf es1) ++ linesOf es2) n)].
Proof. exact (lost getTime advanceBy tstep lineOf save load ahStep process tau n). Qed.
Print Assumptions C126_lost.

(** a clock, streamed at the times 0 and 1 with its state saved each time, and resumed to the time 2: the mean of 1 and 2 displayed is 2 *)
Theorem C126_resumed_refuted : exists a' es1 es2, tSessions 0%R false 0%R (constructed 1) [(constructed 1, es1); (a', es2)] /\
  linesOf es1 = [(0, [0]); (0 + 1, [0 + 1])]%R /\ linesOf es2 = [(0 + 1 + 1, [0 + 1 + 1])]%R /\
  displayed (fun l => l) 0 a' es2 = [[2%R]] /\ timeMeans 0 (linesOf es1 ++ linesOf es2) 1 = [(3 / 2)%R].
Proof. exact refuted. Qed.
Print Assumptions C126_resumed_refuted.
