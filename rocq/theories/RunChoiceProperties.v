(** C130: how the parameters choose the way of running. *)
From Coq Require Import List Arith Bool Reals Sorted.
From Verif Require Import RunModel RunSpec RunCases RunChoiceSpec RunChoiceProofs.
Import ListNotations.

(** The run is refused exactly if there is no usable dc, and no Dt *)
Theorem C130_refused hasStep dc n T Dt : dispatch hasStep dc n T Dt = Throw <-> Dt = 0%R /\ ~ countsSteps hasStep dc.
Proof. exact (refused hasStep dc n T Dt). Qed.
Print Assumptions C130_refused.

(** dc takes precedence over Dt and NDt: the trajectory is run to T, and every dc-th step is streamed *)
Theorem C130_steps {Traj Line Saved AH : Type} (getTime : Traj -> R) (advanceBy tstep : Traj -> R -> Traj) (lineOf : Traj -> Line) (save : Traj -> Saved)
    (ahStep : AH -> Line -> option AH) (lineTime : Line -> R) hasStep dc n T Dt m fuel sdf si fss continuing h x x' es r :
  (forall y d, (0 < d)%R -> (getTime (advanceBy y d) = getTime y + d)%R) -> (forall y d, (0 < d)%R -> (getTime y < getTime (tstep y d) <= getTime y + d)%R) ->
  (forall y, lineTime (lineOf y) = getTime y) ->
  countsSteps hasStep dc -> T <> 0%R -> (getTime x < T)%R -> dispatch hasStep dc n T Dt = Run m ->
  runFrom getTime advanceBy tstep lineOf save ahStep fuel m sdf si fss continuing h x = Some (x', es, r) -> ~ In EStopped es ->
  getTime x' = T /\ exists N, x' = Nat.iter N (fun y => tstep y (T - getTime y)%R) x /\
    linesOf es = map (fun k => lineOf (Nat.iter k (fun y => tstep y (T - getTime y)%R) x))
      (filter (fun k => k mod dc =? 0) (if continuing then seq 1 N else seq 0 (S N)) ++ (if (N mod dc =? 0) && (negb (N =? 0) || negb continuing) then [] else [N])).
Proof. exact (fun a b c => steps_counted getTime advanceBy tstep lineOf save ahStep lineTime a b c hasStep dc n T Dt m fuel sdf si fss continuing h x x' es r). Qed.
Print Assumptions C130_steps.

(** otherwise NDt takes precedence over T: NDt intervals of length Dt are run, and streamed at their ends, whatever T is *)
Theorem C130_intervals {Traj Line Saved AH : Type} (getTime : Traj -> R) (advanceBy tstep : Traj -> R -> Traj) (lineOf : Traj -> Line) (save : Traj -> Saved)
    (ahStep : AH -> Line -> option AH) (lineTime : Line -> R) hasStep dc n T Dt fuel sdf si fss continuing h x :
  (forall y d, (0 < d)%R -> (getTime (advanceBy y d) = getTime y + d)%R) -> (forall y, lineTime (lineOf y) = getTime y) ->
  ~ countsSteps hasStep dc -> 0 < n -> (0 < Dt)%R -> (getTime x + INR n * Dt <> 0)%R -> n < fuel ->
  exists m x' es r, dispatch hasStep dc n T Dt = Run m /\ runFrom getTime advanceBy tstep lineOf save ahStep fuel m sdf si fss continuing h x = Some (x', es, r) /\
  (~ In EStopped es -> (getTime x' = getTime x + INR n * Dt)%R /\ map lineTime (linesOf es) = map (fun k => getTime x + INR k * Dt)%R (if continuing then seq 1 n else seq 0 (S n))).
Proof. exact (fun a c => intervals_counted getTime advanceBy tstep lineOf save ahStep lineTime a c hasStep dc n T Dt fuel sdf si fss continuing h x). Qed.
Print Assumptions C130_intervals.

(** and without NDt the trajectory is run to T *)
Theorem C130_until {Traj Line Saved AH : Type} (getTime : Traj -> R) (advanceBy tstep : Traj -> R -> Traj) (lineOf : Traj -> Line) (save : Traj -> Saved)
    (ahStep : AH -> Line -> option AH) (lineTime : Line -> R) hasStep dc T Dt m fuel sdf si fss continuing h x x' es r :
  (forall y d, (0 < d)%R -> (getTime (advanceBy y d) = getTime y + d)%R) -> (forall y d, (0 < d)%R -> (getTime y < getTime (tstep y d) <= getTime y + d)%R) ->
  (forall y, lineTime (lineOf y) = getTime y) ->
  ~ countsSteps hasStep dc -> (0 < Dt)%R -> T <> 0%R -> (getTime x < T)%R -> dispatch hasStep dc 0 T Dt = Run m ->
  runFrom getTime advanceBy tstep lineOf save ahStep fuel m sdf si fss continuing h x = Some (x', es, r) -> ~ In EStopped es ->
  getTime x' = T /\ StronglySorted Rlt (map lineTime (linesOf es)) /\ exists ls, linesOf es = ls ++ [lineOf x'].
Proof. exact (fun a b c => until_end getTime advanceBy tstep lineOf save ahStep lineTime a b c hasStep dc T Dt m fuel sdf si fss continuing h x x' es r). Qed.
Print Assumptions C130_until.

Example C130_case : exists x' es r, @dispatch false 5 3 100 (1/2)%R = Run (NDt 3 (1/2)) /\ crun 4 (NDt 3 (1/2)) 0 true true false 100%nat (1%R, 0%nat) = Some (x', es, r) /\ ~ countsSteps false 5.
Proof. exact choice_case. Qed.
