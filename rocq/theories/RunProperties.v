(** C07-C10, C57: what run() streams, saves and returns *)
From Coq Require Import List Arith Bool Reals Lra Lia Sorted.
From Verif Require Import RunModel RunSpec RunProofs RunLemmas RunResume RunCases.
Import ListNotations.

(** ** C07 *)
(** [n] intervals of length [Dt]: the run returns after at most n+1 rounds, and unless the stopping criterion was reached the lines
    streamed are those of the states x, advance x Dt, advance (advance x Dt) Dt, ..., whose times are t0 + k Dt, k = 0..n
    (k = 1..n if continuing). *)
Theorem C07_streaming_schedule {Traj Line Saved AH : Type}
    (getTime : Traj -> R) (advanceBy tstep : Traj -> R -> Traj) (lineOf : Traj -> Line) (save : Traj -> Saved)
    (ahStep : AH -> Line -> option AH) (n : nat) (Dt : R) fuel sdf si fss continuing h x :
  (0 < n)%nat -> (0 < Dt)%R -> (getTime x + INR n * Dt <> 0)%R -> (n < fuel)%nat ->
  (forall y, getTime (advanceBy y Dt) = getTime y + Dt)%R ->
  exists x' es r, runFrom getTime advanceBy tstep lineOf save ahStep fuel (NDt n Dt) sdf si fss continuing h x = Some (x', es, r) /\
    let state k := Nat.iter k (fun y => advanceBy y Dt) x in
    (forall k, getTime (state k) = getTime x + INR k * Dt)%R /\
    (~ In EStopped es -> x' = state n /\ linesOf es = map (fun k => lineOf (state k)) (if continuing then seq 1 n else seq 0 (S n))) /\
    (* reaching the stopping criterion only cuts the sequence *)
    (In EStopped es -> exists N, (N <= n)%nat /\ x' = state N /\
       linesOf es = map (fun k => lineOf (state k)) (if continuing then seq 1 N else seq 0 (S N))).
Proof. exact (ndt_schedule getTime advanceBy tstep lineOf save ahStep n Dt fuel sdf si fss continuing h x). Qed.
Print Assumptions C07_streaming_schedule.

(** streaming every dc-th step: the records of the steps whose number is a multiple of dc, then the final one if it is not among these *)
Theorem C07_every_dc_th_step {Traj Line Saved AH : Type}
    (getTime : Traj -> R) (advanceBy tstep : Traj -> R -> Traj) (lineOf : Traj -> Line) (save : Traj -> Saved)
    (ahStep : AH -> Line -> option AH) (T : R) (dc : nat) fuel sdf si fss continuing h x x' es r :
  (0 < dc)%nat -> T <> 0%R -> (getTime x < T)%R ->
  runFrom getTime advanceBy tstep lineOf save ahStep fuel (EndDc T dc) sdf si fss continuing h x = Some (x', es, r) ->
  let state k := Nat.iter k (fun y => tstep y (T - getTime y)%R) x in
  exists N, x' = state N /\
    linesOf es = map (fun k => lineOf (state k))
      (filter (fun k => k mod dc =? 0) (if continuing then seq 1 N else seq 0 (S N)) ++
       (if (N mod dc =? 0) && (negb (N =? 0) || negb continuing) then [] else [N])).
Proof. exact (dc_schedule getTime advanceBy tstep lineOf save ahStep T dc fuel sdf si fss continuing h x x' es r). Qed.
Print Assumptions C07_every_dc_th_step.

(** three intervals of length 1/2 from time 1 *)
Example C07_case : exists x' es r,
  crun 4 (NDt 3 (1/2)) 0 true true false 100%nat (1%R, 0%nat) = Some (x', es, r) /\
  linesOf es = map (fun k => Nat.iter k (fun y => cadv y (1/2)) (1%R, 0%nat)) [0; 1; 2; 3]%nat.
Proof. exact ndt_case. Qed.
Example C07_case_dc : exists es, crun 10 (EndDc 3 2) 0 true true false 100%nat (0%R, 0%nat) = Some ((3%R, 3%nat), es, [(0%R, 0%nat); (2%R, 2%nat)])
  /\ linesOf es = [(0%R, 0%nat); (2%R, 2%nat); (3%R, 3%nat)].
Proof. exact dc_run. Qed.

(** ** C08 *)
(** A run to time [T], in intervals of Dt or streaming every dc-th step *)
Definition endsAt (T : R) (m : mode) : Prop :=
  match m with NDt _ _ => False | EndDt T' Dt => T' = T /\ (0 < Dt)%R | EndDc T' dc => T' = T /\ (0 < dc)%nat end.

Theorem C08_ends_exactly {Traj Line Saved AH : Type}
    (getTime : Traj -> R) (advanceBy tstep : Traj -> R -> Traj) (lineOf : Traj -> Line) (save : Traj -> Saved)
    (ahStep : AH -> Line -> option AH) (lineTime : Line -> R) (m : mode) (T : R) fuel sdf si fss continuing h x x' es r :
  endsAt T m ->
  (* an advance ends exactly; a single step asked to do at most d goes forward by at most d *)
  (forall y d, (0 < d)%R -> getTime (advanceBy y d) = getTime y + d)%R ->
  (forall y d, (0 < d)%R -> getTime y < getTime (tstep y d) <= getTime y + d)%R ->
  (forall y, lineTime (lineOf y) = getTime y) ->
  T <> 0%R -> (getTime x < T)%R ->
  runFrom getTime advanceBy tstep lineOf save ahStep fuel m sdf si fss continuing h x = Some (x', es, r) ->
  (getTime x' <= T)%R /\ (forall y, In (EAdvance y) es -> (getTime y <= T)%R) /\
  StronglySorted Rlt (map lineTime (linesOf es)) /\
  (forall l, In l (linesOf es) -> (lineTime l <= T)%R) /\
  (~ In EStopped es -> getTime x' = T /\ exists ls, linesOf es = ls ++ [lineOf x']).
Proof. exact (end_run' getTime advanceBy tstep lineOf save ahStep lineTime m T fuel sdf si fss continuing h x x' es r). Qed.
Print Assumptions C08_ends_exactly.

(** it does return: if every step proceeds by at least [delta] or reaches the end, within (T-t)/delta + 1 rounds *)
Theorem C08_returns {Traj Line Saved AH : Type}
    (getTime : Traj -> R) (advanceBy tstep : Traj -> R -> Traj) (lineOf : Traj -> Line) (save : Traj -> Saved)
    (ahStep : AH -> Line -> option AH) (m : mode) (T delta : R) fuel sdf si fss continuing h x :
  endsAt T m -> (0 < delta)%R ->
  (forall y d, (0 < d)%R -> getTime (advanceBy y d) = getTime y + d)%R ->
  match m with EndDt _ Dt => delta = Dt | _ => forall y d, (0 < d)%R -> (getTime y + Rmin d delta <= getTime (tstep y d))%R end ->
  (T - getTime x <= (INR fuel - 1) * delta)%R ->
  runFrom getTime advanceBy tstep lineOf save ahStep fuel m sdf si fss continuing h x <> None.
Proof. exact (fun a b c d => end_returns getTime advanceBy tstep lineOf save ahStep m T a c delta b d fuel sdf si fss continuing h x). Qed.
Print Assumptions C08_returns.

(** at or beyond T nothing happens, to the trajectory or to the files *)
Theorem C08_nothing_beyond {Traj Line Saved AH : Type}
    (getTime : Traj -> R) (advanceBy tstep : Traj -> R -> Traj) (lineOf : Traj -> Line) (save : Traj -> Saved)
    (load : Saved -> Traj -> option Traj) (ahStep : AH -> Line -> option AH) (m : mode) (T : R) fuel sdf si fss h x f ss :
  endsAt T m -> T <> 0%R ->
  (* the state the run starts from: read from the files if there are any *)
  (tfile f = None \/ tfile f = Some []) /\ (T <= getTime x)%R \/
  (exists e es, tfile f = Some (e :: es)) /\ sfile f = Some ss /\ (exists y, loadAll load ss x = Some y /\ T <= getTime y)%R ->
  exists y, runFile getTime advanceBy tstep lineOf save load ahStep fuel m sdf si fss None h x f = Done (y, f, [], []).
Proof. exact (nothing_beyond getTime advanceBy tstep lineOf save load ahStep m T fuel sdf si fss h x f ss). Qed.
Print Assumptions C08_nothing_beyond.

(** from time 1/4 to 2 in intervals of 1/2, hence with a last interval of 1/4 *)
Example C08_case : exists x' es r, runFrom ctime cadv cstep cline csave cgo 10 (EndDt 2 (1/2)) 1 true true false 0%nat (1/4, 0%nat)%R = Some (x', es, r) /\
  ctime x' = 2%R /\ StronglySorted Rlt (map ctime (linesOf es)).
Proof. exact end_case. Qed.

(** ** C09 *)
Theorem C09_final_state_saved_once {Traj Line Saved AH : Type}
    (getTime : Traj -> R) (advanceBy tstep : Traj -> R -> Traj) (lineOf : Traj -> Line) (save : Traj -> Saved)
    (ahStep : AH -> Line -> option AH) (m : mode) fuel sdf si fss continuing h x x' es r :
  timeToReach getTime m x <> 0%R -> (getTime x < timeToReach getTime m x)%R ->
  runFrom getTime advanceBy tstep lineOf save ahStep fuel m sdf si fss continuing h x = Some (x', es, r) ->
  (exists ss, savedOf es = ss ++ [save x']) /\
  (* between two saves the trajectory is always advanced *)
  (forall a s1 b s2 c, es = a ++ ESave s1 :: b ++ ESave s2 :: c -> exists y, In (EAdvance y) b).
Proof. exact (saved_once getTime advanceBy tstep lineOf save ahStep m fuel sdf si fss continuing h x x' es r). Qed.
Print Assumptions C09_final_state_saved_once.
(** a run stopped at the second record *)
Example C09_case : exists x' es r, crun 10 (NDt 5 1) 1 true true false 1%nat (0%R, 0%nat) = Some (x', es, r) /\
  In EStopped es /\ savedOf es = [(0%R, 0%nat); ((0 + 1)%R, 1%nat)].
Proof. exact stop_case. Qed.

(** ** C10 *)
(** [sim x y]: x and y have the same future. Reading back a state gives a trajectory with the same future as the one saved,
    whatever trajectory it is read into. *)
Theorem C10_resume_equals_not_stopping {Traj Line Saved AH : Type}
    (getTime : Traj -> R) (advanceBy tstep : Traj -> R -> Traj) (lineOf : Traj -> Line) (save : Traj -> Saved)
    (load : Saved -> Traj -> option Traj) (ahStep : AH -> Line -> option AH) (sim : Traj -> Traj -> Prop) :
  (forall x y d, sim x y -> sim (advanceBy x d) (advanceBy y d)) ->
  (forall x y, sim x y -> getTime x = getTime y) ->
  (forall x y, sim x y -> lineOf x = lineOf y) ->
  (forall x y, sim x y -> save x = save y) ->
  (forall x y, exists z, load (save x) y = Some z /\ sim x z) ->
  (forall h l, ahStep h l <> None) ->
  forall fuel1 fuel2 fuel3 a b Dt sdf si fss h1 h2 h3 x y x1 f1 es1 r1 x2 f2 es2 r2 x3 f3 es3 r3,
  (0 < a)%nat -> (0 < b)%nat -> (0 < Dt)%R -> (0 <= getTime x)%R ->
  (forall z, getTime (advanceBy z Dt) = getTime z + Dt)%R ->
  let run := runFile getTime advanceBy tstep lineOf save load ahStep in
  run fuel1 (NDt a Dt) sdf si fss None h1 x (mkFiles None None) = Done (x1, f1, es1, r1) ->
  run fuel2 (NDt b Dt) sdf si fss None h2 y f1 = Done (x2, f2, es2, r2) ->
  run fuel3 (NDt (a + b) Dt) sdf si fss None h3 x (mkFiles None None) = Done (x3, f3, es3, r3) ->
  sim x3 x2 /\
  (exists t2 t3, tfile f2 = Some t2 /\ tfile f3 = Some t3 /\ linesOf t2 = linesOf t3) /\
  (exists s2 s3, sfile f2 = Some (s2 ++ [save x3]) /\ sfile f3 = Some (s3 ++ [save x3])).
Proof. exact (resume getTime advanceBy tstep lineOf save load ahStep sim). Qed.
Print Assumptions C10_resume_equals_not_stopping.
Example C10_case : exists x1 f1 es1 r1 x2 f2 es2 r2 x3 f3 es3 r3,
  runFile ctime cadv cstep cline csave cload cgo 10 (NDt 2 1) 1 true true None 0%nat (0%R, 0%nat) (mkFiles None None) = Done (x1, f1, es1, r1) /\
  runFile ctime cadv cstep cline csave cload cgo 10 (NDt 3 1) 1 true true None 0%nat (7%R, 7%nat) f1 = Done (x2, f2, es2, r2) /\
  runFile ctime cadv cstep cline csave cload cgo 10 (NDt 5 1) 1 true true None 0%nat (0%R, 0%nat) (mkFiles None None) = Done (x3, f3, es3, r3) /\
  x2 = x3 /\ snd x3 = 5%nat.
Proof. exact resume_case. Qed.

(** ** C57 *)
(** Streaming every dc-th step, the record of the final instant is streamed but missing from the array returned *)
Theorem C57_returned_array_refuted :
  exists x' es r, crun 10 (EndDc 3 2) 0 true true false 100%nat (0%R, 0%nat) = Some (x', es, r) /\
    linesOf es = r ++ [cline x'] /\ ctime x' = 3%R.
Proof. exact returned_refuted. Qed.
Print Assumptions C57_returned_array_refuted.
(** with intervals the two agree *)
Theorem C57_returned_array_partial {Traj Line Saved AH : Type}
    (getTime : Traj -> R) (advanceBy tstep : Traj -> R -> Traj) (lineOf : Traj -> Line) (save : Traj -> Saved)
    (ahStep : AH -> Line -> option AH) (m : mode) (Dt : R) fuel sdf si fss continuing h x x' es r :
  (exists T, m = EndDt T Dt) \/ (exists n, m = NDt n Dt /\ (0 < n)%nat /\ (0 < Dt)%R) ->
  timeToReach getTime m x <> 0%R -> (getTime x < timeToReach getTime m x)%R ->
  runFrom getTime advanceBy tstep lineOf save ahStep fuel m sdf si fss continuing h x = Some (x', es, r) ->
  r = linesOf es.
Proof. exact (returned_dt getTime advanceBy tstep lineOf save ahStep m Dt fuel sdf si fss continuing h x x' es r). Qed.
Print Assumptions C57_returned_array_partial.
