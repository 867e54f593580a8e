(** Model of cppqedutils::trajectory::run, CPPQEDutils/Trajectory.h:462-610, and of the dispatcher, 310-330.

    The trajectory is an abstract type with the operations run uses; what run does is recorded as a list of events. *)
From Coq Require Import List Arith Bool Reals.
Import ListNotations.

Section Run.
Context {Traj Line Saved AH : Type}.
Variable getTime : Traj -> R.
(** advance(traj,deltaT), Trajectory.h:42-60, and traj.step(deltaT) *)
Variable advanceBy : Traj -> R -> Traj.
Variable tstep : Traj -> R -> Traj.
(** trajectory::stream, Trajectory.h:428-437: time, dtDid and the averages *)
Variable lineOf : Traj -> Line.
(** writeViaSStream/readViaSStream: contents of a record of the state file; [None]: exception *)
Variable save : Traj -> Saved.
Variable load : Saved -> Traj -> option Traj.
(** autostopHandler(streamedArray); [None]: StoppingCriterionReachedException *)
Variable ahStep : AH -> Line -> option AH.

(** The three instances of run: LENGTH and DELTA floating point or integral, Trajectory.h:318-329, 473-475 *)
Inductive mode := NDt (n : nat) (Dt : R) | EndDt (T Dt : R) | EndDc (T : R) (dc : nat).

(** what run does, in order *)
Inductive event := EAdvance (x : Traj) | ESave (s : Saved) | ELine (l : Line) | EHeader | EContinuing | EStopped | ELog.

(** line 510 *)
Definition timeToReach (m : mode) (x : Traj) : R :=
  match m with NDt n Dt => (getTime x + INR n * Dt)%R | EndDt T _ => T | EndDc T _ => T end.

(** loop condition, line 560 *)
Definition cond (m : mode) (count : nat) (x : Traj) : bool :=
  match m with
  | NDt n _ => count <=? n
  | EndDt T _ => if Rlt_dec (getTime x) T then true else false
  | EndDc T _ => if Rlt_dec (getTime x) T then true else false
  end.
(** lines 564-568 *)
Definition adv (m : mode) (x : Traj) : Traj :=
  match m with
  | NDt _ Dt => advanceBy x Dt
  | EndDt T Dt => advanceBy x (Rmin Dt (T - getTime x))
  | EndDc T _ => tstep x (T - getTime x)
  end.
(** lines 572-575 *)
Definition due (m : mode) (count : nat) : bool :=
  (count =? 0) || match m with EndDc _ dc => count mod dc =? 0 | _ => true end.

(** local variables of the loop; [evs] in order *)
Record lst := mkLst { tr : Traj; count : nat; stateCount : nat; stateSaved : bool; arrayStreamed : bool;
                      ah : AH; evs : list event; res : list Line }.

(** lines 562-569: advance, except in the first round *)
Definition advancePart (m : mode) (s : lst) : lst :=
  if count s =? 0 then s
  else mkLst (adv m (tr s)) (count s) (stateCount s) false false (ah s) (evs s ++ [EAdvance (adv m (tr s))]) (res s).
(** lines 577-585: save the state if due *)
Definition saves (sdf : nat) (firstStateStream continuing : bool) (stateCount : nat) : bool :=
  negb (sdf =? 0) && (stateCount mod sdf =? 0) && (negb (stateCount =? 0) || (firstStateStream && negb continuing)).
Definition savePart (sdf : nat) (firstStateStream continuing : bool) (s : lst) : lst :=
  if saves sdf firstStateStream continuing (stateCount s)
  then mkLst (tr s) (count s) (stateCount s) true (arrayStreamed s) (ah s) (evs s ++ [ESave (save (tr s))]) (res s)
  else s.
(** line 586 *)
Definition bumpPart (s : lst) : lst :=
  mkLst (tr s) (count s) (S (stateCount s)) (stateSaved s) (arrayStreamed s) (ah s) (evs s) (res s).
(** lines 588-593: stream and apply the stopping criterion; the boolean tells whether it threw *)
Definition streamPart (continuing : bool) (s : lst) : lst * bool :=
  if negb (count s =? 0) || negb continuing then
    match ahStep (ah s) (lineOf (tr s)) with
    | None => (mkLst (tr s) (count s) (stateCount s) (stateSaved s) true (ah s) (evs s ++ [ELine (lineOf (tr s))]) (res s ++ [lineOf (tr s)]), true)
    | Some h => (mkLst (tr s) (count s) (stateCount s) (stateSaved s) true h (evs s ++ [ELine (lineOf (tr s))]) (res s ++ [lineOf (tr s)]), false)
    end
  else (s, false).
(** body of the loop, lines 562-594 *)
Definition body (m : mode) (sdf : nat) (firstStateStream continuing : bool) (s : lst) : lst * bool :=
  let s1 := advancePart m s in
  if due m (count s1) then streamPart continuing (bumpPart (savePart sdf firstStateStream continuing s1)) else (s1, false).

(** the loop, lines 558-597; [None]: not finished within [fuel] iterations *)
Fixpoint loop (fuel : nat) (m : mode) (sdf : nat) (fss continuing : bool) (s : lst) : option (lst * bool) :=
  if cond m (count s) (tr s) then
    match fuel with
    | O => None
    | S f => match body m sdf fss continuing s with
             | (s', true) => Some (s', true)
             | (s', false) => loop f m sdf fss continuing
                 (mkLst (tr s') (S (count s')) (stateCount s') (stateSaved s') (arrayStreamed s') (ah s') (evs s') (res s'))
             end
    end
  else Some (s, false).

(** lines 597-606 *)
Definition finish (s : lst) (stopped : bool) : list event :=
  evs s ++ (if stopped then [EStopped] else []) ++ (if arrayStreamed s then [] else [ELine (lineOf (tr s))]) ++
  [ELog] ++ (if stateSaved s then [] else [ESave (save (tr s))]).

(** lines 510-610 after the state input: final trajectory, events, returned array *)
Definition runFrom (fuel : nat) (m : mode) (sdf : nat) (streamInfo fss continuing : bool) (h : AH) (x : Traj)
    : option (Traj * list event * list Line) :=
  let ttr := timeToReach m x in
  if Req_EM_T ttr 0 then Some (x, (if streamInfo then [if continuing then EContinuing else EHeader] else []) ++ [ELine (lineOf x)], [])
  else if Rle_dec ttr (getTime x) then Some (x, [], [])
  else
    match loop fuel m sdf fss continuing (mkLst x 0 0 false false h [] []) with
    | None => None
    | Some (s, stopped) =>
        Some (tr s, (if streamInfo then [if continuing then EContinuing else EHeader] else []) ++ finish s stopped, res s)
    end.

(** Files: contents of the trajectory file and of its state file; [None]: does not exist. The events appearing in the
    trajectory file are the lines and comments. *)
Record files := mkFiles { tfile : option (list event); sfile : option (list Saved) }.
Definition isText (e : event) : bool := match e with EAdvance _ | ESave _ => false | _ => true end.
Definition savedOf (es : list event) : list Saved := flat_map (fun e => match e with ESave s => [s] | _ => [] end) es.
Definition appendFile {A} (o : option (list A)) (l : list A) : list A := match o with None => l | Some l0 => l0 ++ l end.

Fixpoint loadAll (ss : list Saved) (x : Traj) : option Traj :=
  match ss with [] => Some x | s :: ss' => match load s x with Some y => loadAll ss' y | None => None end end.

Inductive result (A : Type) := Done (a : A) | Exception | OutOfFuel.
Global Arguments Done {A}. Global Arguments Exception {A}. Global Arguments OutOfFuel {A}.

(** run streaming to a file, lines 479-610; [initial]: contents of the file given by initialFileName, if any.
    The early return of line 512 happens before the trajectory file is opened. *)
Definition runFile (fuel : nat) (m : mode) (sdf : nat) (streamInfo fss : bool) (initial : option (list Saved))
    (h : AH) (x : Traj) (f : files) : result (Traj * files * list event * list Line) :=
  let nonempty := match tfile f with Some (_ :: _) => true | _ => false end in
  let start := if nonempty
               then match sfile f with None => None | Some ss => loadAll ss x end
               else match initial with None => Some x | Some ss => loadAll ss x end in
  match start with
  | None => Exception
  | Some x0 =>
      match runFrom fuel m sdf streamInfo fss nonempty h x0 with
      | None => OutOfFuel
      | Some (x', es, r) =>
          Done (x', match es with [] => f
                    | _ => mkFiles (Some (appendFile (tfile f) (filter isText es)))
                                   (if Req_EM_T (timeToReach m x0) 0 then sfile f
                                    else Some (appendFile (sfile f) (savedOf es))) end, es, r)
      end
  end.

(** dispatcher, lines 310-330; [hasStep]: the trajectory has a step function *)
Inductive pick := Run (m : mode) | Throw.
Definition dispatch (hasStep : bool) (dc n : nat) (T Dt : R) : pick :=
  if hasStep && negb (dc =? 0) then Run (EndDc T dc)
  else if Req_EM_T Dt 0 then Throw
  else if negb (n =? 0) then Run (NDt n Dt) else Run (EndDt T Dt).
End Run.
