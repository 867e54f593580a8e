(** Model of the summary at the end of an ensemble of quantum trajectories: EnsembleLogger::stream, CPPQEDcore/quantumtrajectory/MCWF_TrajectoryLogger.cc:77-118. In real arithmetic. *)
From Coq Require Import List Arith Reals.
Import ListNotations.
Local Open Scope nat_scope.

(** the log of a trajectory, MCWF_TrajectoryLogger.h:82-96 *)
Record logger := mkLogger { nSteps : nat; nOvershot : nat; maxOvershoot : R; nTolerance : nat; maxTolerance : R; maxDeviation : R; traj : list (R * nat) }.

(** AVERAGE_function, line 81: accumulate from 0. *)
Definition average (f : logger -> nat) (l : list logger) : R := (fold_left (fun init x => init + INR (f x)) l 0 / INR (length l))%R.
(** MAX_function, line 82: max_element, the first one not less than all the others *)
Fixpoint maxElement (f : logger -> R) (best : logger) (l : list logger) : logger :=
  match l with [] => best | x :: l' => maxElement f (if Rlt_dec (f best) (f x) then x else best) l' end.

(** The density accumulator of boost: when as many samples are there as given by cache_size, the range between the smallest and the largest of them is divided into bins; one bin is below these, one is above. *)
Fixpoint least (b : R) (l : list R) : R := match l with [] => b | x :: l' => least (if Rlt_dec x b then x else b) l' end.
Fixpoint greatest (b : R) (l : list R) : R := match l with [] => b | x :: l' => greatest (if Rlt_dec b x then x else b) l' end.
Definition binPosition (lo hi : R) (bins i : nat) : R := (lo + (INR i - 1) * ((hi - lo) / INR bins))%R.
(** upper_bound: the first position which is greater than x *)
Fixpoint upperBound (ps : list R) (x : R) : nat := match ps with [] => 0 | p :: ps' => if Rlt_dec x p then 0 else S (upperBound ps' x) end.
Definition binOf (lo hi : R) (bins : nat) (x : R) : nat :=
  if Rlt_dec x (binPosition lo hi bins 1) then 0
  else if Rle_dec (binPosition lo hi bins (bins + 1)) x then bins + 1
  else upperBound (map (binPosition lo hi bins) (seq 0 (bins + 2))) x - 1.
Definition counts (lo hi : R) (bins : nat) (xs : list R) : list nat :=
  map (fun i => length (filter (fun x => binOf lo hi bins x =? i) xs)) (seq 0 (bins + 2)).
Definition density (bins : nat) (xs : list R) : list (R * option R) :=
  match xs with
  | [] => repeat (0%R, None) (bins + 2) (* 0/0 *)
  | x :: _ => let lo := least x xs in let hi := greatest x xs in
              combine (map (binPosition lo hi bins) (seq 0 (bins + 2))) (map (fun n => Some (INR n / INR (length xs))%R) (counts lo hi bins xs))
  end.

Inductive histogram := TooFew | Histogram (columns : list (R * option R)).
Record summary := mkSummary { smSteps : R; smOvershot : R; smMaxOvershoot : R; smTolerance : R; smMaxTolerance : R; smDeviation : R; smHistogram : histogram; smJumps : R }.
(** [None]: the behaviour is undefined (no trajectories, or division of integers by 0) *)
Definition summarise (l : list logger) (nBins nJumpsPerBin : nat) : option summary :=
  match l with
  | [] => None
  | x :: l' =>
      let top f := f (maxElement f x l') in
      let jumps := flat_map (fun y => map fst (traj y)) l in
      let nTotal := fold_left (fun init y => init + length (traj y)) l 0 in
      let done h := Some (mkSummary (average nSteps l) (average nOvershot l) (top maxOvershoot) (average nTolerance l) (top maxTolerance) (top maxDeviation) h (INR nTotal / INR (length l))%R) in
      if andb (nBins =? 0) (nTotal <? 2 * nJumpsPerBin) then done TooFew
      else if nBins =? 0 then if nJumpsPerBin =? 0 then None else done (Histogram (density (nTotal / nJumpsPerBin) jumps))
      else done (Histogram (density nBins jumps))
  end.
