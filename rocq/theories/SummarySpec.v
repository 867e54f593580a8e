(** What the summary of an ensemble should say. *)
From Coq Require Import List Arith Reals.
From Verif Require Import SummaryModel.
Import ListNotations.
Local Open Scope nat_scope.

Definition mean_of (f : logger -> nat) (l : list logger) : R := (fold_right Rplus 0 (map (fun x => INR (f x)) l) / INR (length l))%R.
Definition maximum_of (f : logger -> R) (l : list logger) (m : R) : Prop := (exists x, In x l /\ f x = m) /\ forall x, In x l -> (f x <= m)%R.
(** the times of all the jumps *)
Definition jump_times (l : list logger) : list R := flat_map (fun x => map fst (traj x)) l.
(** how many of them are in an interval closed on the left *)
Definition between (a b : R) (xs : list R) : nat := length (filter (fun x => if Rle_dec a x then if Rlt_dec x b then true else false else false) xs).
Definition from (a : R) (xs : list R) : nat := length (filter (fun x => if Rle_dec a x then true else false) xs).
(** the columns of a histogram: where the bins begin, and which fraction is in them. The first bin is an empty one before the first jump; then there are bins of equal width between the first jump and the last one; the latter is in a bin of its own *)
Definition histogram_of (bins : nat) (xs : list R) (columns : list (R * option R)) : Prop :=
  exists lo hi, In lo xs /\ In hi xs /\ (forall x, In x xs -> lo <= x <= hi)%R /\ length columns = bins + 2 /\
    let position i := (lo + (INR i - 1) * ((hi - lo) / INR bins))%R in let fraction n := Some (INR n / INR (length xs))%R in
    nth_error columns 0 = Some (position 0, fraction 0) /\
    (forall i, 1 <= i <= bins -> nth_error columns i = Some (position i, fraction (between (position i) (position (i + 1)) xs))) /\
    nth_error columns (bins + 1) = Some (hi, fraction (from hi xs)).
(** the fractions *)
Definition fractions (columns : list (R * option R)) (qs : list R) : Prop := map snd columns = map Some qs.
(** averages and maxima over the ensemble *)
Definition summary_right (l : list logger) (h : summary) : Prop :=
  smSteps h = mean_of nSteps l /\ smOvershot h = mean_of nOvershot l /\ smTolerance h = mean_of nTolerance l /\
  maximum_of maxOvershoot l (smMaxOvershoot h) /\ maximum_of maxTolerance l (smMaxTolerance h) /\ maximum_of maxDeviation l (smDeviation h) /\ smJumps h = mean_of (fun x => length (traj x)) l.
