(** C116: the summary at the end of an ensemble of quantum trajectories. *)
From Coq Require Import List Arith Reals Lia.
From Verif Require Import SummaryModel SummarySpec SummaryProofs.
Import ListNotations.
Local Open Scope nat_scope.

(** the averages are averages, the maxima are maxima *)
Theorem C116_averages_partial : forall l nBins nJumpsPerBin, l <> [] -> 0 < nBins \/ 0 < nJumpsPerBin -> exists h, summarise l nBins nJumpsPerBin = Some h /\ summary_right l h.
Proof. exact summarised. Qed.
Print Assumptions C116_averages_partial.
(** the histogram is that of the times of all the jumps, with the number of bins asked for or, if this is 0, as many as to have the given number of jumps per bin; every jump is in a bin *)
Theorem C116_histogram_partial : forall l nBins nJumpsPerBin h, summarise l nBins nJumpsPerBin = Some h ->
  let n := length (jump_times l) in
  (nBins = 0 -> n < 2 * nJumpsPerBin -> smHistogram h = TooFew) /\
  forall bins, 0 < nBins /\ bins = nBins \/ nBins = 0 /\ 2 * nJumpsPerBin <= n /\ bins = n / nJumpsPerBin -> 0 < n -> exists columns, smHistogram h = Histogram columns /\ histogram_of bins (jump_times l) columns /\
    exists qs, fractions columns qs /\ fold_right Rplus 0%R qs = 1%R.
Proof. exact summarised_histogram. Qed.
Print Assumptions C116_histogram_partial.
Example C116_case : jump_times threeLogs = [1; 3; 5; 4; 2]%R /\ mean_of nSteps threeLogs = 10%R /\ mean_of (fun x => length (traj x)) threeLogs = (5/3)%R /\
  histogram_of 2 (jump_times threeLogs) [(-1, Some 0); (1, Some (2/5)); (3, Some (2/5)); (5, Some (1/5))]%R.
Proof. exact three_case. Qed.
(** with both numbers 0 the program divides by zero; with a number of bins given and no jumps, zero is divided by zero in all the bins *)
Theorem C116_refuted : (forall l, l <> [] -> summarise l 0 0 = None) /\
  forall l nBins nJumpsPerBin h, jump_times l = [] -> 0 < nBins -> summarise l nBins nJumpsPerBin = Some h -> smHistogram h = Histogram (repeat (0%R, None) (nBins + 2)).
Proof. split; [exact summary_undefined|exact no_jumps]. Qed.
Print Assumptions C116_refuted.
Example C116_refuted_case : jump_times [mkLogger 10 0 0 0 0 0 []] = [] /\ exists h, summarise [mkLogger 10 0 0 0 0 0 []] 2 50 = Some h.
Proof. split; [reflexivity|]. destruct (summarised [mkLogger 10 0 0 0 0 0 []] 2 50) as (h & E & _); [discriminate|left; lia|]. exists h. exact E. Qed.
