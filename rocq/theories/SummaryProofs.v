(** Proofs about the summary of an ensemble. *)
From Coq Require Import List Arith Bool Reals Lra Lia.
From Verif Require Import SummaryModel SummarySpec.
Import ListNotations.
Local Open Scope nat_scope.

Lemma fold_plus (f : logger -> nat) l : forall a, fold_left (fun init x => init + INR (f x))%R l a = (a + fold_right Rplus 0 (map (fun x => INR (f x)) l))%R.
Proof. induction l as [|x l IH]; intros a; cbn [fold_left map fold_right]; [lra|]. rewrite IH. lra. Qed.
Lemma average_mean f l : average f l = mean_of f l.
Proof. unfold average, mean_of. rewrite fold_plus. f_equal. lra. Qed.
Lemma max_found f l : forall b, let m := maxElement f b l in (m = b \/ In m l) /\ (f b <= f m)%R /\ forall x, In x l -> (f x <= f m)%R.
Proof.
  induction l as [|x l IH]; intros b; cbn [maxElement]; [cbn; split; [now left|split; [lra|tauto]]|]. destruct (Rlt_dec (f b) (f x)) as [H|H].
  - destruct (IH x) as (A & B & C). cbv zeta. split; [destruct A as [->|A]; right; [now left|now right]|]. split; [lra|]. intros y [<-|I]; [exact B|now apply C].
  - destruct (IH b) as (A & B & C). cbv zeta. split; [destruct A as [A|A]; [left; exact A|right; now right]|]. split; [exact B|]. intros y [<-|I]; [lra|now apply C].
Qed.
Lemma max_maximum f x l : maximum_of f (x :: l) (f (maxElement f x l)).
Proof.
  destruct (max_found f l x) as (A & B & C). split.
  - exists (maxElement f x l). split; [destruct A as [->|A]; [now left|now right]|reflexivity].
  - intros y [<-|I]; [exact B|now apply C].
Qed.
Lemma least_found l : forall b, let m := least b l in (m = b \/ In m l) /\ (m <= b)%R /\ forall x, In x l -> (m <= x)%R.
Proof.
  induction l as [|x l IH]; intros b; cbn [least]; [cbn; split; [now left|split; [lra|tauto]]|]. destruct (Rlt_dec x b) as [H|H].
  - destruct (IH x) as (A & B & C). cbv zeta. split; [destruct A as [->|A]; right; [now left|now right]|]. split; [lra|]. intros y [<-|I]; [exact B|now apply C].
  - destruct (IH b) as (A & B & C). cbv zeta. split; [destruct A as [A|A]; [left; exact A|right; now right]|]. split; [exact B|]. intros y [<-|I]; [lra|now apply C].
Qed.
Lemma greatest_found l : forall b, let m := greatest b l in (m = b \/ In m l) /\ (b <= m)%R /\ forall x, In x l -> (x <= m)%R.
Proof.
  induction l as [|x l IH]; intros b; cbn [greatest]; [cbn; split; [now left|split; [lra|tauto]]|]. destruct (Rlt_dec b x) as [H|H].
  - destruct (IH x) as (A & B & C). cbv zeta. split; [destruct A as [->|A]; right; [now left|now right]|]. split; [lra|]. intros y [<-|I]; [exact B|now apply C].
  - destruct (IH b) as (A & B & C). cbv zeta. split; [destruct A as [A|A]; [left; exact A|right; now right]|]. split; [exact B|]. intros y [<-|I]; [lra|now apply C].
Qed.

(** ** Bins *)
Lemma upper_is (f : nat -> R) x n : forall a k, a <= k <= a + n -> (forall j, a <= j < k -> (f j <= x)%R) -> (k < a + n -> (x < f k)%R) -> upperBound (map f (seq a n)) x = k - a.
Proof.
  induction n as [|n IH]; intros a k H L U; cbn [seq map upperBound]; [lia|]. destruct (Rlt_dec x (f a)) as [X|X].
  - destruct (Nat.eq_dec k a) as [->|N]; [lia|]. specialize (L a ltac:(lia)). lra.
  - assert (k <> a) by (intros ->; apply X, U; lia). rewrite (IH (S a) k); [lia|lia| |intros; apply U; lia]. intros j Hj. apply L. lia.
Qed.
Section Bins.
Variables lo hi : R.
Variable bins : nat.
Hypothesis Hb : 0 < bins.
Hypothesis Ho : (lo <= hi)%R.
Notation pos := (binPosition lo hi bins).
Lemma bins_pos : (0 < INR bins)%R.
Proof. now apply lt_0_INR. Qed.
Lemma step_nonneg : (0 <= (hi - lo) / INR bins)%R.
Proof. apply Rmult_le_pos; [lra|]. left. apply Rinv_0_lt_compat, bins_pos. Qed.
Lemma pos_mono i j : i <= j -> (pos i <= pos j)%R.
Proof. intros H. apply le_INR in H. unfold binPosition. pose proof step_nonneg. apply Rplus_le_compat_l, Rmult_le_compat_r; lra. Qed.
Lemma pos_first : pos 1 = lo.
Proof. unfold binPosition. cbn [INR]. lra. Qed.
Lemma pos_last : pos (bins + 1) = hi.
Proof. unfold binPosition. rewrite plus_INR. cbn [INR]. pose proof bins_pos. field. lra. Qed.
Lemma bin_last x : (x <= hi)%R -> (binOf lo hi bins x = bins + 1 <-> (hi <= x)%R) \/ (x < lo)%R.
Proof.
  intros H. destruct (Rlt_dec x lo) as [L|L]; [now right|left]. unfold binOf. rewrite pos_first, pos_last. destruct (Rlt_dec x lo); [lra|]. destruct (Rle_dec hi x) as [E|E]; [tauto|].
  split; [|tauto]. intros F. exfalso.
  destruct (Nat.eq_dec (upperBound (map pos (seq 0 (bins + 2))) x) (bins + 2)) as [G|G]; [|lia].
  assert (K : forall n a, upperBound (map pos (seq a n)) x = n -> 0 < n -> (pos (a + n - 1) <= x)%R).
  { clear. induction n as [|n IH]; intros a E Hn; [lia|]. cbn [seq map upperBound] in E. destruct (Rlt_dec x (pos a)) as [X|X]; [discriminate|]. injection E as E.
    destruct n as [|n]; [replace (a + 1 - 1) with a by lia; lra|]. specialize (IH (S a) E ltac:(lia)). replace (a + S (S n) - 1) with (S a + S n - 1) by lia. exact IH. }
  specialize (K (bins + 2) 0 G ltac:(lia)). replace (0 + (bins + 2) - 1) with (bins + 1) in K by lia. rewrite pos_last in K. lra.
Qed.
Lemma bin_in i x : (lo <= x)%R -> 1 <= i <= bins -> (pos i <= x < pos (i + 1))%R -> binOf lo hi bins x = i.
Proof.
  intros L Hi [H1 H2]. unfold binOf. rewrite pos_first. destruct (Rlt_dec x lo); [lra|]. pose proof (pos_mono (i + 1) (bins + 1) ltac:(lia)) as M. destruct (Rle_dec (pos (bins + 1)) x); [lra|].
  rewrite (upper_is pos x (bins + 2) 0 (i + 1)); [lia|lia| |intros; exact H2]. intros j Hj. pose proof (pos_mono j i ltac:(lia)). lra.
Qed.
(** every time has its bin *)
Lemma bin_exists x : (lo <= x <= hi)%R -> (hi <= x)%R \/ exists i, 1 <= i <= bins /\ (pos i <= x < pos (i + 1))%R.
Proof.
  intros [L H]. destruct (Rle_dec hi x) as [E|E]; [now left|right].
  assert (K : forall n, n <= bins -> (pos (n + 1) <= x)%R \/ exists i, 1 <= i <= n /\ (pos i <= x < pos (i + 1))%R).
  { induction n as [|n IH]; intros Hn; [left; cbn [plus]; rewrite pos_first; exact L|]. destruct IH as [IH|(i & Hi & IH)]; [lia| |right; exists i; split; [lia|exact IH]].
    destruct (Rle_dec (pos (S n + 1)) x) as [G|G]; [now left|right]. exists (S n). split; [lia|]. replace (n + 1) with (S n) in IH by lia. lra. }
  destruct (K bins (le_n _)) as [G|G]; [rewrite pos_last in G; lra|exact G].
Qed.
Lemma bin_range x : (lo <= x <= hi)%R -> 1 <= binOf lo hi bins x <= bins + 1.
Proof.
  intros H. destruct (bin_exists x H) as [E|(i & Hi & E)].
  - destruct (bin_last x ltac:(lra)) as [B|B]; [|lra]. rewrite (proj2 B E). lia.
  - rewrite (bin_in i x); try tauto; lia.
Qed.
Lemma bin_iff i x : (lo <= x <= hi)%R -> 1 <= i <= bins -> (binOf lo hi bins x = i <-> (pos i <= x < pos (i + 1))%R).
Proof.
  intros H Hi. split; [|intros E; apply bin_in; tauto]. intros E. destruct (bin_exists x H) as [G|(j & Hj & G)].
  - destruct (bin_last x ltac:(lra)) as [B|B]; [|lra]. rewrite (proj2 B G) in E. lia.
  - rewrite (bin_in j x) in E by tauto. now subst.
Qed.
End Bins.
Lemma filter_same {B} (p q : B -> bool) l : (forall x, In x l -> p x = q x) -> filter p l = filter q l.
Proof. induction l as [|x l IH]; intros H; [reflexivity|]. cbn [filter]. rewrite (H x) by now left. rewrite IH; [reflexivity|]. intros y I. apply H. now right. Qed.
Lemma nth_combine {B C} (l : list B) (m : list C) i b c : nth_error l i = Some b -> nth_error m i = Some c -> nth_error (combine l m) i = Some (b, c).
Proof. revert m i. induction l as [|x l IH]; intros m i H1 H2; [destruct i; discriminate|]. destruct m as [|y m]; [destruct i; discriminate|]. destruct i as [|i]; cbn in *; [congruence|now apply IH]. Qed.
Lemma nth_seq a n i : i < n -> nth_error (seq a n) i = Some (a + i).
Proof. revert a i. induction n as [|n IH]; intros a i H; [lia|]. destruct i as [|i]; cbn; [f_equal; lia|]. rewrite IH by lia. f_equal. lia. Qed.
Lemma density_right bins xs : 0 < bins -> xs <> [] -> histogram_of bins xs (density bins xs).
Proof.
  intros Hb Hx. destruct xs as [|x xs]; [contradiction|]. unfold density. set (l := x :: xs). set (lo := least x l). set (hi := greatest x l).
  destruct (least_found l x) as (A1 & _ & C1). destruct (greatest_found l x) as (A2 & _ & C2). fold lo in A1, C1. fold hi in A2, C2.
  assert (I1 : In lo l) by (destruct A1 as [->|A1]; [now left|exact A1]). assert (I2 : In hi l) by (destruct A2 as [->|A2]; [now left|exact A2]).
  assert (R : forall y, In y l -> (lo <= y <= hi)%R) by (intros y I; split; [now apply C1|now apply C2]). assert (Ho : (lo <= hi)%R) by (apply C1; exact I2).
  exists lo, hi. split; [exact I1|]. split; [exact I2|]. split; [exact R|]. split; [unfold counts; rewrite combine_length, !map_length, !seq_length; lia|]. cbv zeta.
  assert (N : forall i, i < bins + 2 -> nth_error (combine (map (binPosition lo hi bins) (seq 0 (bins + 2))) (map (fun n => Some (INR n / INR (length l))%R) (counts lo hi bins l))) i =
    Some (binPosition lo hi bins i, Some (INR (length (filter (fun x => binOf lo hi bins x =? i) l)) / INR (length l))%R)).
  { intros i Hi. apply nth_combine; [rewrite (map_nth_error _ i _ (nth_seq 0 (bins + 2) i Hi)); reflexivity|]. unfold counts. rewrite map_map. rewrite (map_nth_error _ i _ (nth_seq 0 (bins + 2) i Hi)). reflexivity. }
  split; [|split].
  - rewrite N by lia. do 5 f_equal. replace (filter _ l) with (@nil RbaseSymbolsImpl.R); [reflexivity|]. symmetry.
    assert (F : forall k, (forall y, In y k -> (lo <= y <= hi)%R) -> filter (fun y => binOf lo hi bins y =? 0) k = []).
    { induction k as [|y k IH]; intros H; [reflexivity|]. cbn [filter]. pose proof (bin_range lo hi bins Hb Ho y (H y (or_introl eq_refl))). destruct (Nat.eqb_spec (binOf lo hi bins y) 0); [lia|]. apply IH. intros z I. apply H. now right. }
    now apply F.
  - intros i Hi. rewrite N by lia. do 4 f_equal. unfold between. do 2 f_equal. apply filter_same. intros y I. pose proof (bin_iff lo hi bins Hb Ho i y (R y I) Hi) as B. unfold binPosition in B.
    destruct (Nat.eqb_spec (binOf lo hi bins y) i) as [E|E].
    + destruct (proj1 B E) as [B1 B2]. destruct (Rle_dec _ y); [|contradiction]. destruct (Rlt_dec y _); [reflexivity|contradiction].
    + destruct (Rle_dec _ y); [|reflexivity]. destruct (Rlt_dec y _); [|reflexivity]. exfalso. apply E, B. split; assumption.
  - rewrite N by lia. rewrite pos_last by auto. do 4 f_equal. unfold from. do 2 f_equal. apply filter_same. intros y I. destruct (bin_last lo hi bins Hb y) as [B|B]; [now apply R| |specialize (R y I); lra].
    destruct (Nat.eqb_spec (binOf lo hi bins y) (bins + 1)) as [E|E]; destruct (Rle_dec hi y) as [G|G]; try reflexivity; exfalso; tauto.
Qed.
(** all the jumps are in a bin *)
Lemma count_all (f : R -> nat) n xs : (forall x, In x xs -> f x < n) -> fold_right Nat.add 0 (map (fun i => length (filter (fun x => f x =? i) xs)) (seq 0 n)) = length xs.
Proof.
  intros H. induction xs as [|x xs IH].
  - cbn [filter length]. clear. assert (K : forall a, fold_right Nat.add 0 (map (fun _ => 0) (seq a n)) = 0) by (induction n as [|n IH]; intros a; [reflexivity|]; cbn; apply IH). apply K.
  - cbn [length]. rewrite <- IH by (intros y I; apply H; now right). specialize (H x (or_introl eq_refl)).
    assert (K : forall m a, fold_right Nat.add 0 (map (fun i => length (filter (fun x => f x =? i) (x :: xs))) (seq a m)) = (if (a <=? f x) && (f x <? a + m) then 1 else 0) + fold_right Nat.add 0 (map (fun i => length (filter (fun x => f x =? i) xs)) (seq a m))).
    { clear. induction m as [|m IH]; intros a; cbn [seq map fold_right].
      - replace (_ && _)%bool with false; [reflexivity|]. symmetry. apply Bool.andb_false_iff. destruct (Nat.leb_spec a (f x)); [right; apply Nat.ltb_ge; lia|now left].
      - rewrite IH. cbn [filter]. destruct (Nat.eqb_spec (f x) a) as [E|E].
        + replace ((S a <=? f x) && (f x <? S a + m))%bool with false by (symmetry; apply Bool.andb_false_iff; left; apply Nat.leb_gt; lia).
          replace ((a <=? f x) && (f x <? a + S m))%bool with true by (symmetry; apply Bool.andb_true_iff; split; [apply Nat.leb_le|apply Nat.ltb_lt]; lia). cbn [length]. lia.
        + replace ((S a <=? f x) && (f x <? S a + m))%bool with ((a <=? f x) && (f x <? a + S m))%bool; [destruct (_ && _)%bool; cbn [length]; lia|].
          f_equal; [|f_equal; lia]. destruct (Nat.leb_spec a (f x)), (Nat.leb_spec (S a) (f x)); try reflexivity; lia. }
    rewrite K. replace ((0 <=? f x) && (f x <? 0 + n))%bool with true; [reflexivity|]. symmetry. apply Bool.andb_true_iff. split; [apply Nat.leb_le|apply Nat.ltb_lt]; lia.
Qed.
Lemma density_total bins xs : 0 < bins -> xs <> [] -> exists qs, fractions (density bins xs) qs /\ fold_right Rplus 0%R qs = 1%R.
Proof.
  intros Hb Hx. destruct xs as [|x xs]; [contradiction|]. unfold density. set (l := x :: xs). set (lo := least x l). set (hi := greatest x l). exists (map (fun n => INR n / INR (length l))%R (counts lo hi bins l)). split.
  - unfold fractions. rewrite map_map. set (u := map (binPosition lo hi bins) (seq 0 (bins + 2))). set (v := map (fun n => Some (INR n / INR (length l))%R) (counts lo hi bins l)). assert (E : length u = length v) by (unfold u, v, counts; now rewrite !map_length).
    clearbody u v. revert v E. induction u as [|a u IH]; intros [|b v] E; try discriminate; [reflexivity|]. cbn. rewrite IH; [reflexivity|]. now injection E.
  - assert (S : forall ns, fold_right Rplus 0%R (map (fun n => INR n / INR (length l))%R ns) = (INR (fold_right Nat.add 0%nat ns) / INR (length l))%R).
    { induction ns as [|n ns IH]; cbn [map fold_right]; [cbn; lra|]. rewrite IH, plus_INR. lra. }
    rewrite S. unfold counts. rewrite count_all; [field; apply not_0_INR; discriminate|]. intros y I.
    destruct (least_found l x) as (_ & _ & C1). destruct (greatest_found l x) as (_ & _ & C2). fold lo in C1. fold hi in C2.
    assert (lo <= hi)%R by (apply Rle_trans with x; [apply C1|apply C2]; now left). pose proof (bin_range lo hi bins Hb H y (conj (C1 y I) (C2 y I))). lia.
Qed.
(** ** The summary *)
Lemma total_jumps l : fold_left (fun init y => init + length (traj y)) l 0 = length (jump_times l).
Proof.
  assert (K : forall a, fold_left (fun init y => init + length (traj y)) l a = a + length (jump_times l)); [|now rewrite K].
  induction l as [|x l IH]; intros a; cbn [fold_left]; [cbn; lia|]. rewrite IH. unfold jump_times. cbn [flat_map]. rewrite app_length, map_length. lia.
Qed.
Lemma jumps_mean l : (INR (fold_left (fun init y => init + length (traj y))%nat l 0%nat) / INR (length l))%R = mean_of (fun x => length (traj x)) l.
Proof.
  unfold mean_of. f_equal. rewrite total_jumps. induction l as [|x l IH]; [reflexivity|]. unfold jump_times in *. cbn [flat_map map fold_right]. rewrite app_length, map_length, plus_INR, IH. reflexivity.
Qed.
Lemma summary_done x l h : summary_right (x :: l) (mkSummary (average nSteps (x :: l)) (average nOvershot (x :: l)) (maxOvershoot (maxElement maxOvershoot x l)) (average nTolerance (x :: l)) (maxTolerance (maxElement maxTolerance x l))
  (maxDeviation (maxElement maxDeviation x l)) h (INR (fold_left (fun init y => init + length (traj y))%nat (x :: l) 0%nat) / INR (length (x :: l)))%R).
Proof.
  repeat split; cbn [smSteps smOvershot smTolerance smMaxOvershoot smMaxTolerance smDeviation smJumps]; try apply average_mean; try apply max_maximum; apply jumps_mean.
Qed.
Lemma summarised l nBins nJumpsPerBin : l <> [] -> 0 < nBins \/ 0 < nJumpsPerBin -> exists h, summarise l nBins nJumpsPerBin = Some h /\ summary_right l h.
Proof.
  intros Hl Hn. destruct l as [|x l]; [contradiction|]. unfold summarise. cbv zeta. destruct (andb _ _); [eexists; split; [reflexivity|apply summary_done]|].
  destruct (Nat.eqb_spec nBins 0); [destruct (Nat.eqb_spec nJumpsPerBin 0); [lia|]|]; (eexists; split; [reflexivity|apply summary_done]).
Qed.
Lemma summarised_histogram l nBins nJumpsPerBin h : summarise l nBins nJumpsPerBin = Some h ->
  let n := length (jump_times l) in
  (nBins = 0 -> n < 2 * nJumpsPerBin -> smHistogram h = TooFew) /\
  forall bins, 0 < nBins /\ bins = nBins \/ nBins = 0 /\ 2 * nJumpsPerBin <= n /\ bins = n / nJumpsPerBin -> 0 < n -> exists columns, smHistogram h = Histogram columns /\ histogram_of bins (jump_times l) columns /\
    exists qs, fractions columns qs /\ fold_right Rplus 0%R qs = 1%R.
Proof.
  intros E n. destruct l as [|x l]; [discriminate|]. unfold summarise in E. cbv zeta in E. rewrite (total_jumps (x :: l)) in E. fold n in E. fold (jump_times (x :: l)) in E. split.
  - intros -> Hn. apply Nat.ltb_lt in Hn. rewrite Hn in E. cbn [andb Nat.eqb] in E. injection E as <-. reflexivity.
  - intros bins Hb Hn. assert (Hj : jump_times (x :: l) <> []) by (intros F; unfold n in Hn; rewrite F in Hn; cbn in Hn; lia).
    assert (G : 0 < bins /\ smHistogram h = Histogram (density bins (jump_times (x :: l)))).
    { destruct Hb as [[H0 ->]|(-> & H0 & ->)].
      - destruct (Nat.eqb_spec nBins 0) as [F|F]; [lia|]. cbn [andb] in E. injection E as <-. split; [lia|reflexivity].
      - replace (n <? 2 * nJumpsPerBin) with false in E by (symmetry; apply Nat.ltb_ge; lia). cbn [andb Nat.eqb] in E. destruct (Nat.eqb_spec nJumpsPerBin 0) as [F|F]; [discriminate|]. injection E as <-. split; [|reflexivity]. apply Nat.div_str_pos. lia. }
    destruct G as [G1 G2]. exists (density bins (jump_times (x :: l))). split; [exact G2|]. split; [now apply density_right|now apply density_total].
Qed.
(** ** Where it is not one *)
Lemma summary_undefined l : l <> [] -> summarise l 0 0 = None.
Proof. intros H. destruct l as [|x l]; [contradiction|]. unfold summarise. cbv zeta. rewrite Nat.mul_0_r. destruct (fold_left _ _ 0); reflexivity. Qed.
Lemma no_jumps l nBins nJumpsPerBin h : jump_times l = [] -> 0 < nBins -> summarise l nBins nJumpsPerBin = Some h -> smHistogram h = Histogram (repeat (0%R, None) (nBins + 2)).
Proof.
  intros J Hn E. destruct l as [|x l]; [discriminate|]. unfold summarise in E. cbv zeta in E. fold (jump_times (x :: l)) in E. rewrite J in E. destruct (Nat.eqb_spec nBins 0); [lia|]. cbn [andb] in E. injection E as <-. reflexivity.
Qed.
(** ** Three trajectories *)
Definition threeLogs : list logger :=
  [mkLogger 10 1 (1/10) 0 0 (1/1000) [(1%R, 0); (3%R, 1)]; mkLogger 12 0 0 1 (1/5) (1/2000) [(5%R, 0)]; mkLogger 8 2 (3/20) 0 0 (1/4000) [(4%R, 1); (2%R, 0)]].
Lemma three_case : jump_times threeLogs = [1; 3; 5; 4; 2]%R /\ mean_of nSteps threeLogs = 10%R /\ mean_of (fun x => length (traj x)) threeLogs = (5/3)%R /\
  histogram_of 2 (jump_times threeLogs) [(-1, Some 0); (1, Some (2/5)); (3, Some (2/5)); (5, Some (1/5))]%R.
Proof.
  split; [reflexivity|]. split; [unfold mean_of; cbn; lra|]. split; [unfold mean_of; cbn; lra|]. change (jump_times threeLogs) with [1; 3; 5; 4; 2]%R. exists 1%R, 5%R. split; [cbn; tauto|]. split; [cbn; tauto|].
  split; [intros x H; cbn in H; repeat destruct H as [<-|H]; try lra; contradiction|]. split; [reflexivity|]. cbv beta zeta.
  assert (P : forall i, (1 + (INR i - 1) * ((5 - 1) / INR 2))%R = (2 * INR i - 1)%R) by (intros i; cbn; lra). rewrite P. split; [cbn; do 3 f_equal; [lra|f_equal; lra]|]. split.
  - intros i Hi. rewrite !P. destruct i as [|[|[|i]]]; [lia| | |lia]; unfold between; cbn [filter plus INR nth_error]; repeat (destruct (Rle_dec _ _); try lra); repeat (destruct (Rlt_dec _ _); try lra); cbn [length INR]; do 3 f_equal; lra.
  - unfold from. cbn [filter plus nth_error]. repeat (destruct (Rle_dec _ _); try lra). cbn [length INR]. do 3 f_equal. lra.
Qed.
