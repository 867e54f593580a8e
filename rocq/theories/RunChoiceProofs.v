From Coq Require Import List Arith Bool Reals Lra Lia Sorted.
From Verif Require Import RunModel RunSpec RunProofs RunLemmas RunResume RunCases RunChoiceSpec.
Import ListNotations.

Section Choice.
Context {Traj Line Saved AH : Type}.
Variable getTime : Traj -> R.
Variable advanceBy tstep : Traj -> R -> Traj.
Variable lineOf : Traj -> Line.
Variable save : Traj -> Saved.
Variable ahStep : AH -> Line -> option AH.
Variable lineTime : Line -> R.
Hypothesis Hadv : forall y d, (0 < d)%R -> (getTime (advanceBy y d) = getTime y + d)%R.
Hypothesis Hstep : forall y d, (0 < d)%R -> (getTime y < getTime (tstep y d) <= getTime y + d)%R.
Hypothesis Hline : forall y, lineTime (lineOf y) = getTime y.

Lemma refused hasStep dc n T Dt : dispatch hasStep dc n T Dt = Throw <-> Dt = 0%R /\ ~ countsSteps hasStep dc.
Proof.
  unfold dispatch, countsSteps. destruct hasStep, (Nat.eqb_spec dc 0); cbn [andb negb];
  destruct (Req_EM_T Dt 0); destruct (n =? 0); cbn [negb]; split; intros H; try discriminate; try tauto; try reflexivity;
  try (split; [assumption|intros [H1 H2]; congruence]); try (destruct H as [H1 H2]; exfalso; try apply H2; try tauto; split; congruence).
Qed.
Lemma steps_counted hasStep dc n T Dt m fuel sdf si fss continuing h x x' es r : countsSteps hasStep dc -> T <> 0%R -> (getTime x < T)%R -> dispatch hasStep dc n T Dt = Run m ->
  runFrom getTime advanceBy tstep lineOf save ahStep fuel m sdf si fss continuing h x = Some (x', es, r) -> ~ In EStopped es ->
  getTime x' = T /\ exists N, x' = Nat.iter N (fun y => tstep y (T - getTime y)%R) x /\
    linesOf es = map (fun k => lineOf (Nat.iter k (fun y => tstep y (T - getTime y)%R) x))
      (filter (fun k => k mod dc =? 0) (if continuing then seq 1 N else seq 0 (S N)) ++ (if (N mod dc =? 0) && (negb (N =? 0) || negb continuing) then [] else [N])).
Proof.
  intros [-> Hd] HT Ht. unfold dispatch. destruct (Nat.eqb_spec dc 0); [congruence|]. cbn [andb negb]. intros [= <-] Hr Hs. split.
  - destruct (end_run' getTime advanceBy tstep lineOf save ahStep lineTime (EndDc T dc) T fuel sdf si fss continuing h x x' es r) as (_ & _ & _ & _ & H); try assumption.
    + split; [reflexivity|lia]. + exact (proj1 (H Hs)).
  - exact (dc_schedule getTime advanceBy tstep lineOf save ahStep T dc fuel sdf si fss continuing h x x' es r ltac:(lia) HT Ht Hr).
Qed.
Lemma intervals_counted hasStep dc n T Dt fuel sdf si fss continuing h x : ~ countsSteps hasStep dc -> 0 < n -> (0 < Dt)%R -> (getTime x + INR n * Dt <> 0)%R -> n < fuel ->
  exists m x' es r, dispatch hasStep dc n T Dt = Run m /\ runFrom getTime advanceBy tstep lineOf save ahStep fuel m sdf si fss continuing h x = Some (x', es, r) /\
  (~ In EStopped es -> (getTime x' = getTime x + INR n * Dt)%R /\ map lineTime (linesOf es) = map (fun k => getTime x + INR k * Dt)%R (if continuing then seq 1 n else seq 0 (S n))).
Proof.
  intros Hc Hn HDt H0 Hf. exists (NDt n Dt).
  assert (HD : dispatch hasStep dc n T Dt = Run (NDt n Dt)).
  { unfold dispatch, countsSteps in *. destruct hasStep, (Nat.eqb_spec dc 0); cbn [andb negb]; try (exfalso; apply Hc; split; congruence);
    (destruct (Req_EM_T Dt 0); [lra|]); destruct (Nat.eqb_spec n 0); [lia|reflexivity|lia|reflexivity|lia|reflexivity]. }
  destruct (ndt_schedule getTime advanceBy tstep lineOf save ahStep n Dt fuel sdf si fss continuing h x Hn HDt H0 Hf (fun y => Hadv y Dt HDt)) as (x' & es & r & Hr & Hk & Hend & _).
  exists x', es, r. split; [exact HD|]. split; [exact Hr|]. intros Hs. destruct (Hend Hs) as [-> ->]. split; [apply Hk|].
  rewrite map_map. apply map_ext. intros k. rewrite Hline. apply Hk.
Qed.
Lemma until_end hasStep dc T Dt m fuel sdf si fss continuing h x x' es r : ~ countsSteps hasStep dc -> (0 < Dt)%R -> T <> 0%R -> (getTime x < T)%R -> dispatch hasStep dc 0 T Dt = Run m ->
  runFrom getTime advanceBy tstep lineOf save ahStep fuel m sdf si fss continuing h x = Some (x', es, r) -> ~ In EStopped es ->
  getTime x' = T /\ StronglySorted Rlt (map lineTime (linesOf es)) /\ exists ls, linesOf es = ls ++ [lineOf x'].
Proof.
  intros Hc HDt HT Ht HD Hr Hs.
  assert (Hm : m = EndDt T Dt).
  { revert HD. unfold dispatch, countsSteps in *. destruct hasStep, (Nat.eqb_spec dc 0); cbn [andb negb]; try (exfalso; apply Hc; split; congruence);
    (destruct (Req_EM_T Dt 0); [lra|]); cbn; congruence. }
  subst m. destruct (end_run' getTime advanceBy tstep lineOf save ahStep lineTime (EndDt T Dt) T fuel sdf si fss continuing h x x' es r) as (_ & _ & Hsort & _ & H); try assumption.
  - split; [reflexivity|assumption]. - destruct (H Hs) as [H1 H2]. split; [exact H1|split; [exact Hsort|exact H2]].
Qed.
End Choice.
(** NDt given besides T, dc not used since the trajectory has no steps *)
Lemma choice_case : exists x' es r, @dispatch false 5 3 100 (1/2)%R = Run (NDt 3 (1/2)) /\ crun 4 (NDt 3 (1/2)) 0 true true false 100%nat (1%R, 0%nat) = Some (x', es, r) /\ ~ countsSteps false 5.
Proof.
  destruct ndt_case as (x' & es & r & H & _). exists x', es, r. split; [|split; [exact H|intros [H1 _]; discriminate]].
  unfold dispatch. cbn [andb]. destruct (Req_EM_T (1/2) 0); [lra|reflexivity].
Qed.
