(** a clock which displays its time *)
From Coq Require Import List Arith Bool Reals Lra Lia.
From Verif Require Import RunModel RunSpec RunProofs RunLemmas TimeAvModel TimeAvSpec TimeAvProofs.
Import ListNotations.
Local Open Scope nat_scope.

Definition tTime (x : R) : R := x.
Definition tAdv (x d : R) : R := (x + d)%R.
Definition tLine (x : R) : sample := (x, [x]).
Definition tSave (x : R) : R := x.
Definition tLoad (s x : R) : option R := Some s.
Definition tGo (h : unit) (s : sample) : option unit := Some h.
Notation tRun := (runFrom tTime tAdv tAdv tLine tSave tGo).
Notation tSession := (session tTime tAdv tAdv tLine tSave tGo).
Notation tSessions := (sessions tTime tAdv tAdv tLine tSave tLoad tGo).
Notation tEvent := (@event R sample R).

Lemma tColumns y : length (snd (tLine y)) = 1.
Proof. reflexivity. Qed.
(** one interval, the state saved with period [sdf] *)
Definition firstEvents (sdf : nat) : list tEvent :=
  match sdf with
  | 1 => [ESave 0%R; ELine (0, [0])%R; EAdvance (0 + 1)%R; ESave (0 + 1)%R; ELine (0 + 1, [0 + 1])%R; ELog]
  | _ => [ELine (0, [0])%R; EAdvance (0 + 1)%R; ELine (0 + 1, [0 + 1])%R; ELog; ESave (0 + 1)%R]
  end.
Definition secondEvents : list tEvent := [EAdvance (0 + 1 + 1)%R; ELine (0 + 1 + 1, [0 + 1 + 1])%R; ELog; ESave (0 + 1 + 1)%R].
Lemma first_run sdf : sdf <= 1 -> exists r, tRun 3 (NDt 1 1) sdf false true false tt 0%R = Some ((0 + 1)%R, firstEvents sdf, r).
Proof.
  intros H. unfold runFrom, timeToReach, tTime. destruct (Req_EM_T (0 + INR 1 * 1) 0) as [Hc|_]; [exfalso; cbn in Hc; lra|].
  destruct (Rle_dec (0 + INR 1 * 1) 0) as [Hc|_]; [exfalso; cbn in Hc; lra|].
  destruct sdf as [|[|sdf]]; [| |lia]; cbv -[Rplus Rmult IZR]; eexists; reflexivity.
Qed.
Lemma second_run : exists r, tRun 3 (NDt 1 1) 0 false true true tt (0 + 1)%R = Some ((0 + 1 + 1)%R, secondEvents, r).
Proof.
  unfold runFrom, timeToReach, tTime. destruct (Req_EM_T (0 + 1 + INR 1 * 1) 0) as [Hc|_]; [exfalso; cbn in Hc; lra|].
  destruct (Rle_dec (0 + 1 + INR 1 * 1) (0 + 1)) as [Hc|_]; [exfalso; cbn in Hc; lra|].
  cbv -[Rplus Rmult IZR]. eexists. reflexivity.
Qed.
Lemma first_session sdf : sdf <= 1 -> tSession false 0%R (0 + 1)%R (firstEvents sdf).
Proof.
  intros H. destruct (first_run sdf H) as [r E]. exists 3, (NDt 1 1), sdf, false, true, tt, r. cbn [timeToReach]. unfold tTime. cbn [INR].
  split; [lra|]. split; [lra|]. exact E.
Qed.
Lemma second_session : tSession true (0 + 1)%R (0 + 1 + 1)%R secondEvents.
Proof.
  destruct second_run as [r E]. exists 3, (NDt 1 1), 0, false, true, tt, r. cbn [timeToReach]. unfold tTime. cbn [INR].
  split; [lra|]. split; [lra|]. exact E.
Qed.
Lemma two_sessions sdf a' : sdf <= 1 -> resumedFrom 0 (constructed 1) (firstEvents sdf) = Some ((0 + 1)%R, a') ->
  tSessions 0%R false 0%R (constructed 1) [(constructed 1, firstEvents sdf); (a', secondEvents)].
Proof.
  intros H E. eapply resumed with (s := (0 + 1)%R) (a' := a') (y := 0%R) (z := (0 + 1)%R); [exact (first_session sdf H)|exact E|reflexivity|].
  eapply only. exact second_session.
Qed.
Lemma resumed_case sdf : sdf <= 1 -> exists a', resumedFrom 0 (constructed 1) (firstEvents sdf) = Some ((0 + 1)%R, a').
Proof. intros H. destruct sdf as [|[|sdf]]; [| |lia]; eexists; reflexivity. Qed.
Lemma means_case : timeMeans 0 [(0, [0]); (0 + 1, [0 + 1]); (0 + 1 + 1, [0 + 1 + 1])]%R 1 = [(3 / 2)%R] /\ timeMeans 0 [(0, [0]); (0 + 1 + 1, [0 + 1 + 1])]%R 1 = [2%R] /\
  timeMeans 0 [(0, [0]); (0 + 1, [0 + 1])]%R 1 = [1%R].
Proof.
  unfold timeMeans, timeMean, total, relaxed. cbn [filter fst].
  destruct (Rlt_dec 0 0) as [Hc|_]; [lra|]. destruct (Rlt_dec 0 (0 + 1)) as [_|Hc]; [|lra]. destruct (Rlt_dec 0 (0 + 1 + 1)) as [_|Hc]; [|lra].
  cbn. repeat split; f_equal; field.
Qed.

Lemma refuted : exists a' es1 es2, tSessions 0%R false 0%R (constructed 1) [(constructed 1, es1); (a', es2)] /\
  linesOf es1 = [(0, [0]); (0 + 1, [0 + 1])]%R /\ linesOf es2 = [(0 + 1 + 1, [0 + 1 + 1])]%R /\
  displayed (fun l => l) 0 a' es2 = [[2%R]] /\ timeMeans 0 (linesOf es1 ++ linesOf es2) 1 = [(3 / 2)%R].
Proof.
  destruct (resumed_case 1 (le_n 1)) as [a' E]. exists a', (firstEvents 1), secondEvents. pose proof (two_sessions 1 a' (le_n 1) E) as H.
  split; [exact H|]. split; [reflexivity|]. split; [reflexivity|]. split; [|exact (proj1 means_case)].
  rewrite (lost tTime tAdv tAdv tLine tSave tLoad tGo (fun l => l) 0 1 tColumns _ _ _ _ _ H).
  - rewrite <- (proj1 (proj2 means_case)). reflexivity.
  - intros (es' & s & Q). cbn in Q. change [ESave 0%R; ELine (0%R, [0%R]); EAdvance (0 + 1)%R; ESave (0 + 1)%R; ELine ((0 + 1)%R, [(0 + 1)%R]); ELog]
      with ([ESave 0%R; ELine (0%R, [0%R]); EAdvance (0 + 1)%R; ESave (0 + 1)%R; ELine ((0 + 1)%R, [(0 + 1)%R])] ++ [@ELog R sample R]) in Q.
    apply app_inj_tail in Q. destruct Q as [_ Q]. discriminate.
Qed.
Lemma partial_case : exists a' es1 es2, tSessions 0%R false 0%R (constructed 1) [(constructed 1, es1); (a', es2)] /\ savedLast es1 /\
  displayed (fun l => l) 0 a' es2 = [[(3 / 2)%R]].
Proof.
  destruct (resumed_case 0 (le_S _ _ (le_n 0))) as [a' E]. exists a', (firstEvents 0), secondEvents. pose proof (two_sessions 0 a' (le_S _ _ (le_n 0)) E) as H.
  assert (SL : savedLast (firstEvents 0)) by (exists [ELine (0, [0])%R; EAdvance (0 + 1)%R; ELine (0 + 1, [0 + 1])%R; ELog], (0 + 1)%R; reflexivity).
  split; [exact H|]. split; [exact SL|].
  destruct (sessions_display tTime tAdv tAdv tLine tSave tLoad tGo (fun l => l) 0 1 tColumns _ _ _ _ H [] (holds_init 0 1)) as (e & E1 & E2).
  - intros e [He|[]]. subst e. exact SL.
  - cbn [last] in E1. subst e. cbn [fst snd] in E2. rewrite E2. rewrite <- (proj1 means_case). reflexivity.
Qed.
Lemma mean_case : exists es, tSession false 0%R (0 + 1)%R es /\ displayed (fun l => l) 0 (constructed 1) es = [[1%R]].
Proof.
  exists (firstEvents 0). split; [exact (first_session 0 (le_S _ _ (le_n 0)))|].
  rewrite (session_display tTime tAdv tAdv tLine tSave tLoad tGo (fun l => l) 0 1 tColumns _ _ _ _ (first_session 0 (le_S _ _ (le_n 0)))).
  rewrite <- (proj2 (proj2 means_case)). reflexivity.
Qed.
Lemma saved_case : exists es r, tRun 3 (NDt 1 1) 1 false true false tt 0%R = Some ((0 + 1)%R, es, r) /\ ~ In EStopped es /\ 1 mod 1 = 0.
Proof.
  destruct (first_run 1 (le_n 1)) as [r E]. exists (firstEvents 1), r. split; [exact E|]. split; [|reflexivity]. cbn. intuition discriminate.
Qed.

Section Wrap.
Context {Traj Saved AH : Type}.
Variable getTime : Traj -> R.
Variable advanceBy tstep : Traj -> R -> Traj.
Variable lineOf : Traj -> sample.
Variable save : Traj -> Saved.
Variable load : Saved -> Traj -> option Traj.
Variable ahStep : AH -> sample -> option AH.
Variable process : list R -> list R.
Variable tau : R.
Variable n : nat.
Hypothesis columns : forall y, length (snd (lineOf y)) = n.
Lemma sessions_last x l : sessions getTime advanceBy tstep lineOf save load ahStep tau false x (constructed n) l ->
  (forall e, In e (removelast l) -> savedLast (snd e)) ->
  exists l' a es, l = l' ++ [(a, es)] /\ displayed process tau a es = [process (timeMeans tau (flat_map (fun e => linesOf (snd e)) l) n)].
Proof.
  intros H Hs. destruct (sessions_display getTime advanceBy tstep lineOf save load ahStep process tau n columns _ _ _ _ H [] (holds_init tau n) Hs) as (e & E1 & E2).
  assert (NE : l <> []) by (inversion H; discriminate).
  exists (removelast l), (fst e), (snd e). split; [|exact E2]. rewrite <- surjective_pairing, <- E1. now apply app_removelast_last.
Qed.
End Wrap.
Section Wrap2.
Context {Traj Saved AH : Type}.
Variable getTime : Traj -> R.
Variable advanceBy tstep : Traj -> R -> Traj.
Variable lineOf : Traj -> sample.
Variable save : Traj -> Saved.
Variable ahStep : AH -> sample -> option AH.
Lemma display_mean process tau n c x x' es : (forall y, length (snd (lineOf y)) = n) -> session getTime advanceBy tstep lineOf save ahStep c x x' es ->
  displayed process tau (constructed n) es = [process (timeMeans tau (linesOf es) n)].
Proof. intros H. exact (session_display getTime advanceBy tstep lineOf save (fun _ _ => None) ahStep process tau n H c x x' es). Qed.
Lemma saved_last_iff N Dt sdf fuel si fss c h x x' es r : (0 < N)%nat -> (0 < Dt)%R -> (getTime x + INR N * Dt <> 0)%R -> ~ In EStopped es ->
  runFrom getTime advanceBy tstep lineOf save ahStep fuel (NDt N Dt) sdf si fss c h x = Some (x', es, r) ->
  savedLast es <-> sdf = 0 \/ N mod sdf <> 0.
Proof. exact (ndt_saved_last getTime advanceBy tstep lineOf save (fun _ _ => None) ahStep (fun l => l) 0 0 N Dt sdf fuel si fss c h x x' es r). Qed.
End Wrap2.
