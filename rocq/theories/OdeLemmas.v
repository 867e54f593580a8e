From Coq Require Import List Arith Reals Lra Lia.
From Verif Require Import OdeModel OdeProofs.
Import ListNotations.
Local Open Scope R_scope.

(** a concrete stepper: exact, never fails, proposes the same step again *)
Definition exTry (st : unit) (t dt : R) : attempt unit * nat := (Success tt (t + dt) dt, 6%nat).
(** one that fails once whenever |dt|>1 *)
Definition exTry2 (st : unit) (t dt : R) : attempt unit * nat :=
  if Rlt_dec 1 (Rabs dt) then (Fail tt t (/ 2 * dt), 6%nat) else (Success tt (t + dt) (2 * dt), 6%nat).
Lemma exTry_contract : stepper_contract exTry.
Proof. intros st t dt. reflexivity. Qed.
Lemma exTry_mult : multiplicative exTry.
Proof. intros st t dt. exists 1. cbn. lra. Qed.
Lemma exTry2_contract : stepper_contract exTry2.
Proof.
  intros st t dt. unfold exTry2. destruct (Rlt_dec _ _); cbn [fst]; auto. split; auto. exists (/ 2). lra.
Qed.
Lemma exTry2_finishes : forall st t dt, match fst (exTry2 st t dt) with Success _ _ _ => True
      | Fail st' t' dt' => 1 < Rabs dt /\ Rabs dt' <= / 2 * Rabs dt end.
Proof.
  intros st t dt. unfold exTry2. destruct (Rlt_dec _ _); cbn [fst]; auto. split; auto.
  rewrite Rabs_mult, (Rabs_pos_eq (/ 2)); lra.
Qed.

Ltac absg := repeat match goal with
  | |- context [Rabs ?x] => first [rewrite (Rabs_pos_eq x) by lra | rewrite (Rabs_left x) by lra] end.
Ltac dec1 := match goal with
  | |- context [Rle_dec ?a ?b] => destruct (Rle_dec a b); try (exfalso; lra)
  | |- context [Rlt_dec ?a ?b] => destruct (Rlt_dec a b); try (exfalso; lra)
  | |- context [Req_EM_T ?a ?b] => destruct (Req_EM_T a b); try (exfalso; lra)
  end.
Ltac dec := repeat (absg; dec1; cbn [Bool.eqb]).

(** trial step 3, request 2: a failure, then a step of 1 *)
Lemma exTry2_step : exists e, step exTry2 5 2 (newEngine 3) 0 tt = Some (e, 1, tt) /\ dtDid e = 1 /\ dtTry e = 2 /\ nFailed e = 1%nat /\ nSteps e = 1%nat /\ nDerivs e = 12%nat.
Proof.
  unfold step, newEngine, sgn. cbn [dtTry dtDid nDerivs nSteps nFailed]. dec. 
  cbn [tries]. unfold exTry2 at 1. dec. cbn [tries]. unfold exTry2 at 1. dec.
  eexists; split; [f_equal; f_equal; f_equal; lra|]; cbn; repeat split; try lra; try reflexivity.
Qed.

(** backward steps after a tiny forward step: the second one moves forward *)
Lemma back_goes_forward :
  exists e1 e2 e3,
    step exTry 0 (/ 20) (newEngine 1) 0 tt = Some (e1, / 20, tt) /\
    step exTry 0 (- / 20) e1 (/ 20) tt = Some (e2, 0, tt) /\
    step exTry 0 (- / 20) e2 0 tt = Some (e3, / 20, tt).
Proof.
  exists (mkEngine (/ 20) 1 6 1 0), (mkEngine (- / 20) 1 12 2 0), (mkEngine (/ 20) 1 18 3 0).
  unfold step, newEngine, sgn. cbn [dtTry dtDid nDerivs nSteps nFailed].
  split; [|split].
  all: dec; cbn [tries exTry]; dec; repeat f_equal; try lra.
Qed.

(** trajectories driven by the engine *)
Definition inDirection {State} (dir : R) (x : odeTraj State) : Prop := 0 < dir * dtTry (fst (fst x)).

Lemma ode_progresses {State} (tryStep : State -> R -> R -> attempt State * nat) fuel dir :
  dir * dir = 1 -> stepper_contract tryStep -> multiplicative tryStep ->
  progresses odeTime (odeStep tryStep fuel) inDirection dir.
Proof.
  intros Hdir C M [[e t] st] dt Hi Hd [[e' t'] st'] E. unfold inDirection, odeTime, odeStep in *. cbn [fst snd] in *.
  assert (H : 0 < dt * dtTry e) by (replace (dt * dtTry e) with (dt * dir * (dir * dtTry e)) by (transitivity (dt * dtTry e * (dir * dir)); [ring|rewrite Hdir; ring]); nra).
  destruct (step_within tryStep C _ _ _ _ _ _ _ _ H E) as (A & B & D).
  pose proof (step_same_sign tryStep M _ _ _ _ _ _ _ _ H E) as F.
  assert (Q : forall a, 0 < dt * a -> 0 < dir * a).
  { intros a Ha. assert (0 < (dt * dir) * (dir * a)) by (replace (dt * dir * (dir * a)) with (dt * a * (dir * dir)) by ring; rewrite Hdir; lra). nra. }
  split; [now apply Q|]. split; [|auto]. rewrite Rmult_comm. apply Q. lra.
Qed.

Lemma ode_advance_exact {State} (tryStep : State -> R -> R -> attempt State * nat) fuel fuel' dir (e e' : engine) t t' st st' T l :
  dir * dir = 1 -> stepper_contract tryStep -> multiplicative tryStep ->
  0 < dir * dtTry e -> 0 <= (T - t) * dir ->
  advanceTo odeTime (odeStep tryStep fuel) fuel' (e, t, st) T = Some ((e', t', st'), l) ->
  t' = T /\ 0 < dir * dtTry e' /\ forall s, In s l -> 0 < (s - t) * dir /\ 0 <= (T - s) * dir.
Proof.
  intros Hdir C M Hi Hd E. unfold advanceTo, advance in E.
  change (odeTime (e, t, st)) with t in E. replace (t + (T - t)) with T in E by ring.
  assert (Hd' : 0 < (T - odeTime (e, t, st)) * dir \/ T = odeTime (e, t, st)).
  { change (odeTime (e, t, st)) with t. destruct Hd as [Hd|Hd]; [now left|right]. symmetry in Hd.
    destruct (Rmult_integral _ _ Hd); [lra|subst; lra]. }
  destruct (adv_exact odeTime (odeStep tryStep fuel) inDirection dir fuel' (ode_progresses tryStep fuel dir Hdir C M)
     (e, t, st) T (e', t', st') l Hi Hd' E) as (A & B & D). auto.
Qed.

(** accepted attempts *)
Lemma tries_rollback {State} (tryStep : State -> R -> R -> attempt State * nat) fuel :
  (forall st t dt, match fst (tryStep st t dt) with Success _ _ _ => True | Fail st' t' _ => st' = st /\ t' = t end) ->
  forall st t dt n c st' t' dt' n' c',
  tries tryStep fuel st t dt n c = Some (st', t', dt', n', c') -> exists d0, fst (tryStep st t d0) = Success st' t' dt'.
Proof.
  intros H. induction fuel as [|f IH]; intros st t dt n c st' t' dt' n' c'; cbn [tries]; pose proof (H st t dt) as Hs;
    destruct (tryStep st t dt) as [[s u d|s u d] k] eqn:E; cbn [fst] in Hs; try discriminate.
  - intros X. injection X as -> -> -> _ _. exists dt. now rewrite E.
  - intros X. injection X as -> -> -> _ _. exists dt. now rewrite E.
  - destruct Hs as [-> ->]. apply IH.
Qed.
Lemma step_accepted {State} (tryStep : State -> R -> R -> attempt State * nat) fuel deltaT e t st e' t' st' :
  (forall st t dt, match fst (tryStep st t dt) with Success _ t' _ => t' = t + dt | Fail st' t' _ => st' = st /\ t' = t end) ->
  step tryStep fuel deltaT e t st = Some (e', t', st') ->
  exists dt', fst (tryStep st t (dtDid e')) = Success st' t' dt'.
Proof.
  intros H. unfold step. destruct (tries _ _ _ _ _ _ _) as [[[[[s u] d] n] c]|] eqn:E; [|discriminate].
  intros X; injection X as <- <- <-. cbn [dtDid].
  destruct (tries_rollback tryStep fuel) with (2 := E) as [d0 Hd].
  - intros st0 t0 dt0. specialize (H st0 t0 dt0). destruct (fst (tryStep st0 t0 dt0)); auto.
  - exists d. pose proof (H st t d0) as H0. rewrite Hd in H0. subst u. replace (t + d0 - t) with d0 by ring. exact Hd.
Qed.

(** GSL: whatever the error estimate, a step whose derivatives could be calculated is accepted at the first trial *)
Lemma gsl_accepts {State} (stepApply : State -> R -> R -> bool * State * R * nat) hadjust fuel deltaT e t st st' err n :
  stepApply st t (startDt deltaT e) = (true, st', err, n) ->
  exists e', step (gslTryStep stepApply hadjust) fuel deltaT e t st = Some (e', t + startDt deltaT e, st').
Proof.
  intros H. unfold step. fold (startDt deltaT e).
  assert (E : tries (gslTryStep stepApply hadjust) fuel st t (startDt deltaT e) 0 0 =
              Some (st', t + startDt deltaT e, hadjust err (startDt deltaT e), 0%nat, (0 + n)%nat)).
  { destruct fuel; cbn [tries]; unfold gslTryStep; rewrite H; reflexivity. }
  rewrite E. eexists. reflexivity.
Qed.

Lemma makeGSL_tolerance epsRel epsAbs y hd :
  tolerated (stepper (makeGSL epsRel epsAbs)) y hd - tolerated (mkControl epsAbs epsRel) y hd =
  (epsRel - epsAbs) * (1 - (Rabs y + Rabs hd)).
Proof. unfold tolerated, makeGSL, gslStepper. cbn. ring. Qed.

Lemma advance_all (Traj : Type) (getTime : Traj -> R) (tstep : Traj -> R -> option Traj)
    (inv : R -> Traj -> Prop) dir : dir * dir = 1 ->
  (forall x dt, inv dir x -> 0 < dt * dir -> forall x', tstep x dt = Some x' ->
     inv dir x' /\ 0 < (getTime x' - getTime x) * dir /\ Rabs (getTime x' - getTime x) <= Rabs dt) ->
  (forall fuel x T x' times, inv dir x -> 0 < (T - getTime x) * dir ->
     advanceTo getTime tstep fuel x T = Some (x', times) ->
     getTime x' = T /\ forall s, In s times -> 0 < (s - getTime x) * dir /\ 0 <= (T - s) * dir) /\
  (forall fuel x Dt x' times, inv dir x -> 0 < Dt * dir ->
     advance getTime tstep fuel x Dt = Some (x', times) -> getTime x' = getTime x + Dt) /\
  (forall delta, 0 < delta ->
     (forall x dt, inv dir x -> 0 < dt * dir -> exists x', tstep x dt = Some x' /\ inv dir x' /\
        (getTime x' - getTime x = dt \/ delta <= (getTime x' - getTime x) * dir <= dt * dir)) ->
     forall fuel x Dt, inv dir x -> 0 <= Dt * dir <= INR fuel * delta -> advance getTime tstep fuel x Dt <> None).
Proof.
  intros Hdir P. unfold advanceTo, advance. split; [|split].
  - intros fuel x T x' times Hi Hd. replace (getTime x + (T - getTime x)) with T by ring. intros E.
    destruct (adv_exact getTime tstep inv dir fuel P x T x' times Hi (or_introl Hd) E) as (A & B & D). auto.
  - intros fuel x Dt x' times Hi Hd E.
    refine (proj1 (adv_exact getTime tstep inv dir fuel P x _ x' times Hi _ E)). left. nra.
  - intros delta Hdelta Q fuel x Dt Hi H. apply (adv_returns getTime tstep inv dir delta Hdir Hdelta Q fuel x); auto.
    replace (getTime x + Dt - getTime x) with Dt by ring. auto.
Qed.

Lemma exStep1 dt e t : dtTry e = 1 -> 1 <= dt -> exists e', step exTry 0 dt e t tt = Some (e', t + 1, tt) /\ dtTry e' = 1.
Proof.
  intros H Hd. unfold step, sgn. rewrite H. dec. cbn [tries exTry]. eexists; split; [reflexivity|]. cbn [dtTry]. dec. reflexivity.
Qed.
Lemma exStep2 dt e t : dtTry e = 1 -> / 2 <= dt < 1 -> exists e', step exTry 0 dt e t tt = Some (e', t + dt, tt).
Proof. intros H Hd. unfold step, sgn. rewrite H. dec. cbn [tries exTry]. eexists; reflexivity. Qed.
Lemma exAdvance : exists e', advanceTo odeTime (odeStep exTry 0) 5 (newEngine 1, 0, tt) (5 / 2) =
  Some ((e', 0 + 1 + 1 + (0 + (5 / 2 - 0) - (0 + 1 + 1)), tt), [0 + 1; 0 + 1 + 1; 0 + 1 + 1 + (0 + (5 / 2 - 0) - (0 + 1 + 1))]).
Proof.
  unfold advanceTo, advance. change (odeTime (newEngine 1, 0, tt)) with 0. set (T := 0 + (5 / 2 - 0)).
  assert (HT : T = 5 / 2) by (unfold T; lra).
  cbn [advLoop]. change (odeTime (newEngine 1, 0, tt)) with 0. destruct (Req_EM_T (T - 0) 0); [lra|]. cbn [odeStep].
  destruct (exStep1 (T - 0) (newEngine 1) 0 eq_refl ltac:(lra)) as (e1 & -> & H1).
  change (odeTime (e1, 0 + 1, tt)) with (0 + 1). destruct (Req_EM_T (T - (0 + 1)) 0); [lra|]. cbn [odeStep].
  destruct (exStep1 (T - (0 + 1)) e1 (0 + 1) H1 ltac:(lra)) as (e2 & -> & H2).
  change (odeTime (e2, 0 + 1 + 1, tt)) with (0 + 1 + 1). destruct (Req_EM_T (T - (0 + 1 + 1)) 0); [lra|]. cbn [odeStep].
  destruct (exStep2 (T - (0 + 1 + 1)) e2 (0 + 1 + 1) H2 ltac:(lra)) as (e3 & ->).
  change (odeTime (e3, 0 + 1 + 1 + (T - (0 + 1 + 1)), tt)) with (0 + 1 + 1 + (T - (0 + 1 + 1))).
  destruct (Req_EM_T (T - (0 + 1 + 1 + (T - (0 + 1 + 1)))) 0); [|lra]. exists e3. reflexivity.
Qed.

Lemma reverse_once (State : Type) (tryStep : State -> R -> R -> attempt State * nat) fuel deltaT e t st e' t' st' :
  stepper_contract tryStep -> multiplicative tryStep -> deltaT * dtTry e < 0 -> deltaT * dtDid e < 0 ->
  step tryStep fuel deltaT e t st = Some (e', t', st') ->
  dtDid e' = t' - t /\ 0 < (t' - t) * deltaT /\ Rabs (t' - t) <= Rabs deltaT /\
  (Rabs (dtTry e) / 10 <= Rabs deltaT -> 0 < deltaT * dtTry e').
Proof.
  intros C M H1 H2 E. destruct (step_reverse tryStep C _ _ _ _ _ _ _ _ H1 H2 E) as (A & B & D). repeat split; auto.
  intros Hn. unfold step in E. fold (startDt deltaT e) in E.
  destruct (tries _ _ _ _ _ _ _) as [[[[[s u] d] n] c]|] eqn:Et; [|discriminate].
  injection E as <- <- <-. cbn [dtTry].
  assert (Ha : Rabs (dtTry e / 10) = Rabs (dtTry e) / 10).
  { unfold Rdiv. rewrite Rabs_mult. f_equal. apply Rabs_pos_eq. lra. }
  rewrite Ha. destruct (Rlt_dec (Rabs deltaT) (Rabs (dtTry e) / 10)); [lra|]. destruct (Req_EM_T 0 0); [|lra].
  destruct (tries_mult tryStep M _ _ _ _ _ _ _ _ _ _ _ Et) as [r [Hr ->]].
  unfold startDt. rewrite (sgn_opp _ _ H1). destruct (Rlt_dec (Rabs deltaT) (Rabs (- dtDid e))).
  - assert (H0 : deltaT <> 0) by (intros ->; lra). pose proof (Rsqr_pos_lt _ H0) as H3. unfold Rsqr in H3. nra.
  - nra.
Qed.

Lemma tolerances_swapped make : make = makeGSL \/ make = makeBoost ->
  (exists epsRel epsAbs, ctlRel (stepper (make epsRel epsAbs)) <> epsRel /\
     ctlAbs (stepper (make epsRel epsAbs)) <> epsAbs /\
     printedRel (make epsRel epsAbs) <> ctlRel (stepper (make epsRel epsAbs))) /\
  (forall epsRel epsAbs y hdydt,
     tolerated (stepper (make epsRel epsAbs)) y hdydt - (epsAbs + epsRel * (Rabs y + Rabs hdydt)) =
     (epsRel - epsAbs) * (1 - (Rabs y + Rabs hdydt))).
Proof.
  intros [-> | ->]; (split; [exists 1, 2; cbn; repeat split; lra|intros; unfold tolerated; cbn; ring]).
Qed.
Lemma tolerances_equal make eps : make = makeGSL \/ make = makeBoost ->
  ctlRel (stepper (make eps eps)) = eps /\ ctlAbs (stepper (make eps eps)) = eps.
Proof. intros [-> | ->]; split; reflexivity. Qed.

Lemma gsl_never_rejects (State : Type) (stepApply : State -> R -> R -> bool * State * R * nat) hadjust :
  (forall st t dt, fst (fst (fst (stepApply st t dt))) = true) ->
  forall fuel deltaT e t st, 0 < deltaT * dtTry e ->
  exists e' t' st', step (gslTryStep stepApply hadjust) fuel deltaT e t st = Some (e', t', st') /\
    t' - t = (if Rlt_dec (Rabs deltaT) (Rabs (dtTry e)) then deltaT else dtTry e) /\ nFailed e' = nFailed e.
Proof.
  intros H fuel deltaT e t st Hs. unfold step. fold (startDt deltaT e).
  assert (Es : startDt deltaT e = if Rlt_dec (Rabs deltaT) (Rabs (dtTry e)) then deltaT else dtTry e).
  { unfold startDt. rewrite (eqb_same _ _ Hs). reflexivity. }
  rewrite <- Es. specialize (H st t (startDt deltaT e)).
  destruct (stepApply st t (startDt deltaT e)) as [[[b s] err] n] eqn:E. cbn [fst] in H. subst b.
  assert (T : tries (gslTryStep stepApply hadjust) fuel st t (startDt deltaT e) 0 0 =
              Some (s, t + startDt deltaT e, hadjust err (startDt deltaT e), 0%nat, (0 + n)%nat)).
  { destruct fuel; cbn [tries]; unfold gslTryStep; rewrite E; reflexivity. }
  rewrite T. eexists _, _, _. split; [reflexivity|]. cbn [nFailed]. split; [ring|lia].
Qed.

Lemma accepted_error (State : Type) (tryStep : State -> R -> R -> attempt State * nat)
    (error : State -> R -> R -> R) fuel deltaT e t st e' t' st' :
  (forall st t dt, match fst (tryStep st t dt) with
     | Success _ t' _ => t' = t + dt /\ error st t dt <= 1 | Fail st' t' _ => st' = st /\ t' = t end) ->
  step tryStep fuel deltaT e t st = Some (e', t', st') ->
  t' = t + dtDid e' /\ error st t (dtDid e') <= 1 /\ exists dt', fst (tryStep st t (dtDid e')) = Success st' t' dt'.
Proof.
  intros H E. destruct (step_accepted tryStep fuel deltaT e t st e' t' st') as [dt' X]; auto.
  - intros a b c. specialize (H a b c). destruct (fst (tryStep a b c)); tauto.
  - specialize (H st t (dtDid e')). rewrite X in H. destruct H. eauto.
Qed.

(** ** the log: an observer recording every call of the stepper and its outcome *)
Definition observed {State} (tryStep : State -> R -> R -> attempt State * nat)
    (x : State * list (bool * nat)) (t dt : R) : attempt (State * list (bool * nat)) * nat :=
  match tryStep (fst x) t dt with
  | (Success s t' d', c) => (Success (s, (true, c) :: snd x) t' d', c)
  | (Fail s t' d', c) => (Fail (s, (false, c) :: snd x) t' d', c)
  end.
Definition successes (l : list (bool * nat)) : nat := length (filter fst l).
Definition failures (l : list (bool * nat)) : nat := length (filter (fun x => negb (fst x)) l).
Definition calls (l : list (bool * nat)) : nat := list_sum (map snd l).

Lemma tries_log {State} (tryStep : State -> R -> R -> attempt State * nat) fuel : forall st l t dt n c st' l' t' dt' n' c',
  tries (observed tryStep) fuel (st, l) t dt n c = Some ((st', l'), t', dt', n', c') ->
  (successes l' = S (successes l) /\ failures l' + n = failures l + n' /\ calls l' + c = calls l + c')%nat.
Proof.
  induction fuel as [|f IH]; intros st l t dt n c st' l' t' dt' n' c'; cbn [tries]; unfold observed at 1; cbn [fst snd];
  destruct (tryStep st t dt) as [[s u d|s u d] k]; cbn [fst snd]; try discriminate.
  - intros H; injection H as _ <- _ _ <- <-. unfold successes, failures, calls, list_sum. cbn. lia.
  - intros H; injection H as _ <- _ _ <- <-. unfold successes, failures, calls, list_sum. cbn. lia.
  - intros H. apply IH in H. unfold successes, failures, calls, list_sum in *. cbn in *. lia.
Qed.

Lemma steps_log {State} (tryStep : State -> R -> R -> attempt State * nat) fuel dts : forall e t st l e' t' st' l',
  steps (observed tryStep) fuel dts e t (st, l) = Some (e', t', (st', l')) ->
  (nSteps e' + successes l = nSteps e + successes l' /\ nSteps e' = nSteps e + length dts /\
   nFailed e' + failures l = nFailed e + failures l' /\ nDerivs e' + calls l = nDerivs e + calls l')%nat.
Proof.
  induction dts as [|d dts IH]; intros e t st l e' t' st' l'; cbn [steps].
  - intros H; injection H as <- _ _ <-. cbn. lia.
  - destruct (step (observed tryStep) fuel d e t (st, l)) as [[[e1 t1] [s1 l1]]|] eqn:E; [|discriminate].
    intros H. apply IH in H. unfold step in E.
    destruct (tries _ _ _ _ _ _ _) as [[[[[[s u] d'] w] n] c]|] eqn:T; [|discriminate].
    apply tries_log in T. injection E as <- _ _ <-. cbn [nSteps nFailed nDerivs length] in *. lia.
Qed.
Lemma exLog : exists e s, steps (observed exTry2) 5 [2] (newEngine 3) 0 (tt, []) = Some (e, 1, (s, [(true, 6); (false, 6)]%nat)).
Proof.
  cbn [steps]. unfold step, newEngine, sgn. cbn [dtTry dtDid nDerivs nSteps nFailed]. dec.
  cbn [tries]. unfold observed at 1. cbn [fst snd]. unfold exTry2 at 1. dec. cbn [tries]. unfold observed at 1. cbn [fst snd]. unfold exTry2 at 1. dec.
  cbn [snd]. eexists _, _. repeat f_equal. lra.
Qed.

Lemma gsl_returns {State} (stepApply : State -> R -> R -> bool * State * R * nat) hadjust delta : 0 < delta ->
  (forall st t dt, Rabs dt <= delta -> fst (fst (fst (stepApply st t dt))) = true) ->
  forall deltaT e t st, exists fuel, step (gslTryStep stepApply hadjust) fuel deltaT e t st <> None.
Proof.
  intros Hd H. apply (step_returns _ (/ 2) delta); [lra|auto|]. intros st t dt. unfold gslTryStep.
  destruct (stepApply st t dt) as [[[b s] err] n] eqn:E. destruct b; cbn [fst]; auto. split.
  - destruct (Rlt_le_dec delta (Rabs dt)) as [L|L]; auto. specialize (H st t dt L). rewrite E in H. discriminate H.
  - rewrite Rabs_mult. rewrite (Rabs_pos_eq (/ 2)) by lra. lra.
Qed.
