(** C01-C06, C55: the adaptive ODE engine and the functions advance/advanceTo. [tryStep] is any controlled stepper;
    [stepper_contract]: a successful trial step advances the time by the step tried, a failed one leaves the time
    and rescales the step by a factor in (0,1]. *)
From Coq Require Import List Arith Reals Lra Lia.
From Verif Require Import OdeModel OdeProofs OdeLemmas OdeFloat.
Import ListNotations.
Local Open Scope R_scope.

(** C01 *)
Theorem C01_step_within_interval : forall (State : Type) (tryStep : State -> R -> R -> attempt State * nat)
    fuel deltaT e t st e' t' st',
  stepper_contract tryStep -> 0 < deltaT * dtTry e -> step tryStep fuel deltaT e t st = Some (e', t', st') ->
  dtDid e' = t' - t /\ 0 < (t' - t) * deltaT /\ Rabs (t' - t) <= Rabs deltaT.
Proof. exact (fun State tryStep fuel deltaT e t st e' t' st' C => step_within tryStep C fuel deltaT e t st e' t' st'). Qed.
Print Assumptions C01_step_within_interval.
(** and a step does return if the stepper succeeds with small enough step sizes and failures shrink the step *)
Theorem C01_step_returns : forall (State : Type) (tryStep : State -> R -> R -> attempt State * nat) q delta,
  0 < q < 1 -> 0 < delta ->
  (forall st t dt, match fst (tryStep st t dt) with Success _ _ _ => True
      | Fail st' t' dt' => delta < Rabs dt /\ Rabs dt' <= q * Rabs dt end) ->
  forall deltaT e t st, exists fuel, step tryStep fuel deltaT e t st <> None.
Proof. exact @step_returns. Qed.
Print Assumptions C01_step_returns.
Example C01_case : stepper_contract exTry2 /\ exists e, step exTry2 5 2 (newEngine 3) 0 tt = Some (e, 1, tt) /\ dtDid e = 1 /\
   dtTry e = 2 /\ nFailed e = 1%nat /\ nSteps e = 1%nat /\ nDerivs e = 12%nat.
Proof. exact (conj exTry2_contract exTry2_step). Qed.
(** the GSL stepper meets the contract, and with it a step returns if the GSL algorithm succeeds for small step sizes *)
Theorem C01_gsl_stepper : forall State (stepApply : State -> R -> R -> bool * State * R * nat) hadjust,
  stepper_contract (gslTryStep stepApply hadjust) /\
  (forall delta, 0 < delta -> (forall st t dt, Rabs dt <= delta -> fst (fst (fst (stepApply st t dt))) = true) ->
   forall deltaT e t st, exists fuel, step (gslTryStep stepApply hadjust) fuel deltaT e t st <> None).
Proof. exact (fun State sa ha => conj (gsl_contract sa ha) (gsl_returns sa ha)). Qed.
Print Assumptions C01_gsl_stepper.
Example C01_gsl_case :
  let sa := fun (st : unit) (t dt : R) => (if Rle_dec (Rabs dt) 1 then true else false, st, 0, 6%nat) in
  forall st t dt, Rabs dt <= 1 -> fst (fst (fst (sa st t dt))) = true.
Proof. exact (fun st t dt H => match Rle_dec (Rabs dt) 1 as d return (if d then true else false) = true with left _ => eq_refl | right n => match n H with end end). Qed.

(** C02 *)
Theorem C02_tiny_step_memory : forall (State : Type) (tryStep : State -> R -> R -> attempt State * nat)
    fuel deltaT e t st e' t' st',
  step tryStep fuel deltaT e t st = Some (e', t', st') ->
  (Rabs deltaT < Rabs (dtTry e) / 10 -> dtTry e' = dtTry e) /\
  (Rabs (dtTry e) / 10 <= Rabs deltaT -> exists s0 t0 d0, fst (tryStep s0 t0 d0) = Success st' t' (dtTry e')).
Proof. exact @step_memory. Qed.
Print Assumptions C02_tiny_step_memory.
Example C02_case : exists e1, step exTry 0 (/ 20) (newEngine 1) 0 tt = Some (e1, / 20, tt) /\ dtTry e1 = 1.
Proof.
  destruct back_goes_forward as (e1 & e2 & e3 & H & _). exists e1. split; [exact H|].
  apply (proj1 (C02_tiny_step_memory _ _ _ _ _ _ _ _ _ _ H)). rewrite !Rabs_pos_eq; cbn; lra.
Qed.

(** C03: for any trajectory. dir=+1/-1 is the direction of time; [inv] any invariant of the trajectory. *)
Theorem C03_advance_exact : forall (Traj : Type) (getTime : Traj -> R) (tstep : Traj -> R -> option Traj)
    (inv : R -> Traj -> Prop) dir, dir * dir = 1 ->
  (* step moves the time in the right direction and by at most what is asked for *)
  (forall x dt, inv dir x -> 0 < dt * dir -> forall x', tstep x dt = Some x' ->
     inv dir x' /\ 0 < (getTime x' - getTime x) * dir /\ Rabs (getTime x' - getTime x) <= Rabs dt) ->
  (forall fuel x T x' times, inv dir x -> 0 < (T - getTime x) * dir ->
     advanceTo getTime tstep fuel x T = Some (x', times) ->
     getTime x' = T /\ forall s, In s times -> 0 < (s - getTime x) * dir /\ 0 <= (T - s) * dir) /\
  (forall fuel x Dt x' times, inv dir x -> 0 < Dt * dir ->
     advance getTime tstep fuel x Dt = Some (x', times) -> getTime x' = getTime x + Dt) /\
  (* and with steps bounded from below (except the closing one) it returns *)
  (forall delta, 0 < delta ->
     (forall x dt, inv dir x -> 0 < dt * dir -> exists x', tstep x dt = Some x' /\ inv dir x' /\
        (getTime x' - getTime x = dt \/ delta <= (getTime x' - getTime x) * dir <= dt * dir)) ->
     forall fuel x Dt, inv dir x -> 0 <= Dt * dir <= INR fuel * delta -> advance getTime tstep fuel x Dt <> None).
Proof. exact @advance_all. Qed.
Print Assumptions C03_advance_exact.
(** ... and for the ODE engine with any stepper meeting the contract and never reversing the step *)
Theorem C03_engine_advance_exact : forall (State : Type) (tryStep : State -> R -> R -> attempt State * nat)
    fuel fuel' dir (e e' : engine) t t' st st' T times,
  dir * dir = 1 -> stepper_contract tryStep -> multiplicative tryStep ->
  0 < dir * dtTry e -> 0 <= (T - t) * dir ->
  advanceTo odeTime (odeStep tryStep fuel) fuel' (e, t, st) T = Some ((e', t', st'), times) ->
  t' = T /\ 0 < dir * dtTry e' /\ forall s, In s times -> 0 < (s - t) * dir /\ 0 <= (T - s) * dir.
Proof. exact @ode_advance_exact. Qed.
Print Assumptions C03_engine_advance_exact.
(** three steps: 1, 1 and 1/2 *)
Example C03_case : exists e', advanceTo odeTime (odeStep exTry 0) 5 (newEngine 1, 0, tt) (5 / 2) =
  Some ((e', 0 + 1 + 1 + (0 + (5 / 2 - 0) - (0 + 1 + 1)), tt), [0 + 1; 0 + 1 + 1; 0 + 1 + 1 + (0 + (5 / 2 - 0) - (0 + 1 + 1))]).
Proof. exact exAdvance. Qed.

(** C04 is false: an engine that has not stepped yet never moves backward, whatever the stepper (rescaling by positive
    factors) and however many steps are requested; and a sequence of requests exists, the last of which being a backward
    one that moves forward *)
Theorem C04_backward_refuted :
  (forall (State : Type) (tryStep : State -> R -> R -> attempt State * nat),
     stepper_contract tryStep -> multiplicative tryStep ->
     forall fuel dtInit dts t st e' t' st', 0 <= dtInit -> (forall d, In d dts -> d < 0) ->
     steps tryStep fuel dts (newEngine dtInit) t st = Some (e', t', st') -> t' = t) /\
  (exists e1 e2 e3,
    step exTry 0 (/ 20) (newEngine 1) 0 tt = Some (e1, / 20, tt) /\
    step exTry 0 (- / 20) e1 (/ 20) tt = Some (e2, 0, tt) /\
    step exTry 0 (- / 20) e2 0 tt = Some (e3, / 20, tt)).
Proof.
  exact (conj (fun State tryStep C M fuel dtInit dts t st e' t' st' Hi Hn =>
    back_stuck_forever tryStep C M fuel dts (newEngine dtInit) t st e' t' st' Hn eq_refl Hi) back_goes_forward).
Qed.
Print Assumptions C04_backward_refuted.
Example C04_witness : stepper_contract exTry /\ multiplicative exTry.
Proof. exact (conj exTry_contract exTry_mult). Qed.
(** What holds: a reversal directly after a step in the opposite direction; and if it is not a tiny one, the trial step
    is reversed also, so that C01 applies to the following steps *)
Theorem C04_backward_partial : forall (State : Type) (tryStep : State -> R -> R -> attempt State * nat)
    fuel deltaT e t st e' t' st',
  stepper_contract tryStep -> multiplicative tryStep -> deltaT * dtTry e < 0 -> deltaT * dtDid e < 0 ->
  step tryStep fuel deltaT e t st = Some (e', t', st') ->
  dtDid e' = t' - t /\ 0 < (t' - t) * deltaT /\ Rabs (t' - t) <= Rabs deltaT /\
  (Rabs (dtTry e) / 10 <= Rabs deltaT -> 0 < deltaT * dtTry e').
Proof. exact @reverse_once. Qed.
Print Assumptions C04_backward_partial.

(** C05 is false: the two tolerances are exchanged (GSL: within this repository; Boost: by Boost's parameter order) *)
Theorem C05_tolerances_refuted : forall make, make = makeGSL \/ make = makeBoost ->
  (exists epsRel epsAbs, ctlRel (stepper (make epsRel epsAbs)) <> epsRel /\
     ctlAbs (stepper (make epsRel epsAbs)) <> epsAbs /\
     printedRel (make epsRel epsAbs) <> ctlRel (stepper (make epsRel epsAbs))) /\
  (* the error actually tolerated versus the one configured *)
  (forall epsRel epsAbs y hdydt,
     tolerated (stepper (make epsRel epsAbs)) y hdydt - (epsAbs + epsRel * (Rabs y + Rabs hdydt)) =
     (epsRel - epsAbs) * (1 - (Rabs y + Rabs hdydt))).
Proof. exact tolerances_swapped. Qed.
Print Assumptions C05_tolerances_refuted.
Theorem C05_tolerances_partial : forall make eps, make = makeGSL \/ make = makeBoost ->
  ctlRel (stepper (make eps eps)) = eps /\ ctlAbs (stepper (make eps eps)) = eps.
Proof. exact tolerances_equal. Qed.
Print Assumptions C05_tolerances_partial.

(** C06 is false for the GSL stepper: a trial step is accepted at once whatever its error *)
Theorem C06_error_control_refuted : forall (State : Type) (stepApply : State -> R -> R -> bool * State * R * nat) hadjust,
  (* gsl_odeiv2_step_apply succeeds, as it does for any system that can be evaluated *)
  (forall st t dt, fst (fst (fst (stepApply st t dt))) = true) ->
  forall fuel deltaT e t st, 0 < deltaT * dtTry e ->
  exists e' t' st', step (gslTryStep stepApply hadjust) fuel deltaT e t st = Some (e', t', st') /\
    t' - t = (if Rlt_dec (Rabs deltaT) (Rabs (dtTry e)) then deltaT else dtTry e) /\ nFailed e' = nFailed e.
Proof. exact @gsl_never_rejects. Qed.
Print Assumptions C06_error_control_refuted.
(** What holds: the engine accepts only what the stepper itself accepts: if the stepper's successes satisfy the error
    bound (Boost's do) and its failures leave state and time alone, so does every accepted step *)
Theorem C06_error_control_partial : forall (State : Type) (tryStep : State -> R -> R -> attempt State * nat)
    (error : State -> R -> R -> R) fuel deltaT e t st e' t' st',
  (forall st t dt, match fst (tryStep st t dt) with
     | Success _ t' _ => t' = t + dt /\ error st t dt <= 1 | Fail st' t' _ => st' = st /\ t' = t end) ->
  step tryStep fuel deltaT e t st = Some (e', t', st') ->
  t' = t + dtDid e' /\ error st t (dtDid e') <= 1 /\ exists dt', fst (tryStep st t (dtDid e')) = Success st' t' dt'.
Proof. exact @accepted_error. Qed.
Print Assumptions C06_error_control_partial.

(** C55: in double precision the loop of advance ends exactly at the end time after at most one corrective iteration *)
Theorem C55_advance_double : forall e t, is_double e -> is_double t -> 0 <= t < e ->
  closing e (closing e t) = e /\ (closing e t = e \/ Rabs (closing e t - e) <= Ulp.ulp Zaux.radix2 b64 e).
Proof. exact closing_twice. Qed.
Print Assumptions C55_advance_double.
(** the corrective iteration is needed here *)
Example C55_case : is_double exE /\ is_double exT /\ 0 <= exT < exE /\ closing exE exT = 1 /\ closing exE exT <> exE.
Proof. exact exMiss_all. Qed.

(** C56: the totals in the log are the numbers of successful and failed trial steps and of calls of the right-hand side
    that an observer of the stepper counts; one step per request *)
Theorem C56_ode_log : forall (State : Type) (tryStep : State -> R -> R -> attempt State * nat)
    fuel dts dtInit t st e' t' st' record,
  steps (observed tryStep) fuel dts (newEngine dtInit) t (st, []) = Some (e', t', (st', record)) ->
  nSteps e' = length dts /\ nSteps e' = successes record /\ nFailed e' = failures record /\ nDerivs e' = calls record.
Proof.
  exact (fun State tryStep fuel dts dtInit t st e' t' st' record H =>
   let '(conj a (conj b (conj c d))) := steps_log tryStep fuel dts (newEngine dtInit) t st [] e' t' st' record H in
   ltac:(cbn in *; lia)).
Qed.
Print Assumptions C56_ode_log.
(** two requests, three trial steps *)
Example C56_case : exists e s, steps (observed exTry2) 5 [2] (newEngine 3) 0 (tt, []) = Some (e, 1, (s, [(true, 6); (false, 6)]%nat)).
Proof. exact exLog. Qed.
(** C06: a stepper with error estimate hundred times the tolerance *)
Example C06_case : let stepApply := fun (st : unit) (t dt : R) => (true, tt, 100, 6%nat) in
  forall st t dt, fst (fst (fst (stepApply st t dt))) = true.
Proof. reflexivity. Qed.
