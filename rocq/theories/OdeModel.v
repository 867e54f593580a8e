(** Model of the adaptive ODE engine: CPPQEDutils/ODE.h, ODE_GSL.h and of the generic evolution functions
    advance/advanceTo, Trajectory.h:39-70. Times and step sizes are real numbers. *)
From Coq Require Import List Arith Reals.
Import ListNotations.
Local Open Scope R_scope.

(** cppqedutils::sign, MathExtensions.cc (GSL_SIGN): +1 for x>=0 *)
Definition sgn (x : R) : bool := if Rle_dec 0 x then true else false.

(** Data members of ode_engine::Base, ODE.h:180, with the counters of DefaultLogger, ODE.h:99-122 *)
Record engine := mkEngine { dtDid : R; dtTry : R; nDerivs : nat; nSteps : nat; nFailed : nat }.

(** constructor, ODE.h:141-144, 180, 120 *)
Definition newEngine (dtInit : R) : engine := mkEngine 0 dtInit 0 0 0.

Section Engine.
Context {State : Type}.

(** Result of a trial step of a controlled stepper, try_step(sys,state&,time&,dt&) -> success|fail, all three
    arguments being modified in place *)
Inductive attempt := Success (st : State) (t dt : R) | Fail (st : State) (t dt : R).
(** with the number of calls of the right-hand side *)
Variable tryStep : State -> R -> R -> attempt * nat.

(** loop of trial steps in Base::step, ODE.h:245-253; counts failures and calls of the right-hand side.
    [None]: more than [fuel] failures. *)
Fixpoint tries (fuel : nat) (st : State) (t dt : R) (fails calls : nat) : option (State * R * R * nat * nat) :=
  match tryStep st t dt with
  | (Success st' t' dt', c) => Some (st', t', dt', fails, calls + c)%nat
  | (Fail st' t' dt', c) =>
      match fuel with
      | O => None
      | S f => tries f st' t' dt' (S fails) (calls + c)%nat
      end
  end.

(** Base::step, ODE.h:234-262; nextDtTryCorrectionFactor=10, line 136 *)
Definition step (fuel : nat) (deltaT : R) (e : engine) (t : R) (st : State) : option (engine * R * State) :=
  let nextDtTry := if Rlt_dec (Rabs deltaT) (Rabs (dtTry e / 10)) then dtTry e else 0 in
  let dt1 := if Bool.eqb (sgn deltaT) (sgn (dtTry e)) then dtTry e else - dtDid e in
  let dt2 := if Rlt_dec (Rabs deltaT) (Rabs dt1) then deltaT else dt1 in
  match tries fuel st t dt2 0 0 with
  | None => None
  | Some (st', t', dt', fails, calls) =>
      Some (mkEngine (t' - t) (if Req_EM_T nextDtTry 0 then dt' else nextDtTry)
                     (nDerivs e + calls) (S (nSteps e)) (nFailed e + fails), t', st')
  end.

(** a sequence of calls of step *)
Fixpoint steps (fuel : nat) (dts : list R) (e : engine) (t : R) (st : State) : option (engine * R * State) :=
  match dts with
  | [] => Some (e, t, st)
  | d :: dts' => match step fuel d e t st with
                 | Some (e', t', st') => steps fuel dts' e' t' st'
                 | None => None
                 end
  end.
End Engine.
Arguments attempt : clear implicits.

(** ControlledErrorStepperGSL::try_step, ODE_GSL.h:44-84. [stepApply] is gsl_odeiv2_step_apply: status (success?),
    new state, error estimate relative to the tolerance, number of calls of the right-hand side; [hadjust] is
    gsl_odeiv2_control_hadjust giving the adjusted step size from error and step size. (GSL_EFAULT/GSL_EBADFUNC
    cannot occur: lowLevelSystemFunction, ODE_GSL.h:88-99, always returns GSL_SUCCESS.) *)
Section GSL.
Context {State : Type}.
Variable stepApply : State -> R -> R -> bool * State * R * nat.
Variable hadjust : R -> R -> R.
Definition gslTryStep (st : State) (t dt : R) : attempt State * nat :=
  match stepApply st t dt with
  | (false, st', _, n) => (Fail st' t (dt * / 2), n)
  | (true, st', err, n) => (Success st' (t + dt) (hadjust err dt), n)
  end.
End GSL.

(** error control object: gsl_odeiv2_control_standard_new(eps_abs,eps_rel,1,1), the tolerated error of a component
    y with derivative y' in a step of size h is eps_abs + eps_rel (|y| + |h y'|) (GSL documentation) *)
Record control := mkControl { ctlAbs : R; ctlRel : R }.
Definition tolerated (c : control) (y hdydt : R) : R := ctlAbs c + ctlRel c * (Rabs y + Rabs hdydt).
(** constructor ControlledErrorStepperGSL(double epsAbs, double epsRel), ODE_GSL.h:30-31 *)
Definition gslStepper (epsAbs epsRel : R) : control := mkControl epsAbs epsRel.
(** ControlledErrorStepperWithParameters, ODE.h:68-76: stepper and the values printed *)
Record stepperWithPars := mkSWP { stepper : control; printedRel : R; printedAbs : R }.
(** MakeControlledErrorStepper<ControlledErrorStepperGSL>::_(epsRel,epsAbs), ODE_GSL.h:112-117:
    aggregate initialisation [{{epsRel,epsAbs},epsRel,epsAbs}] *)
Definition makeGSL (epsRel epsAbs : R) : stepperWithPars := mkSWP (gslStepper epsRel epsAbs) epsRel epsAbs.
(** MakeControlledErrorStepper<controlled_runge_kutta>::_(epsRel,epsAbs), ODE.h:201-206; Boost's
    make_controlled(abs_error,rel_error,stepper) takes the absolute error first (Boost.Odeint documentation) *)
Definition make_controlled (abs_error rel_error : R) : control := mkControl abs_error rel_error.
Definition makeBoost (epsRel epsAbs : R) : stepperWithPars := mkSWP (make_controlled epsRel epsAbs) epsRel epsAbs.

(** advance, Trajectory.h:42-50, for a trajectory with a step function; [None]: more than [fuel] steps.
    The second component collects the times at the end of each step. *)
Section Advance.
Context {Traj : Type}.
Variable getTime : Traj -> R.
Variable tstep : Traj -> R -> option Traj.
Fixpoint advLoop (fuel : nat) (endTime : R) (x : Traj) : option (Traj * list R) :=
  let dt := endTime - getTime x in
  if Req_EM_T dt 0 then Some (x, [])
  else match fuel with
       | O => None
       | S f => match tstep x dt with
                | None => None
                | Some x' => match advLoop f endTime x' with
                             | Some (y, l) => Some (y, getTime x' :: l)
                             | None => None
                             end
                end
       end.
Definition advance (fuel : nat) (x : Traj) (deltaT : R) := advLoop fuel (getTime x + deltaT) x.
(** advanceTo, Trajectory.h:64-68 *)
Definition advanceTo (fuel : nat) (x : Traj) (t : R) := advance fuel x (t - getTime x).
End Advance.

(** A trajectory driven by the ODE engine alone (the forwarding step of Simulated, Simulated_.h): engine, time, state *)
Definition odeTraj (State : Type) : Type := engine * R * State.
Definition odeTime {State} (x : odeTraj State) : R := snd (fst x).
Definition odeStep {State} tryStep (fuel : nat) (x : odeTraj State) (dt : R) : option (odeTraj State) :=
  match x with (e, t, st) => step tryStep fuel dt e t st end.
