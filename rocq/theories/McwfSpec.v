(** What an MCWF trajectory should do. *)
From Coq Require Import List Arith Reals.
From Verif Require Import Star CReal OdeModel DensityModel PureModel McwfModel.
Import ListNotations.
Local Open Scope R_scope.

(** The jump rates of the channels in the state psi at time t: as reported by the system if not negative, otherwise the
    squared norm of the jumped state. *)
Definition channelRates (li : liouvillean) (t : R) (psi : carr CR) : list R :=
  map (fun k => let r := nth k (liRates li t psi) 0 in if Rlt_dec r 0 then sqrNorm (liJump li t psi k) else r)
      (seq 0 (length (liRates li t psi))).

(** sum of the first k rates *)
Fixpoint cumulated (k : nat) (rates : list R) : R :=
  match k, rates with
  | S k', r :: rates' => r + cumulated k' rates'
  | _, _ => 0
  end.

(** the system reports nonnegative rates truthfully for normalised states *)
Definition truthful_rates (li : liouvillean) : Prop := forall t psi k, sqrNorm psi = 1 ->
  (k < length (liRates li t psi))%nat -> 0 <= nth k (liRates li t psi) 0 -> sqrNorm (liJump li t psi k) = nth k (liRates li t psi) 0.

(** the ODE stepper and the exact part do not annihilate a nonzero state *)
Definition keeps_nonzero (odeTry : (carr CR -> R -> carr CR) -> carr CR -> R -> R -> attempt (carr CR) * nat) (sys : msystem) : Prop :=
  (forall h t0 psi t dt, sysHa sys = Some h -> sqrNorm psi <> 0 ->
     match fst (odeTry (rhs h t0) psi t dt) with Success psi' _ _ => sqrNorm psi' <> 0 | Fail psi' _ _ => sqrNorm psi' <> 0 end) /\
  (forall u t t0 psi, sysEx sys = Some u -> sqrNorm psi <> 0 -> sqrNorm (u t psi t0) <> 0).

(** the stepper succeeds with the step tried, fails with a reduced one, and never turns round *)
Definition forward_stepper {State} (tryStep : State -> R -> R -> attempt State * nat) : Prop :=
  forall st t dt, match fst (tryStep st t dt) with
    | Success st' t' dt' => t' = t + dt /\ (0 < dt -> 0 < dt')
    | Fail st' t' dt' => t' = t /\ exists f, 0 < f <= 1 /\ dt' = f * dt
    end.

(** Summaries of what happened *)
Definition countOf (p : event -> bool) (ev : list event) : nat := length (filter p ev).
Definition isBack (e : event) : bool := match e with EBack _ => true | _ => false end.
Definition isOver (e : event) : bool := match e with EOver _ => true | _ => false end.
Definition isDone (e : event) : bool := match e with EDone => true | _ => false end.
Definition isNorm (e : event) : bool := match e with ENorm _ => true | _ => false end.
Definition jumpsOf (ev : list event) : list (R * nat) := flat_map (fun e => match e with EJump t k => [(t, k)] | _ => [] end) ev.
(** m is the maximum of m0 and the elements of l *)
Definition is_max (m0 : R) (l : list R) (m : R) : Prop := In m (m0 :: l) /\ forall x, In x (m0 :: l) -> x <= m.
Definition backProbabilities (ev : list event) : list R := flat_map (fun e => match e with EBack p => [p] | _ => [] end) ev.
Definition normDeviations (ev : list event) : list R := flat_map (fun e => match e with ENorm n => [Rabs (1 - n)] | _ => [] end) ev.

(** two trajectories which agree in everything but the log and the statistics of the ODE engine *)
Definition alike {Rng} (x z : traj Rng) : Prop :=
  tTime x = tTime z /\ tT0 x = tT0 z /\ tPsi x = tPsi z /\ dtDid (tOde x) = dtDid (tOde z) /\ getTry x = getTry z /\ tRng x = tRng z.
(** the trial step is positive *)
Definition goes_forward {Rng} (sys : msystem) (x : traj Rng) : Prop :=
  match getTry x with Fin d => 0 < d | Inf => sysHa sys = None end.
(** the trajectory x after the reference time of the exact part has been set to c *)
Definition withT0 {Rng} (c : R) (x : traj Rng) : traj Rng := mkTraj (tTime x) c (tPsi x) (tOde x) (tInf x) (tRng x) (tLog x).
