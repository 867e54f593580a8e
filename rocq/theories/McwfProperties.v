(** C31-C36: Monte Carlo wave-function trajectories. *)
From Coq Require Import List Arith Reals Lra Lia Sorting.Sorted.
From Verif Require Import Star CReal OdeModel DensityModel PureModel McwfModel McwfSpec McwfCases McwfFacts McwfLemmas.
Import ListNotations.
Local Open Scope R_scope.

(** * C31: the state is normalised after every step *)
Theorem C31_norm : forall Rng odeTry (sample : Rng -> R * Rng) sys dpLimit tol,
  (forall f, forward_stepper (odeTry f)) -> keeps_nonzero odeTry sys ->
  (forall li, sysLi sys = Some li -> truthful_rates li) -> (forall rng, 0 <= fst (sample rng)) -> 0 < dpLimit -> 0 < tol ->
  forall psi dtInit rng Dts fuel odeFuel x ev, sqrNorm psi = 1 -> 0 < dtInit -> Forall (Rlt 0) Dts ->
  msteps odeTry sample sys dpLimit tol fuel odeFuel Dts (newTraj sys dpLimit tol psi dtInit rng) = Some (x, ev) -> sqrNorm (tPsi x) = 1.
Proof. exact @norm_fact. Qed.
Print Assumptions C31_norm.
(** the decaying atom jumps into its ground state *)
Example C31_case : (forall f, forward_stepper (eulerTry f)) /\ keeps_nonzero eulerTry atomSys /\ truthful_rates atomLi /\
  exists x ev, msteps eulerTry (fixed (1/1000)) atomSys (1/10) 2 0 0 [1] atom0 = Some (x, ev) /\ tPsi x = vec2 k1 k0 /\ lTraj (tLog x) = [(1/10, 0%nat)].
Proof. exact (conj euler_forward (conj atom_nonzero (conj atom_truthful atom_steps))). Qed.

(** * C32: the jump probability per step is limited. [z] is the trajectory at the beginning of the last attempt, [y] the one after
    its coherent development; a jump may follow. *)
Theorem C32_limited : forall Rng odeTry (sample : Rng -> R * Rng) sys dpLimit tol,
  (forall f, forward_stepper (odeTry f)) -> (forall rng, 0 <= fst (sample rng)) -> 0 < dpLimit -> 0 < tol ->
  forall li, sysLi sys = Some li -> forall fuel odeFuel Dt x r ev, 0 < Dt -> goes_forward sys x ->
  mstep odeTry sample sys dpLimit tol fuel odeFuel Dt x = Some (r, ev) ->
  exists z y : traj Rng, tTime z = tTime x /\ tPsi z = tPsi x /\ coherent odeTry sys odeFuel Dt z = Some y /\
    tTime r = tTime y /\ dtDid (tOde r) = dtDid (tOde y) /\ tTime r = tTime x + dtDid (tOde r) /\
    (jumpsOf ev = [] -> tPsi r = tPsi y) /\
    let rate := total (channelRates li (tTime y) (tPsi y)) in
    rate * dtDid (tOde r) <= tol * dpLimit /\
    (0 < rate -> exists d, getTry r = Fin d /\ d <= dpLimit / rate).
Proof. exact @limited_fact. Qed.
Print Assumptions C32_limited.

(** only finitely many step-backs, if the rates are bounded and the ODE steps return *)
Theorem C32_finite : forall Rng odeTry (sample : Rng -> R * Rng) sys dpLimit tol,
  (forall f, forward_stepper (odeTry f)) -> keeps_nonzero odeTry sys -> 0 < dpLimit -> 1 < tol ->
  forall li Rmax odeFuel Dt (x : traj Rng), sysLi sys = Some li -> 0 < Dt -> 0 < Rmax -> (forall t psi, sqrNorm psi = 1 -> total (channelRates li t psi) <= Rmax) ->
  (forall f e t st, 0 < dtTry e -> step (odeTry f) odeFuel Dt e t st <> None) -> sqrNorm (tPsi x) <> 0 -> goes_forward sys x ->
  exists fuel, mstep odeTry sample sys dpLimit tol fuel odeFuel Dt x <> None.
Proof. exact @finite_fact. Qed.
Print Assumptions C32_finite.
(** a step of size pi with rate 1 is retried, dpLimit being 1/100 *)
Example C32_case : (exists y, coherent eulerTry rotSys 0 PI (rot0 PI) = Some y /\ tTime y = PI /\
    10 * (1/100) < total (channelRates rotLi (tTime y) (tPsi y)) * dtDid (tOde y) /\
    suggested (1/100) (total (channelRates rotLi (tTime y) (tPsi y))) = Fin (1/100)) /\
  exists fuel, mstep eulerTry (fixed (1/2)) rotSys (1/100) 10 fuel 0 PI (rot0 PI) <> None.
Proof. exact (conj rot_overshoots rot_finite). Qed.

(** * C33: which jump happens. [y] is the trajectory after the coherent development of the last attempt, [v] the random number
    divided by the duration. *)
Theorem C33_which : forall Rng odeTry (sample : Rng -> R * Rng) sys dpLimit tol,
  (forall f, forward_stepper (odeTry f)) -> (forall rng, 0 <= fst (sample rng)) -> 0 < dpLimit -> 0 < tol ->
  forall li, sysLi sys = Some li -> forall fuel odeFuel Dt x r ev, 0 < Dt -> goes_forward sys x ->
  mstep odeTry sample sys dpLimit tol fuel odeFuel Dt x = Some (r, ev) ->
  exists z y : traj Rng, tTime z = tTime x /\ tPsi z = tPsi x /\ coherent odeTry sys odeFuel Dt z = Some y /\ tTime y = tTime r /\
    dtDid (tOde y) = dtDid (tOde r) /\ tRng r = snd (sample (tRng x)) /\
    let rates := channelRates li (tTime y) (tPsi y) in
    let v := fst (sample (tRng x)) / dtDid (tOde r) in
    (forall k, jumpsOf ev = [(tTime r, k)] <-> (k < length rates)%nat /\ cumulated k rates < v < cumulated (S k) rates) /\
    (forall k, jumpsOf ev = [(tTime r, k)] -> tPsi r = scaleBy (liJump li (tTime y) (tPsi y) k) (/ sqrt (nth k rates 0))) /\
    (total rates <= v -> jumpsOf ev = []) /\
    (jumpsOf ev = [] -> tPsi r = tPsi y).
Proof. exact @which_fact. Qed.
Print Assumptions C33_which.
(** the interval of channel k has length rate_k: the random numbers choosing it have measure rate_k*dt, none if rate_k=0 *)
Theorem C33_measure : forall rates k, cumulated (S k) rates - cumulated k rates = nth k rates 0.
Proof. exact interval_fact. Qed.
Print Assumptions C33_measure.
Example C33_case : exists r ev, mstep eulerTry (fixed (1/1000)) atomSys (1/10) 2 0 0 1 atom0 = Some (r, ev) /\
  jumpsOf ev = [(1/10, 0%nat)] /\ tPsi r = vec2 k1 k0 /\ tTime r = 1/10.
Proof. exact atom_jumps. Qed.

(** * C34: refuted as stated. With exact propagation, the reference time is not restored: the repeated step differs from the one
    from the original state with the reduced trial step. *)
Theorem C34_step_back_refuted : exists y, coherent eulerTry rotSys 0 PI (rot0 PI) = Some y /\
  10 * (1/100) < total (channelRates rotLi (tTime y) (tPsi y)) * dtDid (tOde y) /\
  suggested (1/100) (total (channelRates rotLi (tTime y) (tPsi y))) = Fin (1/100) /\
  exists r ev r' ev',
  mstep eulerTry (fixed (1/2)) rotSys (1/100) 10 1 0 PI (rot0 PI) = Some (r, ev) /\
  mstep eulerTry (fixed (1/2)) rotSys (1/100) 10 0 0 PI (setTry (Fin (1/100)) (rot0 PI)) = Some (r', ev') /\
  tPsi r <> tPsi r'.
Proof.
  destruct rot_overshoots as (y & E1 & _ & E2 & E3). exact (ex_intro _ y (conj E1 (conj E2 (conj E3 rot_differ)))).
Qed.
Print Assumptions C34_step_back_refuted.
(** What holds: state vector, time, previous step and random engine are restored; reference time too without exact propagation,
    otherwise it is left at the end of the rejected step. *)
Theorem C34_step_back_partial : forall Rng odeTry (sample : Rng -> R * Rng) sys dpLimit tol fuel odeFuel Dt li (x y : traj Rng),
  sysLi sys = Some li -> coherent odeTry sys odeFuel Dt x = Some y ->
  let rate := total (channelRates li (tTime y) (tPsi y)) in
  tol * dpLimit < rate * dtDid (tOde y) ->
  let z := setTry (suggested dpLimit rate) (withT0 (match sysEx sys with Some _ => tTime y | None => tT0 x end) x) in
  match mstep odeTry sample sys dpLimit tol (S fuel) odeFuel Dt x, mstep odeTry sample sys dpLimit tol fuel odeFuel Dt z with
  | Some (r, ev), Some (r', ev') => alike r r' /\ jumpsOf ev = jumpsOf ev'
  | None, None => True
  | _, _ => False
  end.
Proof. exact @step_back_alike. Qed.
Print Assumptions C34_step_back_partial.

(** * C35: the log is truthful *)
Theorem C35_log : forall Rng odeTry (sample : Rng -> R * Rng) sys dpLimit tol,
  (forall f, forward_stepper (odeTry f)) -> 0 < dpLimit -> 0 < tol ->
  forall psi dtInit rng Dts fuel odeFuel x ev, 0 < dtInit -> Forall (Rlt 0) Dts ->
  let x0 := newTraj sys dpLimit tol psi dtInit rng in
  msteps odeTry sample sys dpLimit tol fuel odeFuel Dts x0 = Some (x, ev) ->
  nMCWFsteps (tLog x) = length Dts /\ countOf isDone ev = length Dts /\
  nTolOvershot (tLog x) = countOf isBack ev /\ countOf isNorm ev = (length Dts + countOf isBack ev)%nat /\
  nOvershot (tLog x) = (nOvershot (tLog x0) + countOf isOver ev)%nat /\
  lTraj (tLog x) = jumpsOf ev /\
  is_max 0 (backProbabilities ev) (dpTolMaxOvershoot (tLog x)) /\
  is_max 0 (normDeviations ev) (normMaxDeviation (tLog x)) /\
  (forall t k, In (t, k) (jumpsOf ev) -> 0 < t <= tTime x) /\ StronglySorted Rlt (map fst (jumpsOf ev)).
Proof. exact @log_fact. Qed.
Print Assumptions C35_log.
Example C35_case : exists x ev, msteps eulerTry (fixed (1/1000)) atomSys (1/10) 2 0 0 [1] atom0 = Some (x, ev) /\ tPsi x = vec2 k1 k0 /\ lTraj (tLog x) = [(1/10, 0%nat)].
Proof. exact atom_steps. Qed.

(** * C36: saving and loading. Refuted for an explicitly time-dependent Hamiltonian without exact part: the state saved at time 1
    continues differently after loading. *)
Theorem C36_save_load_refuted : exists x ev, msteps eulerTry (fixed 0) driveSys (1/100) 10 0 0 [1] drive0 = Some (x, ev) /\
  exists r ev1 r' ev2, msteps eulerTry (fixed 0) driveSys (1/100) 10 0 0 [1] x = Some (r, ev1) /\
    msteps eulerTry (fixed 0) driveSys (1/100) 10 0 0 [1] (load (save x) drive0) = Some (r', ev2) /\ tPsi r <> tPsi r'.
Proof. exact drive_differ. Qed.
Print Assumptions C36_save_load_refuted.
(** With exact part the loaded trajectory is the saved one. *)
Theorem C36_exact_partial : forall Rng odeTry (sample : Rng -> R * Rng) sys dpLimit tol,
  (forall f, forward_stepper (odeTry f)) -> 0 < dpLimit -> 0 < tol -> sysEx sys <> None ->
  forall psi dtInit rng Dts fuel odeFuel x ev, 0 < dtInit -> Forall (Rlt 0) Dts ->
  msteps odeTry sample sys dpLimit tol fuel odeFuel Dts (newTraj sys dpLimit tol psi dtInit rng) = Some (x, ev) ->
  forall y : traj Rng, load (save x) y = x.
Proof. exact @load_exact_fact. Qed.
Print Assumptions C36_exact_partial.
Example C36_exact_case : sysEx atomSys <> None /\ exists x ev, msteps eulerTry (fixed (1/1000)) atomSys (1/10) 2 0 0 [1] atom0 = Some (x, ev) /\ tPsi x = vec2 k1 k0 /\ lTraj (tLog x) = [(1/10, 0%nat)].
Proof. split; [discriminate|exact atom_steps]. Qed.
(** Without exact part, and with a Hamiltonian which does not depend on the reference time, the two continue in the same way. *)
Theorem C36_no_exact_partial : forall Rng odeTry (sample : Rng -> R * Rng) sys dpLimit tol, sysEx sys = None ->
  (forall h t psi t0 t0', sysHa sys = Some h -> h t psi t0 = h t psi t0') ->
  forall (x y : traj Rng) Dts fuel odeFuel,
  msteps odeTry sample sys dpLimit tol fuel odeFuel Dts (load (save x) y) =
  option_map (fun p => (withT0 (tTime x) (fst p), snd p)) (msteps odeTry sample sys dpLimit tol fuel odeFuel Dts x).
Proof. exact @load_noexact_fact. Qed.
Print Assumptions C36_no_exact_partial.
Example C36_no_exact_case : let sys := mkSys (Some (noTimeHa (drive 1))) None None in
  sysEx sys = None /\ forall h t psi t0 t0', sysHa sys = Some h -> h t psi t0 = h t psi t0'.
Proof. split; [reflexivity|]. intros h t psi t0 t0' E. injection E as <-. reflexivity. Qed.
