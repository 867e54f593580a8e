(** C77: the analytic driven damped harmonic oscillator. *)
From Coq Require Import Reals Lra.
From Verif Require Import Star CReal DdhoModel DdhoSpec DdhoProofs.
Local Open Scope R_scope.

(** whatever way Eigen solves the two linear equations of the initial condition, what make returns is the solution of the equation, in all regimes of the damping *)
Theorem C77_solution : forall solve gamma omega y0 v0 t0, solver solve -> 0 <= gamma -> ~ (gamma = 0 /\ omega * omega = 1) ->
  let o := makeDdho solve gamma omega y0 v0 t0 in solution gamma omega y0 v0 t0 (oAmp o) (oAmpDeriv o).
Proof. exact ddho_solution_damped. Qed.
Print Assumptions C77_solution.
(** and there is no other one: a function fulfilling the equation with the same initial condition agrees with the amplitude at all times *)
Theorem C77_unique : forall solve gamma omega y0 v0 t0 y y', solver solve -> 0 <= gamma -> ~ (gamma = 0 /\ omega * omega = 1) ->
  solution gamma omega y0 v0 t0 y y' -> forall t, oAmp (makeDdho solve gamma omega y0 v0 t0) t = y t.
Proof. exact ddho_unique. Qed.
Print Assumptions C77_unique.
(** overdamped, critically damped and undamped, with Cramer's rule *)
Example C77_case : forall t0,
  solution 2 3 (RC 1) CI t0 (oAmp (makeDdho cramer 2 3 (RC 1) CI t0)) (oAmpDeriv (makeDdho cramer 2 3 (RC 1) CI t0)) /\
  solution 1 3 (RC 1) CI t0 (oAmp (makeDdho cramer 1 3 (RC 1) CI t0)) (oAmpDeriv (makeDdho cramer 1 3 (RC 1) CI t0)) /\
  solution 0 3 (RC 1) CI t0 (oAmp (makeDdho cramer 0 3 (RC 1) CI t0)) (oAmpDeriv (makeDdho cramer 0 3 (RC 1) CI t0)).
Proof. intros t0. split; [|split]; apply ddho_solution_damped; try exact cramer_solver; lra. Qed.
