(** What a solution of the equation of the driven damped harmonic oscillator is. *)
From Coq Require Import Reals.
From Verif Require Import Star CReal.
Local Open Scope R_scope.

(** f' is the derivative of the complex function f of a real variable *)
Definition cderiv (f f' : R -> CR) : Prop :=
  forall t, derivable_pt_lim (fun s => cre (f s)) t (cre (f' t)) /\ derivable_pt_lim (fun s => cim (f s)) t (cim (f' t)).
(** y''+2 gamma y'+y=exp(i omega t), with the initial condition at t0; y' is given *)
Definition solution (gamma omega : R) (y0 v0 : CR) (t0 : R) (y y' : R -> CR) : Prop :=
  y t0 = y0 /\ y' t0 = v0 /\ cderiv y y' /\
  exists y'', cderiv y' y'' /\ forall t, kadd (kadd (y'' t) (kmul (RC (2 * gamma)) (y' t))) (y t) = cexp (kmul CI (RC (omega * t))).
(** a solver of two linear equations *)
Definition solver (solve : CR -> CR -> CR -> CR -> CR -> CR -> CR * CR) : Prop :=
  forall a b c d u v, ksub (kmul a d) (kmul b c) <> k0 ->
    let (x, y) := solve a b c d u v in kadd (kmul a x) (kmul b y) = u /\ kadd (kmul c x) (kmul d y) = v.
