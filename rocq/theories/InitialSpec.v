(** What initial states have to be. *)
From Coq Require Import List Arith Reals.
From Verif Require Import Star CReal.
Import ListNotations.
Local Open Scope R_scope.

(** |psi_n|^2 *)
Definition population (psi : list CR) (n : nat) : R := csq (nth n psi k0).
Fixpoint total (p : nat -> R) (n : nat) : R := match n with O => 0 | Datatypes.S m => total p m + p m end.
(** <psi|psi> and <psi|n|psi> *)
Definition normSq (psi : list CR) : R := total (population psi) (length psi).
Definition meanNumber (psi : list CR) : R := total (fun n => INR n * population psi n) (length psi).
(** the annihilation operator gives alpha times the state, as far as levels are there: sqrt(n+1) psi_{n+1}=alpha psi_n *)
Definition eigenstate_of_annihilation (alpha : CR) (psi : list CR) : Prop :=
  forall n, (n + 1 < length psi)%nat -> kmul (RC (sqrt (INR (n + 1)))) (nth (n + 1) psi k0) = kmul alpha (nth n psi k0).
(** the distribution of Poisson *)
Definition poisson (x : R) (n : nat) : R := exp (- x) * x ^ n / INR (fact n).
