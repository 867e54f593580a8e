(** What the exact propagators are: exp of the time interval times the eigenvalue of the generator. *)
From Coq Require Import Reals List Arith.
From Verif Require Import Star CReal FreeExactModel.

(** eigenvalue number [i] of H/i: of z a^dagger a (z S_z up to a constant), and of the kinetic energy omrec k^2 *)
Definition eigenvalue (e : element) (i : nat) : CR :=
  match e with
  | EMode z => kmul (RC (- INR i)) z
  | ESpin gamma omega => kmul (RC (- INR i)) ((gamma, omega) : CR)
  | EParticle omrec k => ((0, - (omrec * (k i * k i))) : CR)%R
  end.
