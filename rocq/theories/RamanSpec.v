(** Dark states *)
From Coq Require Import List Arith Bool Reals.
From Verif Require Import Star CReal Arr TriModel ElementModel ElementSpec ModeModel ModeSpec CompositeModel ParticleModel InteractionModel InteractionSpec AverageSpec SigmaModel SigmaSpec CavScriptModel CavScriptSpec RamanModel.
Import ListNotations.
Local Open Scope nat_scope.

(** the atom: detunings, decay of the upper level, pumps *)
Definition lambdaGenerator (e0 e1 : CR) (g0 g1 : R) (deltas : nat -> R) : mat := fun m n =>
  match m, n with
  | 0, 0 => kmul CI (RC (deltas 0)) | 1, 1 => kmul CI (RC (deltas 1)) | 2, 2 => ksub (kmul CI (RC (deltas 2))) (RC (g0 + g1))
  | 0, 2 => kconj e0 | 2, 0 => kopp e0 | 1, 2 => kconj e1 | 2, 1 => kopp e1 | _, _ => k0
  end.
(** the state stays as it is, but for a factor, and does not emit *)
Definition trapped (a : lambdaAtom) (psi : ket) : Prop :=
  (exists l : CR, forall m, m < 3 -> laH a psi (fun _ => k0) m = kmul l (psi m)) /\ Forall (fun j => forall m, m < 3 -> lbJump j psi m = k0) (laLoss a).
(** the two ways up interfere to nothing *)
Definition dark (e0 e1 : CR) (psi : ket) : Prop := psi 2 = k0 /\ kadd (kmul e0 (psi 0)) (kmul e1 (psi 1)) = k0.
(** <psi|rho|psi> *)
Definition populationOf (psi : ket) (rho : mat) : CR := lsum 3 (fun m => lsum 3 (fun n => kmul (kconj (psi m)) (kmul (rho m n) (psi n)))).
(** the atom in the cavity, without jumps *)
Definition cavityGenerator (e g : CR) (g0 g1 : R) (deltas : nat -> R) (q : modePars) : op :=
  plusO (plusO (kron [lambdaGenerator e k0 g0 g1 deltas; one]) (kron [one; modeGenerator q])) (overI (hMLJC (cavityGs g))).
(** g sqrt(n+1) |0, n> - eta |1, n+1> *)
Definition darkPair (e g : CR) (n : nat) : array := fun y =>
  ksub (kmul (kmul g (RC (sqrt (INR (n + 1))))) (unit_state [0; n] y)) (kmul e (unit_state [1; n + 1] y)).
