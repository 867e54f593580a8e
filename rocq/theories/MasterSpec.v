(** What the Master equation is. Operators on the Hilbert space of dimensions [dims] are functions of ket and bra index. *)
From Coq Require Import List Arith Reals.
From Verif Require Import Star CReal Arr HermSpec MasterModel.
Import ListNotations.

Section MasterSpec.
Context {K : StarRing}.
Local Open Scope K_scope.
Notation op := (list nat -> list nat -> K).

Definition mmul (dims : list nat) (a b : op) : op := fun i j => isum dims (fun k => a i k * b k j).
Definition madd (a b : op) : op := fun i j => a i j + b i j.
Definition msum (l : list op) : op := fun i j => ksum (fun a => a i j) l.
(** the array read as an operator *)
Definition asOp (m : list nat -> K) : op := fun i j => m (i ++ j).
(** the function acts on state vectors as the operator does *)
Definition acts_as (dims : list nat) (f : (list nat -> K) -> (list nat -> K)) (a : op) : Prop :=
  forall psi i, inr dims i -> f psi i = isum dims (fun k => a i k * psi k).
(** a rho a^dagger *)
Definition conjugated (dims : list nat) (a rho : op) : op := mmul dims a (mmul dims rho (dag a)).
(** a channel is described by the operator: the jump acts as it, the superoperator, where implemented, adds J rho J^dagger *)
Definition channel_is (dims : list nat) (c : channel K) (a : op) : Prop :=
  acts_as dims (fst c) a /\
  match snd c with
  | Some super => forall rho d, mmeq dims (asOp (super rho d)) (madd (asOp d) (conjugated dims a (asOp rho)))
  | None => True
  end.

(** U^dagger U = 1 *)
Definition isometric (dims : list nat) (u : op) : Prop :=
  mmeq dims (mmul dims (dag u) u) (fun i j => if listnat_eqb i j then 1 else 0).
End MasterSpec.

Section Lindblad.
Notation op := (list nat -> list nat -> CR).
(** -i(Hnh rho - rho Hnh^dagger) + sum_k J_k rho J_k^dagger *)
Definition lindblad (dims : list nat) (hnh : op) (js : list op) (rho : op) : op :=
  fun i j => kadd (kmul (kopp CI) (ksub (mmul dims hnh rho i j) (mmul dims rho (dag hnh) i j)))
                  (msum (map (fun a => conjugated dims a rho) js) i j).
(** H - i/2 sum_k J_k^dagger J_k *)
Definition nonHermitian (dims : list nat) (h : op) (js : list op) : op :=
  fun i j => ksub (h i j) (kmul (kmul CI (RC (1/2))) (msum (map (fun a => mmul dims (dag a) a) js) i j)).
(** the function (if any) acts as Hnh/i *)
Definition hamiltonian_is (dims : list nat) (h : option ((list nat -> CR) -> (list nat -> CR))) (hnh : op) : Prop :=
  match h with
  | Some f => acts_as dims f (fun i j => kmul (kopp CI) (hnh i j))
  | None => forall i j, hnh i j = k0
  end.
(** (sigma + sigma^dagger) / Re Tr(sigma + sigma^dagger) *)
Definition cleaned (dims : list nat) (sigma : op) : op :=
  fun i j => kmul (RC (/ (2 * cre (mtrace dims sigma)))) (kadd (sigma i j) (dag sigma i j)).
(** the propagator of the system over the time interval is the isometry; there may be none *)
Definition propagator_is (sys : qsystem) (t t0 : R) (u : op) : Prop :=
  match qEx sys with
  | Some f => acts_as (qDims sys) (f t t0) u /\ isometric (qDims sys) u
  | None => forall i j, u i j = if listnat_eqb i j then k1 else k0
  end.
End Lindblad.
