(** What is expected from the drivers. *)
From Coq Require Import List Arith NArith Reals String.
From Verif Require Import Star CReal OdeModel DensityModel PureModel McwfModel DriverModel.
From Verif Require CompositeModel.
Import ListNotations.
Local Open Scope nat_scope.

(** A trajectory alone, with a state of its own. *)
Section Alone.
Context {Rng : Type}.
Variable odeTry : (carr CR -> R -> carr CR) -> carr CR -> R -> R -> attempt (carr CR) * nat.
Variable sample : Rng -> R * Rng.
Variables fuel odeFuel advFuel : nat.
Variable sys : msystem.
Variables dpLimit tol : R.

Definition stepAlone (x : traj Rng) (Dt : R) : option (traj Rng) := option_map fst (mstep odeTry sample sys dpLimit tol fuel odeFuel Dt x).
Definition moveAlone (x : traj Rng) (m : move) : option (traj Rng) :=
  match m with
  | Step Dt => stepAlone x Dt
  | Advance d => option_map fst (advance tTime stepAlone advFuel x d)
  end.
Fixpoint movesAlone (x : traj Rng) (ms : list move) : option (traj Rng) :=
  match ms with
  | [] => Some x
  | m :: ms' => match moveAlone x m with Some y => movesAlone y ms' | None => None end
  end.
End Alone.

(** the trajectory started from psi with the given random stream, and moved *)
Definition aloneFrom {Rng} odeTry (sample : Rng -> R * Rng) (engineOf : N -> N -> Rng) fuel odeFuel advFuel sys dtInit (p : pars) (stream : N)
  (psi : carr CR) (ms : list move) : option (traj Rng) :=
  movesAlone odeTry sample fuel odeFuel advFuel sys (pDpLimit p) (pTolerance p)
    (newTraj sys (pDpLimit p) (pTolerance p) psi dtInit (engineOf (pSeed p) stream)) ms.
(** the i-th stream from the one in the parameters on *)
Definition streamNo (p : pars) (i : nat) : N := ((pStream p + N.of_nat i) mod 2 ^ 64)%N.

Definition numbers (os : list CompositeModel.token) : list R :=
  flat_map (fun tk => match tk with CompositeModel.Num x => [x] | _ => [] end) os.
Definition numbered (os : list CompositeModel.token) : list (nat * string) :=
  flat_map (fun tk => match tk with CompositeModel.Label i s => [(i, s)] | _ => [] end) os.

Definition withNTraj (n : nat) (p : pars) : pars := mkPars (pSeed p) (pStream p) n (pNoise p) (pDpLimit p) (pTolerance p) (pLogLevel p).

(** the titles of the sections of a key *)
Definition titles (os : list CompositeModel.token) : list string :=
  flat_map (fun tk => match tk with CompositeModel.Title s => [s] | _ => [] end) os.
(** the entanglement measures which are switched on, with their names *)
Definition measures (isVEmpty ems0 ems1 ems2 : bool) (n mi pu : R) : list (string * R) :=
  map snd (filter (fun m => andb (negb isVEmpty) (fst m))
    [(ems0, ("negativity"%string, n)); (ems1, ("mutual information"%string, mi)); (ems2, ("purity of partial trace"%string, pu))]).
