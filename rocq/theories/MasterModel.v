(** Model of the Master-equation trajectory: CPPQEDcore/quantumtrajectory/Master.h. The density operator of a system with
    dimensions [dims] is an array with the indices [dims ++ dims], ket indices first. *)
From Coq Require Import List Arith Reals.
From Verif Require Import Star CReal Arr SliceModel HermModel DensityModel PureModel OdeModel.
Import ListNotations.

Section Rhs.
Context {K : StarRing}.
Local Open Scope K_scope.
Notation array := (list nat -> K).

(** In-place modification of an array object through its (injective) view: the cells the view points to are replaced. *)
Definition writeThrough (o : obj K) (m : array) : obj K :=
  mkObj (fun y => match find (fun x => listnat_eqb (oView o x) y) (indices (oShape o)) with Some x => m x | None => oMem o y end)
        (oShape o) (oView o).

(** LeftRight<RANK,Left>, VectorFromMatrixSliceIterator.h:44-47 *)
Definition left (R : nat) : list nat := seq 0 R.
(** for (auto& rhoS : fullRange<Left>(rho)) f(rhoS): the slices of the array as seen through its view *)
Definition forEachLeft (R : nat) (f : array -> array) (o : obj K) : option (obj K) :=
  option_map (writeThrough o) (forEachSlice (fold_right Nat.mul 1%nat (oShape o)) f (left R) (oShape o) (oRead o)).

(** the exact part of Master::step, Master.h:186-193: rhoLow shares the memory of rho_, but has a view of its own, which
    hermitianConjugateSelf transposes; the view of rho_ is the original one. [u] is actWithU(t,.,t0). *)
Definition exactPart (dims : list nat) (u : array -> array) (rho : array) : option array :=
  let R := length dims in
  match forEachLeft R u (mkObj rho (dims ++ dims) (fun y => y)) with
  | Some o1 => match forEachLeft R u (hermitianConjugateSelf R o1) with
               | Some o2 => Some (oMem (conjSelf o2))
               | None => None
               end
  | None => None
  end.

(** linalg::calculateTwoTimesRealPartOfSelf on the matrix view of the array, Master.h:166-169, 200-204
    (blitzplusplus::binaryArray, matrixView) *)
Definition twoRealPart (dims : list nat) (m : array) : array :=
  let mat := calculateTwoTimesRealPartOfSelf (fold_right Nat.mul 1%nat dims)
               (fun a b => m (nth a (indices dims) [] ++ nth b (indices dims) [])) in
  fun y => mat (pos dims (firstn (length dims) y)) (pos dims (skipn (length dims) y)).

(** Hamiltonian part, Master.h:161-169: drhodt=0; the slices of rho and drhodt in parallel (boost::combine), as an array of
    pairs; [h] is what addContribution(t,.,.,t0) adds *)
Definition hamiltonianPart (dims : list nat) (h : option (array -> array)) (rho : array) : option array :=
  let sh := dims ++ dims in
  match h with
  | Some f => option_map (fun m y => snd (m y))
                (forEachSlice (fold_right Nat.mul 1%nat sh)
                   (fun (g : list nat -> K * K) s => (fst (g s), snd (g s) + f (fun s' => fst (g s')) s))
                   (left (length dims)) sh (fun y => (rho y, 0)))
  | None => Some (fun _ => 0)
  end.

(** the fallback if the superoperator is not implemented, Master.h:176-181 *)
Definition resetFallback (dims : list nat) (j : array -> array) (rho drhodt : array) : option array :=
  let R := length dims in
  match forEachLeft R j (mkObj rho (dims ++ dims) (fun y => y)) with
  | Some o1 => match forEachLeft R j (hermitianConjugateSelf R o1) with
               | Some o2 => Some (fun y => drhodt y + oRead o2 y)
               | None => None
               end
  | None => None
  end.

(** Lindblad channels at a given time: actWithJ for each, and actWithSuperoperator where implemented *)
Definition channel : Type := (array -> array) * option (array -> array -> array).
(** the loop over the channels, Master.h:173-183 *)
Fixpoint resetPart (dims : list nat) (cs : list channel) (rho drhodt : array) : option array :=
  match cs with
  | [] => Some drhodt
  | (_, Some super) :: cs' => resetPart dims cs' rho (super rho drhodt)
  | (j, None) :: cs' => match resetFallback dims j rho drhodt with
                        | Some d => resetPart dims cs' rho d
                        | None => None
                        end
  end.
(** the right-hand side, Master.h:157-184 *)
Definition masterRhs (dims : list nat) (h : option (array -> array)) (cs : list channel) (rho : array) : option array :=
  match hamiltonianPart dims h rho with
  | Some d => resetPart dims cs rho (twoRealPart dims d)
  | None => None
  end.
End Rhs.
Arguments channel : clear implicits.

Section Master.
Local Open Scope R_scope.
Notation array := (list nat -> CR).
(** the system: dimensions, H/i at t and t0, the propagator at t and t0, the channels at t *)
Record qsystem := mkQ {
  qDims : list nat;
  qHa : option (R -> R -> array -> array);
  qEx : option (R -> R -> array -> array);
  qLi : R -> list (channel CR);
  qApplicable : bool }.

(** The dispatch by time dependence, TimeDependence.h:18-63, Hamiltonian.h:65-84, as seen by [qHa] *)
Definition oneTimeQ (f : R -> array -> array) (t t0 : R) (psi : array) : array := f (t - t0) psi.
Definition noTimeQ (f : array -> array) (t t0 : R) (psi : array) : array := f psi.

(** DensityOperator::renorm, DensityOperator.h:169-174, of an array *)
Definition renormArray (dims : list nat) (m : array) : array :=
  let tr := rsum (fun i => cre (m (i ++ i))) (indices dims) in fun y => kmul (RC (/ tr)) (m y).

Variable odeTry : (array -> R -> array) -> array -> R -> R -> attempt array * nat.
Variable sys : qsystem.

(** data members, Master.h:109-113 *)
Record master := mkMaster { mTime : R; mT0 : R; mRho : array; mOde : engine }.
(** constructor, Master.h:62-75: [None]: SystemNotApplicable. That
    the state has the dimensions of the system is taken for granted. *)
Definition newMaster (rho : array) (dtInit : R) : option master :=
  if qApplicable sys then Some (mkMaster 0 0 rho (newEngine dtInit)) else None.

(** the function handed to the ODE engine; [rho] itself stands for the impossible failure of slice iteration *)
Definition derivative (t0 : R) (rho : array) (t : R) : array :=
  match masterRhs (qDims sys) (option_map (fun h => h t t0) (qHa sys)) (qLi sys t) rho with Some d => d | None => rho end.

(** step, Master.h:152-208. [None]: the ODE step does not return *)
Definition masterStep (odeFuel : nat) (Dt : R) (x : master) : option master :=
  match step (odeTry (derivative (mT0 x))) odeFuel Dt (mOde x) (mTime x) (mRho x) with
  | None => None
  | Some (e, t, rho) =>
      match (match qEx sys with
             | Some u => exactPart (qDims sys) (u t (mT0 x)) rho
             | None => Some rho
             end) with
      | Some rho' => Some (mkMaster t t (renormArray (qDims sys) (twoRealPart (qDims sys) rho')) e)
      | None => None
      end
  end.
Fixpoint masterSteps (odeFuel : nat) (Dts : list R) (x : master) : option master :=
  match Dts with
  | [] => Some x
  | Dt :: Dts' => match masterStep odeFuel Dt x with Some y => masterSteps odeFuel Dts' y | None => None end
  end.

(** stateIO, Master.h:92-102: saving, and loading into an existing trajectory *)
Definition saveMaster (x : master) : array * R * engine := (mRho x, mTime x, mOde x).
Definition loadMaster (a : array * R * engine) (x : master) : master :=
  match a with (rho, t, e) => mkMaster t t rho e end.
End Master.
