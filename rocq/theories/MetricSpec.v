(** Transformations as matrices; bases which are not orthogonal. *)
From Coq Require Import List Arith Bool Reals.
From Verif Require Import Star CReal Arr MetricModel.
Import ListNotations.

Section Spec.
Context {K : StarRing}.
Notation op := (list nat -> list nat -> K).
(** the transformation of arrays of these dimensions is multiplication with the matrix *)
Definition has_matrix (t : @trafo K) (dims : list nat) (m : op) : Prop :=
  length dims = rankOf t /\
  match t with
  | Identity _ => forall y x, m y x = if listnat_eqb y x then k1 else k0
  | Matrix _ m' => forall y x, inr dims y -> inr dims x -> m y x = m' y x
  | Function _ f => forall psi y, inr dims y -> f psi y = isum dims (fun x => kmul (m y x) (psi x))
  end.
(** transformations with the dimensions they act on and with their matrices *)
Definition part := (@trafo K * list nat * op)%type.
Definition trafosOf (ps : list part) : list trafo := map (fun p => fst (fst p)) ps.
Definition dimsOf (ps : list part) : list nat := concat (map (fun p => snd (fst p)) ps).
Definition valid (ps : list part) : Prop := Forall (fun p => has_matrix (fst (fst p)) (snd (fst p)) (snd p)) ps.
(** the tensor product of the matrices *)
Fixpoint tensorOf (ps : list part) : op :=
  fun y x => match ps with
  | [] => k1
  | (_, ds, m) :: ps' => let n := length ds in kmul (m (firstn n y) (firstn n x)) (tensorOf ps' (skipn n y) (skipn n x))
  end.
Definition factors (ps : list part) : nat := length (filter notIdentity (trafosOf ps)).
(** the matrix of a transformation of either kind *)
Definition matrix_of (t : transformation) (dims : list nat) (m : op) : Prop :=
  exists ps, valid ps /\ getTrafos t = trafosOf ps /\ dims = dimsOf ps /\ m = tensorOf ps.
End Spec.

(** vectors e_x of a space; the vector with these components, its length squared; the metric *)
Definition vectorOf (dims : list nat) (e : list nat -> list nat -> CR) (psi : list nat -> CR) : list nat -> CR := fun a => isum dims (fun x => kmul (psi x) (e x a)).
Definition lengthSq (space : list nat) (v : list nat -> CR) : CR := isum space (fun a => kmul (kconj (v a)) (v a)).
Definition metric (space : list nat) (e : list nat -> list nat -> CR) : list nat -> list nat -> CR := fun y x => isum space (fun a => kmul (kconj (e y a)) (e x a)).
(** the transformation of the state vector is the metric of the basis *)
Definition on_basis (v : nosv) (space : list nat) (e : list nat -> list nat -> CR) : Prop :=
  exists m, matrix_of (nTrafo v) (nDims v) m /\ forall y x, inr (nDims v) y -> inr (nDims v) x -> m y x = metric space e y x.
Definition lengthOf (v : nosv) (space : list nat) (e : list nat -> list nat -> CR) : R := sqrt (cre (lengthSq space (vectorOf (nDims v) e (nPsi v)))).
