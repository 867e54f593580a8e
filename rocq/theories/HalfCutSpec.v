(** What the dimensions of density operators have to be. *)
From Coq Require Import List Arith ZArith Permutation.
From Verif Require Import HalfCutModel.
Import ListNotations.
Local Open Scope nat_scope.

Definition volume (t : list Z) : Z := fold_right Z.mul 1%Z t.
(** the array has the dimensions twice, the total dimension is their product *)
Definition sound {E} (rho : density E) : Prop := aShape (dArray rho) = dDims rho ++ dDims rho /\ dTotal rho = volume (dDims rho).
(** [p] rearranges the subsystems of what it is applied to; the arrays given have as many indices for kets as for bras *)
Definition reasonable {E} (twofold : bool) (l : list (density E)) (c : cmd E) : Prop :=
  match c with
  | Reference a => if twofold then exists d, aShape a = d ++ d else exists r, length (aShape a) = 2 * r
  | Transpose x p => forall rho, nth_error l x = Some rho -> Permutation p (seq 0 (length (dDims rho)))
  | Slice x subs => forall rho, nth_error l x = Some rho -> length subs = length (dDims rho)
  | _ => True
  end.
Fixpoint reasonableAll {E} (debug twofold : bool) (s : option (list (density E))) (cs : list (cmd E)) : Prop :=
  match cs with [] => True | c :: r => match s with Some l => reasonable twofold l c | None => True end /\ reasonableAll debug twofold (step debug s c) r end.
(** what the subsystem p_i had is had by subsystem i *)
Definition rearranged {A} (z : A) (p : list nat) (x : list A) : list A := map (fun i => nth i x z) p.
(** the subsystems of which all indices are kept, and the multi-indices which are within the slice *)
Definition keptPlaces (subs : list (option nat)) : list nat := filter (fun k => match nth k subs None with None => true | Some _ => false end) (seq 0 (length subs)).
Definition within (subs : list (option nat)) (x : list nat) : Prop := length x = length subs /\ forall k i, nth k subs None = Some i -> nth k x 0 = i.
