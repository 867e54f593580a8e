(** Renaming the subsystems of a composite. The model is CompositeModel.v. *)
From Coq Require Import List Arith NArith Reals Permutation.
From Verif Require Import Star CReal Arr DensitySpec MasterModel MasterSpec CompositeModel CompositeSpec.
Import ListNotations.

(** [w] renames the subsystems 0...n-1 *)
Definition renaming (n : nat) (w : list nat) : Prop := Permutation w (seq 0 n).
(** ... those of different kinds, i.e. of different dimension, are not confused *)
Definition kinds_kept (dims w : list nat) : Prop := coords w dims = dims.
Definition renamed (w V : list nat) : list nat := map (fun v => nth v w 0) V.
Definition renamedSub (w : list nat) (vp : list nat * parts) : list nat * parts := (renamed w (fst vp), snd vp).
(** the state where each subsystem plays the part of another one *)
Definition moved (w : list nat) (psi : array) : array := fun y => psi (coords w y).
Definition movedLdo (w : list nat) (m : ldo) : ldo :=
  match m with
  | Pure psi => Pure (moved w psi)
  | Mixed rho => Mixed (fun z => rho (coords w (firstn (length w) z) ++ coords w (skipn (length w) z))%list)
  end.
(** the constituents with dynamics are the same after renaming: same objects between renamed subsystems *)
Definition hasH (vp : list nat * parts) : bool := match pHa (snd vp) with Some _ => true | None => false end.
Definition indistinguishable (w : list nat) (subs : list (list nat * parts)) : Prop :=
  Permutation (map (renamedSub w) (filter hasH subs)) (filter hasH subs).
(** the operators of a constituent are those of the object *)
Definition objects {X} (D : list nat -> parts -> X -> Prop) (dims : list nat) (subs : list (list nat * parts)) (of : parts -> X) : Prop :=
  forall vp, In vp subs -> D (coords (fst vp) dims) (snd vp) (of (snd vp)).
(** the place of the [i]-th jump (rate, average) of the [k]-th constituent among all *)
Definition place (count : parts -> nat) (subs : list (list nat * parts)) (k i : nat) : nat := list_sum (map (fun vp => count (snd vp)) (firstn k subs)) + i.
Definition hasU (vp : list nat * parts) : bool := match pEx (snd vp) with Some _ => true | None => false end.
(** ... those propagated exactly are, and no two of them share a subsystem, as the frees do not *)
Definition indistinguishableU (w : list nat) (subs : list (list nat * parts)) : Prop :=
  Permutation (map (renamedSub w) (filter hasU subs)) (filter hasU subs) /\
  forall a b, In a (filter hasU subs) -> In b (filter hasU subs) -> a = b \/ forall v, In v (fst a) -> In v (fst b) -> False.
(** ... those with jumps are *)
Definition hasLi (vp : list nat * parts) : bool := match pLi (snd vp) with Some _ => true | None => false end.
Definition indistinguishableL (w : list nat) (subs : list (list nat * parts)) : Prop :=
  Permutation (map (renamedSub w) (filter hasLi subs)) (filter hasLi subs).
