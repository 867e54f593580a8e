(** What is expected of a step of an array *)
From Coq Require Import List Arith ZArith Bool.
From Verif Require Import Arr GslViewModel.
Import ListNotations.
Local Open Scope nat_scope.

Section Rows.
Context {E T A : Type}.
Variable e0 : E.
(** the elements of an array in memory, row by row, whatever its layout *)
Definition contents (v : view) (m : Z -> E) (x : list nat) : E := m (address v x).
Definition rows (ext : list nat) (f : list nat -> E) : list E := map f (indices ext).
(** the system as one of vectors: an array is made of a vector row by row *)
Definition horner (ext x : list nat) : nat := fold_left (fun a p => a * snd p + fst p) (combine x ext) 0.
Definition asVectors (ext : list nat) (sys : T -> (list nat -> E) -> list nat -> E) (t : T) (y : list E) : list E := rows ext (sys t (fun x => nth (horner ext x) y e0)).
(** the derivative depends upon the elements of the array only *)
Definition local (ext : list nat) (sys : T -> (list nat -> E) -> list nat -> E) : Prop := forall t f g, (forall x, inr ext x -> f x = g x) -> forall x, inr ext x -> sys t f x = sys t g x.
Definition keepsLength (stepApply : nat -> (T -> list E -> list E) -> T -> T -> list E -> bool * list E * A) : Prop :=
  forall n f t dt y ok y' a, stepApply n f t dt y = (ok, y', a) -> length y' = length y.
(** the stepper does with the array what GSL does with the vector of its elements, and changes nothing else *)
Definition evolves (stepApply : nat -> (T -> list E -> list E) -> T -> T -> list E -> bool * list E * A) (hadjust : list E -> A -> T -> T) (plus : T -> T -> T) (half : T -> T)
  (sys : T -> (list nat -> E) -> list nat -> E) (v : view) (m : Z -> E) (t dt : T) (r : @result E T) : Prop :=
  let '(ok, y, a) := stepApply (length (indices (vExt v))) (asVectors (vExt v) sys) t dt (rows (vExt v) (contents v m)) in
  exists m', r = Done m' (if ok then plus t dt else t) (if ok then hadjust y a dt else half dt) ok /\ rows (vExt v) (contents v m') = y /\
             forall z, (forall x, inr (vExt v) x -> z <> address v x) -> m' z = m z.
End Rows.
