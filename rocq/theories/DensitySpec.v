(** What the partial trace of a multi-matrix is. *)
From Coq Require Import List Arith.
From Verif Require Import Star Arr SliceSpec HermSpec DensityModel.
Import ListNotations.

Section DensitySpec.
Context {K : StarRing}.
Local Open Scope K_scope.

(** |psi><psi| *)
Definition pure (psi : list nat -> K) : list nat -> list nat -> K := fun i j => psi i * kconj (psi j).

(** The partial trace of [a] over all subsystems but those in [V]: the element with ket [s] and bra [s'] is the sum of
    the elements of [a] the ket of which has the coordinates [s] at the positions [V], the bra being the same multi-index
    with the coordinates at [V] replaced by [s']. *)
Definition ptr (V dims : list nat) (a : list nat -> list nat -> K) : list nat -> list nat -> K :=
  fun s s' => ksum (fun y => a y (replace_at V s' y))
                (filter (fun y => listnat_eqb (map (fun v => nth v y 0%nat) V) s) (indices dims)).

(** coordinates at the positions [V], and at the other positions in ascending order *)
Definition coords (V y : list nat) : list nat := map (fun v => nth v y 0%nat) V.
Definition others (n : nat) (V : list nat) : list nat :=
  filter (fun o => if in_dec Nat.eq_dec o V then false else true) (seq 0%nat n).

(** a product of a multi-matrix [b] of the subsystems [V] and one [c] of the others *)
Definition product (V dims : list nat) (b c : list nat -> list nat -> K) : list nat -> list nat -> K :=
  fun y y' => b (coords V y) (coords V y') * c (coords (others (length dims) V) y) (coords (others (length dims) V) y').

(** what a label says about the density operator *)
Definition says (P : Parts K) (rho : list nat -> list nat -> K) (lab : label) (v : T P) : Prop :=
  match lab with
  | LDiag i => v = reP P (rho i i)
  | LRe i j => v = reP P (rho i j)
  | LIm i j => v = imP P (rho i j)
  | LSub _ => False
  end.
End DensitySpec.
