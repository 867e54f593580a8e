(** Specification of slices: which array element is element [s] of the slice labelled [d]. *)
From Coq Require Import List Arith.
From Verif Require Import Star Arr.
Import ListNotations.

(** Retained positions [V] within rank [n]: distinct and in range. *)
Definition good_positions (n : nat) (V : list nat) : Prop := NoDup V /\ (forall v, In v V -> v < n).

(** [y] is the multi-index (of length [n]) whose coordinates at the retained positions are [s], in the order in
    which the positions are listed, and whose coordinates at the other positions are, in ascending order of
    position, [d]. *)
Definition is_element (n : nat) (V d s y : list nat) : Prop :=
  length y = n /\
  map (fun v => nth v y 0) V = s /\
  map (fun o => nth o y 0) (filter (fun o => if in_dec Nat.eq_dec o V then false else true) (seq 0 n)) = d.

Section Ops.
Context {S : StarRing}.
Local Open Scope K_scope.

(** The action of the operator with matrix elements [M s s'] on the subsystems [V] of a state [psi] of
    shape [sh], identity on the others: (M (x) 1) psi. The result at y is the sum over s' of M s s' times psi at
    the index which differs from y only in the coordinates V, where it has s'. *)
Definition replace_at (V : list nat) (s y : list nat) : list nat :=
  map (fun o => match find (fun p => Nat.eqb (fst p) o) (combine V s) with
                | Some (_, x) => x
                | None => nth o y 0%nat end) (seq 0%nat (length y)).

Definition lifted_action (M : list nat -> list nat -> S) (V sh : list nat) (psi : list nat -> S) : list nat -> S :=
  fun y => isum (map (fun v => nth v sh 0%nat) V)
             (fun s' => M (map (fun v => nth v y 0%nat) V) s' * psi (replace_at V s' y)).

(** The operator as a map of arrays over the subsystems alone (matrix times vector). *)
Definition mat_apply (M : list nat -> list nat -> S) (shs : list nat) (g : list nat -> S) : list nat -> S :=
  fun s => isum shs (fun s' => M s s' * g s').
End Ops.
