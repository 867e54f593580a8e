(** What Hermitian conjugation and partial transposition of a multi-matrix mean. *)
From Coq Require Import List Arith.
From Verif Require Import Star Arr.
Import ListNotations.

Section HermSpec.
Context {K : StarRing}.
Local Open Scope K_scope.

(** multi-matrices as functions of the ket and bra multi-indices, over the shape [dims] *)
Definition mmeq (dims : list nat) (a b : list nat -> list nat -> K) : Prop :=
  forall i j, inr dims i -> inr dims j -> a i j = b i j.
Definition dag (a : list nat -> list nat -> K) : list nat -> list nat -> K := fun i j => kconj (a j i).
Definition transp (a : list nat -> list nat -> K) : list nat -> list nat -> K := fun i j => a j i.
Definition hermitian (dims : list nat) (a : list nat -> list nat -> K) : Prop := mmeq dims (dag a) a.
Definition mtrace (dims : list nat) (a : list nat -> list nat -> K) : K := isum dims (fun i => a i i).

(** [i] with the coordinates at the positions [V] taken from [j] *)
Definition take_from (V i j : list nat) : list nat :=
  map (fun o => if in_dec Nat.eq_dec o V then nth o j 0%nat else nth o i 0%nat) (seq 0%nat (length i)).
(** partial transpose: bra and ket coordinates exchanged at the positions [V] *)
Definition ptransp (V : list nat) (a : list nat -> list nat -> K) : list nat -> list nat -> K :=
  fun i j => a (take_from V i j) (take_from V j i).
End HermSpec.
