(** What it means to visit all multi-indices between bounds, once, last index fastest. *)
From Coq Require Import List Arith.
Import ListNotations.

(** [x] lies (componentwise, inclusively) between [lb] and [ub]. *)
Definition between (lb ub x : list nat) : Prop := Forall2 le lb x /\ Forall2 le x ub.

(** Strict lexicographic order. *)
Inductive lex_lt : list nat -> list nat -> Prop :=
| lex_here x y a b : x < y -> length a = length b -> lex_lt (x :: a) (y :: b)
| lex_next x a b : lex_lt a b -> lex_lt (x :: a) (x :: b).

(** The number of multi-indices between the bounds. *)
Fixpoint box_size (lb ub : list nat) : nat :=
  match lb, ub with
  | l :: lb', u :: ub' => (u + 1 - l) * box_size lb' ub'
  | _, _ => 1
  end.
