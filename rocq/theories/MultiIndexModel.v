(** Model of CPPQEDutils/MultiIndexIterator.h (class MultiIndexIterator).

    A multi-index is a [list nat] (blitz::TinyVector<int,RANK>); the C++ [int] indices are modelled by
    natural numbers (all bounds in the framework are lbound/ubound of 0-based arrays). RANK is the common
    length of the lists. *)
From Coq Require Import List Arith.
Import ListNotations.

(** MultiIndexIterator::doIt<N>, MultiIndexIterator.h:90-98. The recursion runs from the last index
    towards index 0; lists are reversed here, so that the head is [idx_(N)]. The clause for a
    one-element list is the [N==0] branch, line 97: index 0 is incremented without looking at the bound. *)
Fixpoint doIt (lb ub idx : list nat) : list nat :=
  match idx, lb, ub with
  | [i], _, _ => [S i]
  | i :: idx', l :: lb', u :: ub' =>
      if Nat.eqb i u then l :: doIt lb' ub' idx' else S i :: idx'
  | _, _, _ => []
  end.

(** operator++, MultiIndexIterator.h:71 *)
Definition mii_incr (lb ub idx : list nat) : list nat := rev (doIt (rev lb) (rev ub) (rev idx)).

(** begin: idx_=lbound_; end: idx_=ubound_ then ++ : MultiIndexIterator.h:54-57, 82-86 *)
Definition mii_begin (lb ub : list nat) : list nat := lb.
Definition mii_end (lb ub : list nat) : list nat := mii_incr lb ub ub.

(** operator==, MultiIndexIterator.h:78: comparison of the indices only *)
Fixpoint idx_eqb (a b : list nat) : bool :=
  match a, b with
  | [], [] => true
  | x :: a', y :: b' => Nat.eqb x y && idx_eqb a' b'
  | _, _ => false
  end.

(** The canonical loop [for (it=begin; it!=end; ++it) visit( *it )]. [None] if [fuel] increments do not
    suffice to reach the end; otherwise the visited multi-indices in order of visit. *)
Fixpoint mii_loop (fuel : nat) (lb ub idx : list nat) : option (list (list nat)) :=
  if idx_eqb idx (mii_end lb ub) then Some []
  else match fuel with
       | O => None
       | S f => match mii_loop f lb ub (mii_incr lb ub idx) with
                | Some l => Some (idx :: l)
                | None => None
                end
       end.

Definition mii_visit (fuel : nat) (lb ub : list nat) := mii_loop fuel lb ub (mii_begin lb ub).
