(** Model of slice iteration: CPPQEDutils/SliceIterator.h, SliceIterator.tcc, TMP_Tools.h.

    A *view* maps a multi-index of the view to a multi-index of the underlying storage (this is what
    blitz strides and transposeSelf amount to); a *memory* maps storage multi-indices to scalars.
    The compile-time vector [V] of retained index positions is a [list nat]. *)
From Coq Require Import List Arith Bool.
From Verif Require Import Arr MultiIndexModel.
Import ListNotations.

(** tmptools::numerical_contains, TMP_Tools.h:88-94 *)
Definition contains (V : list nat) (o : nat) : bool := existsb (Nat.eqb o) V.

(** tmptools::Ordinals<RANK>, TMP_Tools.h:65 *)
Definition ordinals (rank : nat) : list nat := seq 0 rank.

(** tmptools::NegatedView, TMP_Tools.h:222-224: the ordinals not contained in V, in natural order *)
Definition negated (rank : nat) (V : list nat) : list nat := filter (fun o => negb (contains V o)) (ordinals rank).

(** tmptools::ExtendVector, TMP_Tools.h:202-215 *)
Definition extendVector (rank : nat) (V : list nat) : list nat := V ++ map (fun v => v + rank) V.

(** sliceiterator::ConsistencyChecker (general case), SliceIterator.h:55-64 *)
Fixpoint nodupb (V : list nat) : bool :=
  match V with [] => true | v :: V' => negb (contains V' v) && nodupb V' end.
Definition consistent (rank : nat) (V : list nat) : bool :=
  (length V <=? rank) && nodupb V && forallb (fun v => v <? rank) V.

(** ConsistencyChecker for range_c / Range / Ordinals, SliceIterator.h:68-76: range [I1,I2) *)
Definition consistent_range (rank I1 I2 : nat) : bool := I2 <? rank.

(** sliceiterator::filterOut, SliceIterator.h:90-104 *)
Definition filterOut (rank : nat) (V : list nat) (v : list nat) : list nat :=
  map (fun o => nth o v 0) (negated rank V).

(** namehider::Algorithm / TransposerMeta_t, SliceIterator.tcc:77-99: fold over the ordinals, with an
    iterator into V as second component of the accumulator. [None]: dereferencing the end iterator
    (ill-formed program). *)
Fixpoint transposerMeta (V ords rest : list nat) : option (list nat) :=
  match ords with
  | [] => Some []
  | o :: ords' =>
      if contains V o
      then match rest with
           | v :: rest' => option_map (cons v) (transposerMeta V ords' rest')
           | [] => None
           end
      else option_map (cons o) (transposerMeta V ords' rest)
  end.
Definition transposer (rank : nat) (V : list nat) : option (list nat) := transposerMeta V (ordinals rank) V.

(** association lookup *)
Fixpoint lookup (c : nat) (l : list (nat * nat)) : nat :=
  match l with [] => 0 | (k, v) :: l' => if Nat.eqb c k then v else lookup c l' end.

(** blitz::Array::transposeSelf(r_0,...,r_{n-1}): dimension i of the result is dimension r_i of the
    original, that is, index x of the result denotes the original index y with y_{r_i}=x_i. *)
Definition transposeIdx (r x : list nat) : list nat :=
  map (fun c => lookup c (combine r x)) (seq 0 (length r)).

(** IndexerBase::fillIdxValues + Indexer::_, SliceIterator.tcc:29-50, 150-161: Range::all() at positions in V
    (running slice index [s]), next dummy index elsewhere. *)
Fixpoint fillIdx (V ords d s : list nat) : list nat :=
  match ords with
  | [] => []
  | o :: ords' =>
      if contains V o
      then match s with x :: s' => x :: fillIdx V ords' d s' | [] => 0 :: fillIdx V ords' d [] end
      else match d with x :: d' => x :: fillIdx V ords' d' s | [] => 0 :: fillIdx V ords' [] s end
  end.

(** Storage index of element [s] of the slice with dummy index [d]: sliceiterator::Base constructor
    (transposition, SliceIterator.h:328-336) and operator* (indexing, SliceIterator.h:340);
    BaseSpecial (SliceIterator.h:387-399) is the case of an empty [d]. *)
Definition sliceAddr (rank : nat) (V d s : list nat) : option (list nat) :=
  match transposer rank V with
  | Some r => Some (transposeIdx r (fillIdx V (ordinals rank) d s))
  | None => None
  end.

(** Dummy multi-indices visited by fullRange<V>(array), SliceIterator.h:302-343: a MultiIndexIterator
    between filterOut(lbound) and filterOut(ubound). [fuel]: see MultiIndexModel. For Size_v<V>==RANK
    (BaseTrivial, BaseSpecial, SliceIterator.h:357-399) there is one single slice. *)
Definition dummies (fuel rank : nat) (V shape : list nat) : option (list (list nat)) :=
  if Nat.eqb (length V) rank then Some [[]]
  else mii_visit fuel (filterOut rank V (map (fun _ => 0) shape)) (filterOut rank V (map pred shape)).

Section Mem.
Context {A : Type}.
(** Memory (values by storage index) and in-place modification of one element *)
Definition mem := list nat -> A.
Definition upd (m : mem) (a : list nat) (v : A) : mem := fun b => if listnat_eqb a b then v else m b.

(** In-place action of a function [f] (array to array) on a slice: the slice seen by [f] is a reference
    into the memory; all its elements are replaced by those of the result. [addr] gives the storage
    index of a slice index, [sh] is the shape of the slice. *)
Definition actOnSlice (f : mem -> mem) (addr : list nat -> list nat) (sh : list nat) (m : mem) : mem :=
  fold_left (fun m' s => upd m' (addr s) (f (fun s' => m (addr s')) s)) (indices sh) m.

(** boost::for_each(fullRange<V>(psi),f), e.g. BinarySystem.cc, Composite.tcc *)
Definition forEachSlice (fuel : nat) (f : mem -> mem) (V shape : list nat) (m : mem) : option mem :=
  let rank := length shape in
  match transposer rank V, dummies fuel rank V shape with
  | Some r, Some ds =>
      Some (fold_left (fun m' d => actOnSlice f (fun s => transposeIdx r (fillIdx V (ordinals rank) d s))
                                    (map (fun v => nth v shape 0) V) m') ds m)
  | _, _ => None
  end.
End Mem.
