(** What exchanging state files with Python should mean. *)
From Coq Require Import String Ascii List Arith ZArith Bool.
From Verif Require Import Arr StateFileModel PyStateModel.
Import ListNotations.
Local Open Scope nat_scope.

(** what is written in an archive is what is read ([fits]: integers which can be represented); integers and floating-point numbers take 8 bytes each; an archive does not begin with a digit *)
Record lawful {D} (c : codec D) (fits : nat -> Prop) : Prop := mkLawful {
  meta_back : forall m r, decMeta c (encMeta c m ++ r) = Some (m, r);
  meta_begins : forall m, exists b l, encMeta c m = b :: l /\ isDigit b = false;
  nat_back : forall n r, fits n -> decNat c (encNat c n ++ r) = Some (n, r);
  nat_size : forall n, length (encNat c n) = 8;
  nat_takes : forall l n r, decNat c l = Some (n, r) -> length l = 8 + length r;
  number_back : forall d r, decD c (encD c d ++ r) = Some (d, r);
  number_size : forall d, length (encD c d) = 8;
  number_takes : forall l d r, decD c l = Some (d, r) -> length l = 8 + length r }.
(** arrays of the given type of elements and rank *)
Definition well_stored {D} (fits : nat -> Prop) (k : kind) (rank : nat) (a : stored (D := D)) : Prop :=
  length (extents a) = rank /\ length (numbers a) = size (extents a) * width k /\ fits (size (extents a)) /\ forall n, In n (extents a) -> fits n.
(** the element of an ndarray with the given subscripts *)
Definition place (strides : list Z) (x : list nat) : Z := fold_right Z.add 0%Z (map (fun p => (Z.of_nat (fst p) * snd p)%Z) (combine x strides)).
Definition element {D} (a : npArray (D := D)) (x : list nat) : list D := npMemory a (place (npStrides a) x).
(** its elements, the last subscript running fastest *)
Definition contents {D} (a : npArray (D := D)) : stored (D := D) := mkStored (npShape a) (flat_map (element a) (indices (npShape a))).
(** an array of numbers without gaps, the last subscript running fastest in memory *)
Fixpoint rowMajor (sh : list nat) : list Z := match sh with [] => [] | n :: sh' => Z.of_nat (size sh') :: rowMajor sh' end.
Definition contiguous {D} (a : npArray (D := D)) : Prop := npStrides a = rowMajor (npShape a).
Definition elements_of {D} (a : npArray (D := D)) (k : kind) : Prop := forall z, length (npMemory a z) = width k.
