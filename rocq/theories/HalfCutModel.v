(** Model of how density operators keep their dimensions: CPPQEDutils/BlitzTinyExtensions.h, CPPQEDcore/quantumdata/DimensionsBookkeeper.h, and the members of DensityOperator.h which use them.

    Simplified: tiny vectors are lists of integers, a component not yet written is 0; the memory of arrays is not modelled (that is AliasModel.v), an array is its shape and its elements by multi-index from 0.
    The outcome of a program is the density operators it leaves behind, or an exception. *)
From Coq Require Import List Arith Bool ZArith.
Import ListNotations.
Local Open Scope nat_scope.

Notation tiny := (list Z).
Fixpoint setAt (t : tiny) (i : nat) (v : Z) : tiny := match t, i with [], _ => [] | _ :: r, 0 => v :: r | x :: r, S k => x :: setAt r k v end.
Definition at_ (t : tiny) (i : nat) : Z := nth i t 0%Z.
(** concatenateTinies, BlitzTinyExtensions.h:27-42: one loop over Ordinals<RANK1>, one over Ordinals<RANK2> *)
Definition concatenateTinies (op1 op2 : tiny) : tiny :=
  let r1 := length op1 in let r2 := length op2 in
  let res := repeat 0%Z (r1 + r2) in
  let res := fold_left (fun res i => setAt res i (at_ op1 i)) (seq 0 r1) res in
  fold_left (fun res i => setAt res (i + r1) (at_ op2 i)) (seq 0 r2) res.
(** halfCutTiny, BlitzTinyExtensions.h:53-75: [None] is std::invalid_argument, which is thrown #ifndef NDEBUG *)
Definition halfCutTiny (debug : bool) (t : tiny) : option tiny :=
  let rank := length t / 2 in
  if debug && existsb (fun i => negb (Z.eqb (at_ t i) (at_ t (i + rank)))) (seq 0 rank) then None
  else Some (fold_left (fun res i => setAt res i (at_ t i)) (seq 0 rank) (repeat 0%Z rank)).
Definition product (t : tiny) : Z := fold_left Z.mul t 1%Z.

Section DensityOperator.
Variable E : Type.
(** blitz::Array *)
Record array := mkArray { aShape : tiny; aElem : list nat -> E }.
(** DimensionsBookkeeper.h:43-44: dimensions_, totalDimension_; ArrayBase.h:92: arrayLow_ *)
Record density := mkDensity { dDims : tiny; dTotal : Z; dArray : array }.
(** DimensionsBookkeeper.h:30, :40 *)
Definition keep (dims : tiny) (a : array) : density := mkDensity dims (product dims) a.
(** DensityOperator.h:58-59: the referencing constructor *)
Definition byReference (debug : bool) (a : array) : option density := option_map (fun d => keep d a) (halfCutTiny debug (aShape a)).
(** DensityOperator.h:61-63: of given dimensions *)
Definition ofDimensions (dims : tiny) (e : list nat -> E) : density := keep dims (mkArray (concatenateTinies dims dims) e).
(** DensityOperator.h:68-73, :79-84: copies *)
Definition copyOf (rho : density) : density := keep (dDims rho) (dArray rho).
(** blitz::Array::transposeSelf(q): extent i of the result is extent q_i of the array, and so are the indices *)
Fixpoint placeOf (o : nat) (q : list nat) : nat := match q with [] => 0 | x :: r => if Nat.eqb x o then 0 else S (placeOf o r) end.
Definition transposed (q : list nat) (a : array) : array :=
  mkArray (map (at_ (aShape a)) q) (fun y => aElem a (map (fun o => nth (placeOf o q) y 0) (seq 0 (length q)))).
(** DensityOperator.h:151-157: the bra indices are rearranged as the ket indices *)
Definition transposeSelf (debug : bool) (p : list nat) (rho : density) : option density :=
  let a := transposed (p ++ map (fun i => i + length p) p) (dArray rho) in
  option_map (fun d => keep d a) (halfCutTiny debug (aShape a)).
(** slices of blitz::Array: [Some i] is an index, [None] is Range::all() *)
Fixpoint keptOf {A : Type} (subs : list (option nat)) (x : list A) : list A :=
  match subs, x with None :: s, v :: r => v :: keptOf s r | Some _ :: s, _ :: r => keptOf s r | _, _ => [] end.
Fixpoint placed (subs : list (option nat)) (y : list nat) : list nat :=
  match subs with
  | [] => []
  | Some i :: s => i :: placed s y
  | None :: s => match y with [] => 0 :: placed s [] | v :: r => v :: placed s r end
  end.
Definition slice (subs : list (option nat)) (a : array) : array := mkArray (keptOf subs (aShape a)) (fun y => aElem a (placed subs y)).
(** DensityOperator.h:142-149, both lists of subscripts the same: diagonalSliceIndex *)
Definition diagonalSliceIndex (debug : bool) (subs : list (option nat)) (rho : density) : option density := byReference debug (slice (subs ++ subs) (dArray rho)).
(** DensityOperator.h:184-185, of arrays whose indices start from 0 *)
Definition lbound (debug : bool) (rho : density) : option tiny := halfCutTiny debug (map (fun _ => 0%Z) (aShape (dArray rho))).
Definition ubound (debug : bool) (rho : density) : option tiny := halfCutTiny debug (map (fun n => (n - 1)%Z) (aShape (dArray rho))).
(** DensityOperator.h:188-191: indexWithTiny *)
Definition index (rho : density) (i j : list nat) : E := aElem (dArray rho) (map Z.to_nat (concatenateTinies (map Z.of_nat i) (map Z.of_nat j))).

(** programs *)
Inductive cmd := NewOf (dims : tiny) (e : list nat -> E) | Reference (a : array) | CopyOf (x : nat) | Transpose (x : nat) (p : list nat) | Slice (x : nat) (subs : list (option nat)).
Definition step (debug : bool) (s : option (list density)) (c : cmd) : option (list density) :=
  match s with
  | None => None
  | Some l =>
    let add o := match o with Some rho => Some (l ++ [rho]) | None => None end in
    match c with
    | NewOf dims e => add (Some (ofDimensions dims e))
    | Reference a => add (byReference debug a)
    | CopyOf x => match nth_error l x with Some rho => add (Some (copyOf rho)) | None => s end
    | Transpose x p => match nth_error l x with
                       | Some rho => match transposeSelf debug p rho with Some rho' => Some (firstn x l ++ rho' :: skipn (S x) l) | None => None end
                       | None => s end
    | Slice x subs => match nth_error l x with Some rho => add (diagonalSliceIndex debug subs rho) | None => s end
    end
  end.
Definition run (debug : bool) (cs : list cmd) : option (list density) := fold_left (step debug) cs (Some []).
End DensityOperator.
Arguments mkArray {E}. Arguments aShape {E}. Arguments aElem {E}. Arguments dDims {E}. Arguments dTotal {E}. Arguments dArray {E}. Arguments byReference {E}. Arguments ofDimensions {E}.
Arguments copyOf {E}. Arguments transposeSelf {E}. Arguments index {E}. Arguments NewOf {E}. Arguments Reference {E}. Arguments CopyOf {E}. Arguments Transpose {E}. Arguments Slice {E}. Arguments diagonalSliceIndex {E}. Arguments lbound {E}. Arguments ubound {E}. Arguments run {E}. Arguments step {E}.
