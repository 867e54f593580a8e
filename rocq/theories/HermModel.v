(** Model of Hermitian conjugation and partial transposition of multi-matrices:
    CPPQEDutils/ComplexArrayExtensions.h, CPPQEDutils/CMatrix.cc, CPPQEDcore/quantumdata/EntanglementMeasures.h.

    A multi-matrix of rank R is an array with 2R indices, the first R being the ket (row) indices. *)
From Coq Require Import List Arith Bool.
From Verif Require Import Star Arr SliceModel.
Import ListNotations.

Section Herm.
Context {K : StarRing}.
Local Open Scope K_scope.

(** details::helpHermitianConjugate, ComplexArrayExtensions.h:112-117: the arguments of transposeSelf are
    R,...,2R-1,0,...,R-1 *)
Definition hermPerm (R : nat) : list nat := seq R R ++ seq 0%nat R.

(** A blitz array object: the memory it refers to, its shape, and its view (multi-index -> storage index). Copies of
    the object share the memory but have a view of their own. *)
Record obj := mkObj { oMem : list nat -> K; oShape : list nat; oView : list nat -> list nat }.
Definition oRead (o : obj) (x : list nat) : K := oMem o (oView o x).

(** blitz::Array::transposeSelf: only shape and view change *)
Definition transposeSelf (r : list nat) (o : obj) : obj :=
  mkObj (oMem o) (map (fun i => nth i (oShape o) 0%nat) r) (fun x => oView o (transposeIdx r x)).

(** [array=conj(array)]: the memory cells seen by the view are overwritten *)
Definition conjSelf (o : obj) : obj :=
  mkObj (fun y => if existsb (fun x => listnat_eqb (oView o x) y) (indices (oShape o)) then kconj (oMem o y) else oMem o y)
        (oShape o) (oView o).

(** hermitianConjugateSelf, ComplexArrayExtensions.h:40-46 *)
Definition hermitianConjugateSelf (R : nat) (o : obj) : obj := transposeSelf (hermPerm R) (conjSelf o).

(** hermitianConjugate, ComplexArrayExtensions.h:49-56: the new array is C-ordered with fresh memory *)
Definition hermitianConjugate (R : nat) (o : obj) : obj :=
  transposeSelf (hermPerm R) (mkObj (fun x => kconj (oRead o x)) (oShape o) (fun x => x)).

(** linalg::calculateTwoTimesRealPartOfSelf, CMatrix.cc:14-30. [2.*real(z)] is z plus its conjugate. *)
Definition mat := nat -> nat -> K.
Definition mset (m : mat) (i j : nat) (v : K) : mat :=
  fun a b => if Nat.eqb a i && Nat.eqb b j then v else m a b.
Definition twoReOff (i : nat) (m : mat) (j : nat) : mat :=
  let v := m i j + kconj (m j i) in mset (mset m i j v) j i (kconj v).
Definition twoReRow (dim : nat) (m : mat) (i : nat) : mat :=
  fold_left (twoReOff i) (seq (S i) (dim - S i)) (mset m i i (m i i + kconj (m i i))).
Definition calculateTwoTimesRealPartOfSelf (dim : nat) (m : mat) : mat :=
  fold_left (twoReRow dim) (seq 0%nat dim) m.

(** negPT, EntanglementMeasures.h:45-62: the list ExtendV *)
Definition ptPerm (R : nat) (V : list nat) : list nat :=
  map (fun o => if contains V o then (o + R)%nat else o) (ordinals R) ++
  map (fun o => if contains V (o - R) then (o - R)%nat else o) (seq R R).

(** negPT, EntanglementMeasures.h:64-68: a copy of the array object (sharing the data) is transposed by
    sliceiterator::Transposer (SliceIterator.tcc:136-146), and its content copied into the new array the eigenvalues of
    which are taken. [None]: the list of transpositions is ill-formed. *)
Definition partialTranspose (R : nat) (V : list nat) (o : obj) : option obj :=
  match transposer (2 * R) (ptPerm R V) with
  | Some r => let sh := transposeSelf r o in Some (mkObj (oRead sh) (oShape sh) (fun x => x))
  | None => None
  end.
End Herm.
Arguments obj : clear implicits.
Arguments mat : clear implicits.
