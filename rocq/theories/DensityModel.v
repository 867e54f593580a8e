(** Model of CPPQEDcore/quantumdata: LazyDensityOperator.h, StateVector.h, DensityOperator.h, ArrayBase.h, with doDirect of
    CPPQEDutils/ComplexArrayExtensions.h and the key labels of CPPQEDelements/utils/AveragingUtils.h. *)
From Coq Require Import List Arith Bool.
From Verif Require Import Star Arr MultiIndexModel SliceModel.
Import ListNotations.

(** Position of an element in the storage of a C-ordered blitz array *)
Fixpoint pos (sh x : list nat) : nat :=
  match sh, x with
  | _ :: sh', i :: x' => i * fold_right Nat.mul 1 sh' + pos sh' x'
  | _, _ => 0
  end.

(** A real number type with real and imaginary parts: stands for [double], real, imag and the constructor of dcomp. *)
Record Parts (K : StarRing) := mkParts {
  T : Type; t0 : T;
  reP : K -> T; imP : K -> T; cplx : T -> T -> K;
  cplx_parts : forall z, cplx (reP z) (imP z) = z;
  reP_cplx : forall x y, reP (cplx x y) = x;
  imP_cplx : forall x y, imP (cplx x y) = y;
  imP_real : forall z, kconj z = z -> imP z = t0;
  cplx_real : forall x, kconj (cplx x t0) = cplx x t0 }.
Arguments T {K}. Arguments t0 {K}. Arguments reP {K}. Arguments imP {K}. Arguments cplx {K}.
Arguments cplx_parts {K}. Arguments reP_cplx {K}. Arguments imP_cplx {K}. Arguments imP_real {K}. Arguments cplx_real {K}.

Section Density.
Context {K : StarRing}.
Local Open Scope K_scope.

(** ** Storage: StateVector and DensityOperator as contiguous C-ordered arrays *)
Record carr := mkCarr { cSh : list nat; cDat : nat -> K }.
Definition cElem (A : carr) (x : list nat) : K := cDat A (pos (cSh A) x).
Definition cSize (A : carr) : nat := fold_right Nat.mul 1%nat (cSh A).

(** doDirect<multiplication>, ComplexArrayExtensions.h:80-95, ComplexArrayExtensions.cc:7: the result regarded as a
    matrix of the sizes of the factors, m=v1(i)*v2(j) *)
Definition doDirect (A B : carr) : carr :=
  mkCarr (cSh A ++ cSh B) (fun p => cDat A (p / cSize B) * cDat B (p mod cSize B)).
(** doDirect<addition>, ComplexArrayExtensions.cc:8 *)
Definition doDirectSum (A B : carr) : carr :=
  mkCarr (cSh A ++ cSh B) (fun p => cDat A (p / cSize B) + cDat B (p mod cSize B)).

(** StateVectorLow(conj(array)) *)
Definition cConj (A : carr) : carr := mkCarr (cSh A) (fun p => kconj (cDat A p)).

(** StateVector::dyad, StateVector.h:160-165; DensityOperator(const StateVector&), DensityOperator.h:65-66 *)
Definition dyad (psi1 psi2 : carr) : carr := doDirect psi1 (cConj psi2).
Definition densityOf (psi : carr) : carr := dyad psi psi.

(** one element of the matrix view (BlitzArrayExtensions.h:82-106) with [dim] columns *)
Definition setDat (d : nat -> K) (p : nat) (v : K) : nat -> K := fun q => if Nat.eqb q p then v else d q.
(** for (i<dim) for (j<dim) matrix(i,j)=F(i,j,matrix(i,j)) *)
Definition matrixLoop (dim : nat) (F : nat -> nat -> K -> K) (d : nat -> K) : nat -> K :=
  fold_left (fun d i => fold_left (fun d j => setDat d (i * dim + j) (F i j (d (i * dim + j)%nat))) (seq 0%nat dim) d)
            (seq 0%nat dim) d.

(** DensityOperator::operator=(const StateVector&), DensityOperator.h:86-94 *)
Definition assignSV (rho psi : carr) : carr :=
  mkCarr (cSh rho) (matrixLoop (cSize psi) (fun i j _ => cDat psi i * kconj (cDat psi j)) (cDat rho)).
(** StateVector::addTo, StateVector.h:173-180 *)
Definition addTo (psi rho : carr) (weight : K) : carr :=
  mkCarr (cSh rho) (matrixLoop (cSize psi) (fun i j m => m + weight * cDat psi i * kconj (cDat psi j)) (cDat rho)).

(** the LazyDensityOperator interface: index(i,j), StateVector.h:192 and DensityOperator.h:188-193 *)
Definition indexSV (psi : carr) (i j : list nat) : K := cElem psi i * kconj (cElem psi j).
Definition indexDO (rho : carr) (i j : list nat) : K := cElem rho (i ++ j).

(** braket, StateVector.h:208-215 *)
Definition braket (psi1 psi2 : carr) : K := ksum (fun p => kconj (cDat psi1 p) * cDat psi2 p) (seq 0%nat (cSize psi1)).

(** DensityOperator::norm, DensityOperator.h:162-167, before taking the real part: sum(m(i,i)) *)
Definition traceDO (dims : list nat) (rho : carr) : K :=
  let dim := fold_right Nat.mul 1%nat dims in ksum (fun i => cDat rho (i * dim + i)%nat) (seq 0%nat dim).

(** ** Iteration over multi-indices: Iterator etalon(dims-1,mii::begin) *)
Definition zeros (dims : list nat) : list nat := map (fun _ => 0%nat) dims.
Definition itNext (dims i : list nat) : list nat := mii_incr (zeros dims) (map pred dims) i.
(** the indices from [i] until the end *)
Definition itFrom (fuel : nat) (dims i : list nat) : option (list (list nat)) :=
  mii_loop fuel (zeros dims) (map pred dims) i.

Section Parts.
Context (P : Parts K).

(** deflate, LazyDensityOperator.h:168-195. [m i j] is matrix.index(i,j). The result array is filled in order, the
    list being what has been written, [length acc] the variable idx. *)
(** lines 181-182 *)
Fixpoint deflateDiag (fuel dim : nat) (dims i : list nat) (m : list nat -> list nat -> K) (acc : list (T P)) :=
  if length acc <? dim
  then match fuel with
       | O => None
       | S f => deflateDiag f dim dims (itNext dims i) m (acc ++ [reP P (m i i)])
       end
  else Some acc.
(** lines 184-190 *)
Fixpoint deflateOff (fuel dim : nat) (dims i : list nat) (m : list nat -> list nat -> K) (acc : list (T P)) :=
  if length acc <? dim * dim
  then match fuel, itFrom fuel dims (itNext dims i) with
       | S f, Some js => deflateOff f dim dims (itNext dims i) m (acc ++ flat_map (fun j => [reP P (m i j); imP P (m i j)]) js)
       | _, _ => None
       end
  else Some acc.
Definition deflate (fuel : nat) (dims : list nat) (m : list nat -> list nat -> K) (offDiagonals : bool) : option (list (T P)) :=
  let dim := fold_right Nat.mul 1%nat dims in
  match deflateDiag fuel dim dims (zeros dims) m [] with
  | Some acc => if offDiagonals then deflateOff fuel dim dims (zeros dims) m acc else Some acc
  | None => None
  end.

(** inflate, DensityOperator.h:212-233 *)
Definition rset (m : list nat -> list nat -> K) (i j : list nat) (v : K) : list nat -> list nat -> K :=
  fun a b => if listnat_eqb a i && listnat_eqb b j then v else m a b.
(** lines 222-223 *)
Fixpoint inflateDiag (fuel dim : nat) (dims i : list nat) (fl : nat -> T P) (idx : nat) (m : list nat -> list nat -> K) :=
  if idx <? dim
  then match fuel with
       | O => None
       | S f => inflateDiag f dim dims (itNext dims i) fl (S idx) (rset m i i (cplx P (fl idx) (t0 P)))
       end
  else Some (idx, m).
(** lines 228-231: the loop over j *)
Fixpoint inflateRow (js : list (list nat)) (i : list nat) (fl : nat -> T P) (idx : nat) (m : list nat -> list nat -> K) :=
  match js with
  | [] => (idx, m)
  | j :: js' => let el := cplx P (fl idx) (fl (S idx)) in
                inflateRow js' i fl (idx + 2) (rset (rset m i j el) j i (kconj el))
  end.
(** lines 227-231 *)
Fixpoint inflateOff (fuel dim : nat) (dims i : list nat) (fl : nat -> T P) (idx : nat) (m : list nat -> list nat -> K) :=
  if idx <? dim * dim
  then match fuel, itFrom fuel dims (itNext dims i) with
       | S f, Some js => let (idx', m') := inflateRow js i fl idx m in inflateOff f dim dims (itNext dims i) fl idx' m'
       | _, _ => None
       end
  else Some (idx, m).
Definition inflate (fuel : nat) (dims : list nat) (fl : nat -> T P) (m : list nat -> list nat -> K) (offDiagonals : bool) :=
  let dim := fold_right Nat.mul 1%nat dims in
  match inflateDiag fuel dim dims (zeros dims) fl 0%nat m with
  | Some (idx, m1) => if offDiagonals then option_map snd (inflateOff fuel dim dims (zeros dims) fl idx m1) else Some m1
  | None => None
  end.

(** densityOperatorize, DensityOperator.h:238-257, into a zero-initialised density operator. (As written, line 242 uses
    getDimension(), which exists for RANK==1 only; modelled with getDimensions() for any rank.) *)
Fixpoint densRow (js : list (list nat)) (i : list nat) (m res : list nat -> list nat -> K) :=
  match js with
  | [] => res
  | j :: js' => densRow js' i m (rset (rset res i j (m i j)) j i (kconj (m i j)))
  end.
Fixpoint densLoop (fuel : nat) (dims : list nat) (is : list (list nat)) (m res : list nat -> list nat -> K) :=
  match is with
  | [] => Some res
  | i :: is' => match itFrom fuel dims (itNext dims i) with
                | Some js => densLoop fuel dims is' m (densRow js i m (rset res i i (cplx P (reP P (m i i)) (t0 P))))
                | None => None
                end
  end.
Definition densityOperatorize (fuel : nat) (dims : list nat) (m : list nat -> list nat -> K) : option (list nat -> list nat -> K) :=
  match itFrom fuel dims (zeros dims) with
  | Some is => densLoop fuel dims is m (fun _ _ => 0)
  | None => None
  end.

(** ** Slices and partial trace *)
(** element [s] of slice [d] of a state vector: Transposer (StateVector::transposeSelf, StateVector.h:133-139) and Indexer
    (sliceIndex, StateVector.h:124-131) *)
Definition sliceSV (rank : nat) (V : list nat) (psi : list nat -> K) (d : list nat) : option (list nat -> K) :=
  match transposer rank V with
  | Some r => Some (fun s => psi (transposeIdx r (fillIdx V (ordinals rank) d s)))
  | None => None
  end.
(** the same of a density operator: transposeSelf(subs...,subs+RANK...) and getArray()(subs...,subs...),
    DensityOperator.h:141-157; [arr] is indexed by all 2*RANK indices *)
Definition sliceDO (rank : nat) (V : list nat) (arr : list nat -> K) (d : list nat) : option (list nat -> list nat -> K) :=
  match transposer rank V with
  | Some r => Some (fun s s' => arr (transposeIdx (r ++ map (fun v => (v + rank)%nat) r)
                                       (fillIdx V (ordinals rank) d s ++ fillIdx V (ordinals rank) d s')))
  | None => None
  end.

(** partialTrace, LazyDensityOperator.h:125-138: [slice] gives the slices, [f] the function, [plus] the addition of its
    values. [None]: no first slice to dereference, or a failing call. *)
Definition partialTrace {SL RES : Type} (fuel rank : nat) (V dims : list nat)
    (slice : list nat -> option SL) (f : SL -> option RES) (plus : RES -> RES -> RES) : option RES :=
  match dummies fuel rank V dims with
  | Some (d0 :: ds) =>
      match slice d0 with
      | Some sl0 =>
        fold_left (fun acc d => match acc, slice d with
                                | Some res, Some sl => option_map (plus res) (f sl)
                                | _, _ => None end) ds (f sl0)
      | None => None
      end
  | _ => None
  end.
Definition mplus (a b : list nat -> list nat -> K) : list nat -> list nat -> K := fun i j => a i j + b i j.
Definition shapeOf (V dims : list nat) : list nat := map (fun v => nth v dims 0%nat) V.

(** reduce for LazyDensityOperator being a StateVector, DensityOperator.h:259-264 *)
Definition reduceSV (fuel : nat) (V dims : list nat) (psi : list nat -> K) : option (list nat -> list nat -> K) :=
  partialTrace fuel (length dims) V dims (sliceSV (length dims) V psi)
    (fun sl => densityOperatorize fuel (shapeOf V dims) (fun i j => sl i * kconj (sl j))) mplus.
(** reduce for DensityOperator, DensityOperator.h:273-278 *)
Definition reduceDO (fuel : nat) (V dims : list nat) (arr : list nat -> K) : option (list nat -> list nat -> K) :=
  partialTrace fuel (length dims) V dims (sliceDO (length dims) V arr) Some mplus.

(** ** Key labels of ReducedDensityOperator, AveragingUtils.h:41-79; a label is represented by what it says:
    rho_i;i, real[rho_i;j], imag[rho_i;j], or one of the labels given by the caller *)
Inductive label := LDiag (i : list nat) | LRe (i j : list nat) | LIm (i j : list nat) | LSub (n : nat).
Fixpoint labelsOff (fuel : nat) (dims : list nat) (is : list (list nat)) : option (list label) :=
  match is with
  | [] => Some []
  | i :: is' => match itFrom fuel dims (itNext dims i), labelsOff fuel dims is' with
                | Some js, Some r => Some (flat_map (fun j => [LRe i j; LIm i j]) js ++ r)
                | _, _ => None
                end
  end.
Definition keyLabels (fuel : nat) (dims : list nat) (offDiagonals : bool) (subsequent : list nat) : option (list label) :=
  match itFrom fuel dims (zeros dims) with
  | Some is => let diag := map LDiag is in
               if offDiagonals
               then option_map (fun off => diag ++ off ++ map LSub subsequent) (labelsOff fuel dims is)
               else Some diag
  | None => None
  end.
End Parts.
End Density.
Arguments carr : clear implicits.
