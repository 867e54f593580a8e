(** Model of the metric transformations, CPPQEDcore/quantumdata/Transformation.h, .tcc, .cc, and of NonOrthogonalStateVector.h, .tcc.
    Arrays of blitz refer to storage, so that their addresses are modelled. Simplified: shapes are those of the state; the loop over slices
    (fullRange, begin, modelled elsewhere) writes all slices at once, which is so as long as it does not read the storage it writes; that the two coincide is a separate outcome. *)
From Coq Require Import List Arith Bool Reals.
From Verif Require Import Star CReal Arr.
Import ListNotations.

Section Metric.
Context {K : StarRing}.
Notation tensor := (list nat -> K).

(** Identity<RANK>, CArray<TWO_TIMES_RANK>, void( * )(const CArray<RANK>&, CArray<RANK>&): Transformation.h:27-30, 58-93 *)
Inductive trafo := Identity (rank : nat) | Matrix (rank : nat) (m : list nat -> list nat -> K) | Function (rank : nat) (f : tensor -> tensor).
(** Traits::N_RANK *)
Definition rankOf (t : trafo) : nat := match t with Identity r => r | Matrix r _ => r | Function r _ => r end.
(** NotIdentity, Transformation.tcc:58-65 *)
Definition notIdentity (t : trafo) : bool := match t with Identity _ => false | _ => true end.
(** Traits::transform, Transformation.h:58-93, and performTransformation, Transformation.cc:17-26, where ranks 1 and 2 are present *)
Definition performed (t : trafo) (dims : list nat) (psi : tensor) : tensor :=
  match t with Identity _ => psi | Matrix _ m => fun y => isum dims (fun x => kmul (m y x) (psi x)) | Function _ f => f psi end.

(** Algorithm, Transformation.tcc:68-82: where the transformations which are not identities begin *)
Definition algorithm (ts : list trafo) : list nat :=
  fst (fold_left (fun vo t => (if notIdentity t then fst vo ++ [snd vo] else fst vo, snd vo + rankOf t)) ts ([], 0)).
(** zip, Transformation.tcc:133-137 *)
Definition zip (ts : list trafo) : list (trafo * nat) := combine (filter notIdentity ts) (algorithm ts).

(** for_each(fullRange(in,Range()),begin(buf_,Range()),transform), Transformation.tcc:181-183; Range: rank indices beginning with o *)
Definition transformSlices (dims : list nat) (t : trafo) (o : nat) (psi : tensor) : tensor :=
  let r := rankOf t in
  fun y => performed t (firstn r (skipn o dims)) (fun z => psi (firstn o y ++ z ++ skipn (o + r) y)) (firstn r (skipn o y)).

(** the storage: that of arrays existing before, and of buf, Transformation.tcc:143 *)
Inductive addr := Given (n : nat) | Buffer.
Definition addr_eq_dec (a b : addr) : {a = b} + {a <> b}.
Proof. decide equality. apply Nat.eq_dec. Defined.
Definition write (mem : addr -> tensor) (a : addr) (v : tensor) : addr -> tensor := fun b => if addr_eq_dec b a then v else mem b.
(** the storage, and what in, out_ and buf_ refer to. The declaration "StateVectorLow& out_, buf_;" makes a reference of out_ only, but buf_ refers to the storage of buf *)
Record state := mkState { mem : addr -> tensor; inA : addr; outA : addr; bufA : addr }.
(** TransformSubsystem::doIt, Transformation.tcc:172-186; [None]: a loop overwrites what it reads *)
Definition transformSubsystem (dims : list nat) (s : option state) (t : trafo * nat) : option state :=
  match s with
  | None => None
  | Some s => if addr_eq_dec (inA s) (bufA s) then None
              else Some (mkState (write (mem s) (bufA s) (transformSlices dims (fst t) (snd t) (mem s (inA s)))) (bufA s) (bufA s) (outA s))
  end.
(** Composite::transform, doTransform, Transformation.tcc:115-119, 139-158: the storage afterwards and what the array given as out refers to *)
Definition compositeTransform (dims : list nat) (ts : list trafo) (m : addr -> tensor) (i o : addr) : option ((addr -> tensor) * addr) :=
  let result := fun s => match s with Some s => Some (mem s, outA s) | None => None end in
  match length (filter notIdentity ts) with
  | 0 => Some (write m o (m i), o)
  | 1 => result (fold_left (transformSubsystem dims) (zip ts) (Some (mkState m i o o)))
  | _ => result (fold_left (transformSubsystem dims) (zip ts) (Some (mkState m i o Buffer)))
  end.

(** a transformation as the classes see it; getTrafos, Compose: Transformation.h:38-51, Transformation.tcc:216-228, 240 *)
Inductive transformation := Elementary (t : trafo) | Composite (ts : list trafo).
Definition getTrafos (t : transformation) : list trafo := match t with Elementary t => [t] | Composite ts => ts end.
Definition compose (t1 t2 : transformation) : transformation := Composite (getTrafos t1 ++ getTrafos t2).
Definition totalRank (t : transformation) : nat := fold_right Nat.add 0 (map rankOf (getTrafos t)).
(** Traits<TRAFO>::transform *)
Definition transform (dims : list nat) (t : transformation) (m : addr -> tensor) (i o : addr) : option ((addr -> tensor) * addr) :=
  match t with
  | Elementary t => if notIdentity t then if addr_eq_dec i o then None else Some (write m o (performed t dims (m i)), o) else Some (write m o (m i), o)
  | Composite ts => compositeTransform dims ts m i o
  end.
End Metric.

(** ** NonOrthogonalStateVector; [nDual]: None: not initialised *)
Notation ctensor := (list nat -> CR).
Record nosv := mkNosv { nDims : list nat; nPsi : ctensor; nDual : option ctensor; nTrafo : @transformation CR }.
(** the constructors, NonOrthogonalStateVector.h:37-47: a new one, and a copy *)
Definition newNosv (dims : list nat) (psi : ctensor) (t : transformation) : nosv := mkNosv dims psi None t.
Definition copyNosv (v : nosv) : nosv := mkNosv (nDims v) (nPsi v) None (nTrafo v).
(** update, NonOrthogonalStateVector.tcc:21-25: the state and the dual have storage of their own *)
Definition update (v : nosv) : nosv :=
  let m := fun a => match a with Given 0 => nPsi v | _ => match nDual v with Some d => d | None => fun _ => k0 end end in
  match transform (nDims v) (nTrafo v) m (Given 0) (Given 1) with
  | Some (m', a) => mkNosv (nDims v) (nPsi v) (Some (m' a)) (nTrafo v)
  | None => v
  end.
(** norm, NonOrthogonalStateVector.tcc:12-16 *)
Definition norm (v : nosv) : option R :=
  match nDual v with Some d => Some (sqrt (cre (isum (nDims v) (fun y => kmul (kconj (nPsi v y)) (d y))))) | None => None end.
(** operator*=, NonOrthogonalStateVector.h:68-69 *)
Definition scale (c : CR) (v : nosv) : nosv := mkNosv (nDims v) (fun y => kmul c (nPsi v y)) (nDual v) (nTrafo v).
(** operator*, NonOrthogonalStateVector.h:108-117 *)
Definition times (v w : nosv) : nosv :=
  newNosv (nDims v ++ nDims w) (fun y => kmul (nPsi v (firstn (length (nDims v)) y)) (nPsi w (skipn (length (nDims v)) y))) (compose (nTrafo v) (nTrafo w)).
