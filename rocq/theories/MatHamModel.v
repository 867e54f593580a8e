(** Model of Hamiltonians given by matrices: linalg::apply in CPPQEDcore/quantumdata/CMatrix.cc, CPPQEDelements/frees/TimeIndependentMatrixHamiltonian.cc,
    PumpedTwoLevelAtom.h, and of calculateMatrix in CPPQEDcore/structure/MatrixOfHamiltonian.h. *)
From Coq Require Import List Arith Reals.
From Verif Require Import Star CReal Arr TriModel ElementModel ElementSpec ModeModel CompositeModel ParticleModel.
Import ListNotations.

(** linalg::apply, CMatrix.cc:7-11: b(i)+=sum(m(i,j)*a(j),j) *)
Definition matApply (dim : nat) (a b : ket) (m : dmat) : ket := fun i => kadd (b i) (ksum (fun j => kmul (m i j) (a j)) (seq 0 dim)).

(** TimeIndependentMatrixHamiltonian, TimeIndependentMatrixHamiltonian.cc:5-17: the constructor ([None]: invalid_argument), addContribution_v *)
Record matrixH := mkMatrixH { mhDim : nat; mhMatrix : dmat }.
Definition makeMatrixH (rows cols : nat) (m : dmat) : option matrixH := if rows =? cols then Some (mkMatrixH rows m) else None.
Definition matrixContribution (h : matrixH) (psi dpsidt : ket) : ket := matApply (mhDim h) psi dpsidt (mhMatrix h).

(** PumpedTwoLevelAtomSch, PumpedTwoLevelAtom.h:44-55, PumpedTwoLevelAtom.cc:35-49: its H/i is ElementModel.twoLevelH *)
Definition twoLevelContribution (gamma delta : R) (eta : CR) (psi dpsidt : ket) : ket := matApply 2 psi dpsidt (twoLevelH (twoLevelZa gamma delta) eta).

(** the element at the position k of the vector view of an array, in storage order: StateVector::vectorView *)
Definition at1D (dims : list nat) (k : nat) : list nat := nth k (indices dims) [].
Definition updA (psi : array) (x : list nat) (v : CR) : array := fun y => if listnat_eqb y x then v else psi y.

(** calculateMatrix, MatrixOfHamiltonian.h:9-44. The Hamiltonian, at the given times, takes the derivative to its new value, and may change its state
    (tridiagonals are propagated in place). The result is not initialised: [res0]. *)
Section Calculate.
Context {St : Type}.
Variable act : St -> array -> array -> St * array.
Variable dims : list nat.
Record calc := mkCalc { cSt : St; cPsi : array; cDpsi : array; cRes : dmat }.
(** lines 32-38 *)
Definition calcElement (row : nat) (c : calc) (col : nat) : calc :=
  let (s, d) := act (cSt c) (cPsi c) (cDpsi c) in
  mkCalc s (cPsi c) (fun _ => k0) (upd2 (cRes c) col row (kmul CI (d (at1D dims col)))).
(** lines 30-40 *)
Definition calcColumn (dim : nat) (c : calc) (row : nat) : calc :=
  let c1 := mkCalc (cSt c) (updA (cPsi c) (at1D dims row) k1) (cDpsi c) (cRes c) in
  let c2 := fold_left (calcElement row) (seq 0 dim) c1 in
  mkCalc (cSt c2) (updA (cPsi c2) (at1D dims row) k0) (cDpsi c2) (cRes c2).
Definition calculateMatrix (s : St) (res0 : dmat) : dmat :=
  let dim := fold_right Nat.mul 1 dims in
  cRes (fold_left (calcColumn dim) (seq 0 dim) (mkCalc s (fun _ => k0) (fun _ => k0) res0)).
End Calculate.

(** the Hamiltonians calculateMatrix can be called with: given by a matrix, by tridiagonals (TridiagonalHamiltonian, at time t after the last exact
    propagation), and the interactions. An interaction which fails does not add anything (it throws) *)
Definition matrixAct (_ : unit) (h : matrixH) (psi d : array) : matrixH * array :=
  (h, fun y => matrixContribution h (fun n => psi [n]) (fun n => d [n]) (nth 0 y 0)).
Definition freeAct (timeDependent : bool) (t : R) (hs : list (tri CR R)) (psi d : array) : list (tri CR R) * array := addContribution timeDependent t hs (fun x => psi [nth 0 x 0]) d.
Definition intAct (dt : R) (h : intH) (psi d : array) : intH * array :=
  let (h', r) := intContribution dt h psi d in (h', match r with Some d' => d' | None => d end).
