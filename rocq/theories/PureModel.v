(** Model of the norms and traces of CPPQEDcore/quantumdata: StateVector.h, DensityOperator.h, ArrayBase.h, over the complex
    numbers. *)
From Coq Require Import Reals Lra List Arith ZArith Lia.
From Verif Require Import Star CReal Arr DensityModel.
Import ListNotations.
Local Open Scope R_scope.

Definition rsum {A} (f : A -> R) (l : list A) : R := fold_right (fun a s => f a + s) 0 l.

(** ArrayBase::frobeniusNorm, ArrayBase.h:90; StateVector::norm, StateVector.h:146 *)
Definition sqrNorm (a : carr CR) : R := rsum (fun p => csq (cDat a p)) (seq 0 (cSize a)).
Definition frobeniusNorm (a : carr CR) : R := sqrt (sqrNorm a).
(** StateVector::trace_v, StateVector.h:194 *)
Definition traceOfSV (psi : carr CR) : R := frobeniusNorm psi.
(** DensityOperator::norm = trace_v, DensityOperator.h:162-167, 195 *)
Definition traceOfDO (dims : list nat) (rho : carr CR) : R := cre (traceDO dims rho).
(** purity, DensityOperator.h:308-312 *)
Definition purity (rho : carr CR) : R := sqrNorm rho.
(** operator/= with a double, ArrayBase.h:69-70, and StateVector::renorm, StateVector.h:148-153 *)
Definition scaleBy (a : carr CR) (x : R) : carr CR := mkCarr (cSh a) (fun p => kmul (RC x) (cDat a p)).
Definition renormSV (psi : carr CR) : R * carr CR := let n := frobeniusNorm psi in (n, scaleBy psi (/ n)).
(** DensityOperator::renorm, DensityOperator.h:169-174 *)
Definition renormDO (dims : list nat) (rho : carr CR) : R * carr CR :=
  let tr := traceOfDO dims rho in (tr, scaleBy rho (/ tr)).

(** Real and imaginary parts of the two number types used *)
Definition GaussParts : Parts GaussZ.
Proof.
  refine (mkParts GaussZ Z 0%Z fst snd (fun x y => (x, y)) _ _ _ _ _); cbn; try reflexivity.
  - intros [a b]; reflexivity.
  - intros [a b] H. injection H as H. cbn. lia.
Defined.
Definition RParts : Parts CR.
Proof.
  refine (mkParts CR R 0 fst snd (fun x y => (x, y)) _ _ _ _ _); cbn; try reflexivity.
  - intros [a b]; reflexivity.
  - intros [a b] H. injection H as H. cbn. lra.
  - intros x. unfold cr_conj. cbn. f_equal. ring.
Defined.
