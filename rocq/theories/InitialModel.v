(** Model of the initial states of modes and qbits: mode::coherent, mode::fock, mode::init, mode::photonNumber, qbit::init, qbit::state0, qbit::state1 of
    CPPQEDelements/frees/Mode.cc:303-339, Qbit.cc:275-280, Qbit_.h:78-81 with cppqedutils::coherentElement of CPPQEDutils/MathExtensions.cc:35-41.
    Real arithmetic; EULER is e, PI is pi; a unary StateVector is the list of its amplitudes. *)
From Coq Require Import List Arith Reals.
From Verif Require Import Star CReal PureModel DdhoModel.
Import ListNotations.
Local Open Scope R_scope.

Definition ket := list CR.
Definition amplitude (psi : ket) (n : nat) : CR := nth n psi k0.
(** pow(alpha,n), n a natural number *)
Fixpoint cpow (z : CR) (n : nat) : CR := match n with O => k1 | Datatypes.S m => kmul z (cpow z m) end.
(** boost::math::max_factorial<double>::value *)
Definition maxFactorial : nat := 170.
(** MathExtensions.cc:35-41 *)
Definition coherentElement (n : nat) (alpha : CR) : CR :=
  if (n =? 0)%nat then k1
  else if (n <? maxFactorial)%nat then cdiv (cpow alpha n) (RC (sqrt (INR (fact n))))
  else kmul (RC (Rpower (2 * INR n * PI) (- (1 / 4)))) (cpow (cdiv alpha (RC (sqrt (INR n / exp 1)))) n).
(** Mode.cc:321-324 *)
Definition coherent (alpha : CR) (dim : nat) : ket :=
  let norm := exp (- csq alpha / 2) in map (fun n => kmul (RC norm) (coherentElement n alpha)) (seq 0 dim).
(** StateVector(dim), all zero by the default initializer of StateVector.h:73-75 *)
Definition zeroKet (dim : nat) : ket := repeat k0 dim.
(** psi(n)=z *)
Definition assign (psi : ket) (n : nat) (z : CR) : ket := firstn n psi ++ z :: skipn (Datatypes.S n) psi.
(** Mode.cc:327-333; None: overflow_error *)
Definition fock (n dim : nat) (phase : R) : option ket :=
  if (dim <=? n)%nat then None else Some (assign (zeroKet dim) n (cexp (kmul CI (RC phase)))).
(** Mode.cc:336-339; the phase is 0 by default, Mode_.h *)
Definition modeInit (minitFock : nat) (minit : CR) (cutoff : nat) : option ket :=
  if (minitFock =? 0)%nat then Some (coherent minit cutoff) else fock minitFock cutoff 0.
(** Mode.cc:304-308 *)
Definition photonNumber (psi : ket) : R := rsum (fun n => INR n * csq (amplitude psi n)) (seq 0 (length psi)).
(** Mode.cc:311-317: matrix(n) is the diagonal element *)
Definition photonNumberLazy (diag : nat -> R) (dim : nat) : R := rsum (fun n => INR n * diag n) (seq 1 (dim - 1)).
(** sqrt of a real number; None: not-a-number *)
Definition realSqrt (x : R) : option R := if Rlt_dec x 0 then None else Some (sqrt x).
(** Qbit.cc:275-280 *)
Definition qbitInit (psi1 : CR) : option ket :=
  match realSqrt (1 - csq psi1) with None => None | Some x => Some (assign (assign (zeroKet 2) 0 (RC x)) 1 psi1) end.
(** Qbit_.h:78-79 *)
Definition state0 : option ket := fock 0 2 0.
Definition state1 : option ket := fock 1 2 0.
