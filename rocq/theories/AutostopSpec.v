(** Specification of the stopping criterion by moving averages *)
From Coq Require Import List Arith Reals.
Import ListNotations.
Local Open Scope R_scope.

(** column c of record number i, values below epsAbs in magnitude counting as epsAbs *)
Definition col (epsAbs : R) (records : list (list R)) (i c : nat) : R :=
  let v := nth c (nth i records []) 0 in if Rlt_dec (Rabs v) epsAbs then epsAbs else v.
Fixpoint sumR (n : nat) (f : nat -> R) : R := match n with O => 0 | S n' => sumR n' f + f n' end.
(** mean of column c over the n records before number j *)
Definition mean (epsAbs : R) (records : list (list R)) (n j c : nat) : R :=
  sumR n (fun k => col epsAbs records (j - n + k) c) / INR n.
(** all w columns of record j are within relative precision eps of the means over the n records before *)
Definition settled (eps epsAbs : R) (w : nat) (records : list (list R)) (n j : nat) : Prop :=
  forall c, (c < w)%nat ->
    let m := mean epsAbs records n j c in let v := col epsAbs records j c in Rabs (m - v) < eps * (Rabs m + Rabs v).
