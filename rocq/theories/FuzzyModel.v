(** Model of the numbers compared with tolerance, CPPQEDutils/FuzzyDouble.h and FuzzyDouble.cc, and of the function of GSL they use.
    Simplified: a double is a real number, without rounding of the difference, underflow, overflow, infinities and NaN. *)
From Coq Require Import ZArith Reals Bool.
From Flocq Require Import Core.Raux Core.Zaux.
Local Open Scope R_scope.

(** gsl_fcmp, gsl/sys/fcmp.c. frexp: the exponent e with 2^(e-1) <= |x| < 2^e, 0 for 0; ldexp: the multiplication by a power of 2 *)
Definition frexpExponent (x : R) : Z := if Req_EM_T x 0 then 0%Z else mag_val radix2 x (mag radix2 x).
Definition ldexp (x : R) (e : Z) : R := x * bpow radix2 e.
Definition fcmp (x1 x2 epsilon : R) : Z :=
  let max := if Rlt_dec (Rabs x2) (Rabs x1) then x1 else x2 in
  let delta := ldexp epsilon (frexpExponent max) in
  let difference := x1 - x2 in
  if Rlt_dec delta difference then 1%Z else if Rlt_dec difference (- delta) then (-1)%Z else 0%Z.

(** FuzzyDouble::eps, FuzzyDouble.cc:12 *)
Definition eps : R := 10 * bpow radix2 (-52).
(** operator==, operator< for two of them, FuzzyDouble.cc:15-24 *)
Definition eqFF (a b : R) : bool := (fcmp a b eps =? 0)%Z.
Definition ltFF (a b : R) : bool := (fcmp a b eps <? 0)%Z.
(** ==, < and > with a double on the right, FuzzyDouble.cc:27-42 *)
Definition eqFD (a b : R) : bool := (fcmp a b eps =? 0)%Z.
Definition ltFD (a b : R) : bool := (fcmp a b eps <? 0)%Z.
Definition gtFD (a b : R) : bool := (0 <? fcmp a b eps)%Z.
(** what boost::totally_ordered<FuzzyDouble> adds, FuzzyDouble.h:11 *)
Definition gtFF (a b : R) : bool := ltFF b a.
Definition leFF (a b : R) : bool := negb (ltFF b a).
Definition geFF (a b : R) : bool := negb (ltFF a b).
Definition neFF (a b : R) : bool := negb (eqFF a b).
(** what boost::totally_ordered<FuzzyDouble,double> adds: a double on the right, *)
Definition leFD (a b : R) : bool := negb (gtFD a b).
Definition geFD (a b : R) : bool := negb (ltFD a b).
Definition neFD (a b : R) : bool := negb (eqFD a b).
(** and on the left *)
Definition gtDF (a b : R) : bool := ltFD b a.
Definition ltDF (a b : R) : bool := gtFD b a.
Definition leDF (a b : R) : bool := negb (ltFD b a).
Definition geDF (a b : R) : bool := negb (gtFD b a).
Definition eqDF (a b : R) : bool := eqFD b a.
Definition neDF (a b : R) : bool := negb (eqFD b a).
