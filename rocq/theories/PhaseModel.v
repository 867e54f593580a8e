(** Model of the distribution functions of CPPQEDcore/quantumdata/DistributionFunctions.h, .cc: details::w, wignerFunction, qFunction, scanFunction. Real arithmetic;
    rho(i)(j) is a function of two indices with the dimension given beside it; plain char is signed. External: boost's laguerre, by its documented recurrence, boost's
    factorial, exact up to 170! and an overflow_error above (None here), atan2, a Section variable. Not modelled: wignerFunctionOld with its kernel, which nothing calls, and formatting of numbers. *)
From Coq Require Import List Arith Reals.
From Verif Require Import Star CReal InitialModel.
Import ListNotations.
Local Open Scope R_scope.

Section Distributions.
Variable atan2 : R -> R -> R.

(** boost laguerre(n,k,x), with the value before it: laguerre_next *)
Fixpoint laguerrePair (n k : nat) (x : R) : R * R :=
  match n with
  | O => (1, 0)
  | Datatypes.S m => let (p, q) := laguerrePair m k x in (((2 * INR m + 1 + INR k - x) * p - (INR m + INR k) * q) / (INR m + 1), p)
  end.
Definition laguerre (n k : nat) (x : R) : R := fst (laguerrePair n k x).
(** boost factorial<double> *)
Definition factorial (n : nat) : option R := if (n <=? maxFactorial)%nat then Some (INR (fact n)) else None.
(** minusOneToThePowerOf, MathExtensions.h:46 *)
Definition minusOneTo (n : nat) : R := if Nat.odd n then -1 else 1.
(** details::w, DistributionFunctions.cc:47-51 *)
Definition wElement (n : nat) (r : R) (k : nat) : option R :=
  match factorial n, factorial (n + k) with
  | Some f, Some g => let sqrR := r * r in Some (minusOneTo n / PI * sqrt (f / g) * exp (-2 * sqrR) * (2 * r) ^ k * laguerre n k (4 * sqrR))
  | _, _ => None
  end.
(** a loop adding up what may throw *)
Definition optSum {S : StarRing} (f : nat -> option S) (l : list nat) (init : S) : option S :=
  fold_left (fun acc n => match acc, f n with Some s, Some z => Some (kadd s z) | _, _ => None end) l (Some init).
Definition realSum (f : nat -> option R) (l : list nat) (init : R) : option R :=
  fold_left (fun acc n => match acc, f n with Some s, Some z => Some (s + z) | _, _ => None end) l (Some init).
(** Helper::_, DistributionFunctions.h:65-70 *)
Definition wHelper (rho : nat -> nat -> CR) (dim : nat) (r : R) (k : nat) : option CR :=
  optSum (fun n => match wElement n r k with Some w => Some (kmul (RC w) (rho (n + k)%nat n)) | None => None end) (seq 0 (dim - k)) k0.
(** DistributionFunctions.h:73 *)
Definition polarAngle (x y : R) : R := if Req_EM_T x 0 then if Req_EM_T y 0 then 0 else atan2 y x else atan2 y x.
(** DistributionFunctions.h:75 *)
Definition usedDimension (dim truncatedDimension : nat) : nat :=
  if (negb (truncatedDimension =? 0) && (truncatedDimension <? dim))%bool%nat then truncatedDimension else dim.
(** wignerFunction, DistributionFunctions.h:59-83; None: overflow_error *)
Definition wignerFunction (rho : nat -> nat -> CR) (dim0 : nat) (x y : R) (truncatedDimension : nat) : option R :=
  let r := sqrt (x * x + y * y) in
  let phi := polarAngle x y in
  let dim := usedDimension dim0 truncatedDimension in
  match wHelper rho dim r 0 with
  | None => None
  | Some z => realSum (fun k => match wHelper rho dim r k with
                                | Some s => Some (2 * cre (kmul s (cexp (kmul (kopp CI) (RC (INR k * phi))))))
                                | None => None
                                end) (seq 1 (dim - 1)) (cre z)
  end.
(** qFunction, DistributionFunctions.h:86-99; the last parameter has no name *)
Definition qFunction (rho : nat -> nat -> CR) (dim : nat) (x y : R) (truncatedDimension : nat) : R :=
  let alpha := ((x, y) : CR) in
  let qComplex := fold_left (fun acc m => fold_left (fun acc n =>
    kadd acc (kmul (kmul (coherentElement n alpha) (coherentElement m (kconj alpha))) (rho m n))) (seq 0 dim) acc) (seq 0 dim) k0 in
  exp (- csq alpha) * cre qComplex.
End Distributions.

(** ParsFunctionScan, DistributionFunctions.h:20-30: the limits which scanFunction changes, and the step *)
Record scanPars := mkScan { sXUL : R; sYUL : R; sXL : R; sXU : R; sYL : R; sYU : R; sStep : R }.
(** DistributionFunctions.h:145-146 *)
Definition scanLimits (p : scanPars) : scanPars :=
  let p := if Req_EM_T (sXUL p) 0 then p else mkScan (sXUL p) (sYUL p) (- sXUL p) (sXUL p) (sYL p) (sYU p) (sStep p) in
  if Req_EM_T (sYUL p) 0 then p else mkScan (sXUL p) (sYUL p) (sXL p) (sXU p) (- sYUL p) (sYUL p) (sStep p).
(** for (double x=lower; x<upper; x+=step): the loop ends after having taken these values *)
Inductive loops (upper step : R) : R -> list R -> Prop :=
| loops_end x : upper <= x -> loops upper step x []
| loops_step x l : x < upper -> loops upper step (x + step) l -> loops upper step x (x :: l).
(** the lines streamed: a point with the value there, or an empty line *)
Inductive scanLine := SPoint (x y f : R) | SEmpty.
(** scanFunction, DistributionFunctions.h:142-153: ends and streams these lines; f x y is distributionFunctor(rho,x,y,fCutoff) *)
Inductive scans (f : R -> R -> R) (p : scanPars) : list R -> list scanLine -> Prop :=
| scans_end : scans f p [] []
| scans_step x xs ys out : loops (sYU p) (sStep p) (sYL p) ys -> scans f p xs out ->
    scans f p (x :: xs) (map (fun y => SPoint x y (f x y)) ys ++ SEmpty :: out).
Definition scanFunction (f : R -> R -> R) (p : scanPars) (out : list scanLine) : Prop :=
  let q := scanLimits p in exists xs, loops (sXU q) (sStep q) (sXL q) xs /\ scans f q xs out.
