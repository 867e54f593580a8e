(** Model of CPPQEDutils/DrivenDampedHarmonicOscillator.h and .cc: the analytic solution of the driven damped harmonic oscillator, used as a reference of the
    ODE drivers. Real arithmetic. *)
From Coq Require Import Reals.
From Verif Require Import Star CReal TriModel.
Local Open Scope R_scope.

(** operator/ of complex numbers; meaningless if the divisor vanishes *)
Definition cdiv (z w : CR) : CR := kmul z (kmul (kconj w) (RC (/ csq w))).
(** sqrt(dcomp(x)): the branch with nonnegative real part, on the negative real axis the one with positive imaginary part *)
Definition csqrtR (x : R) : CR := if Rlt_dec x 0 then (0, sqrt (- x)) else (sqrt x, 0).

Section Ddho.
(** Eigen's fullPivLu().solve(Vector(u,v)) with the Matrix of rows (a,b), (c,d) *)
Variable solve : CR -> CR -> CR -> CR -> CR -> CR -> CR * CR.

(** ddho::_::c, DrivenDampedHarmonicOscillator.cc:10-13 *)
Definition drivenPart (gamma omega t : R) : CR :=
  cdiv (cexp (kmul (kmul CI (RC omega)) (RC t))) (ksub (kadd k1 (kmul (kmul (RC 2) CI) (RC (gamma * omega)))) (RC (omega * omega))).
(** data: gamma_, omega_, a_; ddho::_::_, :16-18, with the matrix by rows *)
Record ddho := mkDdho { ddGamma : R; ddOmega : R; ddA0 : CR; ddA1 : CR }.
Definition baseDdho (gamma omega : R) (a b c d ampTI ampDerivTI : CR) (tInit : R) : ddho :=
  let (x, y) := solve a b c d (ksub ampTI (drivenPart gamma omega tInit)) (ksub ampDerivTI (kmul (kmul CI (RC omega)) (drivenPart gamma omega tInit))) in
  mkDdho gamma omega x y.

(** what a Ptr offers: amp, ampDeriv *)
Record oscillator := mkOsc { oAmp : R -> CR; oAmpDeriv : R -> CR }.
(** DDHO, :27-45 *)
Definition first (gamma : R) : CR := kadd (RC (- gamma)) (csqrtR (gamma * gamma - 1)).
Definition second (gamma : R) : CR := ksub (RC (- gamma)) (csqrtR (gamma * gamma - 1)).
Definition generalDdho (gamma omega : R) (ampTI ampDerivTI : CR) (tInit : R) : oscillator :=
  let o1 := first gamma in let o2 := second gamma in let e o t := cexp (kmul o (RC t)) in
  let o := baseDdho gamma omega (e o1 tInit) (e o2 tInit) (kmul o1 (e o1 tInit)) (kmul o2 (e o2 tInit)) ampTI ampDerivTI tInit in
  mkOsc (fun t => kadd (kadd (kmul (e o1 t) (ddA0 o)) (kmul (e o2 t) (ddA1 o))) (drivenPart (ddGamma o) (ddOmega o) t))
        (fun t => kadd (kadd (kmul (kmul o1 (e o1 t)) (ddA0 o)) (kmul (kmul o2 (e o2 t)) (ddA1 o))) (kmul (kmul CI (RC (ddOmega o))) (drivenPart (ddGamma o) (ddOmega o) t))).
(** DDHO_Critical, :48-62 *)
Definition criticalDdho (omega : R) (ampTI ampDerivTI : CR) (tInit : R) : oscillator :=
  let o := baseDdho 1 omega (RC (exp (- tInit))) (RC (tInit * exp (- tInit))) (RC (- exp (- tInit))) (RC (- (tInit - 1) * exp (- tInit))) ampTI ampDerivTI tInit in
  mkOsc (fun t => kadd (kadd (kmul (RC (exp (- t))) (ddA0 o)) (kmul (RC (t * exp (- t))) (ddA1 o))) (drivenPart (ddGamma o) (ddOmega o) t))
        (fun t => kadd (ksub (kmul (RC (- exp (- t))) (ddA0 o)) (kmul (RC ((t - 1) * exp (- t))) (ddA1 o))) (kmul (kmul CI (RC (ddOmega o))) (drivenPart (ddGamma o) (ddOmega o) t))).
(** make, :68-74 *)
Definition makeDdho (gamma omega : R) (ampTI ampDerivTI : CR) (tInit : R) : oscillator :=
  if Reqb gamma 1 then criticalDdho omega ampTI ampDerivTI tInit else generalDdho gamma omega ampTI ampDerivTI tInit.
End Ddho.
