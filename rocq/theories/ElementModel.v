(** Model of the Liouvilleans of the free elements in CPPQEDelements/frees: Mode.cc, Mode_.h, Spin.cc, Qbit.cc, PumpedTwoLevelAtom.cc,
    MultiLevel.h, HomodynedMode.cc, and of ElementLiouvilleanDiffusive in CPPQEDcore/structure/ElementLiouvillean.h.
    State vectors are functions of the level, density matrices of two levels; functions modifying their argument in place return its
    new contents. Doubles are real numbers, and the integer products under square roots do not overflow. *)
From Coq Require Import List Arith Reals.
From Verif Require Import Star CReal PureModel.
Import ListNotations.

Notation ket := (nat -> CR).
Notation dmat := (nat -> nat -> CR).

(** psi(n)=v; rho(m,n)=v *)
Definition upd (f : ket) (n : nat) (v : CR) : ket := fun k => if k =? n then v else f k.
Definition upd2 (f : dmat) (m n : nat) (v : CR) : dmat := fun i j => if andb (i =? m) (j =? n) then v else f i j.

(** the part of the LazyDensityOperator interface the elements use: diagonal elements matrix(n), elements matrix(m)(n), trace;
    for a state vector (quantumdata/StateVector.h:187-194: index_v, trace_v=norm) and a density operator (DensityOperator.h:180-195) *)
Record ldo := mkLdo { ldDiag : nat -> R; ldOff : nat -> nat -> CR; ldTrace : R }.
Definition ldoSV (dim : nat) (psi : ket) : ldo :=
  mkLdo (fun n => csq (psi n)) (fun m n => kmul (psi m) (kconj (psi n))) (sqrt (rsum (fun n => csq (psi n)) (seq 0 dim))).
Definition ldoDO (dim : nat) (rho : dmat) : ldo :=
  mkLdo (fun n => cre (rho n n)) (fun m n => rho m n) (rsum (fun n => cre (rho n n)) (seq 0 dim)).

(** ** Mode *)
(** details::aJump, Mode.cc:118-125; the dimension is psi.ubound(0)+1 *)
Definition aJump (dim : nat) (kappa : R) (psi : ket) : ket :=
  let fact := sqrt (2 * kappa) in
  let ubound := dim - 1 in
  upd (fold_left (fun p n => upd p n (kmul (RC (fact * sqrt (INR (n + 1)))) (p (n + 1)))) (seq 0 ubound) psi) ubound k0.
(** details::aDagJump, Mode.cc:127-133 *)
Definition aDagJump (dim : nat) (kappa : R) (psi : ket) : ket :=
  let fact := sqrt (2 * kappa) in
  upd (fold_left (fun p n => upd p n (kmul (RC (fact * sqrt (INR n))) (p (n - 1)))) (rev (seq 1 (dim - 1))) psi) 0 k0.
(** details::aSuperoperator, Mode.cc:135-140 *)
Definition aSuperoperator (dim : nat) (kappa : R) (rho drhodt : dmat) : dmat :=
  fold_left (fun d m => fold_left (fun d n =>
      upd2 d m n (kadd (d m n) (kmul (RC (2 * kappa * sqrt (INR ((m + 1) * (n + 1))))) (rho (m + 1) (n + 1)))))
    (seq 0 (dim - 1)) d) (seq 0 (dim - 1)) drhodt.
(** details::aDagSuperoperator, Mode.cc:142-147 *)
Definition aDagSuperoperator (dim : nat) (kappa : R) (rho drhodt : dmat) : dmat :=
  fold_left (fun d m => fold_left (fun d n =>
      upd2 d m n (kadd (d m n) (kmul (RC (2 * kappa * sqrt (INR (m * n)))) (rho (m - 1) (n - 1)))))
    (seq 1 (dim - 1)) d) (seq 1 (dim - 1)) drhodt.
(** photonNumber(const LazyDensityOperator&), Mode.cc:312-318 *)
Definition photonNumber (dim : nat) (m : ldo) : R :=
  fold_left (fun res n => (res + INR n * ldDiag m n)%R) (seq 1 (dim - 1)) 0%R.

(** a Lindblad operator of an element: jump, rate (None: -1, "calculate it from the jump"), superoperator if implemented *)
Record lindbladOp := mkLb { lbJump : ket -> ket; lbRate : option (ldo -> R); lbSuper : option (dmat -> dmat -> dmat) }.

(** Liouvillean<false,ALT>, Mode_.h:169-190 *)
Definition modeLoss (alt : bool) (dim : nat) (kappa : R) : list lindbladOp :=
  [mkLb (aJump dim kappa) (if alt then None else Some (fun m => (2 * kappa * photonNumber dim m)%R)) (Some (aSuperoperator dim kappa))].
(** Liouvillean<true,ALT>, Mode_.h:195-241 *)
Definition modeThermal (alt : bool) (dim : nat) (kappa nTh : R) : list lindbladOp :=
  [mkLb (aJump dim (kappa * (nTh + 1))) (if alt then None else Some (fun m => (2 * kappa * (nTh + 1) * photonNumber dim m)%R))
        (Some (aSuperoperator dim (kappa * (nTh + 1))));
   mkLb (aDagJump dim (kappa * nTh)) (if alt then None else Some (fun m => (2 * kappa * nTh * (photonNumber dim m + ldTrace m))%R))
        (Some (aDagSuperoperator dim (kappa * nTh)))].
(** PumpedLossyModeIP_NoExact, Mode.cc:370-385, at time t; no superoperator *)
Definition modeNoExact (dim : nat) (z : CR) (t : R) : list lindbladOp :=
  [mkLb (fun psi => let fact := kmul (RC (sqrt (2 * cre z))) (cexp (kmul (kopp z) (RC t))) in
           let ubound := dim - 1 in
           upd (fold_left (fun p n => upd p n (kmul (kmul fact (RC (sqrt (INR (n + 1))))) (p (n + 1)))) (seq 0 ubound) psi) ubound k0)
        (Some (fun m => photonNumber dim m)) None].

(** ** Homodyned mode: HomodynedMode.cc:14-29; rates -1 (HomodynedMode.h), no superoperators *)
Definition homodyneLoss (dim : nat) (h : CR) (kappa nTh : R) (psi : ket) : ket :=
  let fact := sqrt (2 * kappa * (nTh + 1)) in
  let ubound := dim - 1 in
  let p' := fold_left (fun p n => upd p n (kadd (kmul h (p n)) (kmul (RC (fact * sqrt (INR (n + 1)))) (p (n + 1))))) (seq 0 ubound) psi in
  upd p' ubound (kmul (p' ubound) h).
Definition homodyneAbsorption (dim : nat) (h : CR) (kappa nTh : R) (psi : ket) : ket :=
  let fact := sqrt (2 * kappa * nTh) in
  let p' := fold_left (fun p n => upd p n (kadd (kmul (kconj h) (p n)) (kmul (RC (fact * sqrt (INR n))) (p (n - 1)))))
              (rev (seq 1 (dim - 1))) psi in
  upd p' 0 (kmul (p' 0%nat) (kconj h)).
Definition homodyned (dim : nat) (h : CR) (kappa nTh : R) : list lindbladOp :=
  [mkLb (homodyneLoss dim h kappa nTh) None None; mkLb (homodyneAbsorption dim h kappa nTh) None None].

(** ** Spin: spin::Liouvillean, Spin.cc:137-153 (twoS_-n in size_t, n<=twoS_) *)
Definition spinJump (dim twoS : nat) (gamma : R) (psi : ket) : ket :=
  let fact := sqrt (2 * gamma) in
  let ubound := dim - 1 in
  upd (fold_left (fun p n => upd p n (kmul (RC (fact * sqrt (INR ((n + 1) * (twoS - n))))) (p (n + 1)))) (seq 0 ubound) psi) ubound k0.
Definition spinRate (dim twoS : nat) (gamma : R) (m : ldo) : R :=
  fold_left (fun res n => (res + 2 * gamma * INR n * INR (twoS - n + 1) * ldDiag m n)%R) (seq 1 (dim - 1)) 0%R.
Definition spinLoss (dim twoS : nat) (gamma : R) : list lindbladOp := [mkLb (spinJump dim twoS gamma) (Some (spinRate dim twoS gamma)) None].
(** spin::decideDimension, Spin.cc:29-32 *)
Definition decideDimension (twoS dim : nat) : nat := if andb (negb (dim =? 0)) (dim <? twoS + 1) then dim else twoS + 1.

(** ** Qbit with phase noise: Qbit.cc:38-66 *)
Definition sigmaJump (gammaPerp : R) (psi : ket) : ket := upd (upd psi 0 (kmul (RC (sqrt (2 * gammaPerp))) (psi 1%nat))) 1 k0.
Definition sigma_zJump (gammaPar : R) (psi : ket) : ket :=
  let fact := sqrt (2 * gammaPar) in
  let p := upd psi 0 (kmul (psi 0%nat) (RC fact)) in upd p 1 (kmul (p 1%nat) (RC (- fact))).
Definition qbitPhaseNoise (gammaPerp gammaPar : R) : list lindbladOp :=
  [mkLb (sigmaJump gammaPerp) None None; mkLb (sigma_zJump gammaPar) None None].

(** ** PumpedTwoLevelAtom, PumpedTwoLevelAtom.cc:12-32: za_=(-gamma,delta) *)
Definition twoLevelZa (gamma delta : R) : CR := ((- gamma)%R, delta).
Definition twoLevelLoss (za : CR) : list lindbladOp :=
  [mkLb (fun psi => upd (upd psi 0 (kmul (RC (sqrt (- 2 * cre za))) (psi 1%nat))) 1 k0)
        (Some (fun m => (- 2 * cre za * ldDiag m 1%nat)%R)) None].

(** ** MultiLevel: a Decay<first,second> with its rate (MultiLevel.h:185); LiouvilleanRadiative, MultiLevel.h:224-254 *)
Record decay := mkDecay { dcFirst : nat; dcSecond : nat; dcGamma : R }.
Definition radiative (dc : decay) : lindbladOp :=
  mkLb (fun psi => let temp := kmul (RC (sqrt (2 * dcGamma dc))) (psi (dcSecond dc)) in upd (fun _ => k0) (dcFirst dc) temp)
       (Some (fun m => (2 * dcGamma dc * ldDiag m (dcSecond dc))%R))
       (Some (fun rho d => upd2 d (dcFirst dc) (dcFirst dc)
                (kadd (d (dcFirst dc) (dcFirst dc)) (kmul (RC (2 * dcGamma dc)) (rho (dcSecond dc) (dcSecond dc)))))).

(** ** ElementLiouvilleanDiffusive, ElementLiouvillean.h:324-384, over the Lindblads of its base; an object of extent other than
    dim_ in the first dimension is refused (not modelled: the extents are those of the system) *)
Definition diffusiveJump (gammas : list R) (k : nat) (psi : ket) : ket :=
  let p := fun i => kmul (psi i) (RC (sqrt (2 * nth k gammas 0%R))) in upd p k (kmul (p k) (RC (-1))).
Definition diffusiveSuper (dim : nat) (gammas : list R) (k : nat) (rho drhodt : dmat) : dmat :=
  if k =? 0 then
    let g := nth k gammas 0%R in
    fold_left (fun d m =>
        fold_left (fun d n =>
            let d' := upd2 d m n (ksub (d m n) (kmul (RC (6 * g)) (rho m n))) in
            upd2 d' n m (ksub (d' n m) (kmul (RC (6 * g)) (rho n m))))
          (seq (m + 1) (dim - (m + 1)))
          (upd2 d m m (kadd (d m m) (kmul (RC (2 * g)) (rho m m)))))
      (seq 0 dim) drhodt
  else drhodt.
Definition diffusive (dim : nat) (gammas : list R) : list lindbladOp :=
  map (fun k => mkLb (diffusiveJump gammas k) None (Some (diffusiveSuper dim gammas k))) (seq 0 dim).

(** multilevel::Liouvillean, MultiLevel.h:258-290: radiative, or radiative and diffusive *)
Definition multiLevelLoss (dim : nat) (decays : list decay) (diffusion : option (list R)) : list lindbladOp :=
  map radiative decays ++ match diffusion with Some gs => diffusive dim gs | None => [] end.

(** multilevel::HamiltonianSch, MultiLevel.h:150-177: H/i as dpsidt += ...; a Pump<first,second> *)
Record pump := mkPump { pmFirst : nat; pmSecond : nat; pmEta : CR }.
Definition multiLevelH (dim : nat) (zSchs : nat -> CR) (pumps : list pump) (psi dpsidt : ket) : ket :=
  let d1 := fold_left (fun d i => upd d i (kadd (d i) (kmul (kopp (zSchs i)) (psi i)))) (seq 0 dim) dpsidt in
  fold_left (fun d p =>
      let d' := upd d (pmFirst p) (kadd (d (pmFirst p)) (kmul (kconj (pmEta p)) (psi (pmSecond p)))) in
      upd d' (pmSecond p) (ksub (d' (pmSecond p)) (kmul (pmEta p) (psi (pmFirst p))))) pumps d1.
(** constructor of PumpedLossyMultiLevelSch, MultiLevel.h:338-383: zSchs = -i deltas, plus gamma at the upper level of every decay *)
Definition multiLevelZ (deltas : nat -> R) (decays : list decay) : nat -> CR :=
  fold_left (fun z dc => upd z (dcSecond dc) (kadd (z (dcSecond dc)) (RC (dcGamma dc)))) decays (fun i => kmul (RC (deltas i)) (kopp CI)).

(** ** H/i of the two-level atom, PumpedTwoLevelAtom.cc:42-49, a matrix *)
Definition twoLevelH (za eta : CR) (i j : nat) : CR :=
  match i, j with 0, 1 => kconj eta | 1, 0 => kopp eta | 1, 1 => za | _, _ => k0 end%nat.
