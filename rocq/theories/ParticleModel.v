(** Model of CPPQEDelements/frees/Particle.cc, Particle_.h and CPPQEDelements/utils/ModeFunction.h, .cc: the operators and the
    Hamiltonians of a particle in momentum space; and of CPPQEDelements/interactions/ParticleCavity.cc, ParticleTwoModes.cc.
    Not modelled: averages, initial conditions, printing. *)
From Coq Require Import List Arith Bool ZArith Reals.
From Verif Require Import Star CReal TriModel ModeModel CompositeModel.
Import ListNotations.

(** ModeFunctionType, ModeFunction.h:9; isComplex, :11; ModeFunction, :20 *)
Inductive mft := MSin | MCos | MPlus | MMinus.
Definition isComplexMF (m : mft) : bool := match m with MPlus | MMinus => true | _ => false end.
Definition modeFunction : Type := mft * Z.

(** particle::Spatial, Particle.cc:256-261, with fill, Particle.cc:247-251 *)
Section Spatial.
Variables (fin : nat) (deltaK : R).
Definition xMax : R := (PI / deltaK)%R.
Definition deltaX : R := (2 * xMax / INR (2 ^ fin))%R.
Definition kMax : R := (PI / deltaX)%R.
Definition gridX (i : nat) : R := (deltaX * INR i - xMax)%R.
Definition gridK (i : nat) : R := (deltaK * INR i - kMax)%R.
End Spatial.

(** a particle: the finesse (ParticleBase, Particle.cc:178-184, with the default deltaK=1 of Spatial), and omrec if it is derived from particle::Exact *)
Record particle := mkParticle { pFin : nat; pExact : option R }.
Definition pDim (p : particle) : nat := 2 ^ pFin p.
Definition pK (p : particle) (i : nat) : R := gridK (pFin p) 1 i.

(** expINKX(size_t,ptrdiff_t), Particle.cc:61-74 *)
Definition expINKX0 (dim : nat) (nK : Z) : outcome (tri CR R) :=
  let D := (Z.of_nat dim - (if 0 <? nK then nK else - nK))%Z in
  if (D <? 0)%Z then emptyTri
  else let temp := vecOf (Z.to_nat D) (fun _ => k1) in
  if (0 <? nK)%Z then unary 0%R noDiag (Z.to_nat nK) temp noDiag false
  else if (nK =? 0)%Z then ofDiagonal temp
  else unary 0%R noDiag (Z.to_nat (- nK)) noDiag temp false.
(** cosNKX(size_t,ptrdiff_t), Particle.cc:77-80 *)
Definition cosNKX0 (dim : nat) (nK : Z) : outcome (tri CR R) :=
  bind (expINKX0 dim nK) (fun a => bind (expINKX0 dim (- nK)) (fun b => bind (add CReqb a b) (fun s => Ok (scale (RC (/ 2)) s)))).
(** mainDiagonal, Particle.cc:89-92 *)
Definition partDiagonal (fin : nat) (omrec : R) : arr CR :=
  vecOf (2 ^ fin) (fun i => kmul (kmul CI (RC omrec)) (RC (gridK fin 1 i * gridK fin 1 i))).

(** particle::expINKX, Particle.cc:271-277 *)
Definition expINKX (p : particle) (nK : Z) : outcome (tri CR R) :=
  bind (expINKX0 (pDim p) nK) (fun t => match pExact p with Some omrec => furnish t (partDiagonal (pFin p) omrec) | None => Ok t end).
(** sinNKX, cosNKX, Particle_.h:63-64 *)
Definition sinNKX (p : particle) (nK : Z) : outcome (tri CR R) :=
  bind (expINKX p nK) (fun a => bind (expINKX p (- nK)) (fun b => bind (sub CReqb a b) (fun s => Ok (scale ((0, - / 2)%R : CR) s)))).
Definition cosNKX (p : particle) (nK : Z) : outcome (tri CR R) :=
  bind (expINKX p nK) (fun a => bind (expINKX p (- nK)) (fun b => bind (add CReqb a b) (fun s => Ok (scale (RC (/ 2)) s)))).
(** mfNKX, Particle.cc:280-291 *)
Definition mfNKX (p : particle) (mf : modeFunction) : outcome (tri CR R) :=
  match fst mf with
  | MSin => sinNKX p (snd mf)
  | MCos => cosNKX p (snd mf)
  | MPlus => expINKX p (snd mf)
  | MMinus => expINKX p (- snd mf)
  end.

(** the change of kind and sign, Particle.cc:307-310 *)
Definition flipNegative (mf : modeFunction) : modeFunction :=
  let mf1 := match mf with (MPlus, nK) => if (nK <? 0)%Z then (MMinus, (nK * -1)%Z) else mf | _ => mf end in
  match mf1 with (MMinus, nK) => if (nK <? 0)%Z then (MPlus, (nK * -1)%Z) else mf1 | _ => mf1 end.
(** mfComposition, Particle.cc:293-352; [None]: "Not a Tridiagonal" *)
Definition mfComposition (p : particle) (f1 f2 : modeFunction) : option (outcome (tri CR R)) :=
  let nK := Z.abs (snd f1) in
  let sign1 := match fst f1 with MSin => if (snd f1 <? 0)%Z then (-1)%R else 1%R | _ => 1%R end in
  let sign2 := match fst f2 with MSin => if (snd f2 <? 0)%Z then (-1)%R else 1%R | _ => 1%R end in
  let sign := (sign1 * sign2)%R in
  if negb (Z.abs (snd f1) =? Z.abs (snd f2))%Z then None
  else
  let id := identityTri 0%R (pDim p) in
  Some (match fst (flipNegative f1), fst (flipNegative f2) with
  | MSin, MSin => bind id (fun id => bind (cosNKX p (2 * nK)) (fun c => bind (sub CReqb id c) (fun s => Ok (scale (RC (/ 2)) (scale (RC sign) s)))))
  | MCos, MCos => bind id (fun id => bind (cosNKX p (2 * nK)) (fun c => bind (add CReqb id c) (fun s => Ok (scale (RC (/ 2)) s))))
  | MSin, MCos | MCos, MSin => bind (sinNKX p (2 * nK)) (fun c => Ok (scale (RC (/ 2)) (scale (RC sign) c)))
  | MPlus, MPlus | MMinus, MMinus => id
  | MPlus, MMinus => expINKX p (-2 * nK)
  | MMinus, MPlus => expINKX p (2 * nK)
  | MPlus, MSin | MSin, MMinus =>
      bind id (fun id => bind (expINKX p (-2 * nK)) (fun e => bind (sub CReqb e id) (fun s => Ok (scale (RC (/ 2)) (scale CI (scale (RC sign) s))))))
  | MPlus, MCos | MCos, MMinus => bind id (fun id => bind (expINKX p (-2 * nK)) (fun e => bind (add CReqb id e) (fun s => Ok (scale (RC (/ 2)) s))))
  | MMinus, MCos | MCos, MPlus => bind id (fun id => bind (expINKX p (2 * nK)) (fun e => bind (add CReqb id e) (fun s => Ok (scale (RC (/ 2)) s))))
  | MMinus, MSin | MSin, MPlus =>
      bind id (fun id => bind (expINKX p (2 * nK)) (fun e => bind (sub CReqb e id) (fun s => Ok (scale (RC (/ 2)) (scale CI (scale (RC (- sign)) s))))))
  end).

(** ** The free particle and its pump *)
(** hOverI, Particle.cc:83-86 *)
Definition partHOverI (dim : nat) (vClass : R) (mf : modeFunction) : outcome (tri CR R) :=
  if negb (Reqb vClass 0) && negb (isComplexMF (fst mf))
  then bind (cosNKX0 dim (Z.shiftl (snd mf) 1)) (fun c =>
         Ok (scale ((0, - / 2)%R : CR) (scale (RC (vClass * match fst mf with MSin => -1 | _ => 1 end)) c)))
  else emptyTri.
(** a particle as a system: dimension, omrec if derived from Exact, its Hamiltonian (with time dependence) if it has one *)
Record partSys := mkPS { psFin : nat; psExact : option R; psH : option (bool * list (tri CR R)) }.
(** Hamiltonian<true>, Particle.cc:100-104; Hamiltonian<false>, Particle.cc:107-124 *)
Definition partHamIP (fin : nat) (omrec vClass : R) (mf : modeFunction) : outcome (list (tri CR R)) :=
  bind (partHOverI (2 ^ fin) vClass mf) (fun h => bind (furnish h (partDiagonal fin omrec)) (fun h' => Ok [h'])).
Definition partHamSch (fin : nat) (omrec vClass : R) (mf : modeFunction) : outcome (list (tri CR R)) :=
  bind (ofDiagonal (partDiagonal fin (- omrec))) (fun d => bind (partHOverI (2 ^ fin) vClass mf) (fun h => bind (add CReqb d h) (fun s => Ok [s]))).
(** Particle, ParticleSch, PumpedParticle, PumpedParticleSch, Particle.cc:200-231; make and makePumped, Particle.cc:452-463: [sch] is qmp==QMP_SCH *)
Definition makeParticle (sch : bool) (fin : nat) (omrec : R) : outcome partSys :=
  if sch then bind (ofDiagonal (partDiagonal fin (- omrec))) (fun d => Ok (mkPS fin None (Some (false, [d]))))
  else Ok (mkPS fin (Some omrec) None).
Definition makePumpedParticle (sch : bool) (fin : nat) (omrec vClass : R) (mf : modeFunction) : outcome partSys :=
  if sch then bind (partHamSch fin omrec vClass mf) (fun hs => Ok (mkPS fin None (Some (false, hs))))
  else bind (partHamIP fin omrec vClass mf) (fun hs => Ok (mkPS fin (Some omrec) (Some (true, hs)))).

(** ** Particle and cavity *)
(** a mode in an interaction: its dimension, and zI and omegaKerr if derived from mode::Exact *)
Record cavity := mkCavity { cvDim : nat; cvExact : option (CR * R) }.
(** aop(Ptr), Mode.cc:288-294; nop, Mode.cc:298-301 *)
Definition cavAop (m : cavity) : outcome (tri CR R) :=
  bind (aop (cvDim m)) (fun a => match cvExact m with Some (zI, o) => furnish a (mainDiagonal zI o (cvDim m)) | None => Ok a end).
Definition cavNop (m : cavity) : outcome (tri CR R) := ofDiagonal (mainDiagonal k1 0 (cvDim m)).
(** tridiagPlusHC_overI, Tridiagonal.h:346-350 *)
Definition plusHCoverI (t : tri CR R) : outcome (tri CR R) := bind (plusHC CReqb t) (fun s => Ok (scale (kopp CI) s)).
Definition prod (a b : tri CR R) : outcome (tri CR R) := direct Reqb a b.

(** etaEff, ParticleCavity.cc:20-24, with sign, MathExtensions.cc:17 (GSL_SIGN, 1 at zero); [None]: "Unot VClass sign discrepancy" *)
Definition rsign (x : R) : R := if Rlt_dec x 0 then (-1)%R else 1%R.
Definition etaEff (uNot vClass : R) : option R :=
  if Rle_dec 0 (uNot * vClass) then Some (rsign uNot * sqrt (uNot * vClass))%R else None.
(** dispersive, ParticleCavity.cc:26-32 *)
Definition dispersive (m : cavity) (p : particle) (uNot : R) (mf : modeFunction) : outcome (list (tri CR R)) :=
  if negb (Reqb uNot 0) && negb (isComplexMF (fst mf))
  then bind (cavNop m) (fun n => bind (cosNKX p (Z.shiftl (snd mf) 1)) (fun c =>
         bind (prod (scale (RC match fst mf with MSin => -1 | _ => 1 end) (scale (RC uNot) n)) c) (fun t => Ok [scale ((0, - / 2)%R : CR) t])))
  else Ok [].
(** interfericOneModeFN, interfericTwoModeFN, ParticleCavity.cc:34-42; [None] within: the exception of mfComposition *)
Definition interfericOne (m : cavity) (p : particle) (etaeff : R) (mf : modeFunction) : outcome (tri CR R) :=
  bind (cavAop m) (fun a => bind (mfNKX p mf) (fun f => bind (prod a f) (fun t => bind (plusHCoverI t) (fun h => Ok (scale (RC etaeff) h))))).
Definition interfericTwo (m : cavity) (p : particle) (etaeff : R) (mfCav mfPart : modeFunction) : option (outcome (tri CR R)) :=
  option_map (fun c => bind (cavAop m) (fun a => bind c (fun f => bind (prod (dagger a) f) (fun t => bind (plusHCoverI t) (fun h => Ok (scale (RC etaeff) h))))))
    (mfComposition p mfCav mfPart).

(** the Hamiltonian of an interaction: the list of tridiagonals, and if there is a general part, firstH_, firstHT_, secondH_, secondHT_ *)
Record generalH := mkGen { gFirst : tri CR R; gFirstT : tri CR R; gSecond : tri CR R; gSecondT : tri CR R }.
Record intH := mkIntH { ihDims : list nat; ihList : list (tri CR R); ihGen : option generalH }.

(** ParticleOrthogonalToCavity, ParticleCavity.cc:74-84 *)
Definition orthogonal (m : cavity) (p : particle) (etaeff : R) (mfPart : modeFunction) : outcome intH :=
  bind (interfericOne m p etaeff mfPart) (fun h => Ok (mkIntH [cvDim m; pDim p] [h] None)).
(** ParticleAlongCavity with a particle which is not pumped along the cavity, ParticleCavity.cc:93-102, fillT, 44-51 *)
Definition alongOne (m : cavity) (p : particle) (uNot etaeff : R) (mf : modeFunction) : outcome intH :=
  bind (dispersive m p uNot mf) (fun ds =>
  if Reqb etaeff 0 then Ok (mkIntH [cvDim m; pDim p] ds None)
  else bind (interfericOne m p etaeff mf) (fun h => Ok (mkIntH [cvDim m; pDim p] (ds ++ [h]) None))).
(** ParticleAlongCavity with a pumped one, ParticleCavity.cc:104-113, fillTTwoModeFN, 53-61; the wave number of the cavity is not negative. firstH_ etc. are
    used if not isSpecialH_ only. *)
Definition alongTwo (m : cavity) (p : particle) (uNot etaeff : R) (mf mfPart : modeFunction) : outcome intH :=
  let dims := [cvDim m; pDim p] in
  bind (dispersive m p uNot mf) (fun ds =>
  if (snd mf =? Z.abs (snd mfPart))%Z
  then if Reqb etaeff 0 then Ok (mkIntH dims ds None)
       else match interfericTwo m p etaeff mf mfPart with
            | Some o => bind o (fun h => Ok (mkIntH dims (ds ++ [h]) None))
            | None => UB (* not reached *)
            end
  else bind (cavAop m) (fun a => bind (mfNKX p mf) (fun f => bind (prod (scale (RC etaeff) a) f) (fun t =>
       let first := scale (kopp CI) t in
       bind (mfNKX p mfPart) (fun g => let second := dagger g in
       Ok (mkIntH dims ds (Some (mkGen first (neg (dagger first)) second (dagger second))))))))).

(** ** ParticleTwoModes *)
(** factor, ParticleTwoModes.cc:23-27; [None]: "Unots sign discrepancy" *)
Definition factor (uNot0 uNot1 phi : R) : option CR :=
  if Rlt_dec (uNot0 * uNot1) 0 then None else Some (kmul (RC (rsign uNot0 * sqrt (uNot0 * uNot1))) (cexp (kmul CI (RC phi)))).
(** constructor, ParticleTwoModes.cc:33-46, given the factor; firstH_ etc. are used if not isSpecialH_ only *)
Definition twoModes (m0 m1 : cavity) (p : particle) (fac : CR) (mf0 mf1 : modeFunction) : outcome intH :=
  let dims := [cvDim m0; cvDim m1; pDim p] in
  bind (cavAop m0) (fun a0 => bind (cavAop m1) (fun a1 =>
  if (Z.abs (snd mf0) =? Z.abs (snd mf1))%Z
  then match mfComposition p mf0 mf1 with
       | Some o => bind o (fun f => bind (prod (scale fac (dagger a0)) a1) (fun t => bind (prod t f) (fun t => bind (plusHCoverI t) (fun h =>
                   Ok (mkIntH dims [h] None)))))
       | None => UB (* not reached *)
       end
  else bind (mfNKX p mf0) (fun f => bind (prod (scale fac a0) (dagger a1)) (fun t => bind (prod t f) (fun t =>
       let first := scale (kopp CI) t in
       bind (mfNKX p mf1) (fun g => let second := dagger g in
       Ok (mkIntH dims [] (Some (mkGen first (neg (dagger first)) second (dagger second)))))))))).

(** ** addContribution_v of all of these, ParticleCavity.cc:115-140, ParticleTwoModes.cc:50-79, TridiagonalHamiltonian.h:42-47, at [dt]=t-t0; the mutable
    operators are propagated in place. [None]: failure of slice iteration *)
Definition propagateGen (dt : R) (g : generalH) : generalH :=
  mkGen (propagate dt (gFirst g)) (propagate dt (gFirstT g)) (propagate dt (gSecond g)) (propagate dt (gSecondT g)).
Definition intContribution (dt : R) (h : intH) (psi dpsidt : array) : intH * option array :=
  let (hs, d0) := addContribution true dt (ihList h) psi dpsidt in
  match ihGen h with
  | None => (mkIntH (ihDims h) hs None, Some d0)
  | Some g0 =>
      let g := propagateGen dt g0 in
      let V := [List.length (ihDims h) - 1] in
      let d1 := onSlices2 (ihDims h) V (fun s d => apply (gSecond g) s d) (apply (gFirst g) psi (fun _ => k0)) d0 in
      (mkIntH (ihDims h) hs (Some g),
       match d1 with
       | Some d1 => onSlices2 (ihDims h) V (fun s d => apply (gSecondT g) s d) (apply (gFirstT g) psi (fun _ => k0)) d1
       | None => None
       end)
  end.
(** after calls at the times [dts] *)
Definition intAfter (dts : list R) (h : intH) : intH := fold_left (fun h dt => fst (intContribution dt h (fun _ => k0) (fun _ => k0))) dts h.
