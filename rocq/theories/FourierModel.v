(** Model of the transformation between position and momentum space: quantumdata::ffTransform of CPPQEDcore/quantumdata/LazyDensityOperatorFFT.h and .cc with
    CPPQEDutils/FFT.h, .cc, .tcc; of particle::Spatial, particle::Averaged, particle::wavePacket and particle::hoState of CPPQEDelements/frees/Particle.cc.
    Real arithmetic. Vectors are functions of the index together with a size. GSL's radix-2 transform is the discrete Fourier transform, refusing sizes which are not
    powers of 2. Iteration over slices, which are disjoint, is by acting on each of them. *)
From Coq Require Import List Arith ZArith Reals Bool.
From Verif Require Import Star CReal PureModel DdhoModel.
Import ListNotations.
Local Open Scope nat_scope.

Definition line := nat -> CR.
(** psi(i)=z *)
Definition put (psi : line) (i : nat) (z : CR) : line := fun k => if k =? i then z else psi k.
(** fft::Direction, FFT.h:12-15; fft::reverse, :42 *)
Inductive direction := DIR_XK | DIR_KX.
Definition reverse (dir : direction) : direction := match dir with DIR_KX => DIR_XK | DIR_XK => DIR_KX end.
(** gsl_fft_complex_radix2_transform *)
Definition isPower2 (n : nat) : bool := 2 ^ Nat.log2 n =? n.
Definition gslTransform (sign : R) (n : nat) (psi : line) : option line :=
  if isPower2 n
  then Some (fun k => if k <? n then ksum (fun j => kmul (psi j) (cexp ((0%R, (sign * (2 * PI * INR j * INR k / INR n))%R) : CR))) (seq 0 n) else psi k)
  else None.
(** fft::details::transform, FFT.cc:14-18; gsl_fft_forward is -1, gsl_fft_backward is 1; None: exception *)
Definition transform (n : nat) (psi : line) (dir : direction) : option line :=
  gslTransform (match dir with DIR_XK => -1 | DIR_KX => 1 end)%R n psi.
(** Helper::_, LazyDensityOperatorFFT.cc:20-25 *)
Definition swapScaled (psi : line) (i1 i2 : nat) (norm : R) : line :=
  let temp := psi i1 in
  let psi := put psi i1 (kmul (RC norm) (psi i2)) in
  put psi i2 (kmul (RC norm) temp).
(** ffTransformCV, LazyDensityOperatorFFT.cc:16-42 *)
Definition ffTransformCV (n : nat) (psi : line) (dir : direction) : option line :=
  if n <? 2 then Some psi else
  match transform n psi dir with None => None | Some psi =>
    let half := n / 2 in
    let psi := fold_left (fun psi j => swapScaled psi j (j + half) (/ sqrt (INR n))%R) (seq 0 half) psi in
    Some (fold_left (fun psi j => put psi j (kopp (psi j))) (map (fun i => 2 * i + 1) (seq 0 half)) psi) end.
(** whether the exception is thrown depends on the size only *)
Definition transformable (n : nat) : bool := (n <? 2) || isPower2 n.
Definition ffLine (n : nat) (psi : line) (dir : direction) : line := match ffTransformCV n psi dir with Some r => r | None => psi end.
(** ffTransform of a CMatrix, LazyDensityOperatorFFT.cc:56-63 *)
Definition ffMatrix (n : nat) (rho : nat -> nat -> CR) (dir : direction) : nat -> nat -> CR :=
  let rho1 := fun i j => ffLine n (fun m => rho m j) dir i in
  fun i j => ffLine n (fun m => rho1 i m) (reverse dir) j.

(** state vectors and density operators of any number of constituents; LazyDensityOperator *)
Definition amps := list nat -> CR.
Definition dens := list nat -> list nat -> CR.
Inductive lazy := Pure (psi : amps) | Mixed (rho : dens).
(** replace the index at a position *)
Fixpoint at_position (p v : nat) (y : list nat) : list nat :=
  match y, p with [], _ => [] | _ :: l, O => v :: l | a :: l, Datatypes.S q => a :: at_position q v l end.
(** fftWorkerSV, fftWorkerDO, LazyDensityOperatorFFT.h:36-72 *)
Definition fftWorkerSV (dims : list nat) (dir : direction) (psi : amps) (p : nat) : amps :=
  fun y => ffLine (nth p dims 0) (fun v => psi (at_position p v y)) dir (nth p y 0).
Definition fftWorkerDO (dims : list nat) (dir : direction) (rho : dens) (p : nat) : dens :=
  fun y z => ffMatrix (nth p dims 0) (fun v w => rho (at_position p v y) (at_position p w z)) dir (nth p y 0) (nth p z 0).
(** ffTransform<V>, LazyDensityOperatorFFT.h:78-96; None: exception *)
Definition ffTransform (dims : list nat) (V : list nat) (matrix : lazy) (dir : direction) : option lazy :=
  if forallb (fun p => transformable (nth p dims 0)) V
  then Some (match matrix with Pure psi => Pure (fold_left (fftWorkerSV dims dir) V psi) | Mixed rho => Mixed (fold_left (fftWorkerDO dims dir) V rho) end)
  else None.

(** particle::Spatial, Particle.cc:252-270 *)
Section Space.
Variables (fin : nat) (deltaK : R).
Local Open Scope R_scope.
Definition xMax : R := PI / deltaK.
Definition deltaX : R := 2 * xMax / INR (2 ^ fin).
Definition kMax : R := PI / deltaX.
Definition spaceX (i : nat) : R := deltaX * INR i - xMax.
Definition spaceK (i : nat) : R := deltaK * INR i - kMax.
End Space.

(** matrix(i) *)
Definition diagOf (matrix : lazy) (i : nat) : R := match matrix with Pure psi => csq (psi [i]) | Mixed rho => cre (rho [i] [i]) end.
(** particle::Averaged::average_v, Particle.cc:142-164 *)
Definition particleAverage (fin : nat) (matrix : lazy) : option (list R) :=
  let dim := 2 ^ fin in
  match ffTransform [dim] [0] matrix DIR_KX with None => None | Some matrixX =>
    let k := spaceK fin 1 in let x := spaceX fin 1 in
    Some [rsum (fun i => k i * diagOf matrix i)%R (seq 0 dim); rsum (fun i => k i * k i * diagOf matrix i)%R (seq 0 dim);
          rsum (fun i => x i * diagOf matrixX i)%R (seq 0 dim); rsum (fun i => x i * x i * diagOf matrixX i)%R (seq 0 dim)] end.
(** particle::Averaged::process_v, Particle.cc:168-172; None: not-a-number in the last column *)
Definition particleProcess (averages : list R) : option (list R) :=
  match averages with
  | [p; pp; x; xx] => if Rlt_dec (xx - x * x) 0 then None else Some [p; (pp - p * p)%R; x; sqrt (xx - x * x)]
  | _ => None end.

(** StateVector::renorm, StateVector.h:148-153, of the amplitudes psiLow(0),..,psiLow(dim-1); meaningless if all of them vanish *)
Definition renormed (dim : nat) (psi : line) : line :=
  let norm := sqrt (rsum (fun j => csq (psi j)) (seq 0 dim)) in fun j => kmul (psi j) (RC (/ norm)).
(** particle::InitialCondition, CPPQEDelements/utils/ParticleInitialCondition.h *)
Record initialCondition := mkInit { iX0 : R; iK0 : R; iSig : R; iInK : bool }.
(** particle::wavePacket, Particle.cc:357-376; the size is a power of 2 *)
Definition wavePacket (init : initialCondition) (fin : nat) (deltaK : R) (kFlag : bool) : line :=
  let o1 := (PI * iX0 init)%R in let o2 := iK0 init in
  let offset1 := if iInK init then o2 else o1 in
  let offset2 := if iInK init then (- o1)%R else o2 in
  let array := if iInK init then spaceK fin deltaK else spaceX fin deltaK in
  let psiLow : line := fun i => cexp (((- ((array i - offset1) * (array i - offset1)) / (4 * (iSig init * iSig init)))%R, (array i * offset2)%R) : CR) in
  let psiLow := if kFlag && negb (iInK init) then ffLine (2 ^ fin) psiLow DIR_XK else if negb kFlag && iInK init then ffLine (2 ^ fin) psiLow DIR_KX else psiLow in
  renormed (2 ^ fin) psiLow.
(** boost::math::hermite: the physicists' Hermite polynomials, by the recursion *)
Fixpoint hermitePair (n : nat) (x : R) : R * R :=
  match n with O => (1, 2 * x)%R | Datatypes.S m => let (a, b) := hermitePair m x in (b, (2 * (x * b - INR (m + 1) * a))%R) end.
Definition hermite (n : nat) (x : R) : R := fst (hermitePair n x).
(** particle::hoState, Particle.cc:403-424 *)
Definition hoState (n : Z) (init : initialCondition) (fin : nat) (deltaK : R) (kFlag : bool) : line :=
  let n := if (n <? 0)%Z then 0%Z else n in
  let kx0 := (PI * iX0 init)%R in
  let psiLow : line := fun j => let temp := ((spaceX fin deltaK j - kx0) / iSig init)%R in RC (exp (- (temp * temp) / 2) * hermite (Z.to_nat n) temp) in
  renormed (2 ^ fin) (if kFlag then ffLine (2 ^ fin) psiLow DIR_XK else psiLow).
(** the parameters of a pumped particle; coherent, Particle.cc:385-391; wavePacket and hoState of them, :394-400, :433-440; init, :443-449 *)
Record parsPumped := mkParsPumped { pOmrec : R; pFin : nat; pInit : initialCondition; pHoInitn : Z; pVClass : R }.
Definition coherentCondition (p : parsPumped) : initialCondition :=
  mkInit (iX0 (pInit p)) (iK0 (pInit p)) (Rpower (pOmrec p / Rabs (pVClass p)) (1 / 4) / sqrt 2) false.
Definition conditionOf (p : parsPumped) : initialCondition := if Req_EM_T (iSig (pInit p)) 0 then coherentCondition p else pInit p.
Definition pumpedInit (p : parsPumped) (kFlag : bool) : line :=
  if (pHoInitn p <? 0)%Z then wavePacket (conditionOf p) (pFin p) 1 kFlag else hoState (pHoInitn p) (conditionOf p) (pFin p) 1 kFlag.
