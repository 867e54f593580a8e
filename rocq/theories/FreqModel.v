(** Model of the lists of frequencies of the elements and interactions of CPPQEDelements, of CPPQEDcore/structure/DynamicsBase.cc and of the initial time step. The names of the
    frequencies, which are only printed, are left out; a conjugation, and minus signs which cancel, in the macros TUPLE_* have been carried out. *)
From Coq Require Import List Arith Bool Reals.
From Verif Require Import Star CReal TriModel FreeExactModel ElementModel ModeModel ParticleModel InteractionModel SigmaModel MatHamModel EntangleModel.
Import ListNotations.

(** RealFreqs and ComplexFreqs, DynamicsBase.h: a value and its multiplier *)
Definition freqs := (list (R * R) * list (CR * R))%type.
(** absReal, absComplex, DynamicsBase.cc:34-35 *)
Definition absReal (f : R * R) : R := Rabs (fst f * snd f).
Definition absComplex (f : CR * R) : R := cabs (kmul (fst f) (RC (snd f))).
(** std::max_element *)
Definition maxElement {A} (f : A -> R) (x : A) (l : list A) : A := fold_left (fun best y => if Rlt_dec (f best) (f y) then y else best) l x.
(** highestFrequency, DynamicsBase.cc:49-65 *)
Definition highestFrequency (fs : freqs) : R :=
  Rmax (match fst fs with [] => 0 | x :: l => absReal (maxElement absReal x l) end)
       (match snd fs with [] => 0 | x :: l => absComplex (maxElement absComplex x l) end).
(** initialTimeStep, Trajectory.h:126 and QuantumTrajectory.h:23-26; [None]: infinite *)
Definition initialTimeStep (hf : R) : option R := if Reqb hf 0 then None else Some (1 / (10 * hf))%R.

(** TUPLE_delta, TUPLE_eta, TUPLE_kappadelta, TUPLE_kappa, Mode.tcc:90-93; ip: the macro's ISIP *)
Definition tDelta (ip : bool) (p : modePars) : R * R := (pDelta p, if ip then 1%R else INR (pCutoff p)).
Definition tEta (p : modePars) : CR * R := (pEta p, sqrt (INR (pCutoff p))).
Definition tKappaDelta (ip temp : bool) (p : modePars) : CR * R := ((decayRate temp p, pDelta p) : CR, if ip then 1%R else INR (pCutoff p)).
Definition tKappa (temp : bool) (p : modePars) : R * R := (decayRate temp p, INR (pCutoff p)).
(** the constructors, Mode.tcc:96-198 *)
Definition fMode (p : modePars) : freqs := ([tDelta true p], []).
Definition fModeSch (p : modePars) : freqs := ([tDelta false p], []).
Definition fPumpedMode (p : modePars) : freqs := ([tDelta true p], [tEta p]).
Definition fPumpedModeSch (p : modePars) : freqs := ([tDelta false p], [tEta p]).
Definition fLossyMode (temp : bool) (p : modePars) : freqs := ([], [tKappaDelta true temp p]).
Definition fLossyModeUIP (temp : bool) (p : modePars) : freqs := ([tKappa temp p; tDelta true p], []).
Definition fLossyModeSch (temp : bool) (p : modePars) : freqs := ([tKappa temp p; tDelta false p], []).
Definition fPumpedLossyMode (temp : bool) (p : modePars) : freqs := ([], [tKappaDelta true temp p; tEta p]).
Definition fPumpedLossyModeUIP (temp : bool) (p : modePars) : freqs := ([tKappa temp p; tDelta true p], [tEta p]).
Definition fPumpedLossyModeSch (temp : bool) (p : modePars) : freqs := ([], [tKappaDelta false temp p; tEta p]).
(** the frequencies of what mode::make, Mode.tcc:22-57, makes (ModeModel.make) *)
Definition modeFreqs (p : modePars) (qmp : picture) : freqs :=
  let temp := negb (Reqb (pNTh p) 0) in
  if Reqb (pKappa p) 0 then
    if negb (isNonZero (pEta p)) then switch qmp (fMode p) (fMode p) (fModeSch p)
    else switch qmp (fPumpedMode p) (fPumpedMode p) (fPumpedModeSch p)
  else if negb (isNonZero (pEta p)) then switch qmp (fLossyMode temp p) (fLossyModeUIP temp p) (fLossyModeSch temp p)
  else switch qmp (fPumpedLossyMode temp p) (fPumpedLossyModeUIP temp p) (fPumpedLossyModeSch temp p).

(** the macros of Qbit.cc:81-84, all with multiplier 1; the constructors, Qbit.cc:86-164, make, Qbit.cc:216-246 *)
Definition qbitFreqs (delta gamma : R) (eta : CR) (qmp : picture) : freqs :=
  let d := (delta, 1%R) in let g := (gamma, 1%R) in let e := (kopp eta, 1%R) in let gd := ((gamma, delta) : CR, 1%R) in
  if Reqb gamma 0 then if negb (isNonZero eta) then ([d], []) else ([d], [e])
  else if negb (isNonZero eta) then switch qmp ([], [gd]) ([g; d], []) ([g; d], [])
  else switch qmp ([], [gd; e]) ([g; d], [e]) ([], [gd; e]).
(** with phase noise, Qbit.cc:167-202, make, Qbit.cc:249-266; the last of the constructors has no eta.
    In the braces of the last but one, the real frequency is converted to a complex one (there is a constructor from a list of complex frequencies only, Qbit_.h:49) *)
Definition qbitNoiseFreqs (delta gamma gammaPar : R) (eta : CR) (qmp : picture) : freqs :=
  let d := (delta, 1%R) in let g := (gamma, 1%R) in let gp := (gammaPar, 1%R) in let e := (kopp eta, 1%R) in let gd := ((gamma, delta) : CR, 1%R) in
  if Reqb gammaPar 0 then qbitFreqs delta gamma eta qmp
  else match qmp with
       | UIP => if isNonZero eta then ([gp; g; d], []) else ([gp; g; d], [])
       | _ => if isNonZero eta then ([], [(RC gammaPar, 1%R); gd; e]) else ([gp], [gd])
       end.
(** SpinBase, Spin.cc:89 *)
Definition spinFreqs (omega gamma : R) : freqs := ([(omega, 1%R); (gamma, 1%R)], []).
(** TimeIndependentMatrixHamiltonian.cc:6: max(abs(hamiltonianOverI)) *)
Definition matrixFreqs (h : matrixH) : freqs :=
  ([(fold_left (fun x ij => Rmax x (cabs (mhMatrix h (fst ij) (snd ij)))) (list_prod (seq 0 (mhDim h)) (seq 0 (mhDim h))) 0%R, 1%R)], []).
(** JaynesCummings_.h:43 *)
Definition jaynesCummingsFreqs (a : atom) (m : cavity) (g : CR) : freqs := ([], [(g, sqrt (INR (atomDim a * cvDim m)))]).
(** CoupledModes.cc:14 *)
Definition coupledFreqs (m1 m2 : cavity) (u : CR) : freqs := ([], [(u, INR (cvDim m1) * sqrt (INR (cvDim m2)))%R]).
(** MLJC.h:32-36, elementaryComplexFreqs, MultiLevel.h:320-323 *)
Definition mljcFreqs (gs : list mlCoupling) : freqs := ([], map (fun c => (cG c, 1%R)) gs).
