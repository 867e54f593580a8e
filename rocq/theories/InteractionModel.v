(** Model of the Hamiltonians of CPPQEDelements/interactions/JaynesCummings_.h, .cc, CoupledModes.h, .cc and GeneralDicke.cc. A qbit is a mode of
    dimension 2 (QbitBase derives from ModeBase, Qbit.cc:83-85). Interactions which make() creates without Hamiltonian have an empty list of
    tridiagonals. Not modelled: averages of interactions, printing. *)
From Coq Require Import List Arith Bool Reals.
From Verif Require Import Star CReal TriModel ElementModel ModeModel ParticleModel.
Import ListNotations.

(** mode::xop, Mode_.h:38 *)
Definition cavXop (m : cavity) : outcome (tri CR R) :=
  bind (cavAop m) (fun a => bind (plusHC CReqb a) (fun x => Ok (scale (RC (/ sqrt 2)) x))).

(** a spin: 2s, the parameter spinDim, and z if derived from structure::FreeExact<false>, Spin.h:84-133 *)
Record spinC := mkSpin { spTwoS : nat; spDimPar : nat; spExact : option CR }.
Definition spDim (s : spinC) : nat := decideDimension (spTwoS s) (spDimPar s).
(** spin::mainDiagonal, Spin.cc:35-40 *)
Definition spinDiagonal (dim twoS : nat) (z : CR) : arr CR := vecOf dim (fun i => kmul z (RC (INR i - INR twoS / 2))).
(** splus(Ptr), Spin.cc:43-52, 70; sminus(Ptr), sx(Ptr), Spin.h:38-39; sz(Ptr), Spin.cc:61-67 *)
Definition splusOf (s : spinC) : outcome (tri CR R) :=
  bind (splus (spDim s) (spTwoS s)) (fun t => match spExact s with Some z => furnish t (spinDiagonal (spDim s) (spTwoS s) z) | None => Ok t end).
Definition sminusOf (s : spinC) : outcome (tri CR R) := bind (splusOf s) (fun t => Ok (dagger t)).
Definition sxOf (s : spinC) : outcome (tri CR R) :=
  bind (splusOf s) (fun t => bind (add CReqb t (dagger t)) (fun x => Ok (scale (RC (/ 2)) x))).
Definition szOf (s : spinC) : outcome (tri CR R) := sz (spDim s) (spTwoS s).

(** an atom of JaynesCummings: sigmaop, JaynesCummings.cc:18-21, Qbit_.h:64 *)
Inductive atom := AQbit (zI : option (CR * R)) | ASpin (s : spinC).
Definition atomDim (a : atom) : nat := match a with AQbit _ => 2 | ASpin s => spDim s end.
Definition sigmaop (a : atom) : outcome (tri CR R) := match a with AQbit zI => cavAop (mkCavity 2 zI) | ASpin s => sminusOf s end.
(** jaynescummings::Base<true>, JaynesCummings_.h:60-64, make, :85-90 *)
Definition makeJaynesCummings (a : atom) (m : cavity) (g : CR) : outcome intH :=
  let dims := [atomDim a; cvDim m] in
  if isNonZero g
  then bind (sigmaop a) (fun s => bind (cavAop m) (fun b => bind (prod (scale (kconj g) s) (dagger b)) (fun t => bind (minusHC CReqb t) (fun h =>
       Ok (mkIntH dims [h] None)))))
  else Ok (mkIntH dims [] None).

(** coupledmodes::Base<true,C>, CoupledModes.cc:22-43, make, CoupledModes.h:59-64 *)
Inductive coupling := CM_NX | CM_XX | CM_XX_RWA.
Definition coupledH (c : coupling) (m1 m2 : cavity) (u : CR) : outcome (tri CR R) :=
  match c with
  | CM_NX => bind (cavNop m1) (fun n => bind (cavXop m2) (fun x => bind (prod (scale (RC (cre u)) n) x) (fun t => Ok (scale (kopp CI) t))))
  | CM_XX => bind (cavXop m1) (fun x1 => bind (cavXop m2) (fun x2 => bind (prod (scale (RC (cre u)) x1) x2) (fun t => Ok (scale (kopp CI) t))))
  | CM_XX_RWA => bind (cavAop m1) (fun a1 => bind (cavAop m2) (fun a2 => bind (prod (scale (kconj u) a1) (dagger a2)) (fun t => minusHC CReqb t)))
  end.
Definition makeCoupledModes (c : coupling) (m1 m2 : cavity) (u : CR) : outcome intH :=
  let dims := [cvDim m1; cvDim m2] in
  if isNonZero u then bind (coupledH c m1 m2 u) (fun h => Ok (mkIntH dims [h] None)) else Ok (mkIntH dims [] None).

(** generaldicke::Base, GeneralDicke.cc:13-18 *)
Definition generalDicke (m : cavity) (s : spinC) (u y : CR) : outcome intH :=
  bind (cavNop m) (fun n => bind (szOf s) (fun z => bind (identityTri 0%R (spDim s)) (fun one =>
  bind (add CReqb z (scale (RC (INR (spTwoS s) / 2)) one)) (fun z' => bind (prod (scale u n) z') (fun t1 =>
  bind (cavAop m) (fun a => bind (add CReqb (dagger a) a) (fun x => bind (sxOf s) (fun sx => bind (prod (scale y x) sx) (fun t2 =>
  bind (add CReqb t1 t2) (fun t => Ok (mkIntH [cvDim m; spDim s] [scale (kopp CI) t] None))))))))))).
