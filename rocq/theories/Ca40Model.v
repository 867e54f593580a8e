(** Model of the script CPPQEDscripts/Ca40InCavityWithPhonons.cc: the parameters it makes of those of the user. The text of the file, parts of which belong to an earlier interface (RealLevelsMF, Mode<>).
    Levels: 0, 1 of S1/2, 2, 3 of P1/2, 4 to 7 of D3/2. Not modelled: reading the parameters, the initial state, the driver. *)
From Coq Require Import List Arith Bool Reals.
From Verif Require Import Star CReal TriModel ElementModel ModeModel ParticleModel InteractionModel SigmaModel CavScriptModel.
Import ListNotations.

(** the parameters of the user, Ca40InCavityWithPhonons.cc:65-80 *)
Record caPars := mkCa { aEta : CR; aEtaC : CR; aPhononFactor : R; aG : R; aDeltaEta : R; aDeltaG : R; aOmega : R; aPhononCutoff : nat; aCavityCutoff : nat }.
(** "Clebsches", line 36 *)
Definition sqrt13 : R := sqrt (1 / 3).
Definition sqrt23 : R := sqrt (2 / 3).
Definition sqrt12 : R := sqrt (1 / 2).
Definition sqrt16 : R := sqrt (1 / 6).
(** lines 49-62, the order of Decays is that of line 21 *)
Definition gammaPS : R := (1048 / 100)%R.
Definition gammaPD : R := (73 / 100)%R.
Definition caDecays : list decay :=
  [mkDecay 0 2 (sqrt13 * gammaPS); mkDecay 1 2 (sqrt23 * gammaPS); mkDecay 0 3 (sqrt23 * gammaPS); mkDecay 1 3 (sqrt13 * gammaPS);
   mkDecay 4 2 (sqrt12 * gammaPD); mkDecay 5 2 (sqrt13 * gammaPD); mkDecay 6 2 (sqrt16 * gammaPD); mkDecay 5 3 (sqrt16 * gammaPD); mkDecay 6 3 (sqrt13 * gammaPD); mkDecay 7 3 (sqrt12 * gammaPD)].
(** line 102: deltas(0)=0; the constructor ParsMultiLevel.h:34 has set the others to 0 *)
Definition caDeltas (p : caPars) (i : nat) : R := 0%R.
(** lines 18, 88-89 *)
Definition caPumps (p : caPars) : list pump := [mkPump 1 2 (aEta p); mkPump 0 3 (aEta p)].
(** lines 19, 91-92 *)
Definition caPhononGs (p : caPars) : list mlCoupling :=
  let c := kmul (kmul (kopp CI) (RC (aPhononFactor p))) (aEta p) in [mkCoupling 1 2 c; mkCoupling 0 3 c].
(** lines 23, 94-99 *)
Definition caGs (p : caPars) : list mlCoupling :=
  [mkCoupling 4 2 (RC (sqrt12 * aG p)); mkCoupling 5 2 (RC (sqrt13 * aG p)); mkCoupling 6 2 (RC (sqrt16 * aG p));
   mkCoupling 5 3 (RC (sqrt16 * aG p)); mkCoupling 6 3 (RC (sqrt13 * aG p)); mkCoupling 7 3 (RC (sqrt12 * aG p))].
(** lines 104-112 *)
Definition caPhonon (p : caPars) : modePars := mkPars (- aOmega p) 0 0 (aPhononCutoff p) k0 0 0.
Definition caCavity (p : caPars) : modePars := mkPars (aDeltaG p - aDeltaEta p) 0 0 (aCavityCutoff p) (aEtaC p) (55 / 1000) 0.
(** lines 122-133: H/i of the atom, its jumps, the modes in interaction picture and the two interactions *)
Record ca := mkCaSys { csH : ket -> ket -> ket; csLoss : list lindbladOp; csPhonon : modeSys; csCavity : modeSys; csPhononInt : mljcResult; csCavityInt : mljcResult }.
Definition caScript (p : caPars) : outcome ca :=
  bind (cMode (caPhonon p)) (fun sp => bind (make (caCavity p) IP) (fun sc =>
  Ok (mkCaSys (multiLevelH 8 (multiLevelZ (caDeltas p) caDecays) (caPumps p)) (multiLevelLoss 8 caDecays None) sp sc
              (makeMLJC false (cavityOf (caPhonon p) sp) (caPhononGs p)) (makeMLJC false (cavityOf (caCavity p) sc) (caGs p))))).
