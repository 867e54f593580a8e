(** Model of CPPQEDelements/frees/BichromaticMode.h. The times of generator_at (ModeSpec.v) are those given to a Hamiltonian of one time, OneTime(t,t0) of
    CPPQEDcore/structure/TimeDependence.h:40-52: t-t0. Not modelled: frequencies for the time scale, averages, printing. *)
From Coq Require Import List Arith Bool Reals.
From Verif Require Import Star CReal TriModel ElementModel ModeModel.
Import ListNotations.

(** ParsBichromatic, BichromaticMode.h:11-17 *)
Record biPars := mkBiPars { biMode : modePars; biDeltaOther : R; biEtaOther : CR }.
(** the constructor, BichromaticMode.h:30-43 *)
Definition cBichromatic (temp : bool) (p : biPars) : outcome modeSys :=
  let q := biMode p in
  bind (withIP k0 (decayRate temp q, - pDelta q)%R (pEta q) q (modeLindblads temp false q)) (fun sys =>
  bind (pumping (biEtaOther p) (pCutoff q)) (fun pump =>
  bind (furnish pump (mainDiagonal (decayRate temp q, - biDeltaOther p)%R 0 (pCutoff q))) (fun other =>
  match msH sys with
  | Some (td, hs) => Ok (mkMode (msDim sys) (msExact sys) (Some (td, hs ++ [other])) (msLindblads sys))
  | None => UB
  end))).
(** make, BichromaticMode.h:54-62 *)
Definition makeBichromatic (p : biPars) (qmp : picture) : outcome modeSys :=
  if negb (isNonZero (biEtaOther p)) then make (biMode p) qmp else cBichromatic (negb (Reqb (pNTh (biMode p)) 0)) p.
(** OneTime, TimeDependence.h:43 *)
Definition oneTime (t t0 : R) : R := (t - t0)%R.
