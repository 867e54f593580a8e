(** What a mode driven at two frequencies is. *)
From Coq Require Import List Arith Reals.
From Verif Require Import Star CReal TriModel ElementModel ElementSpec ModeModel ModeSpec BichromaticModel.
Import ListNotations.

(** The generator at time t, in the frame rotating with the first drive: beside that of the mode with the first drive, the second one, rotating with the difference of the detunings. *)
Definition secondDrive (p : biPars) (t : R) : CR := kmul (biEtaOther p) (cexp (kmul CI (RC ((pDelta (biMode p) - biDeltaOther p) * t)))).
Definition biGenerator (p : biPars) (t : R) : mat := fun m n =>
  kadd (modeGenerator (biMode p) m n) (ksub (kmul (secondDrive p t) (creation m n)) (kmul (kconj (secondDrive p t)) (annihilation m n))).
(** the system, at time t, when the exact propagation was last made at t0, after whatever earlier calls, evolves with G *)
Definition evolves_with (sys : modeSys) (t t0 : R) (G : mat) : Prop := forall ts, generator_at sys ts (oneTime t t0) G.
(** both drives at the same frequency are one *)
Definition bothDrives (p : biPars) : modePars := let q := biMode p in mkPars (pDelta q) (pKerr q) (pKerrAlter q) (pCutoff q) (kadd (pEta q) (biEtaOther p)) (pKappa q) (pNTh q).
