(** The jump operators of modes and qbits, beside ElementSpec. *)
From Coq Require Import List Arith Reals.
From Verif Require Import Star CReal PureModel TriModel ElementModel ElementSpec ModeModel ModeSpec.
Import ListNotations.

(** no dissipation, loss at zero temperature, loss and absorption *)
Definition modeJumps (p : modePars) : list mat :=
  if Reqb (pKappa p) 0 then []
  else if Reqb (pNTh p) 0 then [mscale (sqrt (2 * pKappa p)) annihilation]
  else [mscale (sqrt (2 * (pKappa p * (pNTh p + 1)))) annihilation; mscale (sqrt (2 * (pKappa p * pNTh p))) creation].
(** all matrix elements, at finite temperature without the diagonal one of the highest level *)
Definition below_top (p : modePars) (m n : nat) : Prop := pNTh p = 0%R \/ m + 1 < pCutoff p \/ m <> n.
(** excitation loss and, if it is there, phase noise *)
Definition qbitJumps (gamma gammaPar : R) : list mat :=
  if Reqb gammaPar 0 then modeJumps (qbitPars 0 gamma k0)
  else [mscale (sqrt (2 * gamma)) (ketbra 0 1); mscale (sqrt (2 * gammaPar)) (flip 1)].
(** phase flips of all levels *)
Definition flips (dim : nat) (gammas : list R) : list mat := map (fun k => mscale (sqrt (2 * nth k gammas 0%R)) (flip k)) (seq 0 dim).
Definition pumps_in (dim : nat) (pumps : list pump) : Prop := Forall (fun p => pmFirst p < dim /\ pmSecond p < dim) pumps.
(** the homodyned jumps *)
Definition homodyneJumps (h : CR) (p : modePars) : list mat :=
  [homodyneOp h (sqrt (2 * (pKappa p * (pNTh p + 1)))) annihilation; homodyneOp (kconj h) (sqrt (2 * (pKappa p * pNTh p))) creation].
(** the same mode with both channels there, with another drive *)
Definition withEta (p : modePars) (eta : CR) : modePars := mkPars (pDelta p) (pKerr p) (pKerrAlter p) (pCutoff p) eta (pKappa p) (pNTh p).
Definition thermalJumps (p : modePars) : list mat :=
  [mscale (sqrt (2 * (pKappa p * (pNTh p + 1)))) annihilation; mscale (sqrt (2 * (pKappa p * pNTh p))) creation].
(** S_n of a spin of size twoS/2 on its lowest levels: sin(theta) (exp(-i phi) S_+ + exp(i phi) S_-)/2 + cos(theta) S_z *)
Definition spinN (twoS : nat) (theta phi : R) : mat := fun m n =>
  kadd (kmul (RC (sin theta / 2)) (kadd (kmul (cexp (0, - phi)%R) (spinLower twoS n m)) (kmul (cexp (0, phi)%R) (spinLower twoS m n))))
       (if m =? n then RC (cos theta * (INR m - INR twoS / 2)) else k0).
(** the drive changed by half the difference of the amplitudes of the two channels, times h *)
Definition drive (p : modePars) (h : CR) : CR :=
  ksub (pEta p) (kmul (RC ((sqrt (2 * (pKappa p * (pNTh p + 1))) - sqrt (2 * (pKappa p * pNTh p))) / 2)) h).
