(** What the initial time step is to be: short compared to what the Hamiltonian does. *)
From Coq Require Import List Arith Bool Reals.
From Verif Require Import Star CReal Arr ModeModel ModeSpec CompositeModel ParticleModel InteractionModel InteractionSpec SigmaModel MatHamModel EntangleModel FreqModel.
Import ListNotations.

(** the amplitude per time with which the Hamiltonian takes a basis state into another one, at the time of the beginning of a step *)
Definition basisKet (j : nat) : nat -> CR := fun n => if n =? j then k1 else k0.
Definition modeAmplitude (sys : modeSys) (m n : nat) : R :=
  match msH sys with None => 0%R | Some (td, hs) => cabs (hAction td hs 0 (basisKet n) m) end.
Definition matrixAmplitude (h : matrixH) (m n : nat) : R := cabs (matrixContribution h (basisKet n) (fun _ => k0) m).
Definition intAmplitude (h : intH) (y x : list nat) : R :=
  match snd (intContribution 0 h (unit_state x) (fun _ => k0)) with Some d => cabs (d y) | None => 0%R end.
Definition mljcAmplitude (ds : list modeDynamics) (y x : list nat) : R := cabs (snd (mljcContribution 0 ds (unit_state x) (fun _ => k0)) y).

(** within the initial time step of a system with these frequencies, what is taken over at the given amplitude per time is at most c tenths *)
Definition starts_short (c : R) (fs : freqs) (a : R) : Prop :=
  match initialTimeStep (highestFrequency fs) with Some dt => (dt * a <= c / 10)%R | None => a = 0%R end.
(** the same at most c tenths for all transitions of a mode *)
Definition mode_starts_short (c : R) (fs : freqs) (sys : modeSys) : Prop :=
  forall m n, m < msDim sys -> n < msDim sys -> starts_short c fs (modeAmplitude sys m n).
Definition int_starts_short (c : R) (fs : freqs) (h : intH) : Prop :=
  forall y x, inr (ihDims h) y -> inr (ihDims h) x -> starts_short c fs (intAmplitude h y x).
