(** Model of the remaining Python tools: DensityOperator.fft, ifft of cpypyqed/tools/quantumstate.py. *)
From Coq Require Import List Arith.
From Verif Require Import Star CReal PyModel.
Import ListNotations.
Local Open Scope nat_scope.

(** DensityOperator.fft, ifft, quantumstate.py:101-126 (the constructor demands that the second half of the shape is the first) *)
Definition upperAxes (r : ndarray) (subsystems : list nat) : list nat := map (fun p => ndim r / 2 + p) subsystems.
Definition densityFft (r : ndarray) (subsystems : list nat) : ndarray := fftHelper (fftHelper r subsystems false) (upperAxes r subsystems) true.
Definition densityIfft (r : ndarray) (subsystems : list nat) : ndarray := fftHelper (fftHelper r subsystems true) (upperAxes r subsystems) false.
