From Coq Require Import List Arith Bool ZArith Lia Reals Lra.
From Verif Require Import Star CReal Arr HermSpec MasterSpec TriModel ElementModel ElementSpec ModeModel ModeSpec DampSpec ParticleModel ParticleSpec InteractionModel InteractionSpec AverageSpec ScriptSpec CavScriptModel CavScriptSpec
  TwoPartModel TwoPartSpec TwoPartProofs.
Import ListNotations.
Local Open Scope nat_scope.

(** a lossy mode, particles in the sine, the second one with a recoil frequency of its own *)
Definition sineAndCosine (om2 : R) : twoPars :=
  mkTwo (mkOne (mkPars (-2) 0 0 5 k0 1 0) 3 1 0 (MSin, 1%Z) 1 (-1) (MCos, 1%Z)) 3 om2 (MSin, 1%Z) 4.
Lemma sine_case om2 : sensible_two (sineAndCosine om2) /\ (0 <= tAlphaSquare (sineAndCosine om2))%R /\ tFin2 (sineAndCosine om2) = 3 /\ oFin (tOne (sineAndCosine om2)) = 3 /\
  (om2 = 1%R -> identical (sineAndCosine om2)).
Proof.
  split; [|split; [cbn; lra|split; [reflexivity|split; [reflexivity|]]]].
  - split; [|split; [cbn; lia|]]. + repeat split; cbn; try lra; lia. + split; vm_compute; discriminate.
  - intros ->. repeat split.
Qed.
(** two particles in different states *)
Definition level (n : nat) : list nat -> CR := fun y => if listnat_eqb y [n] then k1 else k0.
Lemma distinct_case : ~ vanishes [2; 2] (particlesRaw false true (level 0) (level 1)).
Proof.
  intros H. specialize (H [0; 1] ltac:(repeat constructor)). apply (f_equal (fun z : CR => cre z)) in H. cbn in H. lra.
Qed.
