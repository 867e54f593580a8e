(** The properties of the particle in momentum space. *)
From Coq Require Import List Arith ZArith Reals.
From Coquelicot Require Import Coquelicot.
From Verif Require Import Star CReal TriModel TriSpec FreeExactModel ElementSpec ModeModel ModeSpec ParticleModel ParticleSpec ParticleWaves ParticleFacts ParticleComposition ParticlePictures ParticleCases.
Import ListNotations.

(** * C49: the operator composed of two mode functions of equal |K| is the multiplication by conj(f1(x)) f2(x), in both pictures and at all times; composing others is refused. *)
Theorem C49_composition : forall p f1 f2, Z.abs (snd f1) = Z.abs (snd f2) ->
  exists o, mfComposition p f1 f2 = Some o /\ operator_of p o (fun x => kmul (kconj (mfValue f1 x)) (mfValue f2 x)).
Proof. exact composition_fact. Qed.
Print Assumptions C49_composition.
Theorem C49_refused : forall p f1 f2, Z.abs (snd f1) <> Z.abs (snd f2) -> mfComposition p f1 f2 = None.
Proof. exact composition_refuses. Qed.
Print Assumptions C49_refused.
(** the operator of a single mode function *)
Theorem C49_mode_function : forall p f, operator_of p (mfNKX p f) (mfValue f).
Proof. exact mode_function_fact. Qed.
Print Assumptions C49_mode_function.
(** the multiplication by a function has one matrix only *)
Theorem C49_unique : forall p f M M', multiplies (pDim p) (pK p) f M -> multiplies (pDim p) (pK p) f M' ->
  forall i j, (i < pDim p)%nat -> (j < pDim p)%nat -> M i j = M' i j.
Proof. exact unique_fact. Qed.
Print Assumptions C49_unique.
Example C49_case : Z.abs (snd (MSin, (-1)%Z)) = Z.abs (snd (MPlus, 1%Z)) /\ Z.abs (snd (MSin, 2%Z)) <> Z.abs (snd (MPlus, 1%Z)) /\
  exists t, mfComposition (mkParticle 2 (Some 3%R)) (MCos, 1%Z) (MMinus, (-1)%Z) = Some (Ok t) /\ matrixOf t 2 0 = RC (/ 2).
Proof. exact composition_case. Qed.

(** * C66: the generator of the particle is -i (omrec k^2 + V(x)) in both pictures, with V the standing-wave potential without its mean if pumped, and zero if not *)
Theorem C66_pumped : forall sch fin omrec vClass f, exists sys G, makePumpedParticle sch fin omrec vClass f = Ok sys /\ psFin sys = fin /\
  part_generator sys G /\ kinetic_and fin omrec (potential vClass f) G.
Proof. exact pumped_particle. Qed.
Print Assumptions C66_pumped.
Theorem C66_free : forall sch fin omrec, exists sys G, makeParticle sch fin omrec = Ok sys /\ psFin sys = fin /\
  part_generator sys G /\ kinetic_and fin omrec (fun _ => k0) G.
Proof. exact free_particle. Qed.
Print Assumptions C66_free.
(** the generator is determined *)
Theorem C66_determined : forall sys G G', part_generator sys G -> part_generator sys G' ->
  forall m n, (m < 2 ^ psFin sys)%nat -> (n < 2 ^ psFin sys)%nat -> G m n = G' m n.
Proof. exact generator_determined. Qed.
Print Assumptions C66_determined.
Example C66_case : exists sys, makePumpedParticle false 2 1 2 (MSin, 1%Z) = Ok sys /\ psExact sys = Some 1%R /\
  forall G, part_generator sys G -> kinetic_and 2 1 (potential 2 (MSin, 1%Z)) G -> G 2%nat 0%nat = kmul (kopp CI) (RC (- / 2)) /\ G 0%nat 0%nat = kmul (kopp CI) (RC 4).
Proof. exact pumped_case. Qed.
