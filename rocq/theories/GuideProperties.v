(** Property C118 *)
From Coq Require Import List Arith Reals Lra Lia String.
From Verif Require Import Star CReal Arr TriModel ElementModel ElementSpec ModeModel ModeSpec DensityModel CompositeModel ParticleModel ParticleSpec InteractionModel InteractionSpec
  AverageModel AverageSpec AverageCases GuideModel GuideSpec GuideProofs.
Import ListNotations.
Local Open Scope nat_scope.

(** The modes of the guide: both pictures have the generator H/i - kappa (2 nTh + 1) a^dagger a of the guide at all times, the jumps are those of the
    guide, and the rate of photon loss is the right one. *)
Theorem C118_modes_partial : forall delta kappa eta nTh dim, 0 < dim -> (0 <= kappa)%R -> (0 <= nTh)%R ->
  exists s i, exSch delta kappa eta nTh dim = Ok s /\ exIP delta kappa eta nTh dim = Ok i /\
    forall sys, sys = s \/ sys = i -> msDim sys = dim /\ no_jump_generator sys (guideGenerator delta kappa eta nTh) /\ Forall2 (describes dim) (msLindblads sys) (guideJumps kappa nTh) /\
      exists loss absorption, msLindblads sys = [loss; absorption] /\ rate_of_jump dim loss (mscale (sqrt (2 * (kappa * (nTh + 1)))) annihilation).
Proof. exact modes_fact. Qed.
Print Assumptions C118_modes_partial.
(** the damping of this generator is that of the jumps, up to 2 kappa nTh times the identity and the highest level *)
Theorem C118_damping_partial : forall dim delta kappa eta nTh, (0 <= kappa)%R -> (0 <= nTh)%R ->
  damping_matches dim (guideLevels nTh dim) (guideGenerator delta kappa eta nTh) (2 * kappa * nTh) (guideJumps kappa nTh).
Proof. exact ex_damping. Qed.
Print Assumptions C118_damping_partial.
(** The two columns of the ladder operator are right in any state. *)
Theorem C118_ladder_partial : forall dim t rho, let E A := mean [dim] (kron [A]) rho in exists column,
  shown (exAveraged dim) t rho = [("<number operator>"%string, column); ("real(<ladder operator>)"%string, cre (E annihilation)); (imagLabel, cim (E annihilation))].
Proof. exact ladder_fact. Qed.
Print Assumptions C118_ladder_partial.
(** As stated it fails for the column of the number operator: for one photon, two are displayed. *)
Theorem C118_number_refuted : exists rho, state [2] rho /\ cre (mean [2] (kron [number]) rho) = 1%R /\
  forall t, exists rest, shown (exAveraged 2) t rho = (("<number operator>"%string, 2%R) :: rest)%list.
Proof. exact (ex_intro _ photon number_fact). Qed.
Print Assumptions C118_number_refuted.

(** The four columns of the correlations of two modes are right in any state. *)
Theorem C118_correlations_partial : forall d0 d1 m t, 0 < d0 -> 0 < d1 -> state [d0; d1] (indexOf m) -> let E A B := cre (mean [d0; d1] (kron [A; B]) (indexOf m)) in
  shown (exCorrAveraged d0 d1) t (indexOf m) = [("<XQ>", E quadX quadX); ("<XP>", E quadX quadY); ("<YQ>", E quadY quadX); ("<YP>", E quadY quadY)]%string.
Proof. exact corr_fact. Qed.
Print Assumptions C118_correlations_partial.
(** The interaction has the generator g (a + a^dagger) (b + b^dagger) in all pictures: the pictures agree with each other... *)
Theorem C118_interaction_partial : forall d0 z0 d1 z1 g, same_picture z0 z1 -> 0 < d0 -> 0 < d1 ->
  exists h, exXX d0 z0 d1 z1 g = Ok h /\ ihDims h = [d0; d1] /\ has_generator h [exactRate z0; exactRate z1] any_state (hGuide g).
Proof. exact xx_generator. Qed.
Print Assumptions C118_interaction_partial.
(** ...but as stated it fails: H is supplied instead of H/i, so that it never has the generator of the Hamiltonian g (a + a^dagger) (b + b^dagger)... *)
Theorem C118_interaction_refuted : forall d0 z0 d1 z1 g h, same_picture z0 z1 -> 2 <= d0 -> 2 <= d1 -> g <> 0%R -> exXX d0 z0 d1 z1 g = Ok h ->
  ~ has_generator h [exactRate z0; exactRate z1] any_state (overI (hGuide g)).
Proof. exact xx_wrong. Qed.
Print Assumptions C118_interaction_refuted.
(** ...nor does it keep the norm. *)
Theorem C118_norm_refuted : forall g, g <> 0%R -> exists h, exXX 2 None 2 None g = Ok h /\ ~ norm_kept h [exactRate None; exactRate None] any_state.
Proof. exact norm_fact. Qed.
Print Assumptions C118_norm_refuted.

(** a driven mode with finite temperature, two modes of three levels in interaction picture, the state (|01>+|10>)/sqrt 2 of two modes *)
Example C118_case : (exists s, exIP 1 2 (k1 : CR) (/ 2) 3 = Ok s) /\ guideGenerator 1 2 k1 (/ 2) 1 1 = ((-4, 1)%R : CR) /\ guideGenerator 1 2 k1 (/ 2) 1 0 = ((0, -1)%R : CR) /\
  (exists h, exXX 3 (Some ((2, 1)%R : CR)) 3 (Some (k1 : CR)) 1 = Ok h) /\ hGuide 1 [0; 0] [1; 1] = (k1 : CR) /\ state [2; 2] (indexOf entangled).
Proof.
  split; [destruct (C118_modes_partial 1 2 k1 (/ 2) 3) as (s & i & _ & E & _); [lia|lra|lra|exists i; exact E]|].
  split; [unfold guideGenerator, guideH, creation, annihilation; cbn [Nat.eqb Nat.add INR]; apply cr_eq; cbn; field|].
  split; [unfold guideGenerator, guideH, creation, annihilation; cbn [Nat.eqb Nat.add]; replace (INR 1) with 1%R by reflexivity; rewrite sqrt_1; apply cr_eq; cbn; ring|].
  split; [destruct (C118_interaction_partial 3 (Some ((2, 1)%R : CR)) 3 (Some (k1 : CR)) 1 I) as (h & E & _); [lia|lia|exists h; exact E]|].
  split; [|exact entangled_state]. unfold hGuide, timesO. cbn [kron]. rewrite (proj1 twoX_entries). apply cr_eq; cbn; ring.
Qed.
