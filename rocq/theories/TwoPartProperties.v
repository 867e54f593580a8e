(** C129: the example of a custom script, two particles in a cavity. *)
From Coq Require Import List Arith ZArith Reals.
From Verif Require Import Star CReal Arr HermSpec MasterSpec TriModel ElementModel ElementSpec ModeModel ModeSpec DampSpec ParticleModel ParticleSpec InteractionModel InteractionSpec AverageSpec ScriptSpec CavScriptModel CavScriptSpec
  TwoPartModel TwoPartSpec TwoPartProofs TwoPartCases.
Import ListNotations.
Local Open Scope nat_scope.

(** The script simulates both particles with the whole light shift, in the Schroedinger picture, if their parameters are the same. Missing: other pictures, and different recoil frequencies (refuted below) *)
Theorem C129_system_partial p : sensible_two p -> (0 <= tAlphaSquare p)%R -> identical p -> exists sm sp h, twoScript p SCH = Made sm sp h /\ right_two p sm sp h.
Proof. exact (two_right p). Qed.
Print Assumptions C129_system_partial.
Example C129_case om2 : sensible_two (sineAndCosine om2) /\ (0 <= tAlphaSquare (sineAndCosine om2))%R /\ tFin2 (sineAndCosine om2) = 3 /\ oFin (tOne (sineAndCosine om2)) = 3 /\
  (om2 = 1%R -> identical (sineAndCosine om2)).
Proof. exact (sine_case om2). Qed.
(** The recoil frequency of the second particle is ignored *)
Theorem C129_recoil_refuted p : sensible_two p -> (0 <= tAlphaSquare p)%R -> tFin2 p = oFin (tOne p) -> tPump2 p = oPump (tOne p) -> tOmrec2 p <> oOmrec (tOne p) -> 0 < oFin (tOne p) ->
  exists sm sp h, twoScript p SCH = Made sm sp h /\ ~ right_two p sm sp h.
Proof. exact (two_recoil p). Qed.
Print Assumptions C129_recoil_refuted.
(** A negative number of photons of the pump is refused, in all pictures *)
Theorem C129_signs p qmp : sensible_two p -> oUnot (tOne p) <> 0%R -> (tAlphaSquare p < 0)%R -> twoScript p qmp = SignDiscrepancy.
Proof. exact (two_signs p qmp). Qed.
Print Assumptions C129_signs.
(** The particles are not distinguished *)
Theorem C129_exchange q K H y x : length y = 3 -> length x = 3 -> cavityAndParticles q K K H (exchange y) (exchange x) = cavityAndParticles q K K H y x.
Proof. exact (exchange_same q K H y x). Qed.
Print Assumptions C129_exchange.
(** The initial state of the particles is symmetric for bosons, antisymmetric for fermions, otherwise the product of the two, and it is normalised if it does not vanish *)
Theorem C129_initial dim fe a b bo : symmetric (particlesState dim true fe a b) /\ antisymmetric (particlesState dim false true a b) /\
  (exists c, forall i j, particlesState dim false false a b [i; j] = kmul c (kmul (a [i]) (b [j]))) /\
  (~ vanishes [dim; dim] (particlesRaw bo fe a b) -> norm_sq [dim; dim] (particlesState dim bo fe a b) = k1).
Proof. exact (conj (boson_state dim fe a b) (conj (fermion_state dim a b) (conj (plain_state dim a b) (particles_normed dim bo fe a b)))). Qed.
Print Assumptions C129_initial.
Example C129_initial_case : ~ vanishes [2; 2] (particlesRaw false true (level 0) (level 1)).
Proof. exact distinct_case. Qed.
(** Two fermions in the same state: nothing is left to be normalised *)
Theorem C129_fermions_refuted dim a : vanishes [dim; dim] (particlesRaw false true a a).
Proof. exact (fermions_alike dim a). Qed.
Print Assumptions C129_fermions_refuted.
(** What the custom element displays is the average of the product of the momenta *)
Theorem C129_momenta f1 f2 rho : momentumCorrelation (2 ^ f1) (2 ^ f2) rho = cre (mean [2 ^ f1; 2 ^ f2] (kron [momentumOf f1; momentumOf f2]) rho).
Proof. exact (momentum_correlation f1 f2 rho). Qed.
Print Assumptions C129_momenta.
