(** The properties of the interactions. *)
From Coq Require Import List Arith ZArith Reals.
From Verif Require Import Star CReal Arr TriModel FreeExactSpec ElementSpec ModeModel CompositeModel ParticleModel ParticleSpec ParticleProofs ParticleFacts InteractionModel InteractionSpec InteractionCases.
Import ListNotations.
Local Open Scope nat_scope.
Notation mult p := (multiplies (pDim p) (pK p)).

(** * C52: the two code paths of ParticleTwoModes are one formula. They are not: the relative phase enters them with opposite signs. *)
Theorem C52_two_modes_refuted : ~ exists H : CR -> mat -> op, forall m0 m1 p u0 u1 phi mf0 mf1 fac h F,
  cavIs false m0 -> cavIs false m1 -> partIs false p -> 0 < cvDim m0 -> 0 < cvDim m1 -> fits p mf0 mf1 ->
  factor u0 u1 phi = Some fac -> twoModes m0 m1 p fac mf0 mf1 = Ok h -> mult p (overlap mf0 mf1) F ->
  has_generator h [cavRate m0; cavRate m1; partRate p] (away_from_edges (pDim p) (snd mf0)) (overI (H fac F)).
Proof. exact two_modes_refuted. Qed.
Print Assumptions C52_two_modes_refuted.
(** what each of them is. Missing: one of them should have the other coupling. *)
Theorem C52_two_modes_partial : forall b m0 m1 p fac mf0 mf1,
  cavIs b m0 -> cavIs b m1 -> partIs b p -> (b = true -> oscillating mf0 mf1) -> 0 < cvDim m0 -> 0 < cvDim m1 -> fits p mf0 mf1 ->
  exists h, twoModes m0 m1 p fac mf0 mf1 = Ok h /\ ihDims h = [cvDim m0; cvDim m1; pDim p] /\ forall F, mult p (overlap mf0 mf1) F ->
    has_generator h [cavRate m0; cavRate m1; partRate p] (away_from_edges (pDim p) (snd mf0))
      (overI (hTwoModes (if (Z.abs (snd mf0) =? Z.abs (snd mf1))%Z then fac else kconj fac) F)).
Proof. exact two_modes_fact. Qed.
Print Assumptions C52_two_modes_partial.
(** at the relative phases 0 and pi the formula is one *)
Theorem C52_real_phase_partial : forall b m0 m1 p u0 u1 phi fac mf0 mf1,
  cavIs b m0 -> cavIs b m1 -> partIs b p -> (b = true -> oscillating mf0 mf1) -> 0 < cvDim m0 -> 0 < cvDim m1 -> fits p mf0 mf1 ->
  factor u0 u1 phi = Some fac -> sin phi = 0%R ->
  exists h, twoModes m0 m1 p fac mf0 mf1 = Ok h /\ forall F, mult p (overlap mf0 mf1) F ->
    has_generator h [cavRate m0; cavRate m1; partRate p] (away_from_edges (pDim p) (snd mf0)) (overI (hTwoModes fac F)).
Proof. exact two_modes_real_fact. Qed.
Print Assumptions C52_real_phase_partial.
Example C52_case : sin PI = 0%R /\ factor 1 4 PI = Some (RC (-2)) /\ fits p4 (MSin, 1%Z) (MCos, 1%Z) /\ oscillating (MSin, 1%Z) (MCos, 1%Z) /\ oscillating (MPlus, 1%Z) (MSin, 2%Z) /\
  (exists h F, twoModes c2 c2 p4 (RC (-2)) (MSin, 1%Z) (MCos, 1%Z) = Ok h /\ mult p4 (overlap (MSin, 1%Z) (MCos, 1%Z)) F /\ F 2 0 = ((0, - / 4)%R : CR)) /\
  away_from_edges (pDim p4) 1 (unit_state [1; 0; 2]).
Proof. exact two_modes_case. Qed.

(** * C67: ParticleAlongCavity is U0 n |f|^2 (without the mean) + eta (a^dagger conj(f) fPart + h.c.), whatever the wave numbers, in the Schroedinger picture; f of the cavity,
    fPart of the pump, or 1 if the particle is not pumped *)
Theorem C67_along_cavity : forall m p uNot eta mf mfPart, cavIs false m -> partIs false p -> 0 < cvDim m -> (0 <= snd mf)%Z -> fits p mf mfPart ->
  exists h, alongTwo m p uNot eta mf mfPart = Ok h /\ ihDims h = [cvDim m; pDim p] /\ forall W F, mult p (potential 1 mf) W -> mult p (overlap mf mfPart) F ->
    has_generator h [cavRate m; partRate p] (away_from_edges (pDim p) (snd mf)) (overI (hAlong uNot eta W F)).
Proof. exact along_sch_fact. Qed.
Print Assumptions C67_along_cavity.
Theorem C67_not_pumped : forall m p uNot eta mf, cavIs false m -> partIs false p -> 0 < cvDim m -> fits p mf mf ->
  exists h, alongOne m p uNot eta mf = Ok h /\ ihDims h = [cvDim m; pDim p] /\ forall W F, mult p (potential 1 mf) W -> mult p (fun x => kconj (mfValue mf x)) F ->
    has_generator h [cavRate m; partRate p] any_state (overI (hAlong uNot eta W F)).
Proof. exact unpumped_sch_fact. Qed.
Print Assumptions C67_not_pumped.
(** the effective coupling: with it the two terms and the pump potential V |fPart|^2 are a square *)
Theorem C67_effective_coupling : forall u v, (forall e, etaEff u v = Some e -> (e * e = u * v)%R /\ (0 <= e * u)%R) /\ (etaEff u v = None <-> (u * v < 0)%R).
Proof. exact effective_fact. Qed.
Print Assumptions C67_effective_coupling.
(** the matrices exist, and the generator is determined on the states in question *)
Theorem C67_matrices : forall p mf mfPart, (exists W, mult p (potential 1 mf) W) /\ (exists F, mult p (overlap mf mfPart) F).
Proof. exact matrices_fact. Qed.
Print Assumptions C67_matrices.
Theorem C67_generator_unique : forall h es (P : array -> Prop) G G' y x, has_generator h es P G -> has_generator h es P G' -> P (unit_state x) -> inr (ihDims h) y -> inr (ihDims h) x -> G y x = G' y x.
Proof. exact InteractionLaws.generator_entry. Qed.
Print Assumptions C67_generator_unique.
Example C67_case : cavIs true q2 /\ partIs true i4 /\ oscillating (MPlus, 1%Z) (MMinus, 1%Z) /\ isComplexMF MPlus = true /\ fits i4 (MPlus, 1%Z) (MMinus, 1%Z) /\ fits p4 (MCos, 1%Z) (MCos, 2%Z) /\
  mult p4 (overlap (MPlus, 1%Z) (MMinus, 1%Z)) (waveM (-2)) /\ hAlong 0 3 (fun _ _ => k0) (waveM (-2)) [1; 0] [0; 2] = RC 3 /\ etaEff (-4) (-9) = Some (-6)%R.
Proof. exact along_case. Qed.

(** * C68: the pictures of the constituents do not matter. They do: frequencies are lost in products with operators which have none. *)
(** a qbit in the interaction picture with a mode which is not *)
Theorem C68_mixed_pictures_refuted : exists h h0 G, makeJaynesCummings (AQbit (Some (RC 1, 0%R))) c2 k1 = Ok h /\ makeJaynesCummings (AQbit None) c2 k1 = Ok h0 /\
  has_generator h0 [atomRate (AQbit None); cavRate c2] any_state G /\ ~ has_generator h [atomRate (AQbit (Some (RC 1, 0%R))); cavRate c2] any_state G.
Proof. exact mixed_refuted. Qed.
Print Assumptions C68_mixed_pictures_refuted.
(** both modes in the interaction picture *)
Theorem C68_coupled_modes_refuted : exists h h0 G, makeCoupledModes CM_NX q2 q2 k1 = Ok h /\ makeCoupledModes CM_NX c2 c2 k1 = Ok h0 /\
  has_generator h0 [cavRate c2; cavRate c2] any_state G /\ ~ has_generator h [cavRate q2; cavRate q2] any_state G.
Proof. exact nx_refuted. Qed.
Print Assumptions C68_coupled_modes_refuted.
(** the mode and the particle in the interaction picture *)
Theorem C68_dispersive_refuted : exists h h0 G, alongOne q2 i4 1 0 (MCos, 1%Z) = Ok h /\ alongOne c2 p4 1 0 (MCos, 1%Z) = Ok h0 /\
  has_generator h0 [cavRate c2; partRate p4] any_state G /\ ~ has_generator h [cavRate q2; partRate i4] any_state G.
Proof. exact disp_refuted. Qed.
Print Assumptions C68_dispersive_refuted.
(** Where all the constituents are in the same picture ([b]: in the interaction picture) and no operator without frequencies takes part, the Hamiltonian is the same. Missing: mixed pictures, Kerr
    nonlinearity in the interaction picture, and the cases refuted above. *)
Theorem C68_jaynes_cummings_partial : forall b a m g, atomIs b a -> cavIs b m -> 0 < cvDim m ->
  exists h, makeJaynesCummings a m g = Ok h /\ ihDims h = [atomDim a; cvDim m] /\ has_generator h [atomRate a; cavRate m] any_state (overI (hJaynesCummings g (lowering a))).
Proof. exact InteractionFacts.jc_gen. Qed.
Print Assumptions C68_jaynes_cummings_partial.
Theorem C68_coupled_modes_partial : forall b c m1 m2 u, cavIs b m1 -> cavIs b m2 -> (c = CM_NX -> b = false) -> 0 < cvDim m1 -> 0 < cvDim m2 ->
  exists h, makeCoupledModes c m1 m2 u = Ok h /\ ihDims h = [cvDim m1; cvDim m2] /\ has_generator h [cavRate m1; cavRate m2] any_state (overI (hCoupledModes c u)).
Proof. exact coupled_fact. Qed.
Print Assumptions C68_coupled_modes_partial.
Theorem C68_general_dicke_partial : forall b m s u y, cavIs b m -> spinIs b s -> 0 < cvDim m ->
  exists h, generalDicke m s u y = Ok h /\ ihDims h = [cvDim m; spDim s] /\ has_generator h [cavRate m; spinRate s] any_state (overI (hGeneralDicke (spTwoS s) u y)).
Proof. exact InteractionFacts.dicke_gen. Qed.
Print Assumptions C68_general_dicke_partial.
Theorem C68_orthogonal_partial : forall b m p eta mf, cavIs b m -> partIs b p -> (b = true -> snd mf <> 0%Z) -> 0 < cvDim m -> (Z.abs (snd mf) <= Z.of_nat (pDim p))%Z ->
  exists h, orthogonal m p eta mf = Ok h /\ ihDims h = [cvDim m; pDim p] /\ forall F, mult p (mfValue mf) F -> has_generator h [cavRate m; partRate p] any_state (overI (hOrthogonal eta F)).
Proof. exact orthogonal_fact. Qed.
Print Assumptions C68_orthogonal_partial.
Theorem C68_along_partial : forall b m p uNot eta mf mfPart,
  cavIs b m -> partIs b p -> (b = true -> oscillating mf mfPart /\ (uNot = 0%R \/ isComplexMF (fst mf) = true)) -> 0 < cvDim m -> (0 <= snd mf)%Z -> fits p mf mfPart ->
  exists h, alongTwo m p uNot eta mf mfPart = Ok h /\ ihDims h = [cvDim m; pDim p] /\ forall W F, mult p (potential 1 mf) W -> mult p (overlap mf mfPart) F ->
    has_generator h [cavRate m; partRate p] (away_from_edges (pDim p) (snd mf)) (overI (hAlong uNot eta W F)).
Proof. exact along_fact. Qed.
Print Assumptions C68_along_partial.
Theorem C68_not_pumped_partial : forall b m p uNot eta mf, cavIs b m -> partIs b p -> (b = true -> snd mf <> 0%Z /\ (uNot = 0%R \/ isComplexMF (fst mf) = true)) -> 0 < cvDim m -> fits p mf mf ->
  exists h, alongOne m p uNot eta mf = Ok h /\ ihDims h = [cvDim m; pDim p] /\ forall W F, mult p (potential 1 mf) W -> mult p (fun x => kconj (mfValue mf x)) F ->
    has_generator h [cavRate m; partRate p] any_state (overI (hAlong uNot eta W F)).
Proof. exact unpumped_fact. Qed.
Print Assumptions C68_not_pumped_partial.
Example C68_jaynes_cummings_case : atomIs true (AQbit (Some (RC 1, 0%R))) /\ atomIs true (ASpin (mkSpin 3 0 (Some CI))) /\ cavIs true q2 /\ cavRate q2 1 = RC (-1) /\
  overI (hJaynesCummings CI annihilation) [0; 1] [1; 0] = kopp CI /\ overI (hJaynesCummings CI annihilation) [1; 0] [0; 1] = kopp CI.
Proof. exact jc_case. Qed.
Example C68_coupled_modes_case : cavIs true q2 /\ cavIs false c2 /\ overI (hCoupledModes CM_XX_RWA CI) [0; 1] [1; 0] = kopp CI /\ hCoupledModes CM_XX (RC 4) [1; 1] [0; 0] = RC 2.
Proof. exact coupled_case. Qed.
Example C68_general_dicke_case : spinIs true (mkSpin 1 0 (Some CI)) /\ cavIs true q2 /\ hGeneralDicke 1 (RC 3) (RC 2) [1; 1] [1; 1] = RC 3 /\ hGeneralDicke 1 (RC 3) (RC 2) [1; 0] [0; 1] = RC 1.
Proof. exact dicke_case. Qed.

(** * C69: interactions do not change the norm of the state. GeneralDicke with complex couplings does, and so does the path for different wave numbers at the edges of the momentum grid. *)
Theorem C69_general_dicke_refuted : exists h, generalDicke c2 s1 CI k0 = Ok h /\ ~ norm_kept h [cavRate c2; spinRate s1] any_state.
Proof. exact dicke_refuted. Qed.
Print Assumptions C69_general_dicke_refuted.
Theorem C69_edges_refuted : exists h, alongTwo c2 p4 0 1 (MPlus, 1%Z) (MPlus, 2%Z) = Ok h /\ ~ norm_kept h [cavRate c2; partRate p4] any_state.
Proof. exact edge_refuted. Qed.
Print Assumptions C69_edges_refuted.
(** Missing: the cases refuted above, and those in which C68 fails. *)
Theorem C69_jaynes_cummings_partial : forall b a m g, atomIs b a -> cavIs b m -> 0 < cvDim m -> exists h, makeJaynesCummings a m g = Ok h /\ norm_kept h [atomRate a; cavRate m] any_state.
Proof. exact norm_jc. Qed.
Print Assumptions C69_jaynes_cummings_partial.
Theorem C69_coupled_modes_partial : forall c b m1 m2 u, cavIs b m1 -> cavIs b m2 -> (c = CM_NX -> b = false) -> 0 < cvDim m1 -> 0 < cvDim m2 ->
  exists h, makeCoupledModes c m1 m2 u = Ok h /\ norm_kept h [cavRate m1; cavRate m2] any_state.
Proof. exact norm_coupled. Qed.
Print Assumptions C69_coupled_modes_partial.
Theorem C69_general_dicke_partial : forall b m s (u y : R), cavIs b m -> spinIs b s -> 0 < cvDim m -> exists h, generalDicke m s (RC u) (RC y) = Ok h /\ norm_kept h [cavRate m; spinRate s] any_state.
Proof. exact norm_dicke. Qed.
Print Assumptions C69_general_dicke_partial.
Theorem C69_orthogonal_partial : forall b m p eta mf, cavIs b m -> partIs b p -> (b = true -> snd mf <> 0%Z) -> 0 < cvDim m -> (Z.abs (snd mf) <= Z.of_nat (pDim p))%Z ->
  exists h, orthogonal m p eta mf = Ok h /\ norm_kept h [cavRate m; partRate p] any_state.
Proof. exact norm_orth. Qed.
Print Assumptions C69_orthogonal_partial.
Theorem C69_along_partial : forall b m p uNot eta mf mfPart,
  cavIs b m -> partIs b p -> (b = true -> oscillating mf mfPart /\ (uNot = 0%R \/ isComplexMF (fst mf) = true)) -> 0 < cvDim m -> (0 <= snd mf)%Z -> fits p mf mfPart ->
  exists h, alongTwo m p uNot eta mf mfPart = Ok h /\ norm_kept h [cavRate m; partRate p] (away_from_edges (pDim p) (snd mf)).
Proof. exact norm_along. Qed.
Print Assumptions C69_along_partial.
Theorem C69_along_equal_partial : forall b m p uNot eta mf mfPart,
  cavIs b m -> partIs b p -> (b = true -> oscillating mf mfPart /\ (uNot = 0%R \/ isComplexMF (fst mf) = true)) -> 0 < cvDim m -> (0 <= snd mf)%Z -> fits p mf mfPart -> snd mf = Z.abs (snd mfPart) ->
  exists h, alongTwo m p uNot eta mf mfPart = Ok h /\ norm_kept h [cavRate m; partRate p] any_state.
Proof. exact norm_along_special. Qed.
Print Assumptions C69_along_equal_partial.
Theorem C69_not_pumped_partial : forall b m p uNot eta mf, cavIs b m -> partIs b p -> (b = true -> snd mf <> 0%Z /\ (uNot = 0%R \/ isComplexMF (fst mf) = true)) -> 0 < cvDim m -> fits p mf mf ->
  exists h, alongOne m p uNot eta mf = Ok h /\ norm_kept h [cavRate m; partRate p] any_state.
Proof. exact norm_unpumped. Qed.
Print Assumptions C69_not_pumped_partial.
Theorem C69_two_modes_partial : forall b m0 m1 p fac mf0 mf1, cavIs b m0 -> cavIs b m1 -> partIs b p -> (b = true -> oscillating mf0 mf1) -> 0 < cvDim m0 -> 0 < cvDim m1 -> fits p mf0 mf1 ->
  exists h, twoModes m0 m1 p fac mf0 mf1 = Ok h /\ norm_kept h [cavRate m0; cavRate m1; partRate p] (away_from_edges (pDim p) (snd mf0)).
Proof. exact norm_two. Qed.
Print Assumptions C69_two_modes_partial.
Example C69_case : exists h, makeJaynesCummings (AQbit (Some (RC 1, 0%R))) q2 CI = Ok h /\ norm_kept h [atomRate (AQbit (Some (RC 1, 0%R))); cavRate q2] any_state.
Proof. exact (norm_jc true (AQbit (Some (RC 1, 0%R))) q2 CI (conj eq_refl eq_refl) (conj eq_refl eq_refl) (Nat.lt_0_succ 1)). Qed.
