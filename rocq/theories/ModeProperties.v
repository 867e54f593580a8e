(** Properties C47, C50, C61, C63 *)
From Coq Require Import Reals Lra Lia List Arith.
From Verif Require Import Star CReal PureModel TriModel FreeExactModel FreeExactSpec ElementModel ElementSpec ElementProofs ModeModel ModeSpec ModeFacts ModeCases
  DampSpec DampProofs SpinProofs HomodyneProofs.
Import ListNotations.

(** C50 for all the modes in all three pictures, if the Kerr terms are such as they are honoured: the maker succeeds and the system has
    the generator of the mode, the same for all pictures: the Hamiltonian of interaction pictures, at every time and after whatever
    earlier calls, is that of the Schroedinger picture without the part propagated exactly, transformed with the exact propagator. *)
Theorem C50_pictures_partial : forall p qmp, (0 < pCutoff p)%nat -> (0 <= pNTh p)%R -> kerr_honoured p qmp ->
  exists sys, make p qmp = Ok sys /\ msDim sys = pCutoff p /\ msLindblads sys = loss_part p /\ no_jump_generator sys (modeGenerator p).
Proof. exact make_generator. Qed.
Print Assumptions C50_pictures_partial.

(** for the qbits there are no Kerr terms, so there is no restriction *)
Theorem C50_qbit : forall delta gamma gammaPar eta qmp,
  exists sys, qbitNoiseMake delta gamma gammaPar eta qmp = Ok sys /\ msDim sys = 2%nat /\ no_jump_generator sys (modeGenerator (qbitPars delta gamma eta)).
Proof. exact qbit_generator. Qed.
Print Assumptions C50_qbit.

(** With omegaKerr, the Hamiltonian in interaction picture is not that of any generator. *)
Theorem C50_kerr_interaction_picture_refuted : exists p sys, pCutoff p = 3%nat /\ make p IP = Ok sys /\ forall G, ~ no_jump_generator sys G.
Proof. exact kerr_ip_refuted. Qed.
Print Assumptions C50_kerr_interaction_picture_refuted.
(** In Schroedinger picture, omegaKerr is dropped for a resonant lossless mode. *)
Theorem C50_kerr_schroedinger_refuted : exists p sys, pCutoff p = 3%nat /\ make p SCH = Ok sys /\ ~ no_jump_generator sys (modeGenerator p).
Proof. exact kerr_sch_refuted. Qed.
Print Assumptions C50_kerr_schroedinger_refuted.
(** The alternative Kerr term is dropped by modes without drive in interaction picture, but not in Schroedinger picture. *)
Theorem C50_kerr_alternative_refuted : exists p sys, pCutoff p = 3%nat /\ make p IP = Ok sys /\ ~ no_jump_generator sys (modeGenerator p) /\
  exists sys', make p SCH = Ok sys' /\ no_jump_generator sys' (modeGenerator p).
Proof. exact kerrAlter_ip_refuted. Qed.
Print Assumptions C50_kerr_alternative_refuted.

(** a driven, damped, detuned mode at finite temperature: no Kerr term, or the alternative one *)
Example C50_case : let p := mkPars 1 0 2 10 (k1 : CR) 1 (1/2) in
  (0 < pCutoff p)%nat /\ (0 <= pNTh p)%R /\ kerr_honoured p IP /\ kerr_honoured p UIP /\ kerr_honoured p SCH /\
  modeGenerator p 0 1 = RC (-1) /\ modeGenerator p 1 0 = RC 1 /\ modeGenerator p 1 1 = ((-2, 1)%R : CR).
Proof.
  assert (k1 <> (k0 : CR)) by (intros E; apply (f_equal fst) in E; cbn in E; lra).
  cbn [pCutoff pNTh]. split; [lia|]. split; [lra|]. repeat split; cbn; auto.
  - unfold modeGenerator, creation, annihilation. cbn [Nat.eqb Nat.add pEta]. replace (INR 1) with 1%R by reflexivity. rewrite sqrt_1. apply cr_eq; cbn; ring.
  - unfold modeGenerator, creation, annihilation. cbn [Nat.eqb Nat.add pEta]. replace (INR 1) with 1%R by reflexivity. rewrite sqrt_1. apply cr_eq; cbn; ring.
  - unfold modeGenerator, creation, annihilation. cbn [Nat.eqb Nat.add pEta]. apply cr_eq; cbn; field.
Qed.

(** C47. What the matching of damping and jumps means: the trace grows with the multiple of the identity only. *)
Theorem C47_trace : forall dim G c Js rho, damping_matches dim everywhere G c Js ->
  mtr dim (masterOf dim G Js rho) = kmul (RC c) (mtr dim rho).
Proof. exact trace_master. Qed.
Print Assumptions C47_trace.

(** All the modes, in all pictures, at any time and with any Kerr terms: the jumps are the operators listed, and the damping matches them
    up to 2 kappa nTh times the identity; at finite temperature the highest level is to be left out. *)
Theorem C47_mode_partial : forall p qmp, (0 < pCutoff p)%nat -> (0 <= pKappa p)%R -> (0 <= pNTh p)%R ->
  exists sys, make p qmp = Ok sys /\ msDim sys = pCutoff p /\ Forall2 (describes (pCutoff p)) (msLindblads sys) (modeJumps p) /\
    forall ts t, (exists G, generator_at sys ts t G) /\
      forall G, generator_at sys ts t G -> damping_matches (pCutoff p) (below_top p) G (2 * pKappa p * pNTh p) (modeJumps p).
Proof. exact mode_damping. Qed.
Print Assumptions C47_mode_partial.
Theorem C47_mode_highest_level_refuted : forall p qmp, (0 < pCutoff p)%nat -> (1 < pCutoff p)%nat -> (0 < pKappa p)%R -> (0 < pNTh p)%R ->
  exists sys, make p qmp = Ok sys /\ forall ts t G c, generator_at sys ts t G -> ~ damping_matches (pCutoff p) everywhere G c (modeJumps p).
Proof. exact damping_top_refuted. Qed.
Print Assumptions C47_mode_highest_level_refuted.

(** PumpedLossyModeAlternative: at zero temperature; at finite temperature its damping lacks the factor 2 nTh + 1. *)
Theorem C47_alternative_partial : forall p, (0 < pCutoff p)%nat -> (0 <= pKappa p)%R ->
  exists sys, cPumpedLossyModeAlternative false p = Ok sys /\ Forall2 (describes (pCutoff p)) (msLindblads sys) [mscale (sqrt (2 * pKappa p)) annihilation] /\
    forall ts t, (exists G, generator_at sys ts t G) /\
      forall G, generator_at sys ts t G -> damping_matches (pCutoff p) everywhere G 0 [mscale (sqrt (2 * pKappa p)) annihilation].
Proof. exact alternative_damping. Qed.
Print Assumptions C47_alternative_partial.
Theorem C47_alternative_refuted : forall p, (3 <= pCutoff p)%nat -> (0 < pKappa p)%R -> (0 < pNTh p)%R ->
  exists sys, cPumpedLossyModeAlternative true p = Ok sys /\
    Forall2 (describes (pCutoff p)) (msLindblads sys) (thermalJumps p) /\
    forall ts t G c, generator_at sys ts t G -> ~ damping_matches (pCutoff p) (below_top p) G c (thermalJumps p).
Proof. exact alternative_refuted. Qed.
Print Assumptions C47_alternative_refuted.

(** Qbits, with and without phase noise. *)
Theorem C47_qbit : forall delta gamma gammaPar eta qmp, (0 <= gamma)%R -> (0 <= gammaPar)%R ->
  exists sys, qbitNoiseMake delta gamma gammaPar eta qmp = Ok sys /\ msDim sys = 2%nat /\
    Forall2 (describes 2) (msLindblads sys) (qbitJumps gamma gammaPar) /\
    forall G, no_jump_generator sys G -> damping_matches 2 everywhere G (2 * gammaPar) (qbitJumps gamma gammaPar).
Proof. exact qbit_damping. Qed.
Print Assumptions C47_qbit.
(** The two-level atom. *)
Theorem C47_two_level : forall gamma delta eta, (0 <= gamma)%R ->
  Forall2 (describes 2) (twoLevelLoss (twoLevelZa gamma delta)) [mscale (sqrt (2 * gamma)) (ketbra 0 1)] /\
  damping_matches 2 everywhere (twoLevelH (twoLevelZa gamma delta) eta) 0 [mscale (sqrt (2 * gamma)) (ketbra 0 1)].
Proof. exact twoLevel_damping. Qed.
Print Assumptions C47_two_level.
(** Multi-level systems with any decays, drives and diffusion. *)
Theorem C47_multilevel : forall dim deltas decays pumps diffusion, decays_in dim decays -> pumps_in dim pumps ->
  (forall gs, diffusion = Some gs -> Forall (fun g => (0 <= g)%R) gs) ->
  let Js := radiativeOps decays ++ match diffusion with Some gs => flips dim gs | None => [] end in
  Forall2 (fun l J => is_operator dim (lbJump l) J) (multiLevelLoss dim decays diffusion) Js /\
  exists G, (forall psi d m, m < dim -> multiLevelH dim (multiLevelZ deltas decays) pumps psi d m = kadd (d m) (lsum dim (fun n => kmul (G m n) (psi n)))) /\
    damping_matches dim everywhere G (match diffusion with Some gs => rsum (fun k => (2 * nth k gs 0)%R) (seq 0 dim) | None => 0%R end) Js.
Proof. exact multiLevel_damping. Qed.
Print Assumptions C47_multilevel.
(** The homodyned mode. *)
Theorem C47_homodyne_partial : forall h p, (0 < pCutoff p)%nat -> (0 < pKappa p)%R -> (0 <= pNTh p)%R ->
  exists sys, homodyneMode h p = Ok sys /\ msDim sys = pCutoff p /\ Forall2 (describes (pCutoff p)) (msLindblads sys) (homodyneJumps h p) /\
    forall G, no_jump_generator sys G -> damping_matches (pCutoff p) (below_top p) G (2 * csq h + 2 * pKappa p * pNTh p) (homodyneJumps h p).
Proof. exact homodyne_damping. Qed.
Print Assumptions C47_homodyne_partial.
(** Spins of size 1/2 along z; not larger ones, nor those tilted. *)
Theorem C47_spin_half_partial : forall dimPar omega gamma, (0 <= gamma)%R -> let dim := decideDimension 1 dimPar in
  exists sys sys', lossySpin 1 dimPar omega gamma = Ok sys /\ lossySpinSch 1 dimPar 0 0 omega gamma = Ok sys' /\
    Forall2 (describes dim) (msLindblads sys) [mscale (sqrt (2 * gamma)) (spinLower 1)] /\
    Forall2 (describes dim) (msLindblads sys') [mscale (sqrt (2 * gamma)) (spinLower 1)] /\
    (forall G, no_jump_generator sys G -> damping_matches dim everywhere G 0 [mscale (sqrt (2 * gamma)) (spinLower 1)]) /\
    (forall G, no_jump_generator sys' G -> damping_matches dim everywhere G gamma [mscale (sqrt (2 * gamma)) (spinLower 1)]).
Proof. exact spin_damping_half. Qed.
Print Assumptions C47_spin_half_partial.
Theorem C47_spin_refuted : forall twoS dimPar omega gamma, (2 <= twoS)%nat -> dimPar <> 1%nat -> (0 < gamma)%R -> let dim := decideDimension twoS dimPar in
  exists sys, lossySpin twoS dimPar omega gamma = Ok sys /\ Forall2 (describes dim) (msLindblads sys) [mscale (sqrt (2 * gamma)) (spinLower twoS)] /\
    forall G c, no_jump_generator sys G -> ~ damping_matches dim everywhere G c [mscale (sqrt (2 * gamma)) (spinLower twoS)].
Proof. exact spin_damping_refuted. Qed.
Print Assumptions C47_spin_refuted.
Theorem C47_spin_tilted_refuted : exists theta omega gamma sys, (0 < gamma)%R /\ lossySpinSch 1 0 theta 0 omega gamma = Ok sys /\
    Forall2 (describes 2) (msLindblads sys) [mscale (sqrt (2 * gamma)) (spinLower 1)] /\
    forall G c, no_jump_generator sys G -> ~ damping_matches 2 everywhere G c [mscale (sqrt (2 * gamma)) (spinLower 1)].
Proof. exact spin_tilted_refuted. Qed.
Print Assumptions C47_spin_tilted_refuted.

(** a Lambda atom driven on one arm, with diffusion *)
Example C47_case : decays_in 3 [mkDecay 0 2 1; mkDecay 1 2 (1/2)] /\ pumps_in 3 [mkPump 0 2 (k1 : CR)] /\ Forall (fun g => (0 <= g)%R) [1; 1; 2]%R /\
  cre (multiLevelZ (fun _ => 0%R) [mkDecay 0 2 1; mkDecay 1 2 (1/2)] 2) = (3/2)%R.
Proof. split; [repeat constructor; cbn; (lra || lia)|]. split; [repeat constructor; cbn; lia|]. split; [repeat constructor; lra|]. cbn. field. Qed.

(** C61: on the average a homodyned mode evolves as the mode without detection, but with a drive changed by the detection
    (and up to a multiple of rho). *)
Theorem C61_partial : forall h p, (0 < pCutoff p)%nat -> (0 < pKappa p)%R -> (0 <= pNTh p)%R ->
  exists sys, homodyneMode h p = Ok sys /\ Forall2 (describes (pCutoff p)) (msLindblads sys) (homodyneJumps h p) /\
    forall G, no_jump_generator sys G -> forall rho m n, m < pCutoff p -> n < pCutoff p ->
      masterOf (pCutoff p) G (homodyneJumps h p) rho m n =
      kadd (masterOf (pCutoff p) (modeGenerator (withEta p (drive p h))) (thermalJumps p) rho m n) (kmul (RC (2 * csq h)) (rho m n)).
Proof. exact homodyne_average. Qed.
Print Assumptions C61_partial.
(** Hence not as the mode without detection. *)
Theorem C61_refuted : exists h p sys rho, (0 < pCutoff p)%nat /\ (0 < pKappa p)%R /\ (0 <= pNTh p)%R /\ homodyneMode h p = Ok sys /\
  forall G c, no_jump_generator sys G -> ~ (forall m n, m < pCutoff p -> n < pCutoff p ->
    masterOf (pCutoff p) G (homodyneJumps h p) rho m n = kadd (masterOf (pCutoff p) (modeGenerator p) (thermalJumps p) rho m n) (kmul c (rho m n))).
Proof. exact homodyne_average_refuted. Qed.
Print Assumptions C61_refuted.
(** amplitude 1, kappa = 2, zero temperature: an undriven mode is driven with amplitude -1 *)
Example C61_case : drive (mkPars 0 0 0 2 k0 2 0) k1 = RC (-1).
Proof.
  unfold drive. cbn [pKappa pNTh pEta]. replace (2 * (2 * (0 + 1)))%R with (2 * 2)%R by ring. rewrite sqrt_square by lra.
  replace (2 * (2 * 0))%R with 0%R by ring. rewrite sqrt_0. apply cr_eq; cbn; field.
Qed.

(** C62: the Hamiltonian of a spin in Schroedinger picture is -z S_n, *)
Theorem C62_spin_hamiltonian : forall twoS dimPar theta phi omega gamma, let dim := decideDimension twoS dimPar in
  exists sys, lossySpinSch twoS dimPar theta phi omega gamma = Ok sys /\ msDim sys = dim /\ msLindblads sys = spinLoss dim twoS gamma /\
    no_jump_generator sys (fun m n => kmul (kopp ((gamma, omega) : CR)) (spinN twoS theta phi m n)).
Proof. exact spinSch_generator. Qed.
Print Assumptions C62_spin_hamiltonian.
(** and along z the exactly propagated spin has the same generator, up to a constant. *)
Theorem C62_spin_pictures : forall twoS dimPar omega gamma, exists sys sys', lossySpin twoS dimPar omega gamma = Ok sys /\ lossySpinSch twoS dimPar 0 0 omega gamma = Ok sys' /\
  msDim sys = decideDimension twoS dimPar /\ msDim sys' = msDim sys /\ msLindblads sys' = msLindblads sys /\
  (exists G, no_jump_generator sys G) /\
  forall G, no_jump_generator sys G ->
    no_jump_generator sys' (fun m n => kadd (G m n) (if m =? n then kmul ((gamma, omega) : CR) (RC (INR twoS / 2)) else k0)).
Proof. exact spin_pictures. Qed.
Print Assumptions C62_spin_pictures.
(** spin 1 along x *)
Example C62_case : decideDimension 2 0 = 3 /\ spinN 2 (PI / 2) 0 0 1 = RC (sqrt 2 / 2) /\ spinN 2 0 0 2 2 = RC 1.
Proof.
  split; [reflexivity|]. unfold spinN, spinLower. cbn [Nat.eqb Nat.add Nat.mul Nat.sub]. replace (INR 2) with 2%R by (cbn; ring).
  rewrite sin_PI2, !cexp_i, cos_neg, sin_neg, !cos_0, !sin_0. split; apply cr_eq; cbn; field.
Qed.
