(** Properties C46, C48, C60 *)
From Coq Require Import Reals Lra Lia List Arith.
From Verif Require Import Star CReal PureModel ElementModel ElementSpec ElementProofs ElementLemmas ElementFacts.
Import ListNotations.

(** C46, jump and superoperator: for every cutoff, decay rate and temperature the jumps of a mode are the operators
    sqrt(2 kappa (nTh+1)) a and sqrt(2 kappa nTh) a^dagger on the truncated space, and the superoperators are J rho J^dagger. *)
Theorem C46_superoperator_partial : forall alt dim kappa nTh, (0 <= kappa)%R -> (0 <= nTh)%R ->
  Forall2 (describes dim) (modeLoss alt dim kappa) [mscale (sqrt (2 * kappa)) annihilation] /\
  Forall2 (describes dim) (modeThermal alt dim kappa nTh)
    [mscale (sqrt (2 * (kappa * (nTh + 1)))) annihilation; mscale (sqrt (2 * (kappa * nTh))) creation].
Proof. exact mode_superoperators. Qed.
Print Assumptions C46_superoperator_partial.

(** C46, rate of the loss: squared norm of the jumped state, for every state. *)
Theorem C46_loss_rate_partial : forall dim kappa nTh, (0 <= kappa)%R -> (0 <= nTh)%R ->
  Forall2 (rate_of_jump dim) (modeLoss false dim kappa) [mscale (sqrt (2 * kappa)) annihilation] /\
  exists loss absorption, modeThermal false dim kappa nTh = [loss; absorption] /\
    rate_of_jump dim loss (mscale (sqrt (2 * (kappa * (nTh + 1)))) annihilation).
Proof. exact mode_loss_rates. Qed.
Print Assumptions C46_loss_rate_partial.

(** C46, rate of the absorption: exceeds the squared norm of the jumped state by what the highest level would contribute. *)
Theorem C46_absorption_rate_partial : forall dim kappa nTh, (0 < dim)%nat -> (0 <= kappa)%R -> (0 <= nTh)%R ->
  exists loss absorption rate, modeThermal false dim kappa nTh = [loss; absorption] /\ lbRate absorption = Some rate /\
    (forall psi, norm2 dim psi = 1%R -> rate (ldoSV dim psi) = (norm2 dim (lbJump absorption psi) + 2 * kappa * nTh * INR dim * csq (psi (dim - 1)%nat))%R) /\
    (forall rho, rate (ldoDO dim rho) =
       (cre (mtr dim (sandwich dim (mscale (sqrt (2 * (kappa * nTh))) creation) rho)) + 2 * kappa * nTh * INR dim * cre (rho (dim - 1)%nat (dim - 1)%nat))%R).
Proof. exact mode_absorption_rates. Qed.
Print Assumptions C46_absorption_rate_partial.

(** Hence C46 does not hold as stated: at finite temperature there is a normalised state whose absorption rate is not the
    squared norm of the jumped state. *)
Theorem C46_absorption_rate_refuted : exists dim kappa nTh psi loss absorption rate, (0 <= kappa)%R /\ (0 <= nTh)%R /\ norm2 dim psi = 1%R /\
  modeThermal false dim kappa nTh = [loss; absorption] /\ lbRate absorption = Some rate /\
  rate (ldoSV dim psi) <> norm2 dim (lbJump absorption psi).
Proof. exact mode_absorption_refuted. Qed.
Print Assumptions C46_absorption_rate_refuted.

(** Nor for PumpedLossyModeIP_NoExact, whose rate is the photon number without the factor 2 kappa. *)
Theorem C46_no_exact_rate_refuted : exists dim z t psi op rate, (0 <= cre z)%R /\ modeNoExact dim z t = [op] /\ lbRate op = Some rate /\
  rate (ldoSV dim psi) <> norm2 dim (lbJump op psi).
Proof. exact mode_noexact_refuted. Qed.
Print Assumptions C46_no_exact_rate_refuted.

(** one photon at cutoff 2, kappa = 2: lost at rate 4, leaving the vacuum with amplitude 2 *)
Example C46_case : norm2 2 topState = 1%R /\ (0 <= 2)%R /\
  lsum 2 (fun n => kmul (mscale (sqrt (2 * 2)) annihilation 0 n) (topState n)) = RC 2 /\
  cre (mtr 2 (sandwich 2 (mscale (sqrt (2 * 2)) annihilation) (fun m n => kmul (topState m) (kconj (topState n))))) = 4%R.
Proof.
  assert (E : sqrt (2 * 2) = 2%R) by (apply sqrt_square; lra).
  split; [apply topState_norm|]. split; [lra|]. rewrite E. unfold mtr, sandwich, lsum, ksum, mscale, annihilation, topState.
  cbn -[sqrt]. rewrite sqrt_1. split; [apply cr_eq; cbn; ring|ring].
Qed.

(** C48 for equal coefficients: the superoperators of all the diffusive Lindblads together add the sum of J_k rho J_k^dagger
    over the phase flips J_k, and a multiple of rho. *)
Theorem C48_uniform_partial : forall dim gamma rho d m n, (0 <= gamma)%R -> m < dim -> n < dim ->
  allDiffusive dim (repeat gamma dim) rho d m n =
  kadd (kadd (d m n) (lsum dim (fun k => sandwich dim (mscale (sqrt (2 * nth k (repeat gamma dim) 0%R)) (flip k)) rho m n)))
       (kmul (RC (- 2 * gamma * INR (dim - 1))) (rho m n)).
Proof. exact diffusive_uniform. Qed.
Print Assumptions C48_uniform_partial.

(** the k-th jump is that phase flip, for any coefficients *)
Theorem C48_jumps_partial : forall dim gammas, Forall2 (fun l J => is_operator dim (lbJump l) J) (diffusive dim gammas)
  (map (fun k => mscale (sqrt (2 * nth k gammas 0%R)) (flip k)) (seq 0 dim)).
Proof. exact diffusive_jumps. Qed.
Print Assumptions C48_jumps_partial.

(** C48 does not hold for different coefficients: only the first is used by the superoperator. *)
Theorem C48_refuted : exists dim gammas rho, Forall (fun g => (0 <= g)%R) gammas /\ length gammas = dim /\
  forall c : CR, ~ (forall m n, m < dim -> n < dim ->
    allDiffusive dim gammas rho (fun _ _ => k0) m n =
    kadd (lsum dim (fun k => sandwich dim (mscale (sqrt (2 * nth k gammas 0%R)) (flip k)) rho m n)) (kmul c (rho m n))).
Proof. exact diffusive_refuted. Qed.
Print Assumptions C48_refuted.

(** two levels, gamma = 1: coherences decay with 6 gamma, up to the multiple of rho with 8 gamma *)
Example C48_case : allDiffusive 2 (repeat 1%R 2) ones (fun _ _ => k0) 0 1 = RC (-6) /\ allDiffusive 2 (repeat 1%R 2) ones (fun _ _ => k0) 1 1 = RC 2.
Proof. rewrite !allDiffusive_eq by lia. split; apply cr_eq; cbn; ring. Qed.

(** C60. For the other elements the jump is the intended operator, the superoperator where there is one adds J rho J^dagger, the
    rate where there is one is the squared norm of the jumped state (trace of J rho J^dagger): spins of any size and cutoff, *)
Theorem C60_spin : forall dim twoS gamma, (0 <= gamma)%R ->
  Forall2 (fun l J => describes (decideDimension twoS dim) l J /\ rate_of_jump (decideDimension twoS dim) l J)
    (spinLoss (decideDimension twoS dim) twoS gamma) [mscale (sqrt (2 * gamma)) (spinLower twoS)].
Proof. exact spin_ok. Qed.
Print Assumptions C60_spin.
(** multi-level systems with any decay channels, *)
Theorem C60_multilevel : forall dim decays, decays_in dim decays ->
  Forall2 (fun l J => describes dim l J /\ rate_of_jump dim l J) (multiLevelLoss dim decays None) (radiativeOps decays).
Proof. exact multilevel_ok. Qed.
Print Assumptions C60_multilevel.
(** the two-level atom, *)
Theorem C60_two_level : forall za, (cre za <= 0)%R ->
  Forall2 (fun l J => describes 2 l J /\ rate_of_jump 2 l J) (twoLevelLoss za) [mscale (sqrt (2 * - cre za)) (ketbra 0 1)].
Proof. exact twoLevel_ok. Qed.
Print Assumptions C60_two_level.
(** the qbit with phase noise, *)
Theorem C60_phase_noise : forall gammaPerp gammaPar, Forall2 (describes 2) (qbitPhaseNoise gammaPerp gammaPar)
  [mscale (sqrt (2 * gammaPerp)) (ketbra 0 1); mscale (sqrt (2 * gammaPar)) (flip 1)].
Proof. exact qbitNoise_ok. Qed.
Print Assumptions C60_phase_noise.
(** and the homodyned mode: h + sqrt(2 kappa (nTh+1)) a and h^* + sqrt(2 kappa nTh) a^dagger. *)
Theorem C60_homodyne : forall dim h kappa nTh, (0 < dim)%nat ->
  Forall2 (describes dim) (homodyned dim h kappa nTh)
    [homodyneOp h (sqrt (2 * (kappa * (nTh + 1)))) annihilation; homodyneOp (kconj h) (sqrt (2 * (kappa * nTh))) creation].
Proof. exact homodyne_ok. Qed.
Print Assumptions C60_homodyne.

(** a spin 1, a cascade of three levels *)
Example C60_case : decideDimension 2 0 = 3 /\ spinLower 2 1 2 = RC (sqrt 2) /\ spinLower 2 0 1 = RC (sqrt 2) /\
  decays_in 3 [mkDecay 1 2 1; mkDecay 0 1 2] /\ length (radiativeOps [mkDecay 1 2 1; mkDecay 0 1 2]) = 2.
Proof.
  split; [reflexivity|]. split; [unfold spinLower; cbn; do 2 f_equal; ring|]. split; [unfold spinLower; cbn; do 2 f_equal; ring|].
  split; [|reflexivity]. repeat constructor; cbn; (lra || lia).
Qed.
