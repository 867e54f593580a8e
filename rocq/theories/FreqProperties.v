From Coq Require Import List Arith Bool Lia Reals Lra.
From Verif Require Import Star CReal Arr TriModel ElementModel ModeModel ModeSpec ModeProofs CompositeModel ParticleModel InteractionModel InteractionSpec SigmaModel MatHamModel EntangleModel FreqModel FreqSpec
  FreqProofs FreqFacts FreqCases.
Import ListNotations.
Local Open Scope nat_scope.

(** * C96: within the initial time step, the Hamiltonian takes over at most a tenth of any basis state into any other. Refuted: *)
(** a driven qbit with phase noise in the unitary interaction picture, the list of which lacks the drive: there is no factor c with which it would hold *)
Theorem C96_noisy_qbit_refuted : forall c, (0 <= c)%R -> exists eta sys, qbitNoiseMake 1 1 1 eta UIP = Ok sys /\ msDim sys = 2 /\ ~ mode_starts_short c (qbitNoiseFreqs 1 1 1 eta UIP) sys.
Proof. exact noise_refuted. Qed.
Print Assumptions C96_noisy_qbit_refuted.
(** Kerr terms are not in the lists *)
Theorem C96_kerr_refuted : forall c, (0 <= c)%R -> exists p sys, pDelta p = 1%R /\ pKappa p = 0%R /\ pEta p = k0 /\ pKerr p = 0%R /\ pCutoff p = 3 /\
  make p SCH = Ok sys /\ ~ mode_starts_short c (modeFreqs p SCH) sys.
Proof. exact kerr_freq_refuted. Qed.
Print Assumptions C96_kerr_refuted.
(** the frequency of a spin does not grow with its size *)
Theorem C96_spin_refuted : forall c, (0 <= c)%R -> exists twoS sys, lossySpinSch twoS 0 0 0 1 0 = Ok sys /\ ~ mode_starts_short c (spinFreqs 1 0) sys.
Proof. exact spin_freq_refuted. Qed.
Print Assumptions C96_spin_refuted.
(** nor that of the Jaynes-Cummings interaction of a spin as it should, *)
Theorem C96_jaynes_cummings_spin_refuted : forall c, (0 <= c)%R -> exists s m h, spinIs false s /\ cavIs false m /\ makeJaynesCummings (ASpin s) m k1 = Ok h /\
  ~ int_starts_short c (jaynesCummingsFreqs (ASpin s) m k1) h.
Proof. exact jc_spin_freq_refuted. Qed.
Print Assumptions C96_jaynes_cummings_spin_refuted.
(** nor that of the multi-level Jaynes-Cummings interaction with the cutoff *)
Theorem C96_multi_level_refuted : forall c, (0 <= c)%R -> exists m ds, cavIs false m /\ makeMLJC false m [mkCoupling 0 1 k1] = MMade (Ok ds) /\
  exists y x, inr [2; cvDim m] y /\ inr [2; cvDim m] x /\ ~ starts_short c (mljcFreqs [mkCoupling 0 1 k1]) (mljcAmplitude ds y x).
Proof. exact mljc_freq_refuted. Qed.
Print Assumptions C96_multi_level_refuted.

(** Where it holds; missing: the cases above, particles, HomodynedMode, BichromaticMode. Modes without Kerr terms, in all pictures; with the factor sqrt 2 only in the Schroedinger picture with loss and detuning but no drive,
    when the two are in the list separately. *)
Theorem C96_mode_partial : forall p qmp, 0 < pCutoff p -> pKerr p = 0%R -> pKerrAlter p = 0%R ->
  exists sys, make p qmp = Ok sys /\ msDim sys = pCutoff p /\ mode_starts_short (sqrt 2) (modeFreqs p qmp) sys /\
    ((qmp <> SCH \/ pEta p <> k0 \/ pKappa p = 0%R \/ pDelta p = 0%R) -> mode_starts_short 1 (modeFreqs p qmp) sys).
Proof. exact mode_fact. Qed.
Print Assumptions C96_mode_partial.
Theorem C96_qbit_partial : forall delta gamma gammaPar eta qmp, eta = k0 \/ qmp <> UIP \/ gammaPar = 0%R ->
  exists sys, qbitNoiseMake delta gamma gammaPar eta qmp = Ok sys /\ msDim sys = 2 /\ mode_starts_short (sqrt 2) (qbitNoiseFreqs delta gamma gammaPar eta qmp) sys.
Proof. exact noise_fact. Qed.
Print Assumptions C96_qbit_partial.
Theorem C96_matrix_partial : forall h m n, m < mhDim h -> n < mhDim h -> starts_short 1 (matrixFreqs h) (matrixAmplitude h m n).
Proof. exact matrix_fact. Qed.
Print Assumptions C96_matrix_partial.
Theorem C96_jaynes_cummings_partial : forall b zI m g, atomIs b (AQbit zI) -> cavIs b m -> 0 < cvDim m ->
  exists h, makeJaynesCummings (AQbit zI) m g = Ok h /\ ihDims h = [2; cvDim m] /\ int_starts_short 1 (jaynesCummingsFreqs (AQbit zI) m g) h.
Proof. exact jc_fact. Qed.
Print Assumptions C96_jaynes_cummings_partial.
Theorem C96_coupled_modes_partial : forall b c m1 m2 u, cavIs b m1 -> cavIs b m2 -> (c = CM_NX -> b = false) -> 0 < cvDim m1 -> 0 < cvDim m2 ->
  exists h, makeCoupledModes c m1 m2 u = Ok h /\ ihDims h = [cvDim m1; cvDim m2] /\ int_starts_short 1 (coupledFreqs m1 m2 u) h.
Proof. exact coupled_fact_freq. Qed.
Print Assumptions C96_coupled_modes_partial.
(** nor does the detuning, where it is propagated exactly and the Hamiltonian rotates with it, turn a phase by more than a tenth; for modes (also with Kerr terms) and qbits in all pictures *)
Theorem C96_rotation_partial : (forall p qmp, 0 < pCutoff p -> starts_short 1 (modeFreqs p qmp) (Rabs (pDelta p))) /\
  (forall delta gamma gammaPar eta qmp, starts_short 1 (qbitNoiseFreqs delta gamma gammaPar eta qmp) (Rabs delta)).
Proof. exact (conj mode_turn qbit_turn). Qed.
Print Assumptions C96_rotation_partial.
(** a driven mode of cutoff 10 with kappa = 3, delta = 4, eta = 1 in the Schroedinger picture begins with the time step 1/500 *)
Example C96_case : let p := mkPars 4 0 0 10 k1 3 0 in 0 < pCutoff p /\ initialTimeStep (highestFrequency (modeFreqs p SCH)) = Some (1 / 500)%R.
Proof.
  cbv zeta. split; [cbn; lia|]. unfold modeFreqs. cbn [pKappa pEta pNTh].
  replace (Reqb 3 0) with false by (unfold Reqb; destruct (Req_EM_T 3 0); [lra|reflexivity]).
  replace (isNonZero (k1 : CR)) with true by (symmetry; apply isNonZero_spec; intros H; apply (f_equal fst) in H; cbn in H; lra).
  replace (Reqb 0 0) with true by (unfold Reqb; destruct (Req_EM_T 0 0); [reflexivity|lra]). cbn [negb switch].
  set (fs := fPumpedLossyModeSch _ _).
  assert (C5 : cabs ((3, 4)%R : CR) = 5%R) by (unfold cabs, csq; cbn [fst snd]; replace (3 * 3 + 4 * 4)%R with (5 * 5)%R by ring; apply sqrt_square; lra).
  assert (I10 : INR 10 = 10%R) by (cbn; ring).
  assert (A1 : absComplex (tKappaDelta false false (mkPars 4 0 0 10 k1 3 0)) = 50%R).
  { unfold tKappaDelta. cbn [pCutoff pDelta]. rewrite absComplex_eq by apply pos_INR. unfold decayRate. cbn [pKappa]. rewrite C5, I10. ring. }
  assert (H : highestFrequency fs = 50%R).
  { apply Rle_antisym.
    - apply hf_le; [lra|intros f []|]. intros f [<-|[<-|[]]]; [rewrite A1; lra|]. unfold tEta. cbn [pEta pCutoff]. rewrite absComplex_eq by apply sqrt_pos. rewrite cabs_1, Rmult_1_l, I10.
      rewrite <- (sqrt_square 50) by lra. apply sqrt_le_1_alt. lra.
    - rewrite <- A1. apply hf_complex. now left. }
  rewrite H. unfold initialTimeStep, Reqb. destruct (Req_EM_T 50 0); [lra|]. f_equal. field.
Qed.
