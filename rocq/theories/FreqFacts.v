From Coq Require Import List Arith Bool Lia Reals Lra.
From Verif Require Import Star CReal Arr PureModel PureProofs TriModel TriSpec TriProofs FreeExactModel FreeExactSpec FreeExactProofs ElementModel ElementSpec ElementProofs ElementLemmas
  ModeModel ModeSpec ModeProofs ModeFacts ModeCases DampSpec CompositeModel ParticleModel InteractionModel InteractionSpec SigmaModel SigmaSpec MatHamModel EntangleModel EntangleProofs FreqModel FreqSpec FreqProofs.
From Verif Require InteractionFacts SigmaProofs SpinProofs InteractionCases.
Import ListNotations.
Local Open Scope nat_scope.
Add Ring CRfreq2 : (k_ring CR).

Lemma mode_fact : forall p qmp, 0 < pCutoff p -> pKerr p = 0%R -> pKerrAlter p = 0%R ->
  exists sys, make p qmp = Ok sys /\ msDim sys = pCutoff p /\ mode_starts_short (sqrt 2) (modeFreqs p qmp) sys /\
    ((qmp <> SCH \/ pEta p <> k0 \/ pKappa p = 0%R \/ pDelta p = 0%R) -> mode_starts_short 1 (modeFreqs p qmp) sys).
Proof.
  intros p qmp H1 H2 H3. destruct (mode_ample p qmp H1 H2 H3) as (sys & E1 & E2 & E3 & E4). exists sys. split; [exact E1|]. split; [exact E2|].
  split; [apply ample_short; [apply sqrt_pos|exact E3]|]. intros Q. apply ample_short; [lra|auto].
Qed.

(** * qbits: one excitation at most *)
Lemma below1 : (INR 1 <= 1)%R. Proof. cbn. lra. Qed.
Lemma below1_sqrt : (sqrt (INR 1) <= 1)%R. Proof. cbn. rewrite sqrt_1. lra. Qed.
Lemma isNonZero_opp z : isNonZero (kopp z) = isNonZero z.
Proof.
  destruct (isNonZero z) eqn:E.
  - apply isNonZero_spec in E. apply isNonZero_spec. intros H. apply E. replace z with (kopp (kopp z)) by ring. rewrite H. ring.
  - apply isNonZero_false in E. subst z. apply isNonZero_false. ring.
Qed.
Ltac qentry := first [apply zero_diag | apply zero_pump
  | eapply diag_real; [|first [apply cabs_im'|apply cabs_re]|apply below1]; mem
  | eapply diag_complex; [|apply cabs_neg_im|apply below1]; mem
  | eapply pump_complex; [|reflexivity|apply below1_sqrt]; mem].
Lemma qbit_ample delta gamma eta qmp : exists sys, qbitMake delta gamma eta qmp = Ok sys /\ msDim sys = 2 /\ ample (sqrt 2) (qbitFreqs delta gamma eta qmp) sys.
Proof.
  set (p := qbitPars delta gamma eta). assert (P0 : 0 < pCutoff p) by (cbn; lia).
  assert (W : forall c fs, (1 <= c)%R -> forall o : outcome modeSys, (exists sys, o = Ok sys /\ msDim sys = pCutoff p /\ ample 1 fs sys) ->
                exists sys, o = Ok sys /\ msDim sys = 2 /\ ample c fs sys).
  { intros c fs L o (sys & E1 & E2 & E3). exists sys. repeat split; auto. now apply (ample_mono 1). }
  pose proof sqrt2_ge_1 as S2.
  assert (N0 : forall z ls fs, exists sys, @Ok modeSys (mkMode 2 z None ls) = Ok sys /\ msDim sys = pCutoff p /\ ample 1 fs sys).
  { intros. eexists. split; [reflexivity|]. split; [reflexivity|]. now apply ample_none; [lra|]. }
  assert (Dr : decayRate false p = gamma) by reflexivity.
  unfold qbitMake, make, qbitFreqs, makePumped, makeLossy, makePlain. fold p. change (pKappa p) with gamma. change (pEta p) with (kopp eta). rewrite isNonZero_opp.
  change (pNTh p) with 0%R. rewrite (Reqb_true 0). cbn [negb]. destruct (Reqb gamma 0) eqn:Ek.
  - destruct (isNonZero eta) eqn:Ee; cbn [negb]; destruct qmp; cbn [switch]; apply W; auto;
      unfold cPumpedMode, cPumpedModeSch, cModeSch; first [apply N0|apply ample_IP; auto; apply one_times; qentry|apply ample_Sch; auto; apply one_times; qentry].
  - destruct (isNonZero eta) eqn:Ee; cbn [negb].
    + destruct qmp; cbn [switch]; apply W; auto; unfold cPumpedLossyMode, cPumpedLossyModeUIP, cPumpedLossyModeSch; rewrite Dr;
        first [apply ample_IP; auto; apply one_times; qentry|apply ample_Sch; auto; apply one_times; qentry].
    + destruct qmp; cbn [switch].
      * apply W; [exact S2|apply N0].
      * apply W; [exact S2|]. unfold cLossyModeUIP. rewrite Dr. apply ample_IP; auto; apply one_times; qentry.
      * unfold cLossyModeSch. rewrite Dr. apply ample_Sch; auto.
        -- change (pDelta p) with delta. change (INR (pCutoff p - 1)) with 1%R. rewrite Rmult_1_l, cabs_neg_im. eapply Rle_trans; [apply cabs_two|].
           apply Rmult_le_compat_l; [lra|]. apply Rmax_lub.
           ++ replace (Rabs gamma) with (absReal (gamma, 1%R)) by (rewrite absReal_eq by lra; ring). apply hf_real. mem.
           ++ replace (Rabs delta) with (absReal (delta, 1%R)) by (rewrite absReal_eq by lra; ring). apply hf_real. mem.
        -- rewrite cabs_0, Rmult_0_l. apply Rmult_le_pos; [lra|apply hf_nonneg].
Qed.
Lemma qbit_fact : forall delta gamma eta qmp, exists sys, qbitMake delta gamma eta qmp = Ok sys /\ msDim sys = 2 /\ mode_starts_short (sqrt 2) (qbitFreqs delta gamma eta qmp) sys.
Proof.
  intros delta gamma eta qmp. destruct (qbit_ample delta gamma eta qmp) as (sys & E1 & E2 & E3). exists sys. split; [exact E1|]. split; [exact E2|].
  apply ample_short; [apply sqrt_pos|exact E3].
Qed.
(** with phase noise: not if driven in the unitary interaction picture *)
Lemma noise_fact : forall delta gamma gammaPar eta qmp, eta = k0 \/ qmp <> UIP \/ gammaPar = 0%R ->
  exists sys, qbitNoiseMake delta gamma gammaPar eta qmp = Ok sys /\ msDim sys = 2 /\ mode_starts_short (sqrt 2) (qbitNoiseFreqs delta gamma gammaPar eta qmp) sys.
Proof.
  intros delta gamma gammaPar eta qmp Q. pose proof sqrt2_ge_1 as S2. unfold qbitNoiseMake, qbitNoiseFreqs. destruct (Reqb gammaPar 0) eqn:Eg; [apply qbit_fact|].
  set (p := qbitPars delta gamma eta). assert (P0 : 0 < pCutoff p) by (cbn; lia).
  assert (W : forall c fs, (1 <= c)%R -> forall o : outcome modeSys, (exists sys, o = Ok sys /\ msDim sys = pCutoff p /\ ample 1 fs sys) ->
                exists sys, o = Ok sys /\ msDim sys = 2 /\ mode_starts_short c fs sys).
  { intros c fs L o (sys & E1 & E2 & E3). exists sys. repeat split; auto. apply ample_short; [lra|]. now apply (ample_mono 1). }
  assert (N0 : forall z ls fs, exists sys, @Ok modeSys (mkMode 2 z None ls) = Ok sys /\ msDim sys = pCutoff p /\ ample 1 fs sys).
  { intros. eexists. split; [reflexivity|]. split; [reflexivity|]. now apply ample_none; [lra|]. }
  destruct (isNonZero eta) eqn:Ee.
  - apply isNonZero_spec in Ee. destruct qmp.
    + apply W; auto. apply ample_IP; auto; apply one_times; qentry.
    + destruct Q as [Q|[Q|Q]]; [contradiction|congruence|]. rewrite Q, (Reqb_true 0) in Eg. discriminate Eg.
    + apply W; auto. apply ample_IP; auto; apply one_times; qentry.
  - destruct qmp; apply W; auto; first [apply N0|apply ample_IP; auto; apply one_times; qentry].
Qed.
(** there the drive is not in the list: the step is too long without limit *)
Lemma noise_refuted : forall c, (0 <= c)%R -> exists eta sys, qbitNoiseMake 1 1 1 eta UIP = Ok sys /\ msDim sys = 2 /\ ~ mode_starts_short c (qbitNoiseFreqs 1 1 1 eta UIP) sys.
Proof.
  intros c Hc. exists (RC (c + 1)). unfold qbitNoiseMake, qbitNoiseFreqs.
  assert (E1 : Reqb 1 0 = false) by (unfold Reqb; destruct (Req_EM_T 1 0); [lra|reflexivity]). rewrite E1.
  assert (Ee : isNonZero (RC (c + 1)) = true). { apply isNonZero_spec. intros H. apply (f_equal fst) in H. cbn in H. lra. } rewrite Ee.
  destruct (amp_IP ((1, 0)%R : CR) ((0, -1)%R : CR) (kopp (RC (c + 1))) (qbitPars 1 1 (RC (c + 1))) (qbitPhaseNoise 1 1)) as (sys & E & D & A); [cbn; lia|reflexivity|reflexivity|].
  exists sys. split; [exact E|]. split; [exact D|]. intros H. specialize (H 1 0). rewrite D in H. specialize (H ltac:(cbn; lia) ltac:(cbn; lia)).
  apply short_iff in H; [|exact Hc|apply amp_nonneg]. rewrite A in H by (cbn; lia).
  assert (F : (highestFrequency ([(1, 1); (1, 1); (1, 1)], [])%R <= 1)%R).
  { apply hf_le; [lra| |intros f []]. intros f [<-|[<-|[<-|[]]]]; rewrite absReal_eq by lra; rewrite Rabs_R1; lra. }
  assert (V : cabs (hOverIM ((1, 0)%R : CR) (kopp (RC (c + 1))) 0 1 0) = (c + 1)%R).
  { transitivity (cabs (RC (- (c + 1)))); [|rewrite cabs_RC, Rabs_Ropp, Rabs_pos_eq; lra]. f_equal. unfold hOverIM, pumpM, creation, annihilation. cbn [Nat.eqb Nat.add]. apply cr_eq; cbn; rewrite ?sqrt_1; ring. }
  rewrite V in H. assert (c * highestFrequency ([(1, 1); (1, 1); (1, 1)], [])%R <= c * 1)%R by (apply Rmult_le_compat_l; assumption). lra.
Qed.
(** nor is the Kerr term *)
Lemma kerr_freq_refuted : forall c, (0 <= c)%R -> exists p sys, pDelta p = 1%R /\ pKappa p = 0%R /\ pEta p = k0 /\ pKerr p = 0%R /\ pCutoff p = 3 /\
  make p SCH = Ok sys /\ ~ mode_starts_short c (modeFreqs p SCH) sys.
Proof.
  intros c Hc. set (p := mkPars 1 0 (3 * c + 2) 3 k0 0 0).
  destruct (amp_Sch ((0, - pDelta p)%R : CR) k0 p []) as (sys & E & D & A); [cbn; lia|].
  exists p, sys. repeat (split; [reflexivity|]).
  assert (EK : make p SCH = cModeSch p). { unfold make, makePumped, makePlain. change (pKappa p) with 0%R. rewrite (Reqb_true 0). change (pEta p) with (k0 : CR). rewrite isNonZero_0. reflexivity. }
  assert (EF : modeFreqs p SCH = ([(1, INR 3)], [])%R). { unfold modeFreqs. change (pKappa p) with 0%R. rewrite (Reqb_true 0). change (pEta p) with (k0 : CR). rewrite isNonZero_0. reflexivity. }
  split; [rewrite EK; exact E|]. rewrite EF. intros H. specialize (H 2 2). rewrite D in H. specialize (H ltac:(cbn; lia) ltac:(cbn; lia)).
  apply short_iff in H; [|exact Hc|apply amp_nonneg]. rewrite A in H by (cbn; lia).
  assert (V : cabs (kadd (hOverIM ((0, - pDelta p)%R : CR) k0 (if isNonZero ((0, - pDelta p)%R : CR) then pKerr p else 0%R) 2 2) (kerrM (pKerrAlter p) 2 2)) = (6 * c + 2)%R).
  { transitivity (cabs ((0, 2 - 2 * (3 * c + 2))%R : CR)).
    - f_equal. replace (if isNonZero ((0, - pDelta p)%R : CR) then pKerr p else 0%R) with 0%R by (destruct (isNonZero _); reflexivity).
      unfold hOverIM, pumpM, creation, annihilation, mainM, kerrM, kerrElem. cbn [Nat.eqb Nat.add]. replace (INR 2) with 2%R by (cbn; ring). apply cr_eq; cbn; ring.
    - rewrite cabs_im, Rabs_left by lra. ring. }
  rewrite V in H. assert (F : (highestFrequency ([(1, INR 3)], [])%R <= 3)%R).
  { apply hf_le; [lra| |intros f []]. intros f [<-|[]]. rewrite absReal_eq by apply pos_INR. rewrite Rabs_R1. cbn. lra. }
  assert (c * highestFrequency ([(1, INR 3)], [])%R <= c * 3)%R by (apply Rmult_le_compat_l; assumption). lra.
Qed.
(** * the rotation of the interaction picture *)
Lemma cim_cabs x y : (Rabs y <= cabs ((x, y)%R : CR))%R.
Proof. unfold cabs, csq. cbn [fst snd]. rewrite <- sqrt_Rsqr_abs. apply sqrt_le_1_alt. unfold Rsqr. nra. Qed.
Lemma turn_real fs d mult : In (d, mult) (fst fs) -> (1 <= mult)%R -> starts_short 1 fs (Rabs d).
Proof.
  intros H M. apply short_iff; [lra|apply Rabs_pos|]. pose proof (hf_real fs _ H) as Q. rewrite absReal_eq in Q by lra. pose proof (Rabs_pos d). nra.
Qed.
Lemma turn_complex fs x d mult : In ((x, d) : CR, mult) (snd fs) -> (1 <= mult)%R -> starts_short 1 fs (Rabs d).
Proof.
  intros H M. apply short_iff; [lra|apply Rabs_pos|]. pose proof (hf_complex fs _ H) as Q. rewrite absComplex_eq in Q by lra. pose proof (cim_cabs x d). pose proof (Rabs_pos d). nra.
Qed.
Lemma mode_turn p qmp : 0 < pCutoff p -> starts_short 1 (modeFreqs p qmp) (Rabs (pDelta p)).
Proof.
  intros H. assert (C : (1 <= INR (pCutoff p))%R) by (change 1%R with (INR 1); apply le_INR; lia). unfold modeFreqs.
  destruct (Reqb (pKappa p) 0), (negb (isNonZero (pEta p))), qmp; cbn [switch];
  first [eapply turn_real; [cbn [fst snd]; first [left; reflexivity|right; left; reflexivity]|cbn; lra]|eapply turn_complex; [cbn [fst snd]; left; reflexivity|cbn; lra]].
Qed.
Lemma qbit_turn delta gamma gammaPar eta qmp : starts_short 1 (qbitNoiseFreqs delta gamma gammaPar eta qmp) (Rabs delta).
Proof.
  unfold qbitNoiseFreqs, qbitFreqs.
  destruct (Reqb gammaPar 0), (Reqb gamma 0), (isNonZero eta), qmp; cbn [switch negb];
  first [eapply turn_real; [cbn [fst snd]; first [left; reflexivity|right; left; reflexivity|right; right; left; reflexivity]|lra]|eapply turn_complex; [cbn [fst snd]; first [left; reflexivity|right; left; reflexivity]|lra]].
Qed.
