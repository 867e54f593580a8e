From Coq Require Import List Arith Bool Lia Reals Lra.
From Verif Require Import Star CReal Arr PureModel PureProofs TriModel TriSpec TriProofs FreeExactModel FreeExactSpec FreeExactProofs ElementModel ElementSpec ElementProofs ElementLemmas
  ModeModel ModeSpec ModeProofs ModeFacts ModeCases CompositeModel ParticleModel InteractionModel InteractionSpec SigmaModel MatHamModel EntangleModel EntangleProofs FreqModel FreqSpec.
Import ListNotations.
Local Open Scope nat_scope.
Add Ring CRfreq : (k_ring CR).

(** * the highest frequency *)
Lemma maxElement_ge {A} (f : A -> R) l : forall x y, In y (x :: l) -> (f y <= f (maxElement f x l))%R.
Proof.
  unfold maxElement. induction l as [|a l IH]; intros x y H.
  - destruct H as [->|[]]. cbn. lra.
  - cbn [fold_left]. destruct (Rlt_dec (f x) (f a)) as [L|L].
    + destruct H as [->|H]; [|now apply IH]. eapply Rle_trans; [|apply IH; now left]. lra.
    + destruct H as [->|[->|H]].
      * apply IH. now left.
      * eapply Rle_trans; [|apply IH; now left]. lra.
      * apply IH. now right.
Qed.
Lemma hf_real fs f : In f (fst fs) -> (absReal f <= highestFrequency fs)%R.
Proof.
  intros H. unfold highestFrequency. destruct (fst fs) as [|x l]; [easy|].
  eapply Rle_trans; [now apply (maxElement_ge absReal l x)|apply Rmax_l].
Qed.
Lemma hf_complex fs f : In f (snd fs) -> (absComplex f <= highestFrequency fs)%R.
Proof.
  intros H. unfold highestFrequency. destruct (snd fs) as [|x l]; [easy|].
  eapply Rle_trans; [now apply (maxElement_ge absComplex l x)|apply Rmax_r].
Qed.
Lemma cabs_nonneg z : (0 <= cabs z)%R. Proof. apply sqrt_pos. Qed.
Lemma hf_nonneg fs : (0 <= highestFrequency fs)%R.
Proof.
  unfold highestFrequency. eapply Rle_trans; [|apply Rmax_l]. destruct (fst fs); [lra|apply Rabs_pos].
Qed.
(** it is one of the frequencies *)
Lemma hf_le fs x : (0 <= x)%R -> (forall f, In f (fst fs) -> absReal f <= x)%R -> (forall f, In f (snd fs) -> absComplex f <= x)%R -> (highestFrequency fs <= x)%R.
Proof.
  assert (K : forall A (f : A -> R) l y, In (maxElement f y l) (y :: l)).
  { unfold maxElement. induction l as [|a l IH]; intros y; [now left|]. cbn [fold_left]. destruct (Rlt_dec (f y) (f a)).
    - destruct (IH a) as [E|E]; [right; now left|right; now right].
    - destruct (IH y) as [E|E]; [now left|right; now right]. }
  intros H0 H1 H2. unfold highestFrequency. apply Rmax_lub.
  - destruct (fst fs) as [|y l]; [exact H0|]. apply H1, K.
  - destruct (snd fs) as [|y l]; [exact H0|]. apply H2, K.
Qed.
Lemma short_iff c fs a : (0 <= c)%R -> (0 <= a)%R -> (starts_short c fs a <-> (a <= c * highestFrequency fs)%R).
Proof.
  intros Hc Ha. unfold starts_short, initialTimeStep. pose proof (hf_nonneg fs) as H. set (h := highestFrequency fs) in *.
  unfold Reqb. destruct (Req_EM_T h 0) as [E|E].
  - rewrite E. split; intros; [lra|lra].
  - assert (P : (0 < h)%R) by lra. split; intros K.
    + apply (Rmult_le_reg_l (1 / (10 * h))); [apply Rdiv_lt_0_compat; lra|]. replace (1 / (10 * h) * (c * h))%R with (c / 10)%R by (field; lra). exact K.
    + apply (Rmult_le_compat_l (1 / (10 * h))) in K; [|apply Rlt_le, Rdiv_lt_0_compat; lra]. eapply Rle_trans; [exact K|]. right. field. lra.
Qed.

(** * absolute values *)
Lemma cabs_mul a b : cabs (kmul a b) = (cabs a * cabs b)%R.
Proof. unfold cabs. rewrite csq_mul. apply sqrt_mult; apply csq_nonneg. Qed.
Lemma cabs_0 : cabs k0 = 0%R. Proof. unfold cabs. replace (csq k0) with 0%R by (cbn; unfold csq; cbn; ring). apply sqrt_0. Qed.
Lemma cabs_1 : cabs k1 = 1%R. Proof. unfold cabs. replace (csq k1) with 1%R by (unfold csq; cbn; ring). apply sqrt_1. Qed.
Lemma cabs_opp z : cabs (kopp z) = cabs z.
Proof. unfold cabs. f_equal. destruct z. unfold csq. cbn. ring. Qed.
Lemma cabs_conj z : cabs (kconj z) = cabs z.
Proof. unfold cabs. f_equal. destruct z. unfold csq. cbn. ring. Qed.
Lemma cabs_CI : cabs CI = 1%R. Proof. unfold cabs. replace (csq CI) with 1%R by (unfold csq; cbn; ring). apply sqrt_1. Qed.
Lemma cabs_RCp x : (0 <= x)%R -> cabs (RC x) = x. Proof. intros H. rewrite cabs_RC. now apply Rabs_pos_eq. Qed.
Lemma cabs_im x : cabs ((0, x)%R : CR) = Rabs x.
Proof. unfold cabs. replace (csq ((0, x)%R : CR)) with (x * x)%R by (unfold csq; cbn; ring). apply sqrt_Rsqr_abs. Qed.
Lemma cabs_im' x : cabs ((0, - x)%R : CR) = Rabs x. Proof. rewrite cabs_im. apply Rabs_Ropp. Qed.
Lemma cabs_re x : cabs ((x, 0)%R : CR) = Rabs x. Proof. apply cabs_RC. Qed.
Lemma cabs_neg_im x y : cabs ((x, - y)%R : CR) = cabs ((x, y)%R : CR). Proof. unfold cabs, csq. cbn. f_equal. ring. Qed.
Lemma cre_cabs z : (Rabs (cre z) <= cabs z)%R.
Proof. rewrite <- sqrt_Rsqr_abs. apply sqrt_le_1_alt. destruct z as [a b]. unfold csq, cre, Rsqr. cbn [fst snd]. pose proof (Rle_0_sqr b) as H. unfold Rsqr in H. lra. Qed.
Lemma cabs_two x y : (cabs ((x, y)%R : CR) <= sqrt 2 * Rmax (Rabs x) (Rabs y))%R.
Proof.
  set (M := Rmax (Rabs x) (Rabs y)). assert (H1 : (Rabs x <= M)%R) by apply Rmax_l. assert (H2 : (Rabs y <= M)%R) by apply Rmax_r.
  pose proof (Rabs_pos x) as P1. pose proof (Rabs_pos y) as P2.
  rewrite <- (sqrt_square M) by lra. rewrite <- sqrt_mult by (try lra; apply Rmult_le_pos; lra). apply sqrt_le_1_alt. unfold csq. cbn.
  assert (A : (x * x <= M * M)%R). { replace (x * x)%R with (Rabs x * Rabs x)%R by (rewrite <- Rabs_mult; apply Rabs_pos_eq, Rle_0_sqr). apply Rmult_le_compat; lra. }
  assert (B : (y * y <= M * M)%R). { replace (y * y)%R with (Rabs y * Rabs y)%R by (rewrite <- Rabs_mult; apply Rabs_pos_eq, Rle_0_sqr). apply Rmult_le_compat; lra. }
  lra.
Qed.
Lemma absComplex_eq z m : (0 <= m)%R -> absComplex (z, m) = (cabs z * m)%R.
Proof. intros H. unfold absComplex. cbn [fst snd]. now rewrite cabs_mul, cabs_RCp. Qed.
Lemma absReal_eq z m : (0 <= m)%R -> absReal (z, m) = (Rabs z * m)%R.
Proof. intros H. unfold absReal. cbn [fst snd]. rewrite Rabs_mult. now rewrite (Rabs_pos_eq m). Qed.

(** * modes *)
Lemma basisKet_eq j : basisKet j = basis j. Proof. reflexivity. Qed.
Lemma kerrM_0 m n : kerrM 0 m n = k0.
Proof. unfold kerrM. destruct (m =? n); [apply kerrElem_0|reflexivity]. Qed.
Lemma amp_IP zSch zI eta p ls : 0 < pCutoff p -> pKerr p = 0%R -> pKerrAlter p = 0%R ->
  exists sys, withIP zSch zI eta p ls = Ok sys /\ msDim sys = pCutoff p /\
    forall m n, m < pCutoff p -> n < pCutoff p -> modeAmplitude sys m n = cabs (hOverIM zSch eta 0 m n).
Proof.
  intros Hd K1 K2. destruct (hamiltonianIP_ok zSch zI eta (pKerr p) (pKerrAlter p) (pCutoff p) Hd) as (hs & E & A).
  eexists. unfold withIP. rewrite E. cbn [bind]. split; [reflexivity|]. split; [reflexivity|]. intros m n Hm Hn. unfold modeAmplitude. cbn [msH].
  change hs with (afterCalls true [] hs). rewrite A by exact Hm. rewrite basisKet_eq, lsum_basis by exact Hn. rewrite K1, K2, kerrM_0.
  replace (if isNonZero zSch then 0%R else 0%R) with 0%R by (destruct (isNonZero zSch); reflexivity).
  assert (Z : forall z : CR, cexp (kmul (RC 0) z) = k1) by (intros z; replace (kmul (RC 0) z) with (k0 : CR) by (apply cr_eq; cbn; ring); apply cexp_0).
  assert (Z' : forall z : CR, cexp (kopp (kmul (RC 0) z)) = k1) by (intros z; replace (kopp (kmul (RC 0) z)) with (k0 : CR) by (apply cr_eq; cbn; ring); apply cexp_0).
  rewrite Z, Z'. f_equal. ring.
Qed.
Lemma amp_Sch z eta p ls : 0 < pCutoff p ->
  exists sys, withSch z eta p ls = Ok sys /\ msDim sys = pCutoff p /\
    forall m n, m < pCutoff p -> n < pCutoff p -> modeAmplitude sys m n = cabs (kadd (hOverIM z eta (if isNonZero z then pKerr p else 0%R) m n) (kerrM (pKerrAlter p) m n)).
Proof.
  intros Hd. destruct (hamiltonianSch_ok z eta (pKerr p) (pKerrAlter p) (pCutoff p) Hd) as (hs & E & A).
  eexists. unfold withSch. rewrite E. cbn [bind]. split; [reflexivity|]. split; [reflexivity|]. intros m n Hm Hn. unfold modeAmplitude. cbn [msH].
  change hs with (afterCalls false [] hs). rewrite A by exact Hm. rewrite basisKet_eq, lsum_basis by exact Hn. reflexivity.
Qed.
Lemma amp_Sch0 z eta p ls : 0 < pCutoff p -> pKerr p = 0%R -> pKerrAlter p = 0%R ->
  exists sys, withSch z eta p ls = Ok sys /\ msDim sys = pCutoff p /\
    forall m n, m < pCutoff p -> n < pCutoff p -> modeAmplitude sys m n = cabs (hOverIM z eta 0 m n).
Proof.
  intros Hd K1 K2. destruct (amp_Sch z eta p ls Hd) as (sys & E1 & E2 & E3). exists sys. split; [exact E1|]. split; [exact E2|]. intros m n Hm Hn.
  rewrite E3 by assumption. rewrite K1, K2, kerrM_0. replace (if isNonZero z then 0%R else 0%R) with 0%R by (destruct (isNonZero z); reflexivity). f_equal. ring.
Qed.
Lemma sqrt_le_INR m n : m <= n -> (sqrt (INR m) <= sqrt (INR n))%R.
Proof. intros H. apply sqrt_le_1_alt. now apply le_INR. Qed.
Lemma hOver_bound z eta c A m n : m < c -> n < c -> (INR (c - 1) * cabs z <= A)%R -> (cabs eta * sqrt (INR (c - 1)) <= A)%R -> (cabs (hOverIM z eta 0 m n) <= A)%R.
Proof.
  intros Hm Hn H1 H2. unfold hOverIM, mainM, pumpM, creation, annihilation. rewrite kerrElem_0.
  assert (Q : (0 <= A)%R). { eapply Rle_trans; [|exact H2]. apply Rmult_le_pos; [apply cabs_nonneg|apply sqrt_pos]. }
  destruct (Nat.eqb_spec m n), (Nat.eqb_spec m (n + 1)), (Nat.eqb_spec n (m + 1)); try lia.
  - replace (kadd (kadd (kmul (RC (INR m)) (kopp z)) k0) (ksub (kmul eta k0) (kmul (kconj eta) k0))) with (kmul (RC (INR m)) (kopp z)) by ring.
    rewrite cabs_mul, cabs_opp, cabs_RCp by apply pos_INR. eapply Rle_trans; [|exact H1]. apply Rmult_le_compat_r; [apply cabs_nonneg|]. apply le_INR. lia.
  - replace (kadd k0 (ksub (kmul eta (RC (sqrt (INR m)))) (kmul (kconj eta) k0))) with (kmul eta (RC (sqrt (INR m)))) by ring.
    rewrite cabs_mul, cabs_RCp by apply sqrt_pos. eapply Rle_trans; [|exact H2]. apply Rmult_le_compat_l; [apply cabs_nonneg|]. apply sqrt_le_INR. lia.
  - replace (kadd k0 (ksub (kmul eta k0) (kmul (kconj eta) (RC (sqrt (INR n)))))) with (kopp (kmul (kconj eta) (RC (sqrt (INR n))))) by ring.
    rewrite cabs_opp, cabs_mul, cabs_conj, cabs_RCp by apply sqrt_pos. eapply Rle_trans; [|exact H2]. apply Rmult_le_compat_l; [apply cabs_nonneg|]. apply sqrt_le_INR. lia.
  - replace (kadd k0 (ksub (kmul eta k0) (kmul (kconj eta) k0))) with (k0 : CR) by ring. now rewrite cabs_0.
Qed.
Definition ample (c : R) (fs : freqs) (sys : modeSys) : Prop := forall m n, m < msDim sys -> n < msDim sys -> (modeAmplitude sys m n <= c * highestFrequency fs)%R.
Lemma amp_nonneg sys m n : (0 <= modeAmplitude sys m n)%R.
Proof. unfold modeAmplitude. destruct (msH sys) as [[td hs]|]; [apply cabs_nonneg|lra]. Qed.
Lemma ample_short c fs sys : (0 <= c)%R -> ample c fs sys <-> mode_starts_short c fs sys.
Proof.
  intros Hc. split; intros H m n Hm Hn.
  - apply short_iff; [exact Hc|apply amp_nonneg|now apply H].
  - apply short_iff; [exact Hc|apply amp_nonneg|now apply H].
Qed.
Lemma ample_none c fs sys : (0 <= c)%R -> msH sys = None -> ample c fs sys.
Proof. intros Hc H m n _ _. unfold modeAmplitude. rewrite H. apply Rmult_le_pos; [exact Hc|apply hf_nonneg]. Qed.
Lemma ample_IP c fs zSch zI eta p ls : 0 < pCutoff p -> pKerr p = 0%R -> pKerrAlter p = 0%R ->
  (INR (pCutoff p - 1) * cabs zSch <= c * highestFrequency fs)%R -> (cabs eta * sqrt (INR (pCutoff p - 1)) <= c * highestFrequency fs)%R ->
  exists sys, withIP zSch zI eta p ls = Ok sys /\ msDim sys = pCutoff p /\ ample c fs sys.
Proof.
  intros Hd K1 K2 H1 H2. destruct (amp_IP zSch zI eta p ls Hd K1 K2) as (sys & E1 & E2 & E3). exists sys. split; [exact E1|]. split; [exact E2|].
  intros m n Hm Hn. rewrite E2 in Hm, Hn. rewrite E3 by assumption. now apply (hOver_bound zSch eta (pCutoff p)).
Qed.
Lemma ample_Sch c fs z eta p ls : 0 < pCutoff p -> pKerr p = 0%R -> pKerrAlter p = 0%R ->
  (INR (pCutoff p - 1) * cabs z <= c * highestFrequency fs)%R -> (cabs eta * sqrt (INR (pCutoff p - 1)) <= c * highestFrequency fs)%R ->
  exists sys, withSch z eta p ls = Ok sys /\ msDim sys = pCutoff p /\ ample c fs sys.
Proof.
  intros Hd K1 K2 H1 H2. destruct (amp_Sch0 z eta p ls Hd K1 K2) as (sys & E1 & E2 & E3). exists sys. split; [exact E1|]. split; [exact E2|].
  intros m n Hm Hn. rewrite E2 in Hm, Hn. rewrite E3 by assumption. now apply (hOver_bound z eta (pCutoff p)).
Qed.
(** from an entry of the lists *)
Lemma diag_real fs z v mult k : In (v, mult) (fst fs) -> cabs z = Rabs v -> (INR k <= mult)%R -> (INR k * cabs z <= highestFrequency fs)%R.
Proof.
  intros H E L. pose proof (pos_INR k) as P. eapply Rle_trans; [|apply (hf_real _ _ H)]. rewrite absReal_eq by lra. rewrite E, Rmult_comm.
  apply Rmult_le_compat_l; [apply Rabs_pos|exact L].
Qed.
Lemma diag_complex fs z v mult k : In (v, mult) (snd fs) -> cabs z = cabs v -> (INR k <= mult)%R -> (INR k * cabs z <= highestFrequency fs)%R.
Proof.
  intros H E L. pose proof (pos_INR k) as P. eapply Rle_trans; [|apply (hf_complex _ _ H)]. rewrite absComplex_eq by lra. rewrite E, Rmult_comm.
  apply Rmult_le_compat_l; [apply cabs_nonneg|exact L].
Qed.
Lemma pump_complex fs e v mult k : In (v, mult) (snd fs) -> cabs e = cabs v -> (sqrt (INR k) <= mult)%R -> (cabs e * sqrt (INR k) <= highestFrequency fs)%R.
Proof.
  intros H E L. pose proof (sqrt_pos (INR k)) as P. eapply Rle_trans; [|apply (hf_complex _ _ H)]. rewrite absComplex_eq by lra. rewrite E.
  apply Rmult_le_compat_l; [apply cabs_nonneg|exact L].
Qed.
Lemma zero_diag fs k : (INR k * cabs k0 <= highestFrequency fs)%R. Proof. rewrite cabs_0, Rmult_0_r. apply hf_nonneg. Qed.
Lemma zero_pump fs k : (cabs k0 * sqrt (INR k) <= highestFrequency fs)%R. Proof. rewrite cabs_0, Rmult_0_l. apply hf_nonneg. Qed.
Lemma one_times fs x : (x <= highestFrequency fs -> x <= 1 * highestFrequency fs)%R. Proof. lra. Qed.
Lemma sqrt2_ge_1 : (1 <= sqrt 2)%R. Proof. rewrite <- sqrt_1 at 1. apply sqrt_le_1_alt. lra. Qed.
Lemma ample_mono c c' fs sys : (c <= c')%R -> ample c fs sys -> ample c' fs sys.
Proof. intros L H m n Hm Hn. eapply Rle_trans; [now apply H|]. apply Rmult_le_compat_r; [apply hf_nonneg|exact L]. Qed.

Lemma below k : (INR (k - 1) <= INR k)%R. Proof. apply le_INR. lia. Qed.
Lemma below_sqrt k : (sqrt (INR (k - 1)) <= sqrt (INR k))%R. Proof. apply sqrt_le_INR. lia. Qed.

Ltac mem := solve [left; reflexivity | right; left; reflexivity | right; right; left; reflexivity].
Ltac entry := first [apply zero_diag | apply zero_pump
  | eapply diag_real; [|first [apply cabs_im'|apply cabs_re]|apply below]; mem
  | eapply diag_complex; [|apply cabs_neg_im|apply below]; mem
  | eapply pump_complex; [|reflexivity|apply below_sqrt]; mem].
Lemma mode_ample p qmp : 0 < pCutoff p -> pKerr p = 0%R -> pKerrAlter p = 0%R ->
  exists sys, make p qmp = Ok sys /\ msDim sys = pCutoff p /\ ample (sqrt 2) (modeFreqs p qmp) sys /\
    ((qmp <> SCH \/ pEta p <> k0 \/ pKappa p = 0%R \/ pDelta p = 0%R) -> ample 1 (modeFreqs p qmp) sys).
Proof.
  intros Hd K1 K2.
  assert (W : forall c fs, (1 <= c)%R -> forall o : outcome modeSys, (exists sys, o = Ok sys /\ msDim sys = pCutoff p /\ ample 1 fs sys) ->
                exists sys, o = Ok sys /\ msDim sys = pCutoff p /\ ample c fs sys /\ ((qmp <> SCH \/ pEta p <> k0 \/ pKappa p = 0%R \/ pDelta p = 0%R) -> ample 1 fs sys)).
  { intros c fs L o (sys & E1 & E2 & E3). exists sys. repeat split; auto. now apply (ample_mono 1). }
  pose proof sqrt2_ge_1 as S2.
  assert (N0 : forall z ls fs, exists sys, @Ok modeSys (mkMode (pCutoff p) z None ls) = Ok sys /\ msDim sys = pCutoff p /\ ample 1 fs sys).
  { intros. eexists. split; [reflexivity|]. split; [reflexivity|]. now apply ample_none; [lra|]. }
  unfold make, modeFreqs, makePumped, makeLossy, makePlain. set (temp := negb (Reqb (pNTh p) 0)). destruct (Reqb (pKappa p) 0) eqn:Ek.
  - destruct (isNonZero (pEta p)) eqn:Ee; cbn [negb]; destruct qmp; cbn [switch]; apply W; auto;
      unfold cPumpedMode, cPumpedModeSch, cModeSch; first [apply N0|apply ample_IP; auto; apply one_times; entry|apply ample_Sch; auto; apply one_times; entry].
  - destruct (isNonZero (pEta p)) eqn:Ef; cbn [negb].
    + destruct qmp; cbn [switch]; apply W; auto; unfold cPumpedLossyMode, cPumpedLossyModeUIP, cPumpedLossyModeSch;
        first [apply ample_IP; auto; apply one_times; entry|apply ample_Sch; auto; apply one_times; entry].
    + apply isNonZero_false in Ef. destruct qmp; cbn [switch].
      * apply W; [exact S2|apply N0].
      * apply W; [exact S2|]. unfold cLossyModeUIP. apply ample_IP; auto; apply one_times; entry.
      * (* Schroedinger picture: the two frequencies are there separately *)
        set (fs := fLossyModeSch temp p). assert (H1 : (Rabs (decayRate temp p) * INR (pCutoff p) <= highestFrequency fs)%R).
        { rewrite <- absReal_eq by apply pos_INR. apply hf_real. cbn. auto. }
        assert (H2 : (Rabs (pDelta p) * INR (pCutoff p) <= highestFrequency fs)%R).
        { rewrite <- absReal_eq by apply pos_INR. apply hf_real. cbn. auto. }
        pose proof (below (pCutoff p)) as B. pose proof (pos_INR (pCutoff p - 1)) as B0. pose proof (pos_INR (pCutoff p)) as B1.
        assert (D : exists sys, cLossyModeSch temp p = Ok sys /\ msDim sys = pCutoff p /\ ample (sqrt 2) fs sys).
        { unfold cLossyModeSch. apply ample_Sch; auto.
          - rewrite cabs_neg_im. eapply Rle_trans; [apply Rmult_le_compat_l; [exact B0|apply cabs_two]|].
            rewrite <- Rmult_assoc, (Rmult_comm _ (sqrt 2)), Rmult_assoc. apply Rmult_le_compat_l; [lra|]. rewrite <- RmaxRmult by exact B0. apply Rmax_lub.
            + eapply Rle_trans; [|exact H1]. rewrite Rmult_comm. apply Rmult_le_compat_l; [apply Rabs_pos|exact B].
            + eapply Rle_trans; [|exact H2]. rewrite Rmult_comm. apply Rmult_le_compat_l; [apply Rabs_pos|exact B].
          - rewrite cabs_0, Rmult_0_l. apply Rmult_le_pos; [lra|apply hf_nonneg]. }
        destruct D as (sys & E1 & E2 & E3). exists sys. split; [exact E1|]. split; [exact E2|]. split; [exact E3|].
        intros [Q|[Q|[Q|Q]]]; [contradiction|contradiction|rewrite Q in Ek; unfold Reqb in Ek; destruct (Req_EM_T 0 0); [discriminate Ek|congruence]|].
        assert (D' : exists sys, cLossyModeSch temp p = Ok sys /\ msDim sys = pCutoff p /\ ample 1 fs sys).
        { unfold cLossyModeSch. apply ample_Sch; auto; apply one_times.
          - rewrite Q, Ropp_0. change ((decayRate temp p, 0)%R : CR) with (RC (decayRate temp p)). rewrite cabs_RC.
            eapply Rle_trans; [|exact H1]. rewrite Rmult_comm. apply Rmult_le_compat_l; [apply Rabs_pos|exact B].
          - rewrite cabs_0, Rmult_0_l. apply hf_nonneg. }
        destruct D' as (sys' & E1' & E2' & E3'). rewrite E1 in E1'. injection E1' as <-. exact E3'.
Qed.
