From Coq Require Import List Arith Bool Lia Reals Lra.
From Verif Require Import Star CReal Arr PureModel PureProofs TriModel TriSpec TriProofs FreeExactModel FreeExactSpec FreeExactProofs ElementModel ElementSpec ElementProofs ElementLemmas
  ModeModel ModeSpec ModeProofs ModeFacts ModeCases DampSpec CompositeModel ParticleModel InteractionModel InteractionSpec SigmaModel SigmaSpec MatHamModel EntangleModel EntangleProofs FreqModel FreqSpec FreqProofs FreqFacts.
From Verif Require InteractionFacts InteractionCases SigmaProofs SpinProofs.
Import ListNotations.
Local Open Scope nat_scope.
Add Ring CRfreq3 : (k_ring CR).

(** * a matrix as the Hamiltonian *)
Lemma fold_Rmax_ge {A} (f : A -> R) l : forall x0, (x0 <= fold_left (fun x a => Rmax x (f a)) l x0)%R /\ forall a, In a l -> (f a <= fold_left (fun x a => Rmax x (f a)) l x0)%R.
Proof.
  induction l as [|b l IH]; intros x0; [split; [cbn; lra|easy]|]. cbn [fold_left]. destruct (IH (Rmax x0 (f b))) as [H1 H2]. split.
  - eapply Rle_trans; [apply Rmax_l|exact H1].
  - intros a [<-|H]; [eapply Rle_trans; [apply Rmax_r|exact H1]|now apply H2].
Qed.
Lemma matrix_fact : forall h m n, m < mhDim h -> n < mhDim h -> starts_short 1 (matrixFreqs h) (matrixAmplitude h m n).
Proof.
  intros h m n Hm Hn. apply short_iff; [lra|apply cabs_nonneg|]. rewrite Rmult_1_l. unfold matrixFreqs.
  set (M := fold_left _ _ 0%R). assert (K : (cabs (mhMatrix h m n) <= M)%R).
  { apply (proj2 (fold_Rmax_ge (fun ij => cabs (mhMatrix h (fst ij) (snd ij))) (list_prod (seq 0 (mhDim h)) (seq 0 (mhDim h))) 0%R) (m, n)). apply in_prod; apply in_seq; lia. }
  assert (M0 : (0 <= M)%R) by apply (proj1 (fold_Rmax_ge (fun ij => cabs (mhMatrix h (fst ij) (snd ij))) (list_prod (seq 0 (mhDim h)) (seq 0 (mhDim h))) 0%R)).
  assert (E : matrixAmplitude h m n = cabs (mhMatrix h m n)).
  { unfold matrixAmplitude, matrixContribution, matApply. f_equal. change (kadd k0 (lsum (mhDim h) (fun j => kmul (mhMatrix h m j) (basis n j))) = mhMatrix h m n).
    rewrite lsum_basis by exact Hn. ring. }
  rewrite E. eapply Rle_trans; [exact K|]. apply Rle_trans with (absReal (M, 1%R)); [rewrite absReal_eq by lra; rewrite Rabs_pos_eq by exact M0; lra|apply hf_real; now left].
Qed.

(** * interactions *)
Lemma carried_0 es psi y : carried es 0 psi y = psi y.
Proof.
  unfold carried. replace (kmul (RC 0) (together es y)) with (k0 : CR) by (destruct (together es y); apply cr_eq; cbn; ring). rewrite cexp_0. ring.
Qed.
Lemma isum_unit dims (f : list nat -> CR) x : inr dims x -> isum dims (fun z => kmul (f z) (unit_state x z)) = f x.
Proof.
  intros H. rewrite (isum_single dims _ x H).
  - unfold unit_state. rewrite listnat_eqb_refl. ring.
  - intros z _ Hz. unfold unit_state. destruct (listnat_eqb z x) eqn:E; [apply listnat_eqb_eq in E; congruence|ring].
Qed.
Lemma int_amp h es G y x : has_generator h es any_state G -> inr (ihDims h) y -> inr (ihDims h) x -> intAmplitude h y x = cabs (G y x).
Proof.
  intros H Hy Hx. destruct (H [] 0%R (unit_state x) (fun _ => k0) I) as (d & E & K). unfold intAmplitude. change (intAfter [] h) with h in E. rewrite E. f_equal.
  specialize (K y Hy). rewrite carried_0 in K. transitivity (ksub (d y) k0); [ring|]. rewrite K.
  transitivity (isum (ihDims h) (fun z => kmul (G y z) (unit_state x z))); [|now apply isum_unit].
  apply isum_ext. intros z _. now rewrite carried_0.
Qed.
Lemma intAmp_nonneg h y x : (0 <= intAmplitude h y x)%R.
Proof. unfold intAmplitude. destruct (snd _); [apply cabs_nonneg|lra]. Qed.
Lemma cabs_overI H y x : cabs (overI H y x) = cabs (H y x).
Proof. unfold overI, timesO. rewrite cabs_mul, cabs_opp, cabs_CI. ring. Qed.

Lemma annih_le c m n : m < c -> n < c -> (cabs (annihilation m n) <= sqrt (INR (c - 1)))%R.
Proof.
  intros Hm Hn. unfold annihilation. destruct (n =? m + 1); [|rewrite cabs_0; apply sqrt_pos]. rewrite cabs_RCp by apply sqrt_pos. apply sqrt_le_INR. lia.
Qed.
Lemma creat_le c m n : m < c -> n < c -> (cabs (creation m n) <= sqrt (INR (c - 1)))%R.
Proof.
  intros Hm Hn. unfold creation. destruct (m =? n + 1); [|rewrite cabs_0; apply sqrt_pos]. rewrite cabs_RCp by apply sqrt_pos. apply sqrt_le_INR. lia.
Qed.
Lemma inr2 a b y : inr [a; b] y -> exists i j, y = [i; j] /\ i < a /\ j < b.
Proof.
  intros H. inversion H as [|? ? ? ? H1 H2]; subst. inversion H2 as [|? ? ? ? H3 H4]; subst. inversion H4; subst. eauto 6.
Qed.
(** T + h.c. for T raising the second number *)
Lemma hc_bound c A B i j i' j' u v : (cabs (A i i') <= u)%R -> (cabs (A i' i) <= u)%R -> (cabs (B j j') <= v)%R -> (cabs (B j' j) <= v)%R ->
  (B j j' = k0 \/ B j' j = k0) -> let T := timesO c (kron [A; B]) in (cabs (plusO T (hc T) [i; j] [i'; j']) <= cabs c * (u * v))%R.
Proof.
  intros H1 H2 H3 H4 Q T. unfold plusO, hc, T, timesO. cbn [kron].
  pose proof (cabs_nonneg (A i i')) as N1. pose proof (cabs_nonneg (A i' i)) as N2. pose proof (cabs_nonneg (B j j')) as N3. pose proof (cabs_nonneg (B j' j)) as N4.
  destruct Q as [Q|Q]; rewrite Q.
  - replace (kmul c (kmul (A i i') (kmul k0 k1))) with (k0 : CR) by ring.
    replace (kadd k0 (kconj (kmul c (kmul (A i' i) (kmul (B j' j) k1))))) with (kconj (kmul c (kmul (A i' i) (B j' j)))) by (f_equal; rewrite ?kconj_mul; rewrite ?kconj_1; ring).
    rewrite cabs_conj, !cabs_mul. apply Rmult_le_compat_l; [apply cabs_nonneg|]. apply Rmult_le_compat; assumption.
  - replace (kconj (kmul c (kmul (A i' i) (kmul k0 k1)))) with (k0 : CR) by (rewrite !kconj_mul, kconj_0; ring).
    replace (kadd (kmul c (kmul (A i i') (kmul (B j j') k1))) k0) with (kmul c (kmul (A i i') (B j j'))) by ring.
    rewrite !cabs_mul. apply Rmult_le_compat_l; [apply cabs_nonneg|]. apply Rmult_le_compat; assumption.
Qed.
Lemma creat_or j j' : creation j j' = k0 \/ creation j' j = k0.
Proof. unfold creation. destruct (Nat.eqb_spec j (j' + 1)); [|now left]. right. destruct (Nat.eqb_spec j' (j + 1)); [lia|reflexivity]. Qed.

Lemma jc_fact : forall b zI m g, atomIs b (AQbit zI) -> cavIs b m -> 0 < cvDim m ->
  exists h, makeJaynesCummings (AQbit zI) m g = Ok h /\ ihDims h = [2; cvDim m] /\ int_starts_short 1 (jaynesCummingsFreqs (AQbit zI) m g) h.
Proof.
  intros b zI m g H1 H2 H3. destruct (InteractionFacts.jc_gen b (AQbit zI) m g H1 H2 H3) as (h & E & D & G). exists h. split; [exact E|]. split; [exact D|].
  intros y x Hy Hx. apply short_iff; [lra|apply intAmp_nonneg|]. rewrite (int_amp _ _ _ _ _ G Hy Hx), cabs_overI. rewrite D in Hy, Hx. cbn [atomDim] in Hy, Hx.
  apply inr2 in Hy. apply inr2 in Hx. destruct Hy as (i & j & -> & Hi & Hj), Hx as (i' & j' & -> & Hi' & Hj').
  rewrite Rmult_1_l. eapply Rle_trans; [|apply hf_complex; left; reflexivity]. rewrite absComplex_eq by apply sqrt_pos. cbn [atomDim].
  eapply Rle_trans; [apply (hc_bound _ annihilation creation i j i' j' (sqrt (INR (2 - 1))) (sqrt (INR (cvDim m - 1)))); try (now apply annih_le); try (now apply creat_le); apply creat_or|].
  rewrite cabs_mul, cabs_CI, cabs_conj, Rmult_1_l. apply Rmult_le_compat_l; [apply cabs_nonneg|]. rewrite <- sqrt_mult by apply pos_INR. rewrite <- mult_INR. apply sqrt_le_INR. lia.
Qed.

Lemma position_le c m n : m < c -> n < c -> (cabs (position m n) <= sqrt (INR c))%R.
Proof.
  intros Hm Hn. unfold position. rewrite cabs_mul.
  assert (P2 : (0 < sqrt 2)%R) by (apply sqrt_lt_R0; lra).
  rewrite cabs_RCp by (apply Rlt_le, Rinv_0_lt_compat; exact P2).
  assert (K : (cabs (kadd (annihilation m n) (creation m n)) <= sqrt (INR c))%R).
  { unfold annihilation, creation. destruct (Nat.eqb_spec n (m + 1)), (Nat.eqb_spec m (n + 1)); try lia.
    - replace (kadd (RC (sqrt (INR n))) k0) with (RC (sqrt (INR n))) by (apply cr_eq; cbn; ring). rewrite cabs_RCp by apply sqrt_pos. apply sqrt_le_INR. lia.
    - replace (kadd k0 (RC (sqrt (INR m)))) with (RC (sqrt (INR m))) by (apply cr_eq; cbn; ring). rewrite cabs_RCp by apply sqrt_pos. apply sqrt_le_INR. lia.
    - replace (kadd k0 k0) with (k0 : CR) by ring. rewrite cabs_0. apply sqrt_pos. }
  assert (I1 : (/ sqrt 2 <= 1)%R). { rewrite <- Rinv_1. apply Rinv_le_contravar; [lra|]. apply sqrt2_ge_1. }
  rewrite <- (Rmult_1_l (sqrt (INR c))). apply Rmult_le_compat; [apply Rlt_le, Rinv_0_lt_compat; exact P2|apply cabs_nonneg|exact I1|exact K].
Qed.
Lemma number_le c m n : m < c -> n < c -> (cabs (number m n) <= INR c)%R.
Proof. intros Hm Hn. unfold number. destruct (m =? n); [|rewrite cabs_0; apply pos_INR]. rewrite cabs_RCp by apply pos_INR. apply le_INR. lia. Qed.
Lemma sqrt_INR_le c : (sqrt (INR c) <= INR c)%R.
Proof.
  destruct c as [|c]; [cbn; rewrite sqrt_0; lra|]. rewrite <- (sqrt_square (INR (S c))) at 2 by apply pos_INR. apply sqrt_le_1_alt.
  rewrite <- (Rmult_1_l (INR (S c))) at 1. apply Rmult_le_compat_r; [apply pos_INR|]. rewrite S_INR. pose proof (pos_INR c). lra.
Qed.
Lemma real_le u : (cabs (RC (cre u)) <= cabs u)%R. Proof. rewrite cabs_RC. apply cre_cabs. Qed.
Lemma product_le c A B i j i' j' u v w : (cabs c <= w)%R -> (cabs (A i i') <= u)%R -> (cabs (B j j') <= v)%R -> (cabs (timesO c (kron [A; B]) [i; j] [i'; j']) <= w * (u * v))%R.
Proof.
  intros H0 H1 H2. unfold timesO. cbn [kron]. replace (kmul (A i i') (kmul (B j j') k1)) with (kmul (A i i') (B j j')) by ring. rewrite !cabs_mul.
  apply Rmult_le_compat; [apply cabs_nonneg|apply Rmult_le_pos; apply cabs_nonneg|exact H0|]. apply Rmult_le_compat; try apply cabs_nonneg; assumption.
Qed.
Lemma coupled_fact_freq : forall b c m1 m2 u, cavIs b m1 -> cavIs b m2 -> (c = CM_NX -> b = false) -> 0 < cvDim m1 -> 0 < cvDim m2 ->
  exists h, makeCoupledModes c m1 m2 u = Ok h /\ ihDims h = [cvDim m1; cvDim m2] /\ int_starts_short 1 (coupledFreqs m1 m2 u) h.
Proof.
  intros b c m1 m2 u H1 H2 H3 H4 H5. destruct (InteractionCases.coupled_fact b c m1 m2 u H1 H2 H3 H4 H5) as (h & E & D & G). exists h. split; [exact E|]. split; [exact D|].
  intros y x Hy Hx. apply short_iff; [lra|apply intAmp_nonneg|]. rewrite (int_amp _ _ _ _ _ G Hy Hx), cabs_overI. rewrite D in Hy, Hx.
  apply inr2 in Hy. apply inr2 in Hx. destruct Hy as (i & j & -> & Hi & Hj), Hx as (i' & j' & -> & Hi' & Hj').
  rewrite Rmult_1_l. eapply Rle_trans; [|apply hf_complex; left; reflexivity]. rewrite absComplex_eq by (apply Rmult_le_pos; [apply pos_INR|apply sqrt_pos]).
  pose proof (sqrt_INR_le (cvDim m1)) as S1. pose proof (sqrt_pos (INR (cvDim m2))) as S2. pose proof (pos_INR (cvDim m1)) as S3.
  destruct c; cbn [hCoupledModes].
  - apply product_le; [apply real_le|now apply number_le|now apply position_le].
  - eapply Rle_trans; [apply product_le; [apply real_le|now apply (position_le (cvDim m1))|now apply (position_le (cvDim m2))]|].
    apply Rmult_le_compat_l; [apply cabs_nonneg|]. apply Rmult_le_compat_r; [exact S2|exact S1].
  - eapply Rle_trans; [apply (hc_bound _ annihilation creation i j i' j' (sqrt (INR (cvDim m1 - 1))) (sqrt (INR (cvDim m2 - 1)))); try (now apply annih_le); try (now apply creat_le); apply creat_or|].
    rewrite cabs_mul, cabs_CI, cabs_conj, Rmult_1_l. apply Rmult_le_compat_l; [apply cabs_nonneg|].
    apply Rmult_le_compat; try apply sqrt_pos; [|apply below_sqrt]. eapply Rle_trans; [apply below_sqrt|exact S1].
Qed.

(** * where the lists have too little *)
Lemma short_fail c fs a B : (0 <= c)%R -> (0 <= a)%R -> (highestFrequency fs <= B)%R -> (c * B < a)%R -> ~ starts_short c fs a.
Proof.
  intros Hc Ha H1 H2 H. apply short_iff in H; [|assumption|assumption]. assert (c * highestFrequency fs <= c * B)%R by (apply Rmult_le_compat_l; assumption). lra.
Qed.
Lemma exists_nat x : exists k, (x < INR k)%R.
Proof. destruct (archimed x) as [H _]. exists (Z.to_nat (Z.max 0 (up x))). rewrite INR_IZR_INZ, Z2Nat.id by lia. eapply Rlt_le_trans; [apply Rgt_lt, H|]. apply IZR_le. lia. Qed.
(** a spin: the frequency of the precession, whatever the size of the spin *)
Lemma spin_freq_refuted : forall c, (0 <= c)%R -> exists twoS sys, lossySpinSch twoS 0 0 0 1 0 = Ok sys /\ ~ mode_starts_short c (spinFreqs 1 0) sys.
Proof.
  intros c Hc. destruct (exists_nat (2 * c)) as [k Hk]. exists k. destruct (SpinProofs.spinSch_generator k 0 0 0 1 0) as (sys & E & D & _ & G). exists sys. split; [exact E|].
  intros H. assert (D0 : 0 < msDim sys) by (rewrite D; unfold decideDimension; cbn; lia). specialize (H 0 0 D0 D0). revert H.
  assert (V : modeAmplitude sys 0 0 = (INR k / 2)%R).
  { unfold modeAmplitude. specialize (G [] 0%R). unfold generator_at in G. pose proof E as E'. unfold lossySpinSch in E'. destruct (sn (decideDimension k 0) k 0 0) as [s| | | | |]; try discriminate E'.
    cbn [bind] in E'. injection E' as <-. cbn [msExact msH msDim] in *. change (afterCalls false [] ?l) with l in G. rewrite G by exact D0. rewrite basisKet_eq, lsum_basis by exact D0.
    rewrite cabs_mul, cabs_opp. unfold spinN. cbn [Nat.eqb]. rewrite sin_0, cos_0.
    match goal with |- context [cabs (kadd (kmul (RC (0 / 2)) ?X) ?Y)] => replace (kadd (kmul (RC (0 / 2)) X) Y) with (RC (- (INR k / 2))) by (destruct X; apply cr_eq; cbn; field) end.
    rewrite cabs_RC, Rabs_Ropp, Rabs_pos_eq by (pose proof (pos_INR k); lra). unfold cabs, csq. cbn [fst snd]. replace (0 * 0 + 1 * 1)%R with 1%R by ring. rewrite sqrt_1. ring. }
  apply (short_fail c _ _ 1); [exact Hc|apply amp_nonneg| |rewrite V; lra].
  apply hf_le; [lra| |intros f []]. intros f [<-|[<-|[]]]; rewrite absReal_eq by lra; [rewrite Rabs_R1; lra|rewrite Rabs_R0; lra].
Qed.
(** the multi-level interaction: the coupling alone, whatever the cutoff *)
Lemma mljc_freq_refuted : forall c, (0 <= c)%R -> exists m ds, cavIs false m /\ makeMLJC false m [mkCoupling 0 1 k1] = MMade (Ok ds) /\
  exists y x, inr [2; cvDim m] y /\ inr [2; cvDim m] x /\ ~ starts_short c (mljcFreqs [mkCoupling 0 1 k1]) (mljcAmplitude ds y x).
Proof.
  intros c Hc. destruct (exists_nat (c * c)) as [k Hk]. set (m := mkCavity (k + 1) None).
  destruct (SigmaProofs.mljc_fact 2 false m [mkCoupling 0 1 k1]) as (ds & E & G); [reflexivity|cbn; lia|intros d [<-|[]]; cbn; lia|].
  exists m, ds. split; [reflexivity|]. split; [exact E|].
  assert (K0 : 0 < k). { destruct k; [|lia]. cbn in Hk. pose proof (Rle_0_sqr c) as Q. unfold Rsqr in Q. lra. }
  assert (Hy : inr [2; cvDim m] [0; k]) by (repeat constructor; cbn; lia). assert (Hx : inr [2; cvDim m] [1; k - 1]) by (repeat constructor; cbn; lia).
  exists [0; k], [1; k - 1]. split; [exact Hy|]. split; [exact Hx|].
  assert (V : mljcAmplitude ds [0; k] [1; k - 1] = sqrt (INR k)).
  { unfold mljcAmplitude. specialize (G [] 0%R (unit_state [1; k - 1]) (fun _ => k0) [0; k] Hy). change (mljcAfter [] ds) with ds in G. rewrite carried_0 in G.
    set (d := snd (mljcContribution 0 ds (unit_state [1; k - 1]) (fun _ => k0))) in *. transitivity (cabs (ksub (d [0; k]) k0)); [f_equal; ring|]. rewrite G.
    transitivity (cabs (overI (hMLJC [mkCoupling 0 1 k1]) [0; k] [1; k - 1])).
    - f_equal. transitivity (isum [2; cvDim m] (fun z => kmul (overI (hMLJC [mkCoupling 0 1 k1]) [0; k] z) (unit_state [1; k - 1] z))); [|now apply isum_unit].
      apply isum_ext. intros z _. now rewrite carried_0.
    - rewrite cabs_overI. unfold hMLJC. cbn [ksum cG cI cJ]. unfold hJaynesCummings, plusO, hc, timesO. cbn [kron]. unfold ketbra, creation. cbn [Nat.eqb andb].
      destruct (Nat.eqb_spec k (k - 1 + 1)); [|lia]. rewrite kconj_1.
      transitivity (cabs (kmul CI (RC (sqrt (INR k))))); [f_equal|rewrite cabs_mul, cabs_CI, cabs_RCp by apply sqrt_pos; ring].
      unfold hMLJC. rewrite ?kconj_mul, ?kconj_0. cbn. apply cr_eq; cbn; ring. }
  apply (short_fail c _ _ 1); [exact Hc|apply cabs_nonneg| |rewrite V; rewrite Rmult_1_r; rewrite <- (sqrt_square c) by exact Hc; apply sqrt_lt_1_alt; split; [apply Rle_0_sqr|exact Hk]].
  apply hf_le; [lra|intros f []|]. intros f [<-|[]]. cbn [cG]. rewrite absComplex_eq by lra. rewrite cabs_1. lra.
Qed.
(** the Jaynes-Cummings interaction of a spin: the square root of the dimension instead of the size *)
Lemma jc_spin_freq_refuted : forall c, (0 <= c)%R -> exists s m h, spinIs false s /\ cavIs false m /\ makeJaynesCummings (ASpin s) m k1 = Ok h /\
  ~ int_starts_short c (jaynesCummingsFreqs (ASpin s) m k1) h.
Proof.
  intros c Hc. destruct (exists_nat (4 * (c * c))) as [k Hk]. set (s := mkSpin (2 * k) 0 None). set (m := mkCavity 2 None).
  destruct (InteractionFacts.jc_gen false (ASpin s) m k1) as (h & E & D & G); [reflexivity|reflexivity|cbn; lia|].
  exists s, m, h. split; [reflexivity|]. split; [reflexivity|]. split; [exact E|].
  assert (K0 : 0 < k). { destruct k; [|lia]. cbn in Hk. pose proof (Rle_0_sqr c) as Q. unfold Rsqr in Q. lra. }
  assert (DS : spDim s = 2 * k + 1) by reflexivity.
  intros H. specialize (H [k; 1] [k + 1; 0]). rewrite D in H. cbn [atomDim] in H. rewrite DS in H.
  assert (Hy : inr [2 * k + 1; cvDim m] [k; 1]) by (repeat constructor; cbn; lia). assert (Hx : inr [2 * k + 1; cvDim m] [k + 1; 0]) by (repeat constructor; cbn; lia).
  specialize (H Hy Hx). revert H.
  assert (V : intAmplitude h [k; 1] [k + 1; 0] = sqrt (INR ((k + 1) * k))).
  { rewrite (int_amp _ _ _ _ _ G) by (rewrite D; cbn [atomDim]; rewrite DS; assumption). rewrite cabs_overI. unfold hJaynesCummings, plusO, hc, timesO. cbn [kron lowering]. unfold spinLower, creation.
    change (spTwoS s) with (2 * k). rewrite Nat.eqb_refl. replace (2 * k - k) with k by lia. cbn [Nat.eqb Nat.add]. rewrite kconj_1.
    transitivity (cabs (kmul CI (RC (sqrt (INR ((k + 1) * k)))))); [f_equal|rewrite cabs_mul, cabs_CI, cabs_RCp by apply sqrt_pos; ring].
    set (r := sqrt (INR ((k + 1) * k))). rewrite ?kconj_mul, ?kconj_0. replace (INR 1) with 1%R by reflexivity. rewrite sqrt_1.
    destruct (k =? k + 1 + 1); apply cr_eq; cbn; ring. }
  apply (short_fail c _ _ (sqrt (INR ((2 * k + 1) * 2)))); [exact Hc|apply intAmp_nonneg| |].
  - apply hf_le; [apply sqrt_pos|intros f []|]. intros f [<-|[]]. rewrite absComplex_eq by apply sqrt_pos. rewrite cabs_1, Rmult_1_l. cbn [atomDim cvDim]. rewrite DS. apply Rle_refl.
  - rewrite V. rewrite <- (sqrt_square c) by exact Hc. rewrite <- sqrt_mult by (try apply Rle_0_sqr; apply pos_INR). apply sqrt_lt_1_alt. split.
    + apply Rmult_le_pos; [apply Rle_0_sqr|apply pos_INR].
    + rewrite !mult_INR, !plus_INR, !mult_INR. replace (INR 2) with 2%R by (cbn; ring). replace (INR 1) with 1%R by reflexivity. pose proof (le_INR 1 k ltac:(lia)) as K1. replace (INR 1) with 1%R in K1 by reflexivity.
      set (q := INR k) in *. apply Rlt_le_trans with (q / 4 * ((2 * q + 1) * 2))%R.
      * apply Rmult_lt_compat_r; lra.
      * assert (0 <= q * q)%R by apply Rle_0_sqr. lra.
Qed.
