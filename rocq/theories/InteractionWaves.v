(** Products of the matrices of mode functions, and their compositions as rotating operators. *)
From Coq Require Import List Arith Bool ZArith Lia Reals Lra.
From Coquelicot Require Import Coquelicot.
From Verif Require Import Star CReal Arr TriModel TriSpec TriProofs TriPropagate TriLemmas FreeExactModel FreeExactSpec ElementModel ElementSpec ElementProofs ModeModel ModeProofs CompositeModel ParticleModel ParticleSpec ParticleWaves
  ParticleProofs ParticleFacts ParticleComposition ParticlePictures ParticleCases InteractionModel InteractionSpec RotProofs RotOps InteractionProofs.
Import ListNotations.
Add Ring CRIw : (k_ring CR).
Local Open Scope nat_scope.

(** ** superpositions of waves *)
Notation poly := (list (CR * Z)).
Definition polyM (l : poly) : mat := fun y x => ksum (fun t => kmul (fst t) (waveM (snd t) y x)) l.
Definition polyV (l : poly) (x : R) : CR := ksum (fun t => kmul (fst t) (wave (IZR (snd t)) x)) l.
Lemma mult_poly p l : multiplies (pDim p) (pK p) (polyV l) (polyM l).
Proof.
  induction l as [|[c L] l IH].
  - pose proof (mult_scale p k0 _ _ (mult_wave p 0)) as H. eapply mult_ext; [|eapply multiplies_ext; [reflexivity| |exact H]].
    + intros x. unfold polyV. cbn [ksum]. ring.
    + intros. unfold polyM. cbn [ksum]. ring.
  - exact (mult_add p _ _ _ _ (mult_scale p c _ _ (mult_wave p L)) IH).
Qed.
Definition adjP (l : poly) : poly := map (fun t => (kconj (fst t), (- snd t)%Z)) l.
Definition prodP (g f : poly) : poly := flat_map (fun b => map (fun a => (kmul (fst a) (fst b), (snd a + snd b)%Z)) g) f.
Lemma waveM_adj L y x : kconj (waveM L x y) = waveM (- L) y x.
Proof. unfold waveM. destruct (Z.eqb_spec (Z.of_nat x) (Z.of_nat y + L)), (Z.eqb_spec (Z.of_nat y) (Z.of_nat x + - L)); try lia; [apply kconj_1|apply kconj_0]. Qed.
Lemma polyM_adj l y x : adj (polyM l) y x = polyM (adjP l) y x.
Proof.
  unfold adj, polyM, adjP. rewrite ksum_map. cbn [fst snd]. rewrite ksum_conj. apply ksum_ext. intros t _. now rewrite kconj_mul, waveM_adj.
Qed.
Lemma wave_adj L x : kconj (wave (IZR L) x) = wave (IZR (- L)) x.
Proof. unfold wave. rewrite <- cexp_conj. f_equal. rewrite opp_IZR. apply cr_eq; cbn; ring. Qed.
Lemma polyV_adj l x : kconj (polyV l x) = polyV (adjP l) x.
Proof. unfold polyV, adjP. rewrite ksum_map. cbn [fst snd]. rewrite ksum_conj. apply ksum_ext. intros t _. now rewrite kconj_mul, wave_adj. Qed.
Lemma wave_prod K L x : kmul (wave (IZR K) x) (wave (IZR L) x) = wave (IZR (K + L)) x.
Proof. unfold wave. rewrite <- cexp_add. f_equal. rewrite plus_IZR. apply cr_eq; cbn; ring. Qed.
Lemma polyV_prod g f x : polyV (prodP g f) x = kmul (polyV g x) (polyV f x).
Proof.
  unfold polyV, prodP. induction f as [|[c L] f IH]; cbn [flat_map ksum]; [ring|]. rewrite ksum_app, IH, ksum_map. cbn [fst snd].
  rewrite (ksum_ext (fun a => kmul (kmul (fst a) c) (wave (IZR (snd a + L)) x)) (fun a => kmul (kmul (fst a) (wave (IZR (snd a)) x)) (kmul c (wave (IZR L) x)))).
  - rewrite ksum_scal_r. ring.
  - intros a _. rewrite <- wave_prod. ring.
Qed.
Lemma wave_column n L (A : mat) y x : (0 <= Z.of_nat x + L < Z.of_nat n)%Z -> lsum n (fun k => kmul (A y k) (waveM L k x)) = A y (Z.to_nat (Z.of_nat x + L)).
Proof.
  intros H. rewrite (lsum_at _ _ (Z.to_nat (Z.of_nat x + L))).
  - unfold waveM. rewrite Z2Nat.id by lia. rewrite Z.eqb_refl. ring.
  - lia.
  - intros k _ Hne. unfold waveM. destruct (Z.eqb_spec (Z.of_nat k) (Z.of_nat x + L)); [lia|]. ring.
Qed.
Lemma polyM_prod n g f y x : (forall t, In t f -> 0 <= Z.of_nat x + snd t < Z.of_nat n)%Z -> mmulC n (polyM g) (polyM f) y x = polyM (prodP g f) y x.
Proof.
  unfold mmulC. induction f as [|[c L] f IH]; intros H.
  - unfold prodP, polyM. cbn [flat_map ksum]. apply lsum_zero. intros k _. ring.
  - unfold prodP, polyM in *. cbn [flat_map ksum] in *. rewrite ksum_app, <- IH by (intros t Ht; apply H; now right). rewrite ksum_map. cbn [fst snd].
    rewrite (lsum_ext n _ (fun k => kadd (kmul (polyM g y k) (kmul c (waveM L k x))) (kmul (polyM g y k) (ksum (fun t => kmul (fst t) (waveM (snd t) k x)) f)))).
    + unfold lsum at 1. rewrite ksum_add. fold (lsum n (fun k => kmul (polyM g y k) (kmul c (waveM L k x)))). fold (lsum n (fun k => kmul (polyM g y k) (ksum (fun t => kmul (fst t) (waveM (snd t) k x)) f))). f_equal. rewrite (lsum_ext n _ (fun k => kmul (kmul c (polyM g y k)) (waveM L k x))) by (intros; ring).
      assert (HL : (0 <= Z.of_nat x + L < Z.of_nat n)%Z) by (apply (H (c, L)); now left).
      rewrite (wave_column n L (fun y k => kmul c (polyM g y k)) y x HL). unfold polyM. rewrite <- ksum_scal_l. apply ksum_ext. intros a _. unfold waveM.
      rewrite Z2Nat.id by lia. replace (Z.of_nat x + L + snd a)%Z with (Z.of_nat x + (snd a + L))%Z by lia. ring.
    + intros k _. unfold polyM. ring.
Qed.
(** mode functions *)
Definition mfPoly (mf : modeFunction) : poly :=
  let K := snd mf in
  match fst mf with
  | MSin => [((0, - / 2)%R : CR, K); ((0, / 2)%R : CR, (- K)%Z)]
  | MCos => [(RC (/ 2), K); (RC (/ 2), (- K)%Z)]
  | MPlus => [(k1, K)]
  | MMinus => [(k1, (- K)%Z)]
  end.
Lemma mfM_poly mf y x : mfM mf y x = polyM (mfPoly mf) y x.
Proof.
  destruct mf as [k K]. unfold mfM, mfPoly, polyM. cbn [fst snd]. destruct k; cbn [ksum fst snd]; unfold sinM, cosM; [| |ring|ring]; generalize (waveM K y x) (waveM (- K) y x); intros a b; apply cr_eq; cbn; ring.
Qed.
Lemma mfV_poly p mf : multiplies (pDim p) (pK p) (mfValue mf) (polyM (mfPoly mf)).
Proof. eapply multiplies_ext; [reflexivity| |exact (mfM_mult p mf)]. intros. apply mfM_poly. Qed.
Lemma mfValue_poly mf x : mfValue mf x = polyV (mfPoly mf) x.
Proof.
  destruct mf as [k K]. unfold mfValue, polyV, mfPoly. cbn [fst snd]. destruct k; cbn [ksum fst snd]; rewrite ?wave_parts, ?opp_IZR, ?exp_iu; rewrite ?Ropp_mult_distr_l_reverse, ?cos_neg, ?sin_neg; apply cr_eq; cbn; field.
Qed.
Lemma mfPoly_K mf t : In t (mfPoly mf) -> Z.abs (snd t) = Z.abs (snd mf).
Proof. destruct mf as [k K]. unfold mfPoly. cbn [fst snd]. destruct k; cbn [In]; intuition (subst; cbn [snd]; lia). Qed.
Lemma mmulC_ext n A A' B B' y x : (forall k, k < n -> A y k = A' y k) -> (forall k, k < n -> B k x = B' k x) -> mmulC n A B y x = mmulC n A' B' y x.
Proof. intros H1 H2. apply lsum_ext. intros k Hk. now rewrite H1, H2. Qed.
(** the two products of the general path, on the columns away from the edges *)
Lemma general_products p f g W y x : multiplies (pDim p) (pK p) (fun s => kmul (kconj (mfValue g s)) (mfValue f s)) W -> y < pDim p -> x < pDim p ->
  (Z.abs (snd f) <= Z.of_nat x)%Z -> (Z.of_nat x + Z.abs (snd f) < Z.of_nat (pDim p))%Z ->
  mmulC (pDim p) (adj (mfM g)) (mfM f) y x = W y x /\ mmulC (pDim p) (mfM g) (adj (mfM f)) y x = adj W y x.
Proof.
  intros HW Hy Hx H1 H2.
  assert (Ea : forall mf a b, adj (mfM mf) a b = polyM (adjP (mfPoly mf)) a b) by (intros; unfold adj; rewrite mfM_poly; apply polyM_adj).
  split.
  - rewrite (mmulC_ext (pDim p) _ (polyM (adjP (mfPoly g))) _ (polyM (mfPoly f))) by (intros; first [apply Ea|apply mfM_poly]).
    rewrite polyM_prod.
    + apply (unique_fact p (fun s => kmul (kconj (mfValue g s)) (mfValue f s))); auto. eapply mult_ext; [|apply mult_poly]. intros s. cbn beta. now rewrite polyV_prod, <- polyV_adj, !mfValue_poly.
    + intros t Ht. pose proof (mfPoly_K f t Ht). lia.
  - rewrite (mmulC_ext (pDim p) _ (polyM (mfPoly g)) _ (polyM (adjP (mfPoly f)))) by (intros; first [apply mfM_poly|apply Ea]).
    rewrite polyM_prod.
    + unfold adj. rewrite (unique_fact p (fun s => kmul (kconj (mfValue g s)) (mfValue f s)) W (polyM (prodP (adjP (mfPoly g)) (mfPoly f))) HW) ; auto.
      * fold (adj (polyM (prodP (adjP (mfPoly g)) (mfPoly f))) y x). rewrite polyM_adj.
        apply (unique_fact p (fun s => kmul (mfValue g s) (kconj (mfValue f s)))); auto.
        -- eapply mult_ext; [|apply mult_poly]. intros s. cbn beta. now rewrite polyV_prod, <- polyV_adj, !mfValue_poly.
        -- eapply mult_ext; [|apply mult_poly]. intros s. cbn beta. rewrite <- polyV_adj, polyV_prod, <- polyV_adj, !mfValue_poly, kconj_mul, kconj_invol. ring.
      * eapply mult_ext; [|apply mult_poly]. intros s. cbn beta. now rewrite polyV_prod, <- polyV_adj, !mfValue_poly.
    + intros t Ht. unfold adjP in Ht. apply in_map_iff in Ht. destruct Ht as [u [<- Hu]]. cbn [snd]. pose proof (mfPoly_K f u Hu). lia.
Qed.

(** ** compositions *)
Definition sound (p : particle) (t : triC) : Prop := wf t /\ noFreqs t /\ time t = 0%R /\ dims t = [pDim p].
Lemma sound_scale p c t : sound p t -> sound p (scale c t).
Proof.
  intros (A1 & A2 & A3 & A4). split; [now apply wf_scale|]. split; [|split; [exact A3|exact A4]]. intros i. apply A2.
Qed.
Lemma sound_add p a b t : sound p a -> sound p b -> add CReqb a b = Ok t -> sound p t.
Proof.
  intros (A1 & A2 & A3 & A4) (B1 & B2 & B3 & B4) E. destruct (add_matrix CReqb a b t A1 B1 ltac:(congruence) E) as [W [Dm _]]. split; [exact W|]. split; [exact (add_noFreqs _ _ _ A2 B2 E)|]. split; [|congruence].
  unfold add in E. destruct (mergeDiffs _ _); [|discriminate]. destruct (existsb _ _); [discriminate|]. destruct (existsb _ _); [discriminate|]. apply Ok_inj in E. subst t. exact A3.
Qed.
Lemma sound_neg p t : sound p t -> sound p (neg t).
Proof. intros (A1 & A2 & A3 & A4). split; [now apply wf_neg|]. split; [|split; [exact A3|exact A4]]. intros i. apply A2. Qed.
Lemma sound_sub p a b t : sound p a -> sound p b -> sub CReqb a b = Ok t -> sound p t.
Proof. intros A B. apply sound_add; [exact A|]. now apply sound_neg. Qed.
Lemma sound_id p t : identityTri 0%R (pDim p) = Ok t -> sound p t.
Proof. intros E. destruct (identity_pop (pDim p) (rotOf p) (pDim_pos p)) as [t' [E' [N P]]]. rewrite E in E'. apply Ok_inj in E'. subst t'. destruct (pop_wf _ _ _ _ _ P) as (P1 & P2 & P3 & P4). exact (conj P1 (conj N (conj P2 P3))). Qed.
Lemma sound_mf p mf t : pExact p = None -> (Z.abs (snd mf) <= Z.of_nat (pDim p))%Z -> mfNKX p mf = Ok t -> sound p t.
Proof.
  intros Hp Hf E. destruct (mf_block p mf) as [t' [E' P]]. rewrite E in E'. apply Ok_inj in E'. subst t'. specialize (P Hf). destruct (pop_wf _ _ _ _ _ P) as (P1 & P2 & P3 & P4).
  split; [exact P1|]. split; [exact (mf_noFreqs p mf t Hp E)|]. auto.
Qed.
Lemma sound_exp p K t : pExact p = None -> (Z.abs K <= Z.of_nat (pDim p))%Z -> expINKX p K = Ok t -> sound p t. Proof. intros Hp Hf E. exact (sound_mf p (MPlus, K) t Hp Hf E). Qed.
Lemma sound_cos p K t : pExact p = None -> (Z.abs K <= Z.of_nat (pDim p))%Z -> cosNKX p K = Ok t -> sound p t. Proof. intros Hp Hf E. exact (sound_mf p (MCos, K) t Hp Hf E). Qed.
Lemma sound_sin p K t : pExact p = None -> (Z.abs K <= Z.of_nat (pDim p))%Z -> sinNKX p K = Ok t -> sound p t. Proof. intros Hp Hf E. exact (sound_mf p (MSin, K) t Hp Hf E). Qed.
Lemma bind_Ok {A B} (o : outcome A) (f : A -> outcome B) b : bind o f = Ok b -> exists a, o = Ok a /\ f a = Ok b.
Proof. destruct o; try discriminate. intros H. eauto. Qed.
Lemma sound_core p m1 m2 nK s t : pExact p = None -> (Z.abs (2 * nK) <= Z.of_nat (pDim p))%Z -> compCore p m1 m2 nK s = Ok t -> sound p t.
Proof.
  intros Hp Hf. assert (Hf' : (Z.abs (-2 * nK) <= Z.of_nat (pDim p))%Z) by lia.
  destruct m1, m2; unfold compCore; intros E;
    repeat match goal with E : bind _ _ = Ok _ |- _ => apply bind_Ok in E; let a := fresh "a" in let E1 := fresh "E" in let E2 := fresh "E" in destruct E as [a [E1 E2]] end;
    repeat match goal with E : Ok _ = Ok _ |- _ => apply Ok_inj in E; subst end;
    repeat match goal with
      | E : identityTri _ _ = Ok _ |- _ => apply sound_id in E
      | E : cosNKX _ _ = Ok _ |- _ => apply sound_cos in E; [|assumption|assumption]
      | E : sinNKX _ _ = Ok _ |- _ => apply sound_sin in E; [|assumption|assumption]
      | E : expINKX _ _ = Ok _ |- _ => apply sound_exp in E; [|assumption|assumption]
      end;
    repeat apply sound_scale; eauto using sound_add, sound_sub.
Qed.
(** in the interaction picture, compositions which are not superposed with the identity *)
Definition pureKinds (m1 m2 : mft) : Prop := match m1, m2 with MSin, MCos | MCos, MSin | MPlus, MMinus | MMinus, MPlus => True | _, _ => False end.
Definition pure (f1 f2 : modeFunction) : Prop := snd f1 <> 0%Z /\ pureKinds (fst (flipNegative f1)) (fst (flipNegative f2)).
Lemma comp_rot b p f1 f2 : partIs b p -> (b = true -> pure f1 f2) -> Z.abs (snd f1) = Z.abs (snd f2) -> (2 * Z.abs (snd f1) <= Z.of_nat (pDim p))%Z ->
  exists t M, mfComposition p f1 f2 = Some (Ok t) /\ rot b [pDim p] (lap p) t (kron [M]) /\
    multiplies (pDim p) (pK p) (fun x => kmul (kconj (mfValue f1 x)) (mfValue f2 x)) M.
Proof.
  intros Hb Hpure HK Hf. destruct (composition_mult p f1 f2 HK) as [o [E [M [[t [-> A]] B]]]]. exists t, M. split; [exact E|]. split; [|exact B].
  rewrite (composition_core p f1 f2 HK) in E. assert (Ec : compCore p (fst (flipNegative f1)) (fst (flipNegative f2)) (Z.abs (snd f1)) (signOf f1 * signOf f2) = Ok t) by congruence. clear E.
  assert (AM : forall y x, y < pDim p -> x < pDim p -> tmat t [y] [x] = M y x) by (intros; now apply A).
  unfold partIs in Hb. destruct (pExact p) as [omrec|] eqn:Hp; subst b.
  - destruct (Hpure eq_refl) as [HK0 Hk]. revert Hk Ec. unfold compCore, pureKinds.
    assert (R1 : (Z.abs (2 * Z.abs (snd f1)) <= Z.of_nat (pDim p))%Z) by lia. assert (R2 : (Z.abs (-2 * Z.abs (snd f1)) <= Z.of_nat (pDim p))%Z) by lia.
    assert (N1 : (2 * Z.abs (snd f1) <> 0)%Z) by lia. assert (N2 : (-2 * Z.abs (snd f1) <> 0)%Z) by lia.
    assert (Go : forall (N : mat), rot true [pDim p] (lap p) t (kron [N]) -> rot true [pDim p] (lap p) t (kron [M])).
    { intros N H. eapply rot_ext; [|exact H]. intros y x Hy Hx. destruct H as [(_ & _ & _ & _ & _ & _ & H) _]. rewrite <- H by auto.
      destruct (inr1_inv _ _ Hy) as [i [-> Hi]]. destruct (inr1_inv _ _ Hx) as [j [-> Hj]]. rewrite kron1. now apply AM. }
    destruct (fst (flipNegative f1)), (fst (flipNegative f2)); try contradiction; intros _ Ec.
    + apply bind_Ok in Ec. destruct Ec as [c [Ec Et]]. apply Ok_inj in Et. subst t. destruct (sin_rot p _ omrec Hp N1 R1) as [c' [Ec' H]]. rewrite Ec in Ec'. apply Ok_inj in Ec'. subst c'.
      exact (Go _ (kron_scale1 _ _ _ _ _ _ (kron_scale1 _ _ _ _ _ _ H))).
    + apply bind_Ok in Ec. destruct Ec as [c [Ec Et]]. apply Ok_inj in Et. subst t. destruct (sin_rot p _ omrec Hp N1 R1) as [c' [Ec' H]]. rewrite Ec in Ec'. apply Ok_inj in Ec'. subst c'.
      exact (Go _ (kron_scale1 _ _ _ _ _ _ (kron_scale1 _ _ _ _ _ _ H))).
    + destruct (exp_rot p _ omrec Hp N2 R2) as [c [Ec' [_ H]]]. rewrite Ec in Ec'. apply Ok_inj in Ec'. subst c. exact (Go _ H).
    + destruct (exp_rot p _ omrec Hp N1 R1) as [c [Ec' [_ H]]]. rewrite Ec in Ec'. apply Ok_inj in Ec'. subst c. exact (Go _ H).
  - assert (R1 : (Z.abs (2 * Z.abs (snd f1)) <= Z.of_nat (pDim p))%Z) by lia. destruct (sound_core _ _ _ _ _ _ Hp R1 Ec) as (S1 & S2 & S3 & S4). now apply sch_rot.
Qed.
