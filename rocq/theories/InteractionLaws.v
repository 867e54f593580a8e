(** Operators which never rotate, the uniqueness of generators, and the norm. *)
From Coq Require Import List Arith Bool ZArith Lia Reals Lra.
From Coquelicot Require Import Coquelicot.
From Verif Require Import Star CReal Arr TriModel TriSpec TriProofs TriPropagate TriLemmas FreeExactModel FreeExactSpec FreeExactProofs ElementModel ElementSpec ElementProofs ModeModel ModeProofs CompositeModel ParticleModel ParticleSpec ParticleWaves
  ParticleProofs ParticleFacts ParticleComposition ParticlePictures ParticleCases InteractionModel InteractionSpec RotProofs RotOps InteractionProofs InteractionWaves RotSums InteractionFacts InteractionParticles.
Import ListNotations.
Add Ring CRIl : (k_ring CR).
Local Open Scope nat_scope.

(** ** basis states *)
Lemma isum_unit sh (f : list nat -> CR) x : inr sh x -> isum sh (fun y => kmul (f y) (unit_state x y)) = f x.
Proof.
  intros Hx. rewrite (isum_single sh _ x Hx).
  - unfold unit_state. rewrite listnat_eqb_refl. ring.
  - intros b _ Hb. unfold unit_state. destruct (listnat_eqb_spec b x) as [->|_]; [congruence|ring].
Qed.
Lemma carried_zero es psi y : carried es 0 psi y = psi y.
Proof.
  unfold carried. replace (kmul (RC 0) (together es y)) with (k0 : CR) by (apply cr_eq; cbn; ring). replace (cexp k0) with (k1 : CR) by (unfold cexp; apply cr_eq; cbn; rewrite exp_0, ?cos_0, ?sin_0; ring). ring.
Qed.
Lemma isum_carried sh es dt (f : list nat -> CR) x : inr sh x -> isum sh (fun y => kmul (f y) (carried es dt (unit_state x) y)) = kmul (f x) (cexp (kmul (RC dt) (together es x))).
Proof.
  intros Hx. unfold carried. rewrite (isum_ext sh _ (fun y => kmul (kmul (f y) (cexp (kmul (RC dt) (together es y)))) (unit_state x y))) by (intros; ring). now rewrite isum_unit.
Qed.

(** a generator which holds on every state, or on the basis states in P, is unique *)
Lemma generator_entry h es (P : array -> Prop) G G' y x : has_generator h es P G -> has_generator h es P G' -> P (unit_state x) -> inr (ihDims h) y -> inr (ihDims h) x -> G y x = G' y x.
Proof.
  intros H H' HP Hy Hx. destruct (H [] 0%R (unit_state x) (fun _ => k0) HP) as [d [E D]]. destruct (H' [] 0%R (unit_state x) (fun _ => k0) HP) as [d' [E' D']].
  assert (d = d') by congruence. subst d'. specialize (D y Hy). specialize (D' y Hy). rewrite D in D'. rewrite !isum_carried in D' by auto.
  replace (cexp (kmul (RC 0) (together es x))) with (k1 : CR) in D'; [|replace (kmul (RC 0) (together es x)) with (k0 : CR) by (apply cr_eq; cbn; ring); unfold cexp; apply cr_eq; cbn; rewrite exp_0, ?cos_0, ?sin_0; ring].
  transitivity (kmul (G y x) k1); [ring|]. rewrite D'. ring.
Qed.

(** ** operators which do not rotate *)
Definition frozen (sh : list nat) (t : triC) : Prop := wf t /\ noFreqs t /\ time t = 0%R /\ dims t = sh.
Lemma frozen_rot sh t : frozen sh t -> rot false sh (fun _ => k0) t (tmat t).
Proof. intros (A & B & C & D). apply plain_rot; auto. Qed.
Lemma rot_frozen sh D t M : rot false sh D t M -> frozen sh t.
Proof. intros [(A1 & A2 & A3 & A4 & _) U]. split; [exact A1|]. split; [exact U|]. split; [exact A3|exact A4]. Qed.
Lemma frozen_scale sh c t : frozen sh t -> frozen sh (scale c t).
Proof. intros H. exact (rot_frozen _ _ _ _ (rot_scale _ _ _ _ _ c (frozen_rot _ _ H))). Qed.
Lemma frozen_minusHC sh t : frozen sh t -> exists m, minusHC CReqb t = Ok m /\ frozen sh m.
Proof. intros H. destruct (rot_minusHC _ _ _ _ _ (frozen_rot _ _ H)) as [m [E Hm]]. exists m. split; [exact E|exact (rot_frozen _ _ _ _ Hm)]. Qed.
Lemma prod_frozen b1 b2 sh1 sh2 D1 D2 t1 t2 M1 M2 : rot b1 sh1 D1 t1 M1 -> rot b2 sh2 D2 t2 M2 -> b1 = false \/ b2 = false -> exists t, prod t1 t2 = Ok t /\ frozen (sh1 ++ sh2) t.
Proof.
  intros [(A1 & A2 & A3 & A4 & _) U1] [(B1 & B2 & B3 & B4 & _) U2] Hb.
  assert (E : exists t, prod t1 t2 = Ok t).
  { unfold prod, direct, Reqb. rewrite A3, B3. destruct (Req_EM_T 0 0); [eauto|congruence]. }
  destruct E as [t E]. exists t. split; [exact E|]. unfold prod in E. pose proof (wf_direct Reqb t1 t2 t A1 B1 E) as W. pose proof (direct_dims Reqb t1 t2 t E) as Dm.
  unfold direct in E. destruct (Reqb _ _); [|discriminate]. apply Ok_inj in E. symmetry in E. split; [exact W|]. subst t. split; [|split; [exact A3|cbn [dims]; congruence]].
  intros i. cbn [freqs]. unfold directDiagonals. rewrite nonempty_direct. destruct Hb as [-> | ->].
  - now rewrite U1.
  - rewrite U2. apply andb_false_r.
Qed.
(** such an interaction has a generator only which commutes with the exact propagators *)
Lemma frozen_generator sh t es G : frozen sh t -> has_generator (mkIntH sh [t] None) es any_state G ->
  forall y x dt, inr sh y -> inr sh x -> kmul (cexp (kmul (RC dt) (together es y))) (G y x) = kmul (G y x) (cexp (kmul (RC dt) (together es x))).
Proof.
  intros F H y x dt Hy Hx.
  assert (Z : has_generator (mkIntH sh [t] None) [] any_state (tmat t)).
  { apply generator_one. eapply rots_D; [|exact (proj1 (frozen_rot _ _ F))]. intros z _. unfold rate. cbn [together]. apply cr_eq; cbn; ring. }
  assert (K : forall s, kmul (cexp (kmul (RC s) (together es y))) (tmat t y x) = kmul (G y x) (cexp (kmul (RC s) (together es x)))).
  { intros s. destruct (Z [] s (unit_state x) (fun _ => k0) I) as [d [E D]]. destruct (H [] s (unit_state x) (fun _ => k0) I) as [d' [E' D']]. assert (d = d') by congruence. subst d'.
    specialize (D y Hy). specialize (D' y Hy). cbn [ihDims] in D, D'. rewrite isum_carried in D, D' by auto. unfold carried at 1 in D. unfold carried at 1 in D'. rewrite <- D'. f_equal.
    replace (cexp (kmul (RC s) (together [] x))) with (k1 : CR) in D by (cbn [together]; replace (kmul (RC s) k0) with (k0 : CR) by ring; unfold cexp; apply cr_eq; cbn; rewrite exp_0, ?cos_0, ?sin_0; ring).
    replace (cexp (kmul (RC s) (together [] y))) with (k1 : CR) in D by (cbn [together]; replace (kmul (RC s) k0) with (k0 : CR) by ring; unfold cexp; apply cr_eq; cbn; rewrite exp_0, ?cos_0, ?sin_0; ring).
    transitivity (kmul (tmat t y x) k1); [ring|]. rewrite <- D. ring. }
  assert (K0 : tmat t y x = G y x).
  { pose proof (K 0%R) as K0. replace (kmul (RC 0) (together es y)) with (k0 : CR) in K0 by (apply cr_eq; cbn; ring). replace (kmul (RC 0) (together es x)) with (k0 : CR) in K0 by (apply cr_eq; cbn; ring).
    replace (cexp k0) with (k1 : CR) in K0 by (unfold cexp; apply cr_eq; cbn; rewrite exp_0, ?cos_0, ?sin_0; ring). transitivity (kmul k1 (tmat t y x)); [ring|]. rewrite K0. ring. }
  rewrite <- K0 at 1. apply K.
Qed.

(** ** the norm *)
Lemma hermitian_norm sh H psi d : hermitian sh H -> (forall y, inr sh y -> d y = isum sh (fun x => kmul (overI H y x) (psi x))) -> norm_rate sh psi d = k0.
Proof.
  intros HH Hd. unfold norm_rate.
  rewrite (isum_ext sh _ (fun y => isum sh (fun x => kmul (kopp CI) (kmul (kmul (kconj (psi y)) (H y x)) (psi x))))).
  2:{ intros y Hy. rewrite Hd by auto. rewrite <- isum_scal_l. apply isum_ext. intros x _. unfold overI, timesO. ring. }
  rewrite (isum_ext sh (fun y => kmul (kconj (d y)) (psi y)) (fun y => isum sh (fun x => kmul CI (kmul (kmul (kconj (psi x)) (H x y)) (psi y))))).
  2:{ intros y Hy. rewrite Hd by auto. rewrite isum_conj, <- isum_scal_r. apply isum_ext. intros x Hx. unfold overI, timesO. rewrite !kconj_mul, <- (HH x y Hx Hy). generalize (H x y) (kconj (psi x)) (psi y). intros [a1 a2] [b1 b2] [c1 c2]. apply cr_eq; cbn; ring. }
  rewrite (isum_swap sh sh (fun y x => kmul CI (kmul (kmul (kconj (psi x)) (H x y)) (psi y)))), <- isum_add. apply isum_zero. intros y _. rewrite <- isum_add. apply isum_zero. intros x _. ring.
Qed.
Lemma generator_norm h es P H : has_generator h es P (overI H) -> hermitian (ihDims h) H -> norm_kept h es P.
Proof.
  intros HG HH dts dt psi d' HP E. destruct (HG dts dt psi (fun _ => k0) HP) as [d [E' D]]. assert (d = d') by congruence. subst d'. apply (hermitian_norm _ H); [exact HH|]. intros y Hy. rewrite <- D by auto.
  unfold carried. ring.
Qed.
Lemma herm_plusHC sh T c : hermitian sh (timesO (RC c) (plusO T (hc T))).
Proof. intros y x _ _. unfold timesO, plusO, hc. generalize (T y x) (T x y). intros [a1 a2] [b1 b2]. apply cr_eq; cbn; ring. Qed.
Lemma herm_plusHC1 sh T : hermitian sh (plusO T (hc T)).
Proof. intros y x _ _. unfold plusO, hc. generalize (T y x) (T x y). intros [a1 a2] [b1 b2]. apply cr_eq; cbn; ring. Qed.
Lemma herm_plus sh A B : hermitian sh A -> hermitian sh B -> hermitian sh (plusO A B).
Proof. intros H1 H2 y x Hy Hx. unfold plusO. rewrite (H1 y x), (H2 y x) by auto. generalize (A x y) (B x y). intros [a1 a2] [b1 b2]. apply cr_eq; cbn; ring. Qed.
Lemma herm_kron2 c d A B r : (forall i j, i < c -> j < c -> A i j = kconj (A j i)) -> (forall i j, i < d -> j < d -> B i j = kconj (B j i)) -> hermitian [c; d] (timesO (RC r) (kron [A; B])).
Proof.
  intros HA HB y x Hy Hx. destruct (inr2_inv _ _ _ Hy) as (i & j & -> & Hi & Hj). destruct (inr2_inv _ _ _ Hx) as (k & l & -> & Hk & Hl). unfold timesO. rewrite !kron2, (HA i k), (HB j l) by auto.
  generalize (A k i) (B l j). intros [a1 a2] [b1 b2]. apply cr_eq; cbn; ring.
Qed.
Lemma number_herm i j : number i j = kconj (number j i).
Proof. unfold number. rewrite Nat.eqb_sym. destruct (Nat.eqb_spec j i) as [->|_]; apply cr_eq; cbn; ring. Qed.
Lemma position_herm i j : position i j = kconj (position j i).
Proof.
  unfold position. rewrite kconj_mul. replace (kconj (RC (/ sqrt 2))) with (RC (/ sqrt 2)) by (apply cr_eq; cbn; ring). f_equal. replace (kconj (kadd (annihilation j i) (creation j i))) with (kadd (kconj (annihilation j i)) (kconj (creation j i))).
  - pose proof (adj_annihilation i j) as H1. pose proof (adj_annihilation j i) as H2. unfold adj in H1, H2. rewrite <- H2, kconj_invol. rewrite <- H1. ring.
  - generalize (annihilation j i) (creation j i). intros [a1 a2] [b1 b2]. apply cr_eq; cbn; ring.
Qed.
Lemma mult_adj p f M : mult p f M -> mult p (fun x => kconj (f x)) (adj M).
Proof.
  intros H i j Hi Hj. destruct (H j i Hj Hi) as [H1 H2]. cbv zeta in *. split.
  - eapply is_RInt_ext; [|exact H1]. intros x _. cbn beta. generalize (wave (pK p j) x) (wave (pK p i) x) (f x). intros [a1 a2] [b1 b2] [c1 c2]. cbn. ring.
  - replace (2 * PI * cim (adj M i j))%R with (opp (2 * PI * cim (M j i)))%R; [|unfold adj; destruct (M j i) as [m1 m2]; change (- (2 * PI * m2) = 2 * PI * - m2)%R; ring]. eapply is_RInt_ext; [|exact (is_RInt_opp (V := R_NormedModule) _ _ _ _ H2)].
    intros x _. cbn beta. generalize (wave (pK p j) x) (wave (pK p i) x) (f x). intros [a1 a2] [b1 b2] [c1 c2]. match goal with |- opp ?a = ?b => change (- a = b)%R end. cbn. ring.
Qed.
Lemma real_mult_herm p f W : (forall x, kconj (f x) = f x) -> mult p f W -> forall i j, i < pDim p -> j < pDim p -> W i j = kconj (W j i).
Proof. intros Hf HW i j Hi Hj. pose proof (mult_ext p _ _ _ Hf (mult_adj p f W HW)) as HA. exact (unique_fact p _ _ _ HW HA i j Hi Hj). Qed.
Lemma potential_herm p mf W : mult p (potential 1 mf) W -> forall i j, i < pDim p -> j < pDim p -> W i j = kconj (W j i).
Proof. apply real_mult_herm. intros x. unfold potential. apply cr_eq; cbn; ring. Qed.

(** ** the Hamiltonians are Hermitian *)
Lemma herm_jc sh g s : hermitian sh (hJaynesCummings g s). Proof. apply herm_plusHC1. Qed.
Lemma herm_two sh c F : hermitian sh (hTwoModes c F). Proof. apply herm_plusHC1. Qed.
Lemma herm_orth sh eta F : hermitian sh (hOrthogonal eta F). Proof. apply herm_plusHC. Qed.
Lemma herm_along c p u eta mf W F : mult p (potential 1 mf) W -> hermitian [c; pDim p] (hAlong u eta W F).
Proof. intros HW. apply herm_plus; [|apply herm_plusHC]. apply herm_kron2; [intros; apply number_herm|exact (potential_herm p mf W HW)]. Qed.
Lemma herm_coupled c d k u : hermitian [c; d] (hCoupledModes k u).
Proof. destruct k; [apply herm_kron2|apply herm_kron2|apply herm_plusHC1]; intros; first [apply number_herm|apply position_herm]. Qed.
Lemma spinX_herm n i j : spinX n i j = kconj (spinX n j i).
Proof. unfold spinX. generalize (spinLower n i j) (spinLower n j i). intros [a1 a2] [b1 b2]. apply cr_eq; cbn; ring. Qed.
Lemma twoQuad_herm i j : kadd (annihilation i j) (creation i j) = kconj (kadd (annihilation j i) (creation j i)).
Proof.
  pose proof (adj_annihilation i j) as H1. pose proof (adj_annihilation j i) as H2. unfold adj in H1, H2. rewrite <- H2, <- H1. generalize (annihilation i j) (annihilation j i). intros [a1 a2] [b1 b2]. apply cr_eq; cbn; ring.
Qed.
Lemma herm_dicke c d n (u y : R) : hermitian [c; d] (hGeneralDicke n (RC u) (RC y)).
Proof. apply herm_plus; apply herm_kron2; intros; first [apply number_herm|apply spinX_herm|apply twoQuad_herm]. Qed.
