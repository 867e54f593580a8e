From Coq Require Import List Arith Bool ZArith Lia Reals Lra.
From Coquelicot Require Import Coquelicot.
From Verif Require Import Star CReal Arr TriModel TriSpec TriProofs FreeExactModel FreeExactSpec ElementSpec ElementProofs ModeModel ModeSpec ModeProofs
  ParticleModel ParticleSpec ParticleWaves ParticleProofs ParticleFacts ParticleComposition ParticlePictures.
Import ListNotations.
Add Ring CRPc : (k_ring CR).
Local Open Scope nat_scope.

Lemma composition_fact p f1 f2 : Z.abs (snd f1) = Z.abs (snd f2) ->
  exists o, mfComposition p f1 f2 = Some o /\ operator_of p o (fun x => kmul (kconj (mfValue f1 x)) (mfValue f2 x)).
Proof. intros H. destruct (composition_mult p f1 f2 H) as [o [E M]]. exists o. split; [exact E|]. now apply mult_is_operator. Qed.
Lemma mode_function_fact p f : operator_of p (mfNKX p f) (mfValue f).
Proof. apply mult_is_operator, mfNKX_mult. Qed.
Lemma unique_fact p f M M' : multiplies (pDim p) (pK p) f M -> multiplies (pDim p) (pK p) f M' ->
  forall i j, i < pDim p -> j < pDim p -> M i j = M' i j.
Proof. intros H1 H2 i j Hi Hj. exact (multiplies_unique _ _ f M M' i j H1 H2 Hi Hj). Qed.

Lemma composition_case : Z.abs (snd (MSin, (-1)%Z)) = Z.abs (snd (MPlus, 1%Z)) /\ Z.abs (snd (MSin, 2%Z)) <> Z.abs (snd (MPlus, 1%Z)) /\
  exists t, mfComposition (mkParticle 2 (Some 3%R)) (MCos, 1%Z) (MMinus, (-1)%Z) = Some (Ok t) /\ matrixOf t 2 0 = RC (/ 2).
Proof.
  split; [reflexivity|]. split; [cbn; lia|]. set (p := mkParticle 2 (Some 3%R)).
  destruct (composition_fact p (MCos, 1%Z) (MMinus, (-1)%Z) eq_refl) as [o [E [t [-> [H _]]]]]. exists t. split; [exact E|].
  rewrite (unique_fact p _ _ (fun y x => kmul (RC (/ 2)) (kadd (waveM 0 y x) (waveM 2 y x))) H); [|..].
  - unfold waveM. cbn. apply cr_eq; cbn; field.
  - pose proof (mult_scale p (RC (/ 2)) _ _ (mult_add p _ _ _ _ (mult_one p (fun _ => k1) (fun _ => eq_refl)) (mult_wave p 2))) as H'.
    eapply multiplies_ext; [|reflexivity|exact H']. intros x. cbn beta. change 2%Z with (2 * 1)%Z. rewrite (wave2 1 x). unfold mfValue. cbn [fst snd].
    rewrite exp_iu. replace (- (-1 * x))%R with (1 * x)%R by ring. pose proof (sin2_cos2 (1 * x)) as Hs. unfold Rsqr in Hs. apply cr_eq; cbn; nra.
  - cbn. lia.
  - cbn. lia.
Qed.

Lemma lsum_delta dim n (f : nat -> CR) : n < dim -> lsum dim (fun k => kmul (f k) (if k =? n then k1 else k0)) = f n.
Proof.
  intros H. rewrite (lsum_at _ _ n H).
  - rewrite Nat.eqb_refl. ring.
  - intros k _ Hk. apply Nat.eqb_neq in Hk. rewrite Hk. ring.
Qed.
Lemma generator_determined sys G G' : part_generator sys G -> part_generator sys G' ->
  forall m n, m < 2 ^ psFin sys -> n < 2 ^ psFin sys -> G m n = G' m n.
Proof.
  unfold part_generator. destruct (psExact sys) as [om|], (psH sys) as [[td hs]|]; intros H H' m n Hm Hn.
  - specialize (H [] 0%R (fun k => if k =? n then k1 else k0) m Hm). specialize (H' [] 0%R (fun k => if k =? n then k1 else k0) m Hm). cbv zeta in H, H'.
    rewrite H in H'.
    assert (X : forall k, k < 2 ^ psFin sys -> particleUpdateU (2 ^ psFin sys) om (gridK (psFin sys) 1) 0 (fun _ => k0) k = k1).
    { intros k Hk. rewrite (partU _ _ _ _ _ Hk). replace (kmul (RC 0) (eigenvalue (EParticle om (gridK (psFin sys) 1)) k)) with (k0 : CR)
        by (change (RC 0) with (k0 : CR); ring). unfold cexp. apply cr_eq; cbn; rewrite exp_0, ?cos_0, ?sin_0; ring. }
    assert (Y : forall F : mat, lsum (2 ^ psFin sys) (fun n0 => kmul (ksub (F m n0) (if m =? n0 then eigenvalue (EParticle om (gridK (psFin sys) 1)) m else k0))
        (kmul (particleUpdateU (2 ^ psFin sys) om (gridK (psFin sys) 1) 0 (fun _ => k0) n0) (if n0 =? n then k1 else k0))) =
        ksub (F m n) (if m =? n then eigenvalue (EParticle om (gridK (psFin sys) 1)) m else k0)).
    { intros F. rewrite <- (lsum_delta (2 ^ psFin sys) n (fun n0 => ksub (F m n0) (if m =? n0 then eigenvalue (EParticle om (gridK (psFin sys) 1)) m else k0)) Hn).
      unfold lsum. apply ksum_ext. intros k Hk. apply in_seq in Hk. rewrite X by lia. ring. }
    rewrite !Y in H'. set (e := if m =? n then _ else _) in H'. transitivity (kadd (ksub (G m n) e) e); [ring|]. rewrite H'. ring.
  - now rewrite H, H'.
  - specialize (H [] 0%R (fun k => if k =? n then k1 else k0) m Hm). specialize (H' [] 0%R (fun k => if k =? n then k1 else k0) m Hm).
    rewrite H in H'. rewrite !lsum_delta in H' by exact Hn. exact H'.
  - now rewrite H, H'.
Qed.
Lemma pumped_case : exists sys, makePumpedParticle false 2 1 2 (MSin, 1%Z) = Ok sys /\ psExact sys = Some 1%R /\
  forall G, part_generator sys G -> kinetic_and 2 1 (potential 2 (MSin, 1%Z)) G -> G 2 0 = kmul (kopp CI) (RC (- / 2)) /\ G 0 0 = kmul (kopp CI) (RC 4).
Proof.
  destruct (pumped_particle false 2 1 2 (MSin, 1%Z)) as [sys [_ [E _]]]. exists sys. split; [exact E|]. split.
  - unfold makePumpedParticle in E. destruct (partHamIP _ _ _ _); try discriminate. cbn in E. injection E as <-. reflexivity.
  - intros G _ [W [HW HG]]. rewrite !HG by (cbn; lia).
    assert (EW : forall i j, i < 4 -> j < 4 -> W i j = kmul (RC (- (1))) (cosM 2 i j)).
    { intros i j Hi Hj. apply (unique_fact (bare 2) (potential 2 (MSin, 1%Z)) W (fun i j => kmul (RC (- (1))) (cosM 2 i j)) HW); [|exact Hi|exact Hj].
      pose proof (mult_scale (bare 2) (RC (- (1))) _ _ (mult_cos (bare 2) 2 (fun x => RC (cos (IZR (2 * 1) * x))) (fun _ => eq_refl))) as H'.
      eapply multiplies_ext; [|reflexivity|exact H']. intros x. cbn beta. rewrite cos2. unfold potential, mfValue. cbn [fst snd isComplexMF]. rewrite csq_RC.
      pose proof (sin2_cos2 (1 * x)) as Hs. unfold Rsqr in Hs. apply cr_eq; cbn; nra. }
    rewrite !EW by lia. unfold cosM, waveM. split.
    + cbn [Nat.eqb]. f_equal. apply cr_eq; cbn; field.
    + cbn [Nat.eqb]. f_equal. unfold gridK, kMax, deltaX, xMax. pose proof PI_RGT_0. apply cr_eq; cbn; field; lra.
Qed.
