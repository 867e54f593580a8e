From Coq Require Import List Arith Bool ZArith Lia Reals Lra.
From Coquelicot Require Import Coquelicot.
From Verif Require Import Star CReal Arr TriModel TriSpec TriProofs TriPropagate TriLemmas ElementSpec ModeModel ModeProofs ParticleModel ParticleSpec ParticleWaves ParticleProofs ParticleFacts.
Import ListNotations.
Add Ring CRPc : (k_ring CR).
Local Open Scope nat_scope.

Section Core.
Variable p : particle.
Notation dim := (pDim p).
Notation D := (rotOf p).
Notation mult := (multiplies dim (pK p)).
Definition compCore (k1 k2 : mft) (nK : Z) (sign : R) : outcome (tri CR R) :=
  let id := identityTri 0%R (pDim p) in
  match k1, k2 with
  | MSin, MSin => bind id (fun id => bind (cosNKX p (2 * nK)) (fun c => bind (sub CReqb id c) (fun s => Ok (scale (RC (/ 2)) (scale (RC sign) s)))))
  | MCos, MCos => bind id (fun id => bind (cosNKX p (2 * nK)) (fun c => bind (add CReqb id c) (fun s => Ok (scale (RC (/ 2)) s))))
  | MSin, MCos | MCos, MSin => bind (sinNKX p (2 * nK)) (fun c => Ok (scale (RC (/ 2)) (scale (RC sign) c)))
  | MPlus, MPlus | MMinus, MMinus => id
  | MPlus, MMinus => expINKX p (-2 * nK)
  | MMinus, MPlus => expINKX p (2 * nK)
  | MPlus, MSin | MSin, MMinus =>
      bind id (fun id => bind (expINKX p (-2 * nK)) (fun e => bind (sub CReqb e id) (fun s => Ok (scale (RC (/ 2)) (scale CI (scale (RC sign) s))))))
  | MPlus, MCos | MCos, MMinus => bind id (fun id => bind (expINKX p (-2 * nK)) (fun e => bind (add CReqb id e) (fun s => Ok (scale (RC (/ 2)) s))))
  | MMinus, MCos | MCos, MPlus => bind id (fun id => bind (expINKX p (2 * nK)) (fun e => bind (add CReqb id e) (fun s => Ok (scale (RC (/ 2)) s))))
  | MMinus, MSin | MSin, MPlus =>
      bind id (fun id => bind (expINKX p (2 * nK)) (fun e => bind (sub CReqb e id) (fun s => Ok (scale (RC (/ 2)) (scale CI (scale (RC (- sign)) s))))))
  end.

Lemma mult_scale c f M : mult f M -> mult (fun x => kmul c (f x)) (fun y x => kmul c (M y x)).
Proof. apply multiplies_scale. Qed.
(** the plane wave of 2K in terms of cosine and sine of Kx *)
Lemma wave2 nK x : wave (IZR (2 * nK)) x =
  ((cos (IZR nK * x) * cos (IZR nK * x) - sin (IZR nK * x) * sin (IZR nK * x), 2 * sin (IZR nK * x) * cos (IZR nK * x))%R : CR).
Proof. rewrite wave_parts, mult_IZR. replace (2 * IZR nK * x)%R with (2 * (IZR nK * x))%R by ring. now rewrite cos_2a, sin_2a. Qed.
Lemma wave2m nK x : wave (IZR (-2 * nK)) x =
  ((cos (IZR nK * x) * cos (IZR nK * x) - sin (IZR nK * x) * sin (IZR nK * x), - (2 * sin (IZR nK * x) * cos (IZR nK * x)))%R : CR).
Proof.
  rewrite wave_parts, mult_IZR. replace (-2 * IZR nK * x)%R with (- (2 * (IZR nK * x)))%R by ring. now rewrite cos_neg, sin_neg, cos_2a, sin_2a.
Qed.
Lemma cos2 nK x : cos (IZR (2 * nK) * x) = (cos (IZR nK * x) * cos (IZR nK * x) - sin (IZR nK * x) * sin (IZR nK * x))%R.
Proof. rewrite mult_IZR. replace (2 * IZR nK * x)%R with (2 * (IZR nK * x))%R by ring. apply cos_2a. Qed.
Lemma sin2 nK x : sin (IZR (2 * nK) * x) = (2 * sin (IZR nK * x) * cos (IZR nK * x))%R.
Proof. rewrite mult_IZR. replace (2 * IZR nK * x)%R with (2 * (IZR nK * x))%R by ring. apply sin_2a. Qed.
Lemma exp_iu u : cexp ((0, u)%R : CR) = ((cos u, sin u) : CR).
Proof. unfold cexp. apply cr_eq; cbn; rewrite exp_0; ring. Qed.

Definition coreValue (k1 k2 : mft) (nK : Z) (sign : R) (x : R) : CR :=
  kmul (RC sign) (kmul (kconj (mfValue (k1, nK) x)) (mfValue (k2, nK) x)).
Ltac pointwise nK sg := let x := fresh "x" in intros x; unfold coreValue, mfValue; cbn [fst snd]; rewrite ?wave2, ?wave2m, ?cos2, ?sin2, ?exp_iu, ?cos_neg, ?sin_neg;
  pose proof (sin2_cos2 (IZR nK * x)) as Hsc; unfold Rsqr in Hsc; generalize dependent (sin (IZR nK * x)); generalize dependent (cos (IZR nK * x));
  let c := fresh "c" in let s := fresh "s" in intros c s Hsc; try (pose proof (f_equal (Rmult sg) Hsc) as Hsg; cbn beta in Hsg); apply cr_eq; cbn; first [ring | nra].
Lemma core_mult m1 m2 nK sign : (m1 <> MSin -> m2 <> MSin -> sign = 1%R) -> is_mult p (compCore m1 m2 nK sign) (coreValue m1 m2 nK sign).
Proof.
  intros Hs. pose proof (mult_one p (fun _ => k1) (fun _ => eq_refl)) as M1.
  pose proof (mult_cos p (2 * nK) (fun x => RC (cos (IZR (2 * nK) * x))) (fun _ => eq_refl)) as MC.
  pose proof (mult_sin p (2 * nK) (fun x => RC (sin (IZR (2 * nK) * x))) (fun _ => eq_refl)) as MS.
  pose proof (mult_wave p (2 * nK)) as MP. pose proof (mult_wave p (-2 * nK)) as MM.
  pose proof (block_exp p (2 * nK)) as BP. pose proof (block_exp p (-2 * nK)) as BM.
  assert (SS : forall (s c : R), is_mult p (bind (sinNKX p (2 * nK)) (fun c => Ok (scale (RC (/ 2)) (scale (RC s) c))))
                  (fun x => kmul (kmul (RC (/ 2)) (RC s)) (RC (sin (IZR (2 * nK) * x))))).
  { intros s _. destruct (block_has p _ _ _ (block_sin p (2 * nK))) as [t [E A]]. rewrite E. cbn [bind]. eexists. split.
    - exists (scale (RC (/ 2)) (scale (RC s) t)). split; [reflexivity|]. exact (acts_scale2 p t _ _ _ A).
    - exact (mult_scale _ _ _ MS). }
  destruct m1, m2; unfold compCore; try (rewrite Hs by discriminate).
  - eexists. split; [refine (has_bind2 p _ _ _ _ _ _ (fun t => acts_scale2 p t _ _ _) (id_sub p _ _ _ (block_cos p (2 * nK))))|].
    eapply mult_ext; [|exact (mult_scale _ _ _ (mult_sub p _ _ _ _ M1 MC))]. pointwise nK sign.
  - destruct (SS sign 0%R) as [M [A B]]. exists M. split; [exact A|]. eapply mult_ext; [|exact B]. pointwise nK sign.
  - eexists. split; [refine (has_bind2 p _ _ _ _ _ _ (fun t => acts_scale3 p t _ _ _ _) (sub_id p _ _ _ BP))|].
    eapply mult_ext; [|exact (mult_scale _ _ _ (mult_sub p _ _ _ _ MP M1))]. pointwise nK sign.
  - eexists. split; [refine (has_bind2 p _ _ _ _ _ _ (fun t => acts_scale3 p t _ _ _ _) (sub_id p _ _ _ BM))|].
    eapply mult_ext; [|exact (mult_scale _ _ _ (mult_sub p _ _ _ _ MM M1))]. pointwise nK sign.
  - destruct (SS sign 0%R) as [M [A B]]. exists M. split; [exact A|]. eapply mult_ext; [|exact B]. pointwise nK sign.
  - eexists. split; [refine (has_bind2 p _ _ _ _ _ _ (fun t => acts_scale1 p t _ _) (id_add p _ _ _ (block_cos p (2 * nK))))|].
    eapply mult_ext; [|exact (mult_scale _ _ _ (mult_add p _ _ _ _ M1 MC))]. pointwise nK sign.
  - eexists. split; [refine (has_bind2 p _ _ _ _ _ _ (fun t => acts_scale1 p t _ _) (id_add p _ _ _ BP))|].
    eapply mult_ext; [|exact (mult_scale _ _ _ (mult_add p _ _ _ _ M1 MP))]. pointwise nK sign.
  - eexists. split; [refine (has_bind2 p _ _ _ _ _ _ (fun t => acts_scale1 p t _ _) (id_add p _ _ _ BM))|].
    eapply mult_ext; [|exact (mult_scale _ _ _ (mult_add p _ _ _ _ M1 MM))]. pointwise nK sign.
  - eexists. split; [refine (has_bind2 p _ _ _ _ _ _ (fun t => acts_scale3 p t _ _ _ _) (sub_id p _ _ _ BM))|].
    eapply mult_ext; [|exact (mult_scale _ _ _ (mult_sub p _ _ _ _ MM M1))]. pointwise nK sign.
  - eexists. split; [refine (has_bind2 p _ _ _ _ _ _ (fun t => acts_scale1 p t _ _) (id_add p _ _ _ BM))|].
    eapply mult_ext; [|exact (mult_scale _ _ _ (mult_add p _ _ _ _ M1 MM))]. pointwise nK sign.
  - eexists. split; [exact (id_has p)|]. eapply mult_ext; [|exact M1]. pointwise nK sign.
  - eexists. split; [exact (block_has p _ _ _ BM)|]. eapply mult_ext; [|exact MM]. pointwise nK sign.
  - eexists. split; [refine (has_bind2 p _ _ _ _ _ _ (fun t => acts_scale3 p t _ _ _ _) (sub_id p _ _ _ BP))|].
    eapply mult_ext; [|exact (mult_scale _ _ _ (mult_sub p _ _ _ _ MP M1))]. pointwise nK sign.
  - eexists. split; [refine (has_bind2 p _ _ _ _ _ _ (fun t => acts_scale1 p t _ _) (id_add p _ _ _ BP))|].
    eapply mult_ext; [|exact (mult_scale _ _ _ (mult_add p _ _ _ _ M1 MP))]. pointwise nK sign.
  - eexists. split; [exact (block_has p _ _ _ BP)|]. eapply mult_ext; [|exact MP]. pointwise nK sign.
  - eexists. split; [exact (id_has p)|]. eapply mult_ext; [|exact M1]. pointwise nK sign.
Qed.

Definition signOf (f : modeFunction) : R := match fst f with MSin => if (snd f <? 0)%Z then (-1)%R else 1%R | _ => 1%R end.
Lemma composition_core f1 f2 : Z.abs (snd f1) = Z.abs (snd f2) ->
  mfComposition p f1 f2 = Some (compCore (fst (flipNegative f1)) (fst (flipNegative f2)) (Z.abs (snd f1)) (signOf f1 * signOf f2)).
Proof. intros H. unfold mfComposition. rewrite H, Z.eqb_refl. reflexivity. Qed.
(** a mode function in terms of the reduced one *)
Lemma flip_value f x : mfValue f x = kmul (RC (signOf f)) (mfValue (fst (flipNegative f), Z.abs (snd f)) x).
Proof.
  destruct f as [m K]. unfold signOf, flipNegative, mfValue. cbn [fst snd].
  destruct (Z.ltb_spec K 0) as [H|H].
  - assert (E : IZR (Z.abs K) = (- IZR K)%R) by (rewrite Z.abs_neq by lia; apply opp_IZR). rewrite E.
    destruct m; cbn [fst snd]; rewrite ?exp_iu, ?Ropp_mult_distr_l_reverse, ?sin_neg, ?cos_neg.
    + apply cr_eq; cbn; ring.
    + apply cr_eq; cbn; ring.
    + destruct (Z.ltb_spec (K * -1) 0); [lia|]. cbn [fst]. rewrite ?Ropp_involutive, ?exp_iu, ?cos_neg, ?sin_neg. apply cr_eq; cbn; ring.
    + destruct (Z.ltb_spec K 0); [|lia]. cbn [fst]. rewrite ?exp_iu, ?cos_neg, ?sin_neg. apply cr_eq; cbn; ring.
  - rewrite Z.abs_eq by lia. destruct m; cbn [fst snd].
    1,2: apply cr_eq; cbn; ring.
    + generalize (cexp ((0, IZR K * x)%R : CR)); intros z; apply cr_eq; cbn; ring.
    + destruct (Z.ltb_spec K 0); [lia|]. cbn [fst]. generalize (cexp ((0, - (IZR K * x))%R : CR)); intros z; apply cr_eq; cbn; ring.
Qed.
Lemma flip_sin f : fst (flipNegative f) <> MSin -> signOf f = 1%R.
Proof.
  destruct f as [m K]. unfold flipNegative, signOf. destruct m; cbn [fst snd]; auto. intros H. cbn in H. congruence.
Qed.
Lemma composition_mult f1 f2 : Z.abs (snd f1) = Z.abs (snd f2) ->
  exists o, mfComposition p f1 f2 = Some o /\ is_mult p o (fun x => kmul (kconj (mfValue f1 x)) (mfValue f2 x)).
Proof.
  intros H. rewrite (composition_core f1 f2 H). eexists. split; [reflexivity|].
  destruct (core_mult (fst (flipNegative f1)) (fst (flipNegative f2)) (Z.abs (snd f1)) (signOf f1 * signOf f2)) as [M [A B]].
  { intros H1 H2. rewrite (flip_sin f1 H1), (flip_sin f2 H2). ring. }
  exists M. split; [exact A|]. eapply mult_ext; [|exact B]. intros x. unfold coreValue. rewrite (flip_value f1), (flip_value f2), <- H.
  rewrite kconj_mul, RC_conj, <- RC_mul. ring.
Qed.
Lemma composition_refuses f1 f2 : Z.abs (snd f1) <> Z.abs (snd f2) -> mfComposition p f1 f2 = None.
Proof. intros H. unfold mfComposition. destruct (Z.eqb_spec (Z.abs (snd f1)) (Z.abs (snd f2))); [congruence|reflexivity]. Qed.
End Core.
