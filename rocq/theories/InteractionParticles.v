(** The generators of the interactions of particles with modes. *)
From Coq Require Import List Arith Bool ZArith Lia Reals Lra.
From Coquelicot Require Import Coquelicot.
From Verif Require Import Star CReal Arr TriModel TriSpec TriProofs TriPropagate TriLemmas FreeExactModel FreeExactSpec FreeExactProofs ElementModel ElementSpec ElementProofs ModeModel ModeProofs CompositeModel ParticleModel ParticleSpec ParticleWaves
  ParticleProofs ParticleFacts ParticleComposition ParticlePictures ParticleCases InteractionModel InteractionSpec RotProofs RotOps InteractionProofs InteractionWaves RotSums InteractionFacts.
Import ListNotations.
Add Ring CRIq : (k_ring CR).
Local Open Scope nat_scope.
Notation mult p := (multiplies (pDim p) (pK p)).

(** ** columns on which the states have no weight *)
Lemma generator_cols h es (P : array -> Prop) G G' : (forall y x, inr (ihDims h) y -> inr (ihDims h) x -> (forall psi, P psi -> psi x = k0) \/ G y x = G' y x) ->
  has_generator h es P G -> has_generator h es P G'.
Proof.
  intros E H dts dt psi d HP. destruct (H dts dt psi d HP) as [d' [E1 E2]]. exists d'. split; [exact E1|]. intros y Hy. rewrite E2 by auto. apply isum_ext. intros x Hx.
  destruct (E y x Hy Hx) as [Z| ->]; [|reflexivity]. unfold carried. rewrite (Z psi HP). ring.
Qed.
Lemma lastMul_kron n g c l f y i x j : length y = length l -> length x = length l -> lastMul n g (timesO c (kron (l ++ [f]))) (y ++ [i]) (x ++ [j]) = kmul c (kron (l ++ [mmulC n g f]) (y ++ [i]) (x ++ [j])).
Proof.
  intros Ly Lx. unfold lastMul. destruct (last_app y i) as [-> ->]. rewrite kron_app by auto. rewrite kron1. unfold mmulC, timesO, lsum. rewrite <- !ksum_scal_l. apply ksum_ext. intros k _.
  rewrite kron_app by auto. rewrite kron1. ring.
Qed.
(** ** ParticleOrthogonalToCavity *)
Lemma one_rot b m p eta mf : cavIs b m -> partIs b p -> (b = true -> snd mf <> 0%Z) -> 0 < cvDim m -> (Z.abs (snd mf) <= Z.of_nat (pDim p))%Z ->
  exists h, interfericOne m p eta mf = Ok h /\ rot b [cvDim m; pDim p] (rate [cavRate m; partRate p]) h (overI (hOrthogonal eta (mfM mf))).
Proof.
  intros Hm Hp HK Hd Hf. unfold interfericOne. destruct (cav_rot b m Hm Hd) as [a [Ea Ha]]. rewrite Ea. cbn [bind]. destruct (mf_rot b p mf Hp HK Hf) as [f [Ef Hmf]]. rewrite Ef. cbn [bind].
  destruct (prod11 b _ _ _ _ _ _ _ _ Ha Hmf) as [t [Et Ht]]. rewrite Et. cbn [bind]. destruct (rot_overI _ _ _ _ _ Ht) as [h [Eh Hh]]. rewrite Eh. cbn [bind]. eexists. split; [reflexivity|].
  eapply rot_ext; [|exact (rot_scale _ _ _ _ _ _ Hh)]. intros y x _ _. unfold overI, hOrthogonal, timesO, plusO. ring.
Qed.
Lemma kron_last_ext l A B d sh y x : length sh = length l -> (forall i j, i < d -> j < d -> A i j = B i j) -> inr (sh ++ [d]) y -> inr (sh ++ [d]) x -> kron (l ++ [A]) y x = kron (l ++ [B]) y x.
Proof.
  intros L H Hy Hx. destruct (inr_last _ _ _ Hy) as (y' & i & -> & Hy' & Hi & Ly). destruct (inr_last _ _ _ Hx) as (x' & j & -> & Hx' & Hj & Lx). rewrite !kron_app by congruence. rewrite !kron1, H by auto. reflexivity.
Qed.
Lemma kron2_ext a A B c d y x : (forall i j, i < d -> j < d -> A i j = B i j) -> inr [c; d] y -> inr [c; d] x -> kron [a; A] y x = kron [a; B] y x.
Proof. exact (kron_last_ext [a] A B d [c] y x eq_refl). Qed.
Lemma kron3_ext a1 a2 A B c1 c2 d y x : (forall i j, i < d -> j < d -> A i j = B i j) -> inr [c1; c2; d] y -> inr [c1; c2; d] x -> kron [a1; a2; A] y x = kron [a1; a2; B] y x.
Proof. exact (kron_last_ext [a1; a2] A B d [c1; c2] y x eq_refl). Qed.
Lemma orth_gen b m p eta mf : cavIs b m -> partIs b p -> (b = true -> snd mf <> 0%Z) -> 0 < cvDim m -> (Z.abs (snd mf) <= Z.of_nat (pDim p))%Z ->
  exists h, orthogonal m p eta mf = Ok h /\ ihDims h = [cvDim m; pDim p] /\ forall F, mult p (mfValue mf) F -> has_generator h [cavRate m; partRate p] any_state (overI (hOrthogonal eta F)).
Proof.
  intros Hm Hp HK Hd Hf. destruct (one_rot b m p eta mf Hm Hp HK Hd Hf) as [h [E H]]. unfold orthogonal. rewrite E. cbn [bind]. eexists. split; [reflexivity|]. split; [reflexivity|]. intros F HF.
  eapply generator_ext; [|exact (generator_one _ _ _ _ (proj1 H))]. cbn [ihDims]. intros y x Hy Hx. unfold overI, hOrthogonal, timesO, plusO, hc.
  pose proof (fun i j => unique_fact p _ _ _ (mfM_mult p mf) HF i j) as U.
  rewrite (kron2_ext annihilation (mfM mf) F _ _ y x U Hy Hx), (kron2_ext annihilation (mfM mf) F _ _ x y U Hx Hy). reflexivity.
Qed.

(** ** the dispersive term *)
Definition listGen (p : particle) sh es (ds : list triC) (G : lop) : Prop := exists Ms, Forall2 (rots sh (rate es)) ds Ms /\ forall y x, inr sh y -> inr sh x -> sumM Ms y x = G y x.
Lemma potential_real mf x : isComplexMF (fst mf) = false -> potential 1 mf x = RC ((match fst mf with MSin => -1 | _ => 1 end) / 2 * cos (IZR (2 * snd mf) * x)).
Proof.
  destruct mf as [k K]. unfold potential, mfValue. cbn [fst snd]. rewrite cos2. pose proof (sin2_cos2 (IZR K * x)) as H. unfold Rsqr in H. generalize dependent (sin (IZR K * x)); generalize dependent (cos (IZR K * x)); intros c s H. assert (Hc : (c * c = 1 - s * s)%R) by lra.
  destruct k; try discriminate; intros _; cbn [isComplexMF]; unfold csq; apply cr_eq; cbn; rewrite ?Hc; field.
Qed.
Lemma potential_complex mf x : isComplexMF (fst mf) = true -> potential 1 mf x = k0.
Proof.
  destruct mf as [k K]. unfold potential, mfValue. cbn [fst snd]. destruct k; try discriminate; intros _; cbn [isComplexMF]; rewrite cexp_imag_csq; apply cr_eq; cbn; ring.
Qed.
Lemma disp_gen m p uNot mf : 0 < cvDim m -> (2 * Z.abs (snd mf) <= Z.of_nat (pDim p))%Z -> (pExact p = None \/ uNot = 0%R \/ isComplexMF (fst mf) = true) ->
  exists ds, dispersive m p uNot mf = Ok ds /\ forall W, mult p (potential 1 mf) W -> listGen p [cvDim m; pDim p] [cavRate m; partRate p] ds (overI (timesO (RC uNot) (kron [number; W]))).
Proof.
  intros Hd Hf Hc. unfold dispersive. destruct (Reqb uNot 0) eqn:Eu; cbn [negb andb].
  - eexists. split; [reflexivity|]. intros W _. exists []. split; [constructor|]. intros y x _ _. apply Reqb_eq in Eu. subst uNot. cbn [sumM fold_right]. unfold zeroM, overI, timesO. generalize (kron [number; W] y x). intros [a b]. apply cr_eq; cbn; ring.
  - assert (Hu : uNot <> 0%R) by (intros ->; rewrite (proj2 (Reqb_eq 0 0) eq_refl) in Eu; discriminate). destruct (isComplexMF (fst mf)) eqn:Ec; cbn [negb].
    + eexists. split; [reflexivity|]. intros W HW. exists []. split; [constructor|]. intros y x Hy Hx.
      assert (H0 : mult p (potential 1 mf) (polyM [])). { eapply mult_ext; [|apply mult_poly]. intros s. rewrite potential_complex by auto. reflexivity. }
      pose proof (fun i j => unique_fact p _ _ _ HW H0 i j) as U. unfold overI, timesO. rewrite (kron2_ext number W _ _ _ y x U Hy Hx).
      destruct (inr2_inv _ _ _ Hy) as (i & j & -> & _). destruct (inr2_inv _ _ _ Hx) as (k & l & -> & _). cbn [app]. rewrite kron2. unfold polyM. cbn [ksum sumM fold_right]. unfold zeroM. ring.
    + assert (Hp : pExact p = None) by (destruct Hc as [|[|]]; auto; congruence || contradiction). rewrite Z.shiftl_mul_pow2, Z.mul_comm by lia. change (2 ^ 1)%Z with 2%Z.
      destruct (cavN_rot m (rate [cavRate m]) Hd) as [n [En Hn]]. rewrite En. cbn [bind].
      destruct (mf_rot false p (MCos, (2 * snd mf)%Z)) as [c [Ec' Hcos]]; [unfold partIs; now rewrite Hp|discriminate|cbn [snd]; lia|]. unfold mfNKX in Ec'. cbn [fst snd] in Ec'. rewrite Ec'. cbn [bind].
      set (sg := match fst mf with MSin => (-1)%R | _ => 1%R end).
      destruct (prod11 false _ _ _ _ _ _ _ _ (kron_scale1 _ _ _ _ (RC sg) _ (kron_scale1 _ _ _ _ (RC uNot) _ Hn)) Hcos) as [t [Et Ht]]. rewrite Et. cbn [bind]. eexists. split; [reflexivity|].
      intros W HW. exists [timesO ((0, - / 2)%R : CR) (kron [fun y x => kmul (RC sg) (kmul (RC uNot) (number y x)); mfM (MCos, (2 * snd mf)%Z)])]. split; [constructor; [exact (proj1 (rot_scale _ _ _ _ _ _ Ht))|constructor]|].
      intros y x Hy Hx. pose proof (mult_scale p (RC (sg / 2)) _ _ (mfM_mult p (MCos, (2 * snd mf)%Z))) as HC.
      assert (HW' : mult p (potential 1 mf) (fun y x => kmul (RC (sg / 2)) (mfM (MCos, (2 * snd mf)%Z) y x))).
      { eapply mult_ext; [|exact HC]. intros s. rewrite potential_real by auto. unfold mfValue. cbn [fst snd]. fold sg. now rewrite RC_mul. }
      pose proof (fun i j => unique_fact p _ _ _ HW HW' i j) as U. unfold overI, timesO at 2 3. rewrite (kron2_ext number W _ _ _ y x U Hy Hx).
      destruct (inr2_inv _ _ _ Hy) as (i & j & -> & _). destruct (inr2_inv _ _ _ Hx) as (k & l & -> & _). cbn [app sumM fold_right]. unfold plusO, zeroM, timesO. rewrite !kron2.
      generalize (number i k) (mfM (MCos, (2 * snd mf)%Z) j l). intros [a1 a2] [b1 b2]. apply cr_eq; cbn; field.
Qed.
Lemma sumM_app A B y x : sumM (A ++ B) y x = kadd (sumM A y x) (sumM B y x).
Proof. induction A as [|a A IH]; cbn [app]; [unfold sumM at 2; cbn [fold_right]; unfold zeroM; ring|]. change (sumM (a :: A ++ B) y x) with (kadd (a y x) (sumM (A ++ B) y x)). change (sumM (a :: A) y x) with (kadd (a y x) (sumM A y x)). rewrite IH. ring. Qed.

(** ** ParticleAlongCavity *)
Lemma alongOne_gen m p uNot eta mf b : cavIs b m -> partIs b p -> (b = true -> snd mf <> 0%Z /\ (uNot = 0%R \/ isComplexMF (fst mf) = true)) -> 0 < cvDim m -> (2 * Z.abs (snd mf) <= Z.of_nat (pDim p))%Z ->
  exists h, alongOne m p uNot eta mf = Ok h /\ ihDims h = [cvDim m; pDim p] /\ forall W F, mult p (potential 1 mf) W -> mult p (mfValue mf) F ->
    has_generator h [cavRate m; partRate p] any_state (overI (plusO (timesO (RC uNot) (kron [number; W])) (hOrthogonal eta F))).
Proof.
  intros Hm Hp HK Hd Hf. unfold alongOne. destruct (disp_gen m p uNot mf Hd Hf) as [ds [Eds Hds]].
  { unfold partIs in Hp. destruct (pExact p); auto. subst b. right. apply HK. reflexivity. }
  rewrite Eds. cbn [bind]. destruct (Reqb eta 0) eqn:Ee.
  - apply Reqb_eq in Ee. subst eta. eexists. split; [reflexivity|]. split; [reflexivity|]. intros W F HW HF. destruct (Hds W HW) as [Ms [HMs HG]].
    eapply generator_ext; [|exact (generator_list _ _ _ _ HMs)]. cbn [ihDims]. intros y x Hy Hx. rewrite HG by auto. unfold overI, hOrthogonal, timesO, plusO, hc.
    generalize (kron [number; W] y x) (kron [annihilation; F] y x) (kron [annihilation; F] x y). intros [a1 a2] [b1 b2] [c1 c2]. apply cr_eq; cbn; ring.
  - destruct (one_rot b m p eta mf Hm Hp (fun e => proj1 (HK e)) Hd ltac:(lia)) as [h [E H]]. rewrite E. cbn [bind]. eexists. split; [reflexivity|]. split; [reflexivity|].
    intros W F HW HF. destruct (Hds W HW) as [Ms [HMs HG]].
    eapply generator_ext; [|exact (generator_list _ _ (ds ++ [h]) (Ms ++ [overI (hOrthogonal eta (mfM mf))]) (Forall2_app HMs (Forall2_cons _ _ (proj1 H) (Forall2_nil _))))]. cbn [ihDims]. intros y x Hy Hx.
    rewrite sumM_app, HG by auto. unfold sumM. cbn [fold_right]. unfold plusO at 1, zeroM. unfold overI, hOrthogonal, timesO, plusO, hc.
    pose proof (fun i j => unique_fact p _ _ _ (mfM_mult p mf) HF i j) as U.
    rewrite (kron2_ext annihilation (mfM mf) F _ _ y x U Hy Hx), (kron2_ext annihilation (mfM mf) F _ _ x y U Hx Hy). ring.
Qed.
(** conj(f) g, f and g being mode functions *)
Lemma alongSpecial_gen m p uNot eta mf mfPart b : cavIs b m -> partIs b p -> (b = true -> pure mf mfPart /\ (uNot = 0%R \/ isComplexMF (fst mf) = true)) -> 0 < cvDim m ->
  snd mf = Z.abs (snd mfPart) -> (2 * snd mf <= Z.of_nat (pDim p))%Z ->
  exists h, alongTwo m p uNot eta mf mfPart = Ok h /\ ihDims h = [cvDim m; pDim p] /\ forall W F, mult p (potential 1 mf) W -> mult p (overlap mf mfPart) F ->
    has_generator h [cavRate m; partRate p] any_state (overI (hAlong uNot eta W F)).
Proof.
  intros Hm Hp HK Hd HKs Hf. unfold alongTwo. cbn zeta. destruct (disp_gen m p uNot mf Hd ltac:(lia)) as [ds [Eds Hds]].
  { unfold partIs in Hp. destruct (pExact p); auto. subst b. right. apply HK. reflexivity. }
  rewrite Eds. cbn [bind]. rewrite (proj2 (Z.eqb_eq _ _) HKs). destruct (Reqb eta 0) eqn:Ee.
  - apply Reqb_eq in Ee. subst eta. eexists. split; [reflexivity|]. split; [reflexivity|]. intros W F HW HF. destruct (Hds W HW) as [Ms [HMs HG]].
    eapply generator_ext; [|exact (generator_list _ _ _ _ HMs)]. cbn [ihDims]. intros y x Hy Hx. rewrite HG by auto. unfold overI, hAlong, timesO, plusO, hc.
    generalize (kron [number; W] y x) (kron [creation; F] y x) (kron [creation; F] x y). intros [a1 a2] [b1 b2] [c1 c2]. apply cr_eq; cbn; ring.
  - destruct (comp_rot b p mf mfPart Hp (fun e => proj1 (HK e)) ltac:(lia) ltac:(lia)) as [f [M [Ec [Hmf HM]]]]. unfold interfericTwo. rewrite Ec. cbn [option_map].
    destruct (cav_rot b m Hm Hd) as [a [Ea Ha]]. rewrite Ea. cbn [bind]. pose proof (rot_dagger_kron _ _ _ _ _ Ha) as Ha'. cbn [map] in Ha'.
    destruct (prod11 b _ _ _ _ _ _ _ _ Ha' Hmf) as [t [Et Ht]]. rewrite Et. cbn [bind]. destruct (rot_overI _ _ _ _ _ Ht) as [h [Eh Hh]]. rewrite Eh. cbn [bind]. eexists. split; [reflexivity|]. split; [reflexivity|].
    intros W F HW HF. destruct (Hds W HW) as [Ms [HMs HG]].
    eapply generator_ext; [|refine (generator_list _ _ (ds ++ [scale (RC eta) h]) (Ms ++ [_]) (Forall2_app HMs (Forall2_cons _ _ (proj1 (rot_scale _ _ _ _ _ _ Hh)) (Forall2_nil _))))]. cbn [ihDims]. intros y x Hy Hx.
    rewrite sumM_app, HG by auto. unfold sumM. cbn [fold_right]. unfold plusO at 1, zeroM. unfold overI, hAlong, timesO, plusO, hc.
    pose proof (fun i j => unique_fact p _ _ _ HM HF i j) as U.
    rewrite <- (kron2_ext creation M F _ _ y x U Hy Hx), <- (kron2_ext creation M F _ _ x y U Hx Hy).
    destruct (inr2_inv _ _ _ Hy) as (i & j & -> & _). destruct (inr2_inv _ _ _ Hx) as (k & l & -> & _). cbn [app]. rewrite !kron2, !adj_annihilation. ring.
Qed.
Lemma away_edges dim K psi x i : away_from_edges dim K psi -> ~ ((Z.abs K <= Z.of_nat i)%Z /\ (Z.of_nat i + Z.abs K < Z.of_nat dim)%Z) -> psi (x ++ [i]) = k0.
Proof. intros H Hn. apply H. lia. Qed.
Lemma overlap_adj p f g F : mult p (overlap f g) F -> mult p (fun s => kmul (kconj (mfValue g s)) (mfValue f s)) (adj F).
Proof.
  intros HF. assert (HP : mult p (overlap f g) (polyM (prodP (adjP (mfPoly f)) (mfPoly g)))).
  { eapply mult_ext; [|apply mult_poly]. intros s. unfold overlap. now rewrite polyV_prod, <- polyV_adj, !mfValue_poly. }
  pose proof (fun i j => unique_fact p _ _ _ HP HF i j) as U.
  eapply multiplies_ext; [| |apply (mult_poly p (adjP (prodP (adjP (mfPoly f)) (mfPoly g))))].
  - intros s. rewrite <- polyV_adj, polyV_prod, <- polyV_adj, !mfValue_poly, kconj_mul, kconj_invol. ring.
  - intros i j Hi Hj. rewrite <- polyM_adj. unfold adj. now rewrite U.
Qed.
Lemma alongGeneral_raw m p uNot eta mf mfPart b : cavIs b m -> partIs b p ->
  (b = true -> snd mf <> 0%Z /\ snd mfPart <> 0%Z /\ (uNot = 0%R \/ isComplexMF (fst mf) = true)) -> 0 < cvDim m ->
  snd mf <> Z.abs (snd mfPart) -> (2 * Z.abs (snd mf) <= Z.of_nat (pDim p))%Z -> (Z.abs (snd mfPart) <= Z.of_nat (pDim p))%Z ->
  exists h, alongTwo m p uNot eta mf mfPart = Ok h /\ ihDims h = [cvDim m; pDim p] /\ forall W, mult p (potential 1 mf) W ->
    has_generator h [cavRate m; partRate p] any_state (plusO (overI (timesO (RC uNot) (kron [number; W]))) (timesO (kmul (kopp CI) (RC eta))
      (plusO (kron [annihilation; mmulC (pDim p) (adj (mfM mfPart)) (mfM mf)]) (kron [creation; mmulC (pDim p) (mfM mfPart) (adj (mfM mf))])))).
Proof.
  intros Hm Hp HK Hd HKs Hf HfP. unfold alongTwo. cbn zeta. destruct (disp_gen m p uNot mf Hd Hf) as [ds [Eds Hds]].
  { unfold partIs in Hp. destruct (pExact p); auto. subst b. right. apply HK. reflexivity. }
  rewrite Eds. cbn [bind]. rewrite (proj2 (Z.eqb_neq _ _) HKs).
  destruct (cav_rot b m Hm Hd) as [a [Ea Ha]]. rewrite Ea. cbn [bind]. destruct (mf_rot b p mf Hp (fun e => proj1 (HK e)) ltac:(lia)) as [f [Ef Hmf]]. rewrite Ef. cbn [bind].
  destruct (prod11 b _ _ _ _ _ _ _ _ (kron_scale1 _ _ _ _ (RC eta) _ Ha) Hmf) as [t [Et Ht]]. rewrite Et. cbn [bind].
  destruct (mf_rot b p mfPart Hp (fun e => proj1 (proj2 (HK e))) HfP) as [g [Eg Hg]]. rewrite Eg. cbn [bind]. eexists. split; [reflexivity|]. split; [reflexivity|].
  intros W HW. destruct (Hds W HW) as [Ms [HMs HG]].
  pose proof (rot_scale _ _ _ _ _ (kopp CI) Ht) as H1. pose proof (rot_neg _ _ _ _ _ (rot_dagger _ _ _ _ _ H1)) as H1T.
  pose proof (rot_dagger_kron _ _ _ _ _ Hg) as H2. pose proof (rot_dagger_kron _ _ _ _ _ H2) as H2T. cbn [map] in H2, H2T.
  assert (K1 : rots [cvDim m; pDim p] (rate [cavRate m; partRate p]) (scale (kopp CI) t) (timesO (kmul (kopp CI) (RC eta)) (kron [annihilation; mfM mf]))).
  { eapply rots_ext; [|exact (proj1 H1)]. intros y x Hy Hx. destruct (inr2_inv _ _ _ Hy) as (i & j & -> & _). destruct (inr2_inv _ _ _ Hx) as (k & l & -> & _). unfold timesO. rewrite !kron2. ring. }
  assert (K1T : rots [cvDim m; pDim p] (rate [cavRate m; partRate p]) (neg (dagger (scale (kopp CI) t))) (timesO (kmul (kopp CI) (RC eta)) (kron [creation; adj (mfM mf)]))).
  { eapply rots_ext; [|exact (proj1 H1T)]. intros y x Hy Hx. destruct (inr2_inv _ _ _ Hy) as (i & j & -> & _). destruct (inr2_inv _ _ _ Hx) as (k & l & -> & _). unfold timesO. rewrite !kron2.
    rewrite !kconj_mul, <- (adj_annihilation i k). unfold adj. generalize (kconj (annihilation k i)) (kconj (mfM mf l j)). intros [u1 u2] [v1 v2]. apply cr_eq; cbn; ring. }
  assert (Pos : forall k, In k ([cvDim m] ++ [pDim p]) -> 0 < k) by (intros k [<-|[<-|[]]]; [exact Hd|apply pDim_pos]).
  pose proof (generator_general [cvDim m] (pDim p) [cavRate m] (partRate p) ds Ms _ _ _ _ _ _ _ _ Pos eq_refl HMs K1 K1T (proj1 H2) (proj1 H2T)) as G. cbn [app] in G.
  eapply generator_ext; [|exact G]. cbn [ihDims]. intros y x Hy Hx.
  destruct (inr2_inv _ _ _ Hy) as (y1 & y2 & -> & Hy1 & Hy2). destruct (inr2_inv _ _ _ Hx) as (x1 & x2 & -> & Hx1 & Hx2).
  unfold plusO at 1 2. rewrite HG by auto.
  rewrite (lastMul_kron (pDim p) (adj (mfM mfPart)) _ [annihilation] (mfM mf) [y1] y2 [x1] x2 eq_refl eq_refl : lastMul _ _ (timesO _ (kron [annihilation; mfM mf])) [y1; y2] [x1; x2] = _).
  rewrite (lastMul_kron (pDim p) (adj (adj (mfM mfPart))) _ [creation] (adj (mfM mf)) [y1] y2 [x1] x2 eq_refl eq_refl : lastMul _ _ (timesO _ (kron [creation; adj (mfM mf)])) [y1; y2] [x1; x2] = _). cbn [app].
  unfold timesO, plusO. rewrite !kron2.
  rewrite (mmulC_ext (pDim p) (adj (adj (mfM mfPart))) (mfM mfPart) (adj (mfM mf)) (adj (mfM mf))) by (intros; first [apply adj_adj|reflexivity]). ring.
Qed.
Lemma alongGeneral_gen m p uNot eta mf mfPart b : cavIs b m -> partIs b p ->
  (b = true -> snd mf <> 0%Z /\ snd mfPart <> 0%Z /\ (uNot = 0%R \/ isComplexMF (fst mf) = true)) -> 0 < cvDim m ->
  snd mf <> Z.abs (snd mfPart) -> (2 * Z.abs (snd mf) <= Z.of_nat (pDim p))%Z -> (Z.abs (snd mfPart) <= Z.of_nat (pDim p))%Z ->
  exists h, alongTwo m p uNot eta mf mfPart = Ok h /\ ihDims h = [cvDim m; pDim p] /\ forall W F, mult p (potential 1 mf) W -> mult p (overlap mf mfPart) F ->
    has_generator h [cavRate m; partRate p] (away_from_edges (pDim p) (snd mf)) (overI (hAlong uNot eta W F)).
Proof.
  intros Hm Hp HK Hd HKs Hf HfP. destruct (alongGeneral_raw m p uNot eta mf mfPart b Hm Hp HK Hd HKs Hf HfP) as [h [E [Ed G]]]. exists h. split; [exact E|]. split; [exact Ed|]. intros W F HW HF. specialize (G W HW).
  eapply generator_cols; [|exact (generator_P _ _ _ _ _ (fun psi _ => I) G)]. rewrite Ed. intros y x Hy Hx.
  destruct (inr2_inv _ _ _ Hy) as (y1 & y2 & -> & Hy1 & Hy2). destruct (inr2_inv _ _ _ Hx) as (x1 & x2 & -> & Hx1 & Hx2).
  destruct (Z_le_dec (Z.abs (snd mf)) (Z.of_nat x2)) as [L1|L1]; [|left; intros psi Hpsi; apply (away_edges _ _ psi [x1] x2 Hpsi); lia].
  destruct (Z_lt_dec (Z.of_nat x2 + Z.abs (snd mf)) (Z.of_nat (pDim p))) as [L2|L2]; [|left; intros psi Hpsi; apply (away_edges _ _ psi [x1] x2 Hpsi); lia]. right.
  destruct (general_products p mf mfPart (adj F) y2 x2 (overlap_adj p mf mfPart F HF) Hy2 Hx2 L1 L2) as [Q1 Q2].
  unfold overI, hAlong, timesO, plusO, hc. rewrite !kron2, Q1, Q2, adj_adj.
  rewrite !kconj_mul. unfold adj. rewrite (creation_conj y1 x1). ring.
Qed.

(** ** ParticleTwoModes *)
Lemma twoSpecial_gen m0 m1 p fac mf0 mf1 b : cavIs b m0 -> cavIs b m1 -> partIs b p -> (b = true -> pure mf0 mf1) -> 0 < cvDim m0 -> 0 < cvDim m1 ->
  Z.abs (snd mf0) = Z.abs (snd mf1) -> (2 * Z.abs (snd mf0) <= Z.of_nat (pDim p))%Z ->
  exists h, twoModes m0 m1 p fac mf0 mf1 = Ok h /\ ihDims h = [cvDim m0; cvDim m1; pDim p] /\ forall F, mult p (overlap mf0 mf1) F ->
    has_generator h [cavRate m0; cavRate m1; partRate p] any_state (overI (hTwoModes fac F)).
Proof.
  intros H0 H1 Hp HK D0 D1 HKs Hf. unfold twoModes. cbn zeta. destruct (cav_rot b m0 H0 D0) as [a0 [E0 R0]]. destruct (cav_rot b m1 H1 D1) as [a1 [E1 R1]]. rewrite E0, E1. cbn [bind]. rewrite (proj2 (Z.eqb_eq _ _) HKs).
  destruct (comp_rot b p mf0 mf1 Hp HK HKs Hf) as [f [M [Ec [Hmf HM]]]]. rewrite Ec. cbn [bind]. pose proof (rot_dagger_kron _ _ _ _ _ R0) as R0'. cbn [map] in R0'.
  destruct (prod11 b _ _ _ _ _ _ _ _ (kron_scale1 _ _ _ _ fac _ R0') R1) as [t [Et Ht]]. rewrite Et. cbn [bind].
  destruct (prod21 b _ _ _ _ _ _ _ _ _ _ _ Ht Hmf) as [t' [Et' Ht']]. rewrite Et'. cbn [bind]. destruct (rot_overI _ _ _ _ _ Ht') as [h [Eh Hh]]. rewrite Eh. cbn [bind]. eexists. split; [reflexivity|]. split; [reflexivity|].
  intros F HF. eapply generator_ext; [|exact (generator_one _ _ _ _ (proj1 Hh))]. cbn [ihDims]. intros y x Hy Hx. pose proof (fun i j => unique_fact p _ _ _ HM HF i j) as U.
  unfold overI, hTwoModes, timesO, plusO, hc. rewrite <- (kron3_ext creation annihilation M F _ _ _ y x U Hy Hx), <- (kron3_ext creation annihilation M F _ _ _ x y U Hx Hy).
  destruct (inr3_inv _ _ _ _ Hy) as (i & j & k & -> & _). destruct (inr3_inv _ _ _ _ Hx) as (l & m & n & -> & _). rewrite !kron3, !adj_annihilation, !kconj_mul. ring.
Qed.
Lemma twoGeneral_gen m0 m1 p fac mf0 mf1 b : cavIs b m0 -> cavIs b m1 -> partIs b p -> (b = true -> snd mf0 <> 0%Z /\ snd mf1 <> 0%Z) -> 0 < cvDim m0 -> 0 < cvDim m1 ->
  Z.abs (snd mf0) <> Z.abs (snd mf1) -> (Z.abs (snd mf0) <= Z.of_nat (pDim p))%Z -> (Z.abs (snd mf1) <= Z.of_nat (pDim p))%Z ->
  exists h, twoModes m0 m1 p fac mf0 mf1 = Ok h /\ ihDims h = [cvDim m0; cvDim m1; pDim p] /\ forall F, mult p (overlap mf0 mf1) F ->
    has_generator h [cavRate m0; cavRate m1; partRate p] (away_from_edges (pDim p) (snd mf0)) (overI (hTwoModes (kconj fac) F)).
Proof.
  intros H0 H1 Hp HK D0 D1 HKs Hf0 Hf1. unfold twoModes. cbn zeta. destruct (cav_rot b m0 H0 D0) as [a0 [E0 R0]]. destruct (cav_rot b m1 H1 D1) as [a1 [E1 R1]]. rewrite E0, E1. cbn [bind]. rewrite (proj2 (Z.eqb_neq _ _) HKs).
  destruct (mf_rot b p mf0 Hp (fun e => proj1 (HK e)) Hf0) as [f [Ef Hmf]]. rewrite Ef. cbn [bind]. pose proof (rot_dagger_kron _ _ _ _ _ R1) as R1'. cbn [map] in R1'.
  destruct (prod11 b _ _ _ _ _ _ _ _ (kron_scale1 _ _ _ _ fac _ R0) R1') as [t [Et Ht]]. rewrite Et. cbn [bind].
  destruct (prod21 b _ _ _ _ _ _ _ _ _ _ _ Ht Hmf) as [t' [Et' Ht']]. rewrite Et'. cbn [bind].
  destruct (mf_rot b p mf1 Hp (fun e => proj2 (HK e)) Hf1) as [g [Eg Hg]]. rewrite Eg. cbn [bind]. eexists. split; [reflexivity|]. split; [reflexivity|].
  intros F HF. pose proof (rot_scale _ _ _ _ _ (kopp CI) Ht') as G1. pose proof (rot_neg _ _ _ _ _ (rot_dagger _ _ _ _ _ G1)) as G1T.
  pose proof (rot_dagger_kron _ _ _ _ _ Hg) as G2. pose proof (rot_dagger_kron _ _ _ _ _ G2) as G2T. cbn [map] in G2, G2T.
  assert (K1 : rots [cvDim m0; cvDim m1; pDim p] (rate [cavRate m0; cavRate m1; partRate p]) (scale (kopp CI) t') (timesO (kmul (kopp CI) fac) (kron [annihilation; creation; mfM mf0]))).
  { eapply rots_ext; [|exact (proj1 G1)]. intros y x Hy Hx. destruct (inr3_inv _ _ _ _ Hy) as (i & j & k & -> & _). destruct (inr3_inv _ _ _ _ Hx) as (l & m & n & -> & _). unfold timesO. rewrite !kron3, adj_annihilation. ring. }
  assert (K1T : rots [cvDim m0; cvDim m1; pDim p] (rate [cavRate m0; cavRate m1; partRate p]) (neg (dagger (scale (kopp CI) t'))) (timesO (kmul (kopp CI) (kconj fac)) (kron [creation; annihilation; adj (mfM mf0)]))).
  { eapply rots_ext; [|exact (proj1 G1T)]. intros y x Hy Hx. destruct (inr3_inv _ _ _ _ Hy) as (i & j & k & -> & _). destruct (inr3_inv _ _ _ _ Hx) as (l & m & n & -> & _). unfold timesO. rewrite !kron3.
    rewrite !kconj_mul, adj_annihilation, creation_conj, annihilation_conj. unfold adj. generalize (creation i l) (annihilation j m) (kconj (mfM mf0 n k)). intros [u1 u2] [v1 v2] [w1 w2]. destruct fac as [f1 f2]. apply cr_eq; cbn; ring. }
  assert (Pos : forall k, In k ([cvDim m0; cvDim m1] ++ [pDim p]) -> 0 < k) by (intros k [<-|[<-|[<-|[]]]]; [exact D0|exact D1|apply pDim_pos]).
  pose proof (generator_general [cvDim m0; cvDim m1] (pDim p) [cavRate m0; cavRate m1] (partRate p) [] [] _ _ _ _ _ _ _ _ Pos eq_refl (Forall2_nil _) K1 K1T (proj1 G2) (proj1 G2T)) as G. cbn [app] in G.
  eapply generator_cols; [|exact (generator_P _ _ _ _ _ (fun psi _ => I) G)]. cbn [ihDims]. intros y x Hy Hx.
  destruct (inr3_inv _ _ _ _ Hy) as (y0 & y1 & y2 & -> & Hy0 & Hy1 & Hy2). destruct (inr3_inv _ _ _ _ Hx) as (x0 & x1 & x2 & -> & Hx0 & Hx1 & Hx2).
  destruct (Z_le_dec (Z.abs (snd mf0)) (Z.of_nat x2)) as [L1|L1]; [|left; intros psi Hpsi; apply (away_edges _ _ psi [x0; x1] x2 Hpsi); lia].
  destruct (Z_lt_dec (Z.of_nat x2 + Z.abs (snd mf0)) (Z.of_nat (pDim p))) as [L2|L2]; [|left; intros psi Hpsi; apply (away_edges _ _ psi [x0; x1] x2 Hpsi); lia]. right.
  destruct (general_products p mf0 mf1 (adj F) y2 x2 (overlap_adj p mf0 mf1 F HF) Hy2 Hx2 L1 L2) as [Q1 Q2].
  unfold plusO at 1 2. unfold sumM. cbn [fold_right].
  rewrite (lastMul_kron (pDim p) (adj (mfM mf1)) _ [annihilation; creation] (mfM mf0) [y0; y1] y2 [x0; x1] x2 eq_refl eq_refl : lastMul _ _ (timesO _ (kron [annihilation; creation; mfM mf0])) [y0; y1; y2] [x0; x1; x2] = _).
  rewrite (lastMul_kron (pDim p) (adj (adj (mfM mf1))) _ [creation; annihilation] (adj (mfM mf0)) [y0; y1] y2 [x0; x1] x2 eq_refl eq_refl : lastMul _ _ (timesO _ (kron [creation; annihilation; adj (mfM mf0)])) [y0; y1; y2] [x0; x1; x2] = _). cbn [app].
  unfold overI, hTwoModes, timesO, plusO, hc. rewrite !kron3, Q1.
  rewrite (mmulC_ext (pDim p) (adj (adj (mfM mf1))) (mfM mf1) (adj (mfM mf0)) (adj (mfM mf0))) by (intros; first [apply adj_adj|reflexivity]). rewrite Q2, adj_adj.
  rewrite !kconj_mul, kconj_invol, (creation_conj y0 x0), (annihilation_conj y1 x1). unfold adj, zeroM. ring.
Qed.
