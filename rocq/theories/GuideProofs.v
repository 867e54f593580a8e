From Coq Require Import List Arith Bool Lia Reals Lra String FunctionalExtensionality.
From Verif Require Import Star CReal Arr PureModel PureProofs TriModel TriSpec TriProofs TriPropagate TriLemmas FreeExactModel FreeExactSpec FreeExactProofs
  ElementModel ElementSpec ElementProofs ElementLemmas ElementFacts ModeModel ModeSpec ModeProofs ModeFacts DampSpec DampProofs HomodyneProofs
  DensityModel HermSpec CompositeModel CompositeSpec ParticleModel ParticleSpec InteractionModel InteractionSpec RotProofs RotOps InteractionProofs InteractionFacts InteractionLaws
  AverageModel AverageSpec AverageProofs AverageFacts AverageElements AverageCorrelations GuideModel GuideSpec.
Import ListNotations.
Local Open Scope nat_scope.
Add Ring CRGuide : (k_ring CR).

(** ** the modes *)
Definition driveM (eta : CR) : mat := fun m n => kmul (kopp CI) (kadd (kmul eta (creation m n)) (kmul (kconj eta) (annihilation m n))).
Lemma drive_good dim eta : 0 < dim -> exists t M, exDrive eta dim = Ok t /\ good dim t 1 M /\ forall y x, y < dim -> x < dim -> M y x = driveM eta y x.
Proof.
  intros Hd. destruct (aop_good dim Hd) as [a [Ea Ga]]. unfold exDrive, plusHCoverI. rewrite Ea. cbn [bind].
  destruct (plusHC_good dim _ 1 _ (scale_good _ _ _ _ (kconj eta) Ga)) as [m [Em Gm]]. rewrite Em. cbn [bind].
  eexists _, _. split; [reflexivity|]. split; [exact (scale_good _ _ _ _ (kopp CI) Gm)|]. intros y x Hy Hx. cbn beta. rewrite !annihM_spec by auto.
  unfold driveM. rewrite kconj_mul, kconj_invol, annihilation_conj. f_equal. ring.
Qed.
Definition schM (delta kappa : R) (eta : CR) (nTh : R) : mat := fun m n =>
  kadd (kmul ((- kappa * (2 * nTh + 1), delta)%R : CR) (if m =? n then kmul (RC (INR m)) k1 else k0)) (driveM eta m n).
Lemma sch_is delta kappa eta nTh m n : schM delta kappa eta nTh m n = guideGenerator delta kappa eta nTh m n.
Proof.
  unfold schM, guideGenerator, guideH, driveM. generalize (kadd (kmul eta (creation m n)) (kmul (kconj eta) (annihilation m n))). intros [u v].
  destruct (m =? n); apply cr_eq; cbn; ring.
Qed.
Lemma exSch_ok delta kappa eta nTh dim : 0 < dim ->
  exists s, exSch delta kappa eta nTh dim = Ok s /\ msDim s = dim /\ msLindblads s = exLindblads dim kappa nTh /\ no_jump_generator s (guideGenerator delta kappa eta nTh).
Proof.
  intros Hd. destruct (ofDiagonal_good dim (fun i => kmul (RC (INR i)) k1) Hd) as [n [En Gn]]. destruct (drive_good dim eta Hd) as (d & M & Ed & Gd & HM).
  unfold exSch, exNop, exMain. rewrite En. cbn [bind]. rewrite Ed. cbn [bind].
  destruct (add_good dim _ _ 0 1 _ _ (scale_good _ _ _ _ ((- kappa * (2 * nTh + 1), delta)%R : CR) Gn) Gd) as [h Hh]; [auto|]. 
  destruct Hh as [Eh Gh]. rewrite Eh. cbn [bind]. eexists. split; [reflexivity|]. split; [reflexivity|]. split; [reflexivity|].
  intros ts t. unfold generator_at. cbn [msDim msExact msH]. intros psi m Hm. unfold hAction. rewrite after_const. cbn [addContribution snd fold_left].
  destruct Gh as (_ & _ & _ & D1 & D2 & HT). cbn in D2.
  rewrite (apply1 h dim _ (guideGenerator delta kappa eta nTh) _ _ _ D1 D2); [cbn [nth]; ring| |exact Hm].
  intros y x Hy Hx. rewrite HT, HM by auto. apply sch_is.
Qed.
Lemma exIP_ok delta kappa eta nTh dim : 0 < dim ->
  exists s, exIP delta kappa eta nTh dim = Ok s /\ msDim s = dim /\ msLindblads s = exLindblads dim kappa nTh /\ no_jump_generator s (guideGenerator delta kappa eta nTh).
Proof.
  intros Hd. destruct (drive_good dim eta Hd) as (d & M & Ed & Gd & HM). unfold exIP. cbv zeta. rewrite Ed. cbn [bind]. set (z := ((kappa * (2 * nTh + 1), - delta)%R : CR)).
  destruct (furnish_good dim d 1 (driveM eta) (exMain z dim)) as (h & Eh & D1 & D2 & HT); [exists M; split; assumption|lia|reflexivity|exact Hd|].
  rewrite Eh. cbn [bind]. eexists. split; [reflexivity|]. split; [reflexivity|]. split; [reflexivity|].
  intros ts t. unfold generator_at. cbn [msDim msExact msH]. intros psi m Hm. unfold hAction. rewrite after_td. cbn [map addContribution snd fold_left].
  destruct (propagate_path ts t h) as (P1 & P2 & P3).
  rewrite (apply1 _ dim 1 (fun y x => kmul (kmul (cexp (kmul (RC t) (kmul (RC (INR y)) z))) (driveM eta y x)) (cexp (kopp (kmul (RC t) (kmul (RC (INR x)) z))))));
    [|exact (eq_trans P1 D1)|exact (eq_trans P2 D2)| |exact Hm].
  2: { intros y x Hy Hx. rewrite (eqt_tmat _ _ _ _ (propagate_path ts t h)). rewrite HT by auto. reflexivity. }
  cbn [nth].
  match goal with |- kmul _ (kadd k0 ?x) = _ => replace (kadd k0 x) with x by ring end.
  unfold lsum. rewrite <- ksum_scal_l. apply ksum_ext. intros n Hn. apply in_seq in Hn. rewrite !uDiag_spec by lia.
  assert (Eg : forall i, eigenvalue (EMode z) i = kopp (kmul (RC (INR i)) z)).
  { intros i. unfold eigenvalue. destruct z as [a b]. apply cr_eq; cbn; ring. }
  rewrite !Eg. assert (Ex : forall i, kmul (RC t) (kopp (kmul (RC (INR i)) z)) = kopp (kmul (RC t) (kmul (RC (INR i)) z))) by (intros; ring). rewrite !Ex.
  transitivity (kmul (kmul (kmul (cexp (kmul (RC t) (kmul (RC (INR m)) z))) (cexp (kopp (kmul (RC t) (kmul (RC (INR m)) z))))) (driveM eta m n)) (kmul (cexp (kopp (kmul (RC t) (kmul (RC (INR n)) z)))) (psi n))); [ring|].
  rewrite cexp_inv. replace (kmul k1 (driveM eta m n)) with (driveM eta m n) by ring. f_equal. rewrite <- sch_is. unfold schM, z.
  destruct (Nat.eqb_spec m n) as [->|]; [|ring]. generalize (driveM eta n n). intros [u v]. apply cr_eq; cbn; ring.
Qed.

Lemma ex_describes dim kappa nTh : (0 <= kappa)%R -> (0 <= nTh)%R -> Forall2 (describes dim) (exLindblads dim kappa nTh) (guideJumps kappa nTh).
Proof.
  intros Hk Hn. destruct (mode_superoperators false dim kappa nTh Hk Hn) as [_ B]. unfold modeThermal in B.
  inversion B as [|? ? ? ? [B1 _] B']; subst. inversion B' as [|? ? ? ? [B2 _] _]; subst. repeat constructor; cbn; assumption.
Qed.
Lemma ex_loss_rate dim kappa nTh : (0 <= kappa)%R -> (0 <= nTh)%R -> exists loss absorption, exLindblads dim kappa nTh = [loss; absorption] /\
  rate_of_jump dim loss (mscale (sqrt (2 * (kappa * (nTh + 1)))) annihilation).
Proof.
  intros Hk Hn. assert (0 <= kappa * nTh)%R by now apply Rmult_le_pos. eexists _, _. split; [reflexivity|].
  pose proof (proj1 (mode_loss_rates dim (kappa * (nTh + 1)) 0 ltac:(lra) ltac:(lra))) as A. inversion A as [|? ? ? ? A' _]; subst. exact A'.
Qed.
Lemma ex_damping dim delta kappa eta nTh : (0 <= kappa)%R -> (0 <= nTh)%R ->
  damping_matches dim (guideLevels nTh dim) (guideGenerator delta kappa eta nTh) (2 * kappa * nTh) (guideJumps kappa nTh).
Proof.
  intros Hk Hn m n Hm Hn' Hkeep. pose (p := mkPars delta 0 0 dim eta kappa nTh).
  change (guideJumps kappa nTh) with (thermalJumps p). rewrite (jdagj_thermal p) by assumption. cbn [pKappa pNTh pCutoff p].
  unfold guideGenerator, guideH. rewrite (Nat.eqb_sym n m), kconj_sub, kconj_mul, !kconj_add, !kconj_mul, kconj_invol, creation_conj, annihilation_conj.
  unfold diagR. destruct (Nat.eqb_spec m n) as [->|].
  - generalize (creation n n) (annihilation n n). intros [u v] [u' v']. destruct eta as [e e']. rewrite plus_INR.
    destruct Hkeep as [Hz|[Hlt|]]; [| |congruence].
    + rewrite Hz. destruct (n + 1 <? dim); apply cr_eq; cbn; ring.
    + apply Nat.ltb_lt in Hlt. rewrite Hlt. apply cr_eq; cbn; ring.
  - generalize (creation m n) (annihilation m n). intros [u v] [u' v']. destruct eta as [e e']. rewrite ?kconj_0. apply cr_eq; cbn; ring.
Qed.

(** ** the averages of the modes *)
Lemma ex_vals dim t rho : avAverage (exAveraged dim) t rho = let E A := mean [dim] (kron [A]) rho in
  [2 * cre (E number); cre (E annihilation); cim (E annihilation)]%R.
Proof.
  cbn [avAverage exAveraged element List.length]. unfold exAverage. cbv zeta.
  set (start := setAt 0 _ _). pose (F := fun (n : nat) av => incAt 2 (sqrt (INR n) * cim (rho [n] [(n - 1)%nat]))%R (incAt 1 (sqrt (INR n) * cre (rho [n] [(n - 1)%nat]))%R av)).
  assert (HF : forall x, In x (seq 1 (dim - 1)) -> adds 3 (F x) (fun j => ((if (j =? 1)%nat then sqrt (INR x) * cre (rho [x] [(x - 1)%nat]) else 0) + (if (j =? 2)%nat then sqrt (INR x) * cim (rho [x] [(x - 1)%nat]) else 0))%R)).
  { intros x _. unfold F. repeat apply adds_comp; apply adds_inc; lia. }
  destruct (adds_fold 3 F _ _ HF start eq_refl) as [E Hj].
  change (fold_left _ (seq 1 (dim - 1)) start) with (fold_left (fun a x => F x a) (seq 1 (dim - 1)) start).
  apply list_get; [exact E|]. intros j J. rewrite Hj. clear Hj E HF F. assert (j = 0 \/ j = 1 \/ j = 2) as [->|[->| ->]] by (cbn in J; lia); cbn [Nat.eqb].
  - unfold start. cbn [setAt initialized repeat get nth]. rewrite (rsum_ext _ (fun _ => 0%R)) by (intros; ring). rewrite rsum_zero, Rplus_0_r, Rmult_1_r. f_equal.
    rewrite mean1. unfold number. rewrite (diag_mean dim INR). rewrite <- rsum_from1 by (cbn; ring). rewrite fold_rsum. apply Rplus_0_l.
  - unfold start. cbn [setAt initialized repeat get nth]. rewrite mean1, ann_mean, cre_ksum, Rplus_0_l. apply rsum_ext. intros n _. generalize (rho [n] [n - 1]). intros [u v]. cbn. ring.
  - unfold start. cbn [setAt initialized repeat get nth]. rewrite mean1, ann_mean, cim_ksum, Rplus_0_l. apply rsum_ext. intros n _. generalize (rho [n] [n - 1]). intros [u v]. cbn. ring.
Qed.

(** ** the interaction *)
Definition cavOf (d : nat) (z : option CR) : cavity := mkCavity d (option_map (fun z => (z, 0%R)) z).
Lemma main_eq z dim : exMain z dim = mainDiagonal z 0 dim.
Proof.
  unfold exMain, mainDiagonal, vecOf. f_equal. apply functional_extensionality. intros x. rewrite kerrElem_0. ring.
Qed.
Lemma exAop_cav d z : exAop d z = cavAop (cavOf d z).
Proof. unfold exAop, cavAop, cavOf. cbn [cvDim cvExact]. destruct z as [z|]; cbn [option_map]; [now rewrite main_eq|reflexivity]. Qed.
Lemma exX_plusHC d z : exX d z = bind (cavAop (cavOf d z)) (fun a => plusHC CReqb a).
Proof. unfold exX. rewrite !exAop_cav. destruct (cavAop (cavOf d z)); reflexivity. Qed.
Lemma exX_rot b d z : cavIs b (cavOf d z) -> 0 < d -> exists x, exX d z = Ok x /\ rot b [d] (rate [exactRate z]) x (kron [twoX]).
Proof.
  intros Hm Hd. destruct (cav_rot b (cavOf d z) Hm Hd) as [a [Ea Ha]]. rewrite exX_plusHC, Ea. cbn [bind]. destruct (rot_plusHC _ _ _ _ _ Ha) as [x [Ex Hx]]. exists x. split; [exact Ex|].
  replace (exactRate z) with (cavRate (cavOf d z)) by (apply functional_extensionality; intros n; destruct z; reflexivity).
  eapply rot_ext; [|exact Hx]. intros y w Hy Hw. destruct (inr1_inv _ _ Hy) as [i [-> Hi]]. destruct (inr1_inv _ _ Hw) as [j [-> Hj]].
  rewrite !kron1. unfold twoX. rewrite <- (adj_annihilation i j). reflexivity.
Qed.
Lemma xx_generator d0 z0 d1 z1 g : same_picture z0 z1 -> 0 < d0 -> 0 < d1 ->
  exists h, exXX d0 z0 d1 z1 g = Ok h /\ ihDims h = [d0; d1] /\ has_generator h [exactRate z0; exactRate z1] any_state (hGuide g).
Proof.
  intros Hp D0 D1. assert (exists b, cavIs b (cavOf d0 z0) /\ cavIs b (cavOf d1 z1)) as [b [P0 P1]].
  { destruct z0, z1; cbn in Hp; try contradiction; [exists true|exists false]; cbn; auto. }
  destruct (exX_rot b d0 z0 P0 D0) as [x0 [E0 H0]]. destruct (exX_rot b d1 z1 P1 D1) as [x1 [E1 H1]]. unfold exXX. rewrite E0, E1. cbn [bind].
  destruct (prod11 b _ _ _ _ _ _ _ _ (kron_scale1 _ _ _ _ (RC g) _ H0) H1) as [t [Et Ht]]. rewrite Et. cbn [bind]. eexists. split; [reflexivity|]. split; [reflexivity|].
  apply generator_one. eapply rots_ext; [|exact (proj1 Ht)]. intros y x Hy Hx. destruct (inr2_inv _ _ _ Hy) as (i & j & -> & Hi & Hj). destruct (inr2_inv _ _ _ Hx) as (k & l & -> & Hk & Hl).
  unfold hGuide, timesO. rewrite !kron2. ring.
Qed.
Lemma twoX_entries : twoX 0 1 = k1 /\ twoX 1 0 = k1.
Proof. unfold twoX, annihilation, creation. cbn [Nat.eqb Nat.add]. replace (INR 1) with 1%R by reflexivity. rewrite sqrt_1. split; apply cr_eq; cbn; ring. Qed.
(** the generator asked for by the Hamiltonian is another, whenever there are two levels and the coupling is not zero *)
Lemma xx_wrong d0 z0 d1 z1 g h : same_picture z0 z1 -> 2 <= d0 -> 2 <= d1 -> g <> 0%R -> exXX d0 z0 d1 z1 g = Ok h ->
  ~ has_generator h [exactRate z0; exactRate z1] any_state (overI (hGuide g)).
Proof.
  intros Hp D0 D1 Hg E HG. destruct (xx_generator d0 z0 d1 z1 g Hp) as (h' & E' & Dm & H); [lia|lia|]. rewrite E in E'. injection E' as <-.
  assert (A : hGuide g [0; 0] [1; 1] = overI (hGuide g) [0; 0] [1; 1]).
  { apply (generator_entry h _ any_state _ _ _ _ H HG I); rewrite Dm; repeat constructor; lia. }
  unfold overI, hGuide, timesO in A. rewrite kron2 in A. destruct twoX_entries as [T _]. rewrite T in A. apply (f_equal (@fst R R)) in A. cbn in A. lra.
Qed.
(** (|00> + |11>)/sqrt 2 loses or gains norm at the rate 2g, in Schroedinger picture *)
Definition bell : array := fun y => if listnat_eqb y [0; 0] || listnat_eqb y [1; 1] then RC (/ sqrt 2) else k0.
Lemma xx_norm g h : exXX 2 None 2 None g = Ok h -> exists d', snd (intContribution 0 (intAfter [] h) bell (fun _ => k0)) = Some d' /\ norm_rate [2; 2] bell d' = RC (2 * g).
Proof.
  intros E. destruct (xx_generator 2 None 2 None g I) as (h' & E' & Dm & H); [lia|lia|]. rewrite E in E'. injection E' as <-.
  destruct (H [] 0%R bell (fun _ => k0) I) as (d' & Ed & Hd). exists d'. split; [exact Ed|]. rewrite Dm in Hd.
  assert (V : forall y, inr [2; 2] y -> d' y = isum [2; 2] (fun x => kmul (hGuide g y x) (bell x))).
  { intros y Hy. specialize (Hd y Hy). rewrite carried_zero in Hd. replace (d' y) with (ksub (d' y) k0) by ring. rewrite Hd. unfold isum. apply ksum_ext. intros x _. now rewrite carried_zero. }
  assert (B : forall i j, i < 2 -> j < 2 -> d' [i; j] = kmul (RC g) (kmul (RC (/ sqrt 2)) (if i =? j then k1 else k0))).
  { intros i j Hi Hj. rewrite V by (constructor; [exact Hi|constructor; [exact Hj|constructor]]). unfold isum. cbn [indices seq flat_map map app ksum]. unfold hGuide, timesO. rewrite !kron2. unfold bell. cbn [listnat_eqb Nat.eqb andb orb].
    destruct twoX_entries as [T1 T2]. assert (T0 : twoX 0 0 = k0) by (unfold twoX, annihilation, creation; cbn; apply cr_eq; cbn; ring). assert (T3 : twoX 1 1 = k0) by (unfold twoX, annihilation, creation; cbn; apply cr_eq; cbn; ring).
    destruct i as [|[|i]], j as [|[|j]]; try lia; rewrite ?T0, ?T1, ?T2, ?T3; cbn [Nat.eqb]; ring. }
  assert (Q : (/ sqrt 2 * / sqrt 2 = / 2)%R) by (rewrite <- Rinv_mult, sqrt_sqrt; lra).
  unfold norm_rate, isum. cbn [indices seq flat_map map app ksum]. rewrite !B by lia. unfold bell. cbn [listnat_eqb Nat.eqb andb orb].
  revert Q. generalize (/ sqrt 2)%R. intros s Q. apply cr_eq; cbn; [|ring]. transitivity (4 * g * (s * s))%R; [ring|]. rewrite Q. field.
Qed.

(** ** the correlations *)
Section Corr.
Variables (d0 d1 : nat) (m : ldo).
Hypothesis (H0 : 0 < d0) (H1 : 0 < d1) (Hs : state [d0; d1] (indexOf m)).
Let rho := indexOf m.
Let E A B := mean [d0; d1] (kron [A; B]) rho.
Lemma ex_corr t : avAverage (exCorrAveraged d0 d1) t rho = [cre (E quadX quadX); cre (E quadX quadY); cre (E quadY quadX); cre (E quadY quadY)].
Proof.
  cbn [avAverage exCorrAveraged element List.length]. unfold exCorrelations.
  change (E quadX quadX) with (M2 d0 d1 rho quadX quadX). change (E quadX quadY) with (M2 d0 d1 rho quadX quadY). change (E quadY quadX) with (M2 d0 d1 rho quadY quadX). change (E quadY quadY) with (M2 d0 d1 rho quadY quadY).
  unfold rho. rewrite (E_XQ d0 d1 m Hs), (E_XP d0 d1 m Hs), (E_YQ d0 d1 m Hs), (E_YP d0 d1 m Hs). fold rho.
  set (up := fun n k => kmul (RC (sqrt (INR (k * (n + 1))))) (rho [n; k] [n + 1; k - 1])).
  set (dn := fun n k => kmul (RC (sqrt (INR (k * n)))) (rho [n; k] [n - 1; k - 1])).
  match goal with |- context [fold_left ?f (list_prod _ _) _] => pose (F := fun (n : nat * nat) av => f av n) end.
  assert (HF : forall x, In x (list_prod (seq 0 d0) (seq 1 (d1 - 1))) -> adds 4 (F x) (fun j =>
     ((if (fst x <? d0 - 1)%nat then (if (j =? 0)%nat then cre (up (fst x) (snd x)) else 0) + (if (j =? 1)%nat then cim (up (fst x) (snd x)) else 0) else 0)
     + (if (0 <? fst x)%nat then (if (j =? 2)%nat then cre (dn (fst x) (snd x)) else 0) + (if (j =? 3)%nat then cim (dn (fst x) (snd x)) else 0) else 0))%R)).
  { intros [n k] _. unfold F. cbn [fst snd].
    assert (A1 : forall b : bool, adds 4 (fun av => if b then incAt 1 (cim (up n k)) (incAt 0 (cre (up n k)) av) else av)
      (fun j => if b then ((if (j =? 0)%nat then cre (up n k) else 0) + (if (j =? 1)%nat then cim (up n k) else 0))%R else 0%R)).
    { intros b. apply adds_if; [apply adds_comp; apply adds_inc; lia|apply adds_id]. }
    assert (A2 : forall b : bool, adds 4 (fun av => if b then incAt 3 (cim (dn n k)) (incAt 2 (cre (dn n k)) av) else av)
      (fun j => if b then ((if (j =? 2)%nat then cre (dn n k) else 0) + (if (j =? 3)%nat then cim (dn n k) else 0))%R else 0%R)).
    { intros b. apply adds_if; [apply adds_comp; apply adds_inc; lia|apply adds_id]. }
    exact (adds_comp 4 _ _ _ _ (A1 (n <? d0 - 1)) (A2 (0 <? n))). }
  destruct (adds_fold 4 F _ _ HF (initialized 4) (length_init 4)) as [El Hj].
  change (fold_left _ (list_prod (seq 0 d0) (seq 1 (d1 - 1))) (initialized 4)) with (fold_left (fun a x => F x a) (list_prod (seq 0 d0) (seq 1 (d1 - 1))) (initialized 4)).
  cbv zeta. set (a := fold_left _ _ _) in *.
  assert (G : get 0 a = cre (M2 d0 d1 rho creation annihilation) /\ get 1 a = cim (M2 d0 d1 rho creation annihilation) /\ get 2 a = cre (M2 d0 d1 rho annihilation annihilation) /\ get 3 a = cim (M2 d0 d1 rho annihilation annihilation)).
  { rewrite !Hj, !get_init, !rsum_prod. cbn [fst snd Nat.eqb]. clear Hj El HF F a. unfold rho. rewrite (corr_prod_up d0 d1 m), (corr_prod_down d0 d1 m). fold rho. rewrite !Rplus_0_l. repeat split.
    - rewrite cre_ksum, <- rsum_butlast. apply rsum_ext. intros n _.
      destruct (n <? d0 - 1); [rewrite cre_ksum|etransitivity; [|apply (rsum_zero (seq 1 (d1 - 1)))]]; apply rsum_ext; intros k _; unfold up; destruct (0 <? n); ring.
    - rewrite cim_ksum, <- rsum_butlast. apply rsum_ext. intros n _.
      destruct (n <? d0 - 1); [rewrite cim_ksum|etransitivity; [|apply (rsum_zero (seq 1 (d1 - 1)))]]; apply rsum_ext; intros k _; unfold up; destruct (0 <? n); ring.
    - rewrite cre_ksum. rewrite (rsum_ext (fun n => cre _) (fun n => rsum (fun k => if 0 <? n then cre (dn n k) else 0%R) (seq 1 (d1 - 1))) (seq 1 (d0 - 1))).
      + rewrite rsum_from1 by (cbn; apply rsum_zero). apply rsum_ext. intros n _. apply rsum_ext. intros k _. destruct (n <? d0 - 1), (0 <? n); ring.
      + intros n Hn. apply in_seq in Hn. rewrite cre_ksum. destruct n; [lia|]. reflexivity.
    - rewrite cim_ksum. rewrite (rsum_ext (fun n => cim _) (fun n => rsum (fun k => if 0 <? n then cim (dn n k) else 0%R) (seq 1 (d1 - 1))) (seq 1 (d0 - 1))).
      + rewrite rsum_from1 by (cbn; apply rsum_zero). apply rsum_ext. intros n _. apply rsum_ext. intros k _. destruct (n <? d0 - 1), (0 <? n); ring.
      + intros n Hn. apply in_seq in Hn. rewrite cim_ksum. destruct n; [lia|]. reflexivity. }
  destruct G as (-> & -> & -> & ->). reflexivity.
Qed.
End Corr.

(** ** in their final form *)
Lemma modes_fact delta kappa eta nTh dim : 0 < dim -> (0 <= kappa)%R -> (0 <= nTh)%R ->
  exists s i, exSch delta kappa eta nTh dim = Ok s /\ exIP delta kappa eta nTh dim = Ok i /\
    forall sys, sys = s \/ sys = i -> msDim sys = dim /\ no_jump_generator sys (guideGenerator delta kappa eta nTh) /\ Forall2 (describes dim) (msLindblads sys) (guideJumps kappa nTh) /\
      exists loss absorption, msLindblads sys = [loss; absorption] /\ rate_of_jump dim loss (mscale (sqrt (2 * (kappa * (nTh + 1)))) annihilation).
Proof.
  intros Hd Hk Hn. destruct (exSch_ok delta kappa eta nTh dim Hd) as (s & E1 & E2 & E3 & E4). destruct (exIP_ok delta kappa eta nTh dim Hd) as (i & F1 & F2 & F3 & F4).
  exists s, i. split; [exact E1|]. split; [exact F1|]. intros sys [->| ->]; (split; [assumption|]; split; [assumption|]); rewrite ?E3, ?F3; (split; [now apply ex_describes|now apply ex_loss_rate]).
Qed.
Lemma ladder_fact dim t rho : let E A := mean [dim] (kron [A]) rho in exists column,
  shown (exAveraged dim) t rho = [("<number operator>"%string, column); ("real(<ladder operator>)"%string, cre (E annihilation)); (imagLabel, cim (E annihilation))].
Proof. intros E. exists (2 * cre (E number))%R. unfold shown. rewrite ex_vals. reflexivity. Qed.
Definition photon : op := fun y x => if listnat_eqb y [1] && listnat_eqb x [1] then k1 else k0.
Lemma photon_state : state [2] photon.
Proof.
  split.
  - unfold mtrace, isum. cbn [indices seq flat_map map app ksum]. unfold photon. cbn [listnat_eqb Nat.eqb andb]. ring.
  - intros y x _ _. unfold dag, photon. destruct (listnat_eqb y [1]), (listnat_eqb x [1]); cbn [andb]; apply cr_eq; cbn; ring.
Qed.
Lemma number_fact : state [2] photon /\ cre (mean [2] (kron [number]) photon) = 1%R /\
  forall t, exists rest, shown (exAveraged 2) t photon = (("<number operator>"%string, 2%R) :: rest)%list.
Proof.
  assert (N : cre (mean [2] (kron [number]) photon) = 1%R).
  { rewrite mean1. unfold number. rewrite (diag_mean 2 INR). unfold rsum, photon. cbn. ring. }
  split; [exact photon_state|]. split; [exact N|]. intros t. eexists. unfold shown. rewrite ex_vals. cbv zeta beta. rewrite N, Rmult_1_r. reflexivity.
Qed.
Lemma corr_fact d0 d1 m t : 0 < d0 -> 0 < d1 -> state [d0; d1] (indexOf m) -> let E A B := cre (mean [d0; d1] (kron [A; B]) (indexOf m)) in
  shown (exCorrAveraged d0 d1) t (indexOf m) = [("<XQ>", E quadX quadX); ("<XP>", E quadX quadY); ("<YQ>", E quadY quadX); ("<YP>", E quadY quadY)]%string.
Proof. intros H0 H1 Hs E. unfold shown. rewrite (ex_corr d0 d1 m H0 H1 Hs). reflexivity. Qed.
Lemma norm_fact g : g <> 0%R -> exists h, exXX 2 None 2 None g = Ok h /\ ~ norm_kept h [exactRate None; exactRate None] any_state.
Proof.
  intros Hg. destruct (xx_generator 2 None 2 None g I) as (h & E & Dm & _); [lia|lia|]. exists h. split; [exact E|]. intros K. destruct (xx_norm g h E) as (d' & Ed & Er).
  specialize (K [] 0%R bell d' I Ed). rewrite Dm in K. assert (A : norm_rate [2; 2] bell d' = k0).
  { rewrite <- K. unfold norm_rate, isum. f_equal; apply ksum_ext; intros y _; now rewrite !carried_zero. }
  rewrite Er in A. apply (f_equal (@fst R R)) in A. cbn in A. lra.
Qed.
