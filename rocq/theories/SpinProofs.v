From Coq Require Import List Arith Bool Lia Reals Lra.
From Verif Require Import Star CReal Arr PureModel PureProofs TriModel TriSpec TriProofs TriPropagate FreeExactModel FreeExactSpec
  ElementModel ElementSpec ElementProofs ElementLemmas ElementFacts ModeModel ModeSpec ModeProofs ModeFacts DampSpec DampProofs.
Import ListNotations.
Add Ring CRSp : (k_ring CR).

Definition raiseM (dim twoS : nat) : mat := fun y x => if andb (y =? x + 1) (1 <? dim) then RC (sqrt ((INR twoS - INR x) * (INR x + 1))) else k0.
Lemma splus_good dim twoS : (0 < dim)%nat -> exists t, splus dim twoS = Ok t /\ good dim t 1 (raiseM dim twoS).
Proof.
  intros Hd. assert (E : exists t, splus dim twoS = Ok t).
  { unfold splus, unary, compatible. cbn [nonempty negb asize noDiag emptyArr ash repeat fold_right Nat.mul Nat.eqb orb andb].
    rewrite ?andb_false_r, ?orb_true_r. cbn. eauto. }
  destruct E as [t E]. exists t. split; [exact E|].
  destruct (unary_wf 0%R noDiag 1 (vecOf (dim - 1) (fun i => RC (sqrt ((INR twoS - INR i) * (INR i + 1))))) noDiag 0 (dim - 1) 0 t eq_refl eq_refl eq_refl) as (W & Wf & Tm & Df & Dm & Mt); [lia|exact E|].
  split; [exact W|]. split; [now apply (unary_noFreqs _ _ _ _ _ E)|]. split; [exact Tm|].
  split.
  { rewrite Dm. cbn [Nat.eqb]. f_equal. destruct (Nat.eqb_spec (dim - 1) 0); lia. }
  split; [exact Df|].
  intros y x. rewrite Mt, elem_vecOf. unfold elem. rewrite empty_noFreq. unfold raiseM.
  destruct (Nat.eqb_spec (dim - 1) 0), (Nat.ltb_spec 1 dim); try lia; destruct (y =? x), (y =? x + 1), (x =? y + 1); cbn [andb]; ring.
Qed.
Lemma raiseM_spec dim twoS y x : (dim <= twoS + 1)%nat -> y < dim -> raiseM dim twoS y x = spinLower twoS x y.
Proof.
  intros Hd Hy. unfold raiseM, spinLower. destruct (Nat.eqb_spec y (x + 1)) as [->|]; cbn [andb]; [|reflexivity].
  replace (1 <? dim) with true by (symmetry; apply Nat.ltb_lt; lia). do 2 f_equal. rewrite mult_INR, minus_INR, plus_INR by lia. cbn [INR]. ring.
Qed.
Lemma spinLower_real twoS m n : kconj (spinLower twoS m n) = spinLower twoS m n.
Proof. unfold spinLower. destruct (n =? m + 1); [apply RC_conj|apply kconj_0]. Qed.
Lemma cexp_i x : cexp (0, x)%R = kadd (RC (cos x)) (kmul CI (RC (sin x))).
Proof. unfold cexp. cbn [fst snd]. rewrite exp_0. apply cr_eq; cbn; ring. Qed.

Lemma sn_good dim twoS theta phi : (0 < dim)%nat -> (dim <= twoS + 1)%nat ->
  exists t, sn dim twoS theta phi = Ok t /\ goodIn dim t 1 (spinN twoS theta phi).
Proof.
  intros Hd Hs. destruct (splus_good dim twoS Hd) as [s [Es Gs]].
  destruct (add_good dim s (dagger s) 1 1 _ _ Gs (dagger_good _ _ _ _ Gs)) as [x [Ex Gx]]; [auto|].
  destruct (add_good dim s (neg (dagger s)) 1 1 _ _ Gs (neg_good _ _ _ _ (dagger_good _ _ _ _ Gs))) as [y [Ey Gy]]; [auto|].
  destruct (ofDiagonal_good dim (fun i => RC (INR i - INR twoS / 2)) Hd) as [z [Ez Gz]].
  cbn [Nat.eqb] in Gx, Gy.
  destruct (add_good dim (scale (RC (cos phi)) (scale (RC (/ 2)) x)) (scale (RC (sin phi)) (scale (kmul (RC (/ 2)) (kopp CI)) y)) 1 1 _ _
    (scale_good _ _ _ _ _ (scale_good _ _ _ _ _ Gx)) (scale_good _ _ _ _ _ (scale_good _ _ _ _ _ Gy))) as [xy [Exy Gxy]]; [auto|]. cbn [Nat.eqb] in Gxy.
  destruct (add_good dim (scale (RC (sin theta)) xy) (scale (RC (cos theta)) z) 1 0 _ _ (scale_good _ _ _ _ _ Gxy) (scale_good _ _ _ _ _ Gz)) as [n [En Gn]]; [auto|].
  cbn [Nat.eqb] in Gn. exists n. split.
  - unfold sn, sx, sy, sz, sub. rewrite Es. cbn [bind]. rewrite Ex. cbn [bind]. rewrite Ey. cbn [bind]. rewrite Ez. cbn [bind]. rewrite Exy. cbn [bind]. exact En.
  - eexists. split; [exact Gn|]. intros i j Hi Hj. cbn beta. rewrite !raiseM_spec by auto. unfold spinN. rewrite spinLower_real, !cexp_i, cos_neg, sin_neg.
    generalize (spinLower twoS j i) (spinLower twoS i j). intros [a b] [c d].
    destruct (i =? j); apply cr_eq; cbn; field.
Qed.
Lemma spinN_herm twoS theta phi m n : kconj (spinN twoS theta phi n m) = spinN twoS theta phi m n.
Proof.
  unfold spinN. rewrite kconj_add, kconj_mul, kconj_add, !kconj_mul, !spinLower_real, !cexp_i, cos_neg, sin_neg. rewrite (Nat.eqb_sym n m).
  generalize (spinLower twoS m n) (spinLower twoS n m). intros [a b] [c d].
  destruct (Nat.eqb_spec m n) as [->|]; apply cr_eq; cbn; ring.
Qed.

Lemma spinSch_generator twoS dimPar theta phi omega gamma : let dim := decideDimension twoS dimPar in
  exists sys, lossySpinSch twoS dimPar theta phi omega gamma = Ok sys /\ msDim sys = dim /\ msLindblads sys = spinLoss dim twoS gamma /\
    no_jump_generator sys (fun m n => kmul (kopp ((gamma, omega) : CR)) (spinN twoS theta phi m n)).
Proof.
  intros dim. assert (Hd : (0 < dim)%nat). { unfold dim, decideDimension. destruct (Nat.eqb_spec dimPar 0); cbn [negb andb]; [lia|]. destruct (Nat.ltb_spec dimPar (twoS + 1)); lia. }
  destruct (sn_good dim twoS theta phi Hd (decide_le twoS dimPar)) as [s [Es [M [(A1 & A2 & A3 & A4 & A5 & A6) HM]]]].
  eexists. unfold lossySpinSch. fold dim. rewrite Es. cbn [bind]. split; [reflexivity|]. split; [reflexivity|]. split; [reflexivity|].
  intros ts t. unfold generator_at. cbn [msExact msH msDim]. intros psi m Hm. unfold hAction. rewrite after_const. cbn [addContribution snd fold_left].
  rewrite (apply1 _ dim 1 (fun m n => kmul (kopp ((gamma, omega) : CR)) (spinN twoS theta phi m n))); auto.
  - cbn [nth]. ring.
  - intros y x Hy Hx. rewrite scale_matrix, A6, HM by auto. reflexivity.
Qed.
(** the two pictures *)
Lemma spin_pictures twoS dimPar omega gamma : exists sys sys', lossySpin twoS dimPar omega gamma = Ok sys /\ lossySpinSch twoS dimPar 0 0 omega gamma = Ok sys' /\
  msDim sys = decideDimension twoS dimPar /\ msDim sys' = msDim sys /\ msLindblads sys' = msLindblads sys /\
  (exists G, no_jump_generator sys G) /\
  forall G, no_jump_generator sys G ->
    no_jump_generator sys' (fun m n => kadd (G m n) (if m =? n then kmul ((gamma, omega) : CR) (RC (INR twoS / 2)) else k0)).
Proof.
  destruct (spinSch_generator twoS dimPar 0 0 omega gamma) as (sys' & E1 & E2 & E3 & E4).
  eexists _, sys'. split; [reflexivity|]. split; [exact E1|]. split; [reflexivity|]. split; [exact E2|]. split; [exact E3|].
  split; [exists (eigM ((gamma, omega) : CR)); intros ts t; unfold generator_at; cbn [msExact msH msDim]; reflexivity|].
  intros G HG. eapply generator_ext; [|exact E4]. intros m n Hm Hn. cbn beta.
  specialize (HG [] 0%R). unfold generator_at in HG. cbn [msExact msH msDim] in HG. rewrite HG by (rewrite <- E2; auto).
  unfold spinN, eigenvalue. rewrite sin_0, cos_0. generalize (cexp (0, 0)%R) (cexp (0, - 0)%R) (spinLower twoS m n) (spinLower twoS n m). intros [a b] [a' b'] [c d] [c' d'].
  destruct (m =? n); apply cr_eq; cbn; field.
Qed.

Lemma spin_damping_half dimPar omega gamma : (0 <= gamma)%R -> let dim := decideDimension 1 dimPar in
  exists sys sys', lossySpin 1 dimPar omega gamma = Ok sys /\ lossySpinSch 1 dimPar 0 0 omega gamma = Ok sys' /\
    Forall2 (describes dim) (msLindblads sys) [mscale (sqrt (2 * gamma)) (spinLower 1)] /\
    Forall2 (describes dim) (msLindblads sys') [mscale (sqrt (2 * gamma)) (spinLower 1)] /\
    (forall G, no_jump_generator sys G -> damping_matches dim everywhere G 0 [mscale (sqrt (2 * gamma)) (spinLower 1)]) /\
    (forall G, no_jump_generator sys' G -> damping_matches dim everywhere G gamma [mscale (sqrt (2 * gamma)) (spinLower 1)]).
Proof.
  intros Hg dim. destruct (spin_pictures 1 dimPar omega gamma) as (sys & sys' & E1 & E2 & E3 & E4 & E5 & [G0 HG0] & E6).
  exists sys, sys'. split; [exact E1|]. split; [exact E2|].
  assert (D : Forall2 (describes dim) (msLindblads sys) [mscale (sqrt (2 * gamma)) (spinLower 1)]).
  { unfold lossySpin in E1. injection E1 as <-. cbn [msLindblads]. constructor; [apply spin_describes|constructor]. }
  split; [exact D|]. split; [rewrite E5; exact D|].
  assert (B : forall G, no_jump_generator sys G -> damping_matches dim everywhere G 0 [mscale (sqrt (2 * gamma)) (spinLower 1)]).
  { intros G HG m n Hm Hn _. unfold lossySpin in E1. injection E1 as <-.
    destruct (damped_exact dim ((gamma, omega) : CR) (spinLoss dim 1 gamma) [] 0%R) as [_ H].
    rewrite (H G (HG [] 0%R) m n Hm Hn). unfold ksum; cbn [map fold_right].
    pose proof (decide_le 1 dimPar). fold dim in H0. rewrite jdagj_spin by (auto; lia). unfold diagR. destruct (m =? n); [|ring].
    assert (m = 0 \/ m = 1)%nat as [-> | ->] by lia; apply cr_eq; cbn; ring. }
  split; [exact B|]. intros G HG m n Hm Hn Hk.
  assert (U : forall i j, i < dim -> j < dim -> G i j = kadd (G0 i j) (if i =? j then kmul ((gamma, omega) : CR) (RC (INR 1 / 2)) else k0)).
  { intros i j Hi Hj. apply (generator_unique sys' [] 0%R G _ (HG [] 0%R) (E6 G0 HG0 [] 0%R)); rewrite E4, E3; auto. }
  rewrite !U by auto. rewrite kconj_add. pose proof (B G0 HG0 m n Hm Hn Hk) as Bm.
  transitivity (kadd (kadd (G0 m n) (kconj (G0 n m))) (kadd (if m =? n then kmul ((gamma, omega) : CR) (RC (INR 1 / 2)) else k0)
    (kconj (if n =? m then kmul ((gamma, omega) : CR) (RC (INR 1 / 2)) else k0)))); [ring|].
  rewrite Bm, (Nat.eqb_sym n m). set (s := ksum _ _). clearbody s. destruct s as [a b]. destruct (m =? n); apply cr_eq; cbn; field.
Qed.
Lemma spin_damping_refuted twoS dimPar omega gamma : (2 <= twoS)%nat -> dimPar <> 1%nat -> (0 < gamma)%R -> let dim := decideDimension twoS dimPar in
  exists sys, lossySpin twoS dimPar omega gamma = Ok sys /\ Forall2 (describes dim) (msLindblads sys) [mscale (sqrt (2 * gamma)) (spinLower twoS)] /\
    forall G c, no_jump_generator sys G -> ~ damping_matches dim everywhere G c [mscale (sqrt (2 * gamma)) (spinLower twoS)].
Proof.
  intros Hs Hd Hg dim. eexists. split; [reflexivity|]. split; [cbn [msLindblads]; constructor; [apply spin_describes|constructor]|].
  intros G c HG D. fold dim in HG.
  destruct (damped_exact dim ((gamma, omega) : CR) (spinLoss dim twoS gamma) [] 0%R) as [_ H]. specialize (H G (HG [] 0%R)).
  assert (L : (2 <= dim)%nat). { unfold dim, decideDimension. destruct (Nat.eqb_spec dimPar 0); cbn [negb andb]; [lia|]. destruct (Nat.ltb_spec dimPar (twoS + 1)); lia. }
  pose proof (decide_le twoS dimPar) as Le. fold dim in Le.
  pose proof (D 0%nat 0%nat ltac:(lia) ltac:(lia) I) as D0. pose proof (D 1%nat 1%nat ltac:(lia) ltac:(lia) I) as D1.
  rewrite H in D0, D1 by (cbn [msDim]; lia). unfold ksum in D0, D1; cbn [map fold_right] in D0, D1.
  rewrite jdagj_spin in D0, D1 by (lra || lia). unfold diagR in D0, D1. cbn [Nat.eqb] in D0, D1. replace (twoS - 1 + 1)%nat with twoS in D1 by lia.
  apply (f_equal fst) in D0. apply (f_equal fst) in D1. cbn -[INR] in D0, D1. cbn [INR] in D0, D1.
  assert (2 <= INR twoS)%R by (change 2%R with (INR 2); apply le_INR; lia).
  assert (c = 0)%R by lra. subst c. assert (2 * gamma <= gamma * INR twoS)%R by (rewrite (Rmult_comm 2); apply Rmult_le_compat_l; lra). lra.
Qed.
(** a spin of size 1/2 in the x direction *)
Lemma spin_tilted_refuted : exists theta omega gamma sys, (0 < gamma)%R /\ lossySpinSch 1 0 theta 0 omega gamma = Ok sys /\
    Forall2 (describes 2) (msLindblads sys) [mscale (sqrt (2 * gamma)) (spinLower 1)] /\
    forall G c, no_jump_generator sys G -> ~ damping_matches 2 everywhere G c [mscale (sqrt (2 * gamma)) (spinLower 1)].
Proof.
  destruct (spinSch_generator 1 0 (PI / 2) 0 0 1) as (sys & E1 & E2 & E3 & E4).
  exists (PI / 2)%R, 0%R, 1%R, sys. split; [lra|]. split; [exact E1|]. split; [rewrite E3; constructor; [apply spin_describes|constructor]|].
  intros G c HG D.
  assert (U : forall i j, i < 2 -> j < 2 -> G i j = kmul (kopp ((1, 0)%R : CR)) (spinN 1 (PI / 2) 0 i j)).
  { intros i j Hi Hj. apply (generator_unique sys [] 0%R G _ (HG [] 0%R) (E4 [] 0%R)); rewrite E2; auto. }
  specialize (D 0%nat 1%nat ltac:(lia) ltac:(lia) I). rewrite !U in D by lia. unfold ksum in D; cbn [map fold_right] in D.
  rewrite jdagj_spin in D by (lra || lia). cbn [Nat.eqb] in D. unfold spinN, spinLower in D. cbn [Nat.eqb Nat.add Nat.mul Nat.sub] in D.
  rewrite sin_PI2 in D. replace (INR 1) with 1%R in D by reflexivity. rewrite sqrt_1 in D. rewrite !cexp_i, cos_neg, sin_neg, cos_0, sin_0 in D.
  apply (f_equal fst) in D. cbn in D. lra.
Qed.
