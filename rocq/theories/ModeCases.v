(** Concrete cases of modes with Kerr terms. *)
From Coq Require Import List Arith Bool Lia Reals Lra.
From Verif Require Import Star CReal Arr PureModel PureProofs TriModel FreeExactModel FreeExactSpec
  ElementModel ElementSpec ElementProofs ElementLemmas ModeModel ModeSpec ModeProofs ModeFacts.
Import ListNotations.
Add Ring CRMc : (k_ring CR).

Lemma Reqb_true x : Reqb x x = true. Proof. unfold Reqb. destruct (Req_EM_T x x); congruence. Qed.
Lemma nonzero_1 : isNonZero (k1 : CR) = true.
Proof. apply isNonZero_spec. intros E. apply (f_equal fst) in E. cbn in E. lra. Qed.
Lemma nonzero_0 : isNonZero (k0 : CR) = false.
Proof. now apply isNonZero_false. Qed.

Definition kerrPumped : modePars := mkPars 0 1 0 3 k1 0 0.
Lemma kerr_ip_refuted : exists p sys, pCutoff p = 3%nat /\ make p IP = Ok sys /\ forall G, ~ no_jump_generator sys G.
Proof.
  destruct (hamiltonianIP_ok k0 (0, - 0)%R k1 1 0 3) as [hs [E A]]; [lia|].
  exists kerrPumped. eexists. split; [reflexivity|]. split.
  { unfold make, makePumped, kerrPumped. cbn [pKappa pEta]. rewrite Reqb_true, nonzero_1. cbn [negb switch].
    unfold cPumpedMode, withIP. cbn [pDelta pEta pKerr pKerrAlter pCutoff]. rewrite E. reflexivity. }
  intros G. unfold no_jump_generator, generator_at. cbn [msExact msH msDim kerrPumped pCutoff]. intros H.
  pose proof (H [] 0%R (basis 1) 2%nat ltac:(lia)) as H0. pose proof (H [] (PI / 2)%R (basis 1) 2%nat ltac:(lia)) as H1. clear H.
  rewrite A in H0, H1 by lia. cbv beta in H0, H1.
  rewrite (lsum_basis 3 (fun n => kadd (kmul (kmul (cexp (kmul (RC 0) (mainM (0, - 0)%R 1 2))) (hOverIM k0 k1 (if isNonZero k0 then 1%R else 0%R) 2 n))
                                          (cexp (kopp (kmul (RC 0) (mainM (0, - 0)%R 1 n))))) (kerrM 0 2 n))) in H0 by lia.
  rewrite (lsum_basis 3 (fun n => kadd (kmul (kmul (cexp (kmul (RC (PI / 2)) (mainM (0, - 0)%R 1 2))) (hOverIM k0 k1 (if isNonZero k0 then 1%R else 0%R) 2 n))
                                          (cexp (kopp (kmul (RC (PI / 2)) (mainM (0, - 0)%R 1 n))))) (kerrM 0 2 n))) in H1 by lia.
  assert (U : forall t m, (m < 3)%nat -> uDiag 3 (0, - 0)%R t m = k1).
  { intros t m Hm. rewrite uDiag_spec by exact Hm. rewrite <- cexp_0. f_equal. unfold eigenvalue. apply cr_eq; cbn; ring. }
  assert (R : forall t, lsum 3 (fun n => kmul (ksub (G 2%nat n) (if 2 =? n then eigenvalue (EMode ((0, - 0)%R : CR)) 2 else k0)) (kmul (uDiag 3 (0, - 0)%R t n) (basis 1 n))) = G 2%nat 1%nat).
  { intros t. rewrite (lsum_ext 3 _ (fun n => kmul (ksub (G 2%nat n) (if 2 =? n then eigenvalue (EMode ((0, - 0)%R : CR)) 2 else k0)) (basis 1 n))).
    - rewrite lsum_basis by lia. cbn [Nat.eqb]. ring.
    - intros n Hn. rewrite U by lia. ring. }
  rewrite R in H0, H1. rewrite U in H0, H1 by lia. rewrite nonzero_0 in H0, H1.
  assert (P1 : hOverIM k0 k1 0 2 1 = RC (sqrt 2)).
  { unfold hOverIM, pumpM, creation, annihilation. cbn [Nat.eqb Nat.add]. replace (INR 2) with 2%R by (cbn; ring). apply cr_eq; cbn; ring. }
  assert (P2 : kerrM 0 2 1 = k0) by reflexivity.
  assert (P3 : forall t, cexp (kopp (kmul (RC t) (mainM (0, - 0)%R 1 1))) = k1).
  { intros t. rewrite <- cexp_0. f_equal. unfold mainM, kerrElem. apply cr_eq; cbn; ring. }
  rewrite P1, P2, !P3 in H0, H1. clear R U A E P1 P2 P3.
  rewrite <- H0 in H1. clear H0.
  assert (X0 : cexp (kmul (RC 0) (mainM (0, - 0)%R 1 2)) = k1).
  { rewrite <- cexp_0. f_equal. apply cr_eq; cbn; ring. }
  assert (X1 : cexp (kmul (RC (PI / 2)) (mainM (0, - 0)%R 1 2)) = kopp k1).
  { replace (kmul (RC (PI / 2)) (mainM (0, - 0)%R 1 2)) with ((0, - PI)%R : CR) by (apply cr_eq; cbn; field).
    unfold cexp. cbn [fst snd cre cim]. rewrite cos_neg, sin_neg, cos_PI, sin_PI, exp_0. apply cr_eq; cbn; ring. }
  rewrite X0, X1 in H1. apply (f_equal fst) in H1. cbn in H1. assert (0 < sqrt 2)%R by (apply sqrt_lt_R0; lra). lra.
Qed.

Lemma generator_22 p : pDelta p = 0%R -> pKappa p = 0%R -> pEta p = k0 -> modeGenerator p 2 2 = ((0, - (2 * (pKerr p + pKerrAlter p)))%R : CR).
Proof.
  intros E1 E2 E3. unfold modeGenerator. fold (pumpM (pEta p) 2 2). rewrite E1, E2, E3, pumpM_0. cbn [Nat.eqb]. apply cr_eq; cbn; ring.
Qed.
Definition kerrStatic : modePars := mkPars 0 1 0 3 k0 0 0.
Lemma kerr_sch_refuted : exists p sys, pCutoff p = 3%nat /\ make p SCH = Ok sys /\ ~ no_jump_generator sys (modeGenerator p).
Proof.
  destruct (hamiltonianSch_ok k0 k0 1 0 3) as [hs [E A]]; [lia|].
  exists kerrStatic. eexists. split; [reflexivity|]. split.
  { unfold make, makePumped, kerrStatic. cbn [pKappa pEta]. rewrite Reqb_true, nonzero_0. cbn [negb makePlain switch].
    unfold cModeSch, withSch. cbn [pDelta pEta pKerr pKerrAlter pCutoff].
    replace ((0, - 0)%R : CR) with (k0 : CR) by (apply cr_eq; cbn; ring). rewrite E. reflexivity. }
  unfold no_jump_generator, generator_at. cbn [msExact msH msDim kerrStatic pCutoff]. intros H.
  specialize (H [] 0%R (basis 2) 2%nat ltac:(lia)). rewrite A in H by lia. rewrite nonzero_0 in H.
  rewrite (lsum_basis 3 (fun n => kadd (hOverIM k0 k0 0 2 n) (kerrM 0 2 n))) in H by lia.
  rewrite (lsum_basis 3 (fun n => modeGenerator _ 2 n)) in H by lia. rewrite generator_22 in H by reflexivity.
  cbn [pKerr pKerrAlter] in H. unfold hOverIM, kerrM, mainM in H. rewrite !kerrElem_0, pumpM_0 in H.
  apply (f_equal snd) in H. cbn in H. lra.
Qed.
Definition kerrAlter : modePars := mkPars 0 0 1 3 k0 0 0.
Lemma kerrAlter_ip_refuted : exists p sys, pCutoff p = 3%nat /\ make p IP = Ok sys /\ ~ no_jump_generator sys (modeGenerator p) /\
  exists sys', make p SCH = Ok sys' /\ no_jump_generator sys' (modeGenerator p).
Proof.
  exists kerrAlter. eexists. split; [reflexivity|]. split.
  { unfold make, makePumped, kerrAlter. cbn [pKappa pEta]. rewrite Reqb_true, nonzero_0. cbn [negb makePlain switch]. reflexivity. }
  split.
  - unfold no_jump_generator, generator_at. cbn [msExact msH msDim kerrAlter pCutoff]. intros H. specialize (H [] 0%R 2%nat 2%nat ltac:(lia) ltac:(lia)).
    rewrite generator_22 in H by reflexivity. cbn [Nat.eqb pKerr pKerrAlter pDelta] in H. unfold eigenvalue in H.
    apply (f_equal snd) in H. cbn in H. lra.
  - destruct (make_generator kerrAlter SCH) as (sys & E & _ & _ & G).
    + cbn; lia.
    + cbn; lra.
    + split; [left; reflexivity|right; left; reflexivity].
    + eauto.
Qed.
