From Coq Require Import List Arith Bool Lia Reals Lra.
From Verif Require Import Star CReal Arr PureModel PureProofs TriModel TriSpec TriProofs TriPropagate TriLemmas FreeExactModel FreeExactSpec FreeExactProofs
  ElementModel ElementSpec ElementProofs ElementLemmas ModeModel ModeSpec ModeProofs.
Import ListNotations.
Add Ring CRMf : (k_ring CR).

Lemma at_ext sys ts t G G' : (forall m n, m < msDim sys -> n < msDim sys -> G m n = G' m n) -> generator_at sys ts t G -> generator_at sys ts t G'.
Proof.
  intros H. unfold generator_at. destruct (msExact sys) as [z|], (msH sys) as [[td hs]|]; intros K.
  - intros psi m Hm. rewrite K by exact Hm. apply lsum_ext. intros n Hn. now rewrite H.
  - intros m n Hm Hn. rewrite <- H by auto. now apply K.
  - intros psi m Hm. rewrite K by exact Hm. apply lsum_ext. intros n Hn. now rewrite H.
  - intros m n Hm Hn. rewrite <- H by auto. now apply K.
Qed.
Lemma generator_ext sys G G' : (forall m n, m < msDim sys -> n < msDim sys -> G m n = G' m n) -> no_jump_generator sys G -> no_jump_generator sys G'.
Proof. intros H K ts t. eapply at_ext; [exact H|apply K]. Qed.
Definition eigM (z : CR) : mat := fun m n => if m =? n then eigenvalue (EMode z) m else k0.

Definition basis (j : nat) : ket := fun n => if n =? j then k1 else k0.
Lemma lsum_basis dim (f : nat -> CR) j : j < dim -> lsum dim (fun n => kmul (f n) (basis j n)) = f j.
Proof.
  intros H. rewrite (lsum_at dim _ j H).
  - unfold basis. rewrite Nat.eqb_refl. ring.
  - intros n _ Hn. unfold basis. destruct (Nat.eqb_spec n j); [congruence|ring].
Qed.
(** there is only one generator at a time *)
Lemma generator_unique sys ts t G G' : generator_at sys ts t G -> generator_at sys ts t G' ->
  forall m n, m < msDim sys -> n < msDim sys -> G m n = G' m n.
Proof.
  unfold generator_at. destruct (msExact sys) as [z|], (msH sys) as [[td hs]|]; intros H K m n Hm Hn.
  - set (psi := fun k => kmul (cexp (kopp (kmul (RC t) (eigenvalue (EMode z) n)))) (basis n k)).
    assert (L : forall g, lsum (msDim sys) (fun k => kmul (ksub (g m k) (if m =? k then eigenvalue (EMode z) m else k0)) (kmul (uDiag (msDim sys) z t k) (psi k)))
                = ksub (g m n) (if m =? n then eigenvalue (EMode z) m else k0)).
    { intros g. rewrite (lsum_ext _ _ (fun k => kmul (ksub (g m k) (if m =? k then eigenvalue (EMode z) m else k0)) (basis n k))).
      - now apply lsum_basis.
      - intros k Hk. unfold psi, basis. destruct (Nat.eqb_spec k n) as [->|]; [|ring]. rewrite uDiag_spec by exact Hn.
        transitivity (kmul (ksub (g m n) (if m =? n then eigenvalue (EMode z) m else k0))
           (kmul (cexp (kmul (RC t) (eigenvalue (EMode z) n))) (cexp (kopp (kmul (RC t) (eigenvalue (EMode z) n)))))); [ring|]. rewrite cexp_inv. ring. }
    pose proof (eq_trans (eq_sym (H psi m Hm)) (K psi m Hm)) as E. rewrite (L G), (L G') in E.
    set (e := if m =? n then eigenvalue (EMode z) m else k0) in *.
    transitivity (kadd (ksub (G m n) e) e); [ring|]. rewrite E. ring.
  - rewrite H, K by auto. reflexivity.
  - pose proof (eq_trans (eq_sym (H (basis n) m Hm)) (K (basis n) m Hm)) as E.
    rewrite (lsum_basis _ (fun k => G m k)), (lsum_basis _ (fun k => G' m k)) in E by auto. exact E.
  - rewrite H, K by auto. reflexivity.
Qed.

Lemma kerrElem_0 m : kerrElem 0 m = k0.
Proof. unfold kerrElem. apply cr_eq; cbn; ring. Qed.
Definition phaseK (o t : R) (m : nat) : CR := cexp (kmul (RC t) (kerrElem o m)).
Lemma phaseK_conj o t m : kconj (phaseK o t m) = cexp (kopp (kmul (RC t) (kerrElem o m))).
Proof. unfold phaseK. rewrite <- cexp_conj. f_equal. unfold kerrElem. apply cr_eq; cbn; ring. Qed.
Lemma phaseK_inv o t m : kmul (phaseK o t m) (kconj (phaseK o t m)) = k1.
Proof. rewrite phaseK_conj. apply cexp_inv. Qed.
Lemma phaseK_0 t m : phaseK 0 t m = k1.
Proof. unfold phaseK. rewrite kerrElem_0. rewrite <- cexp_0. f_equal. ring. Qed.
Lemma uDiag_up dim z t m o : m < dim -> kmul (uDiag dim z t m) (cexp (kmul (RC t) (mainM z o m))) = phaseK o t m.
Proof.
  intros H. rewrite uDiag_spec by exact H. rewrite <- cexp_add. unfold phaseK. f_equal.
  unfold mainM, eigenvalue. rewrite <- RC_opp. ring.
Qed.
Lemma uDiag_down dim z t m o : m < dim -> cexp (kopp (kmul (RC t) (mainM z o m))) = kmul (kconj (phaseK o t m)) (uDiag dim z t m).
Proof.
  intros H. rewrite uDiag_spec by exact H. rewrite phaseK_conj, <- cexp_add. f_equal. unfold mainM, eigenvalue. rewrite <- RC_opp. ring.
Qed.

(** interaction picture at time t *)
Definition ipM (zSch zI eta : CR) (p : modePars) (t : R) : mat := fun m n =>
  kadd (kadd (kmul (kmul (phaseK (pKerr p) t m) (hOverIM zSch eta (if isNonZero zSch then pKerr p else 0%R) m n)) (kconj (phaseK (pKerr p) t n)))
             (kerrM (pKerrAlter p) m n)) (eigM zI m n).
Lemma withIP_at zSch zI eta p ls : (0 < pCutoff p)%nat ->
  exists sys, withIP zSch zI eta p ls = Ok sys /\ msDim sys = pCutoff p /\ msLindblads sys = ls /\
    forall ts t, generator_at sys ts t (ipM zSch zI eta p t).
Proof.
  intros Hd. destruct (hamiltonianIP_ok zSch zI eta (pKerr p) (pKerrAlter p) (pCutoff p) Hd) as [hs [E A]].
  eexists. unfold withIP. rewrite E. cbn [bind]. split; [reflexivity|]. split; [reflexivity|]. split; [reflexivity|].
  intros ts t. unfold generator_at. cbn [msExact msH msDim]. intros psi m Hm.
  rewrite A by exact Hm. unfold lsum. rewrite <- ksum_scal_l. apply ksum_ext. intros n Hn. apply in_seq in Hn. assert (Hn' : n < pCutoff p) by lia.
  fold (eigM zI m n). set (o1 := if isNonZero zSch then pKerr p else 0%R) in *. unfold ipM. fold o1.
  rewrite (uDiag_down (pCutoff p) zI t n (pKerr p) Hn').
  assert (K : kmul (uDiag (pCutoff p) zI t m) (kerrM (pKerrAlter p) m n) = kmul (kerrM (pKerrAlter p) m n) (uDiag (pCutoff p) zI t n)).
  { unfold kerrM. destruct (Nat.eqb_spec m n) as [->|]; ring. }
  transitivity (kadd (kmul (kmul (kmul (kmul (uDiag (pCutoff p) zI t m) (cexp (kmul (RC t) (mainM zI (pKerr p) m)))) (hOverIM zSch eta o1 m n))
                        (kmul (kconj (phaseK (pKerr p) t n)) (uDiag (pCutoff p) zI t n))) (psi n))
                     (kmul (kmul (uDiag (pCutoff p) zI t m) (kerrM (pKerrAlter p) m n)) (psi n))); [ring|].
  rewrite (uDiag_up (pCutoff p) zI t m (pKerr p) Hm), K. ring.
Qed.
Lemma withIP_generator zSch zI eta p ls : (0 < pCutoff p)%nat -> pKerr p = 0%R \/ eta = k0 ->
  exists sys, withIP zSch zI eta p ls = Ok sys /\ msDim sys = pCutoff p /\ msLindblads sys = ls /\
    no_jump_generator sys (fun m n => kadd (kadd (hOverIM zSch eta (if isNonZero zSch then pKerr p else 0%R) m n) (kerrM (pKerrAlter p) m n)) (eigM zI m n)).
Proof.
  intros Hd Hk. destruct (withIP_at zSch zI eta p ls Hd) as (sys & E1 & E2 & E3 & E4). exists sys. repeat (split; [assumption|]).
  intros ts t. eapply at_ext; [|apply E4]. intros m n _ _. unfold ipM. set (o1 := if isNonZero zSch then pKerr p else 0%R).
  destruct Hk as [Hk|Hk].
  - rewrite Hk, !phaseK_0, kconj_1. ring.
  - subst eta. unfold hOverIM. rewrite pumpM_0. destruct (Nat.eqb_spec m n) as [->|]; [|ring].
    transitivity (kadd (kadd (kmul (kmul (phaseK (pKerr p) t n) (kconj (phaseK (pKerr p) t n))) (kadd (mainM (kopp zSch) o1 n) k0)) (kerrM (pKerrAlter p) n n)) (eigM zI n n)); [ring|].
    rewrite phaseK_inv. ring.
Qed.
Definition schM (z eta : CR) (p : modePars) : mat := fun m n => kadd (hOverIM z eta (if isNonZero z then pKerr p else 0%R) m n) (kerrM (pKerrAlter p) m n).
Lemma withSch_generator z eta p ls : (0 < pCutoff p)%nat ->
  exists sys, withSch z eta p ls = Ok sys /\ msDim sys = pCutoff p /\ msLindblads sys = ls /\ no_jump_generator sys (schM z eta p).
Proof.
  intros Hd. destruct (hamiltonianSch_ok z eta (pKerr p) (pKerrAlter p) (pCutoff p) Hd) as [hs [E A]].
  eexists. unfold withSch. rewrite E. cbn [bind]. split; [reflexivity|]. split; [reflexivity|]. split; [reflexivity|].
  intros ts t. unfold generator_at. cbn [msExact msH msDim]. intros psi m Hm. now apply A.
Qed.

(** the matrices are those of the generator *)
Lemma gen_exact p z : pEta p = k0 -> pKerr p = 0%R -> pKerrAlter p = 0%R -> z = ((pKappa p * (2 * pNTh p + 1), - pDelta p)%R : CR) ->
  forall m n, eigM z m n = modeGenerator p m n.
Proof.
  intros E1 E2 E3 -> m n. unfold modeGenerator, eigM, eigenvalue. fold (pumpM (pEta p) m n). rewrite E1, E2, E3, pumpM_0.
  destruct (m =? n); [|ring]. apply cr_eq; cbn; ring.
Qed.
Lemma gen_sch p z o : z = ((pKappa p * (2 * pNTh p + 1), - pDelta p)%R : CR) -> o = pKerr p ->
  forall m n, kadd (hOverIM z (pEta p) o m n) (kerrM (pKerrAlter p) m n) = modeGenerator p m n.
Proof.
  intros -> -> m n. unfold modeGenerator, hOverIM, kerrM, mainM, kerrElem. fold (pumpM (pEta p) m n). destruct (m =? n).
  - generalize (pumpM (pEta p) m n); intros [a b]. apply cr_eq; cbn; ring.
  - ring.
Qed.
Lemma gen_ip p zSch zI o : kadd zSch zI = ((pKappa p * (2 * pNTh p + 1), - pDelta p)%R : CR) -> o = pKerr p ->
  forall m n, kadd (kadd (hOverIM zSch (pEta p) o m n) (kerrM (pKerrAlter p) m n)) (eigM zI m n) = modeGenerator p m n.
Proof.
  intros E -> m n. rewrite <- (gen_sch p _ (pKerr p) E eq_refl m n). unfold hOverIM, eigM, eigenvalue, mainM, kerrM.
  destruct (m =? n); [|ring]. rewrite <- RC_opp. ring.
Qed.
Lemma kappa_nonzero p : pKappa p <> 0%R -> (0 <= pNTh p)%R -> (pKappa p * (2 * pNTh p + 1) <> 0)%R.
Proof. intros H1 H2 H. apply Rmult_integral in H. destruct H; [contradiction|lra]. Qed.
Lemma decay_at p : decayRate (negb (Reqb (pNTh p) 0)) p = (pKappa p * (2 * pNTh p + 1))%R.
Proof. unfold decayRate, Reqb. destruct (Req_EM_T (pNTh p) 0) as [E|E]; cbn [negb]; [rewrite E; ring|reflexivity]. Qed.
Lemma pair_nonzero (a b : R) : (a <> 0)%R -> ((a, b) : CR) <> k0.
Proof. intros H E. apply (f_equal fst) in E. cbn in E. contradiction. Qed.

Definition loss_part (p : modePars) : list lindbladOp :=
  if Reqb (pKappa p) 0 then [] else if Reqb (pNTh p) 0 then modeLoss false (pCutoff p) (pKappa p) else modeThermal false (pCutoff p) (pKappa p) (pNTh p).

Lemma make_generator p qmp : (0 < pCutoff p)%nat -> (0 <= pNTh p)%R -> kerr_honoured p qmp ->
  exists sys, make p qmp = Ok sys /\ msDim sys = pCutoff p /\ msLindblads sys = loss_part p /\ no_jump_generator sys (modeGenerator p).
Proof.
  intros Hd Hn [K1 K2]. unfold make, makePumped, makeLossy, makePlain, loss_part.
  pose proof (decay_at p) as Dr. pose proof (kappa_nonzero p) as Kn.
  assert (Ls : forall temp, temp = negb (Reqb (pNTh p) 0) -> modeLindblads temp false p =
            if Reqb (pNTh p) 0 then modeLoss false (pCutoff p) (pKappa p) else modeThermal false (pCutoff p) (pKappa p) (pNTh p)).
  { intros temp ->. unfold modeLindblads. destruct (Reqb (pNTh p) 0); reflexivity. }
  specialize (Ls _ eq_refl).
  remember (negb (Reqb (pNTh p) 0)) as temp eqn:Et.
  assert (EE : isNonZero (pEta p) = true /\ pEta p <> k0 \/ isNonZero (pEta p) = false /\ pEta p = k0).
  { destruct (isNonZero (pEta p)) eqn:E; [left; split; auto; now apply isNonZero_spec|right; split; auto; now apply isNonZero_false]. }
  assert (KE : Reqb (pKappa p) 0 = true /\ pKappa p = 0%R \/ Reqb (pKappa p) 0 = false /\ pKappa p <> 0%R).
  { unfold Reqb. destruct (Req_EM_T (pKappa p) 0); auto. }
  assert (Sch : forall z eta ls, eta = pEta p -> z = ((pKappa p * (2 * pNTh p + 1), - pDelta p)%R : CR) -> qmp = SCH ->
    exists sys, withSch z eta p ls = Ok sys /\ msDim sys = pCutoff p /\ msLindblads sys = ls /\ no_jump_generator sys (modeGenerator p)).
  { intros z eta ls -> Hz Hq. destruct (withSch_generator z (pEta p) p ls Hd) as (sys & E1 & E2 & E3 & E4). exists sys. repeat (split; [assumption|]).
    eapply generator_ext; [|exact E4]. intros m n _ _. cbn beta. apply gen_sch; auto.
    destruct (isNonZero z) eqn:Ez; auto. destruct K1 as [K1|[[_ K1]|[K1 _]]]; [auto| |congruence].
    apply isNonZero_false in Ez. rewrite Hz in Ez. exfalso. apply K1. exact Ez. }
  assert (Ip : forall zSch zI eta ls, eta = pEta p -> kadd zSch zI = ((pKappa p * (2 * pNTh p + 1), - pDelta p)%R : CR) ->
      pKerr p = 0%R \/ (pEta p = k0 /\ zSch <> k0) ->
    exists sys, withIP zSch zI eta p ls = Ok sys /\ msDim sys = pCutoff p /\ msLindblads sys = ls /\ no_jump_generator sys (modeGenerator p)).
  { intros zSch zI eta ls -> Hz Hk. destruct (withIP_generator zSch zI (pEta p) p ls Hd) as (sys & E1 & E2 & E3 & E4); [tauto|].
    exists sys. repeat (split; [assumption|]).
    eapply generator_ext; [|exact E4]. intros m n _ _. cbn beta. apply gen_ip; auto.
    destruct (isNonZero zSch) eqn:Ez; auto. apply isNonZero_false in Ez. destruct Hk as [Hk|[_ Hk]]; [auto|contradiction]. }
  assert (Ex : forall z ls, z = ((pKappa p * (2 * pNTh p + 1), - pDelta p)%R : CR) -> pEta p = k0 -> qmp <> SCH -> (pKappa p = 0%R \/ qmp = IP) ->
    no_jump_generator (mkMode (pCutoff p) (Some z) None ls) (modeGenerator p)).
  { intros z ls Hz He Hq Hq'. intros ts t. unfold generator_at. cbn [msExact msH msDim]. intros m n _ _.
    assert (P1 : pKerr p = 0%R). { destruct K1 as [K1|[[K1 _]|(K1 & K1' & _)]]; auto; [congruence|]. destruct Hq' as [Hq'|Hq']; [|congruence].
      rewrite Hq' in K1'. exfalso. apply K1'. ring. }
    assert (P2 : pKerrAlter p = 0%R). { destruct K2 as [K2|[K2|[K2|[K2 K2']]]]; auto; [congruence|contradiction|]. destruct Hq'; [contradiction|congruence]. }
    symmetry. now apply (gen_exact p z). }
  destruct KE as [[KE Kk]|[KE Kk]], EE as [[EE Ee]|[EE Ee]]; rewrite KE, ?EE; cbn [negb].
  - (* pumped *)
    destruct qmp; cbn [switch]; [apply Ip|apply Ip|apply Sch]; auto; try (rewrite Kk; apply cr_eq; cbn; ring);
      destruct K1 as [K1|[[K1 _]|(_ & K1 & _)]]; auto; try discriminate; exfalso; apply K1; rewrite Kk; ring.
  - (* plain *)
    destruct qmp; cbn [switch].
    + eexists. split; [reflexivity|]. split; [reflexivity|]. split; [reflexivity|]. apply Ex; auto; [rewrite Kk; apply cr_eq; cbn; ring|discriminate].
    + eexists. split; [reflexivity|]. split; [reflexivity|]. split; [reflexivity|]. apply Ex; auto; [rewrite Kk; apply cr_eq; cbn; ring|discriminate].
    + apply Sch; auto; rewrite Kk; apply cr_eq; cbn; ring.
  - (* pumped and lossy *)
    destruct qmp; cbn [switch]; rewrite <- Ls; [apply Ip|apply Ip|apply Sch]; auto; try (rewrite Dr; apply cr_eq; cbn; ring);
      destruct K1 as [K1|[[K1 _]|(_ & _ & K1)]]; auto; try discriminate; contradiction.
  - (* lossy *)
    destruct qmp; cbn [switch]; rewrite <- Ls.
    + eexists. split; [reflexivity|]. split; [reflexivity|]. split; [reflexivity|]. apply Ex; auto; [rewrite Dr; reflexivity|discriminate].
    + assert (Hz : ((decayRate temp p, 0)%R : CR) <> k0) by (apply pair_nonzero; rewrite Dr; now apply Kn).
      apply Ip; auto; rewrite Dr; apply cr_eq; cbn; ring.
    + apply Sch; auto. rewrite Dr. reflexivity.
Qed.
