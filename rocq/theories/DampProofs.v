From Coq Require Import List Arith Bool Lia Reals Lra.
From Verif Require Import Star CReal Arr PureModel PureProofs TriModel FreeExactModel FreeExactSpec
  ElementModel ElementSpec ElementProofs ElementLemmas ElementFacts ModeModel ModeSpec ModeProofs ModeFacts DampSpec.
Import ListNotations.
Add Ring CRDp : (k_ring CR).

(** Hermitian parts *)
Definition diagR (f : nat -> R) : mat := fun m n => if m =? n then RC (f m) else k0.
Lemma pumpM_anti eta m n : kadd (pumpM eta m n) (kconj (pumpM eta n m)) = k0.
Proof. unfold pumpM. rewrite kconj_sub, !kconj_mul, kconj_invol, creation_conj, annihilation_conj. ring. Qed.
Lemma kerrElem_anti o m : kadd (kerrElem o m) (kconj (kerrElem o m)) = k0.
Proof. unfold kerrElem. apply cr_eq; cbn; ring. Qed.
Lemma herm_hOverI z eta o m n : kadd (hOverIM z eta o m n) (kconj (hOverIM z eta o n m)) = diagR (fun m => (- 2 * INR m * cre z)%R) m n.
Proof.
  unfold hOverIM. rewrite kconj_add.
  transitivity (kadd (kadd (if m =? n then mainM (kopp z) o m else k0) (kconj (if n =? m then mainM (kopp z) o n else k0)))
                     (kadd (pumpM eta m n) (kconj (pumpM eta n m)))); [ring|].
  rewrite pumpM_anti. unfold diagR. rewrite (Nat.eqb_sym n m). destruct (Nat.eqb_spec m n) as [->|]; [|rewrite kconj_0; ring].
  unfold mainM. rewrite kconj_add.
  transitivity (kadd (kadd (kmul (RC (INR n)) (kopp z)) (kconj (kmul (RC (INR n)) (kopp z)))) (kadd (kerrElem o n) (kconj (kerrElem o n)))); [ring|].
  rewrite kerrElem_anti. destruct z as [a b]. apply cr_eq; cbn; ring.
Qed.
Lemma herm_kerr o m n : kadd (kerrM o m n) (kconj (kerrM o n m)) = k0.
Proof. unfold kerrM. rewrite (Nat.eqb_sym n m). destruct (Nat.eqb_spec m n) as [->|]; [apply kerrElem_anti|rewrite kconj_0; ring]. Qed.
Lemma herm_eig z m n : kadd (eigM z m n) (kconj (eigM z n m)) = diagR (fun m => (- 2 * INR m * cre z)%R) m n.
Proof.
  unfold eigM, diagR, eigenvalue. rewrite (Nat.eqb_sym n m). destruct (Nat.eqb_spec m n) as [->|]; [|rewrite kconj_0; ring].
  destruct z as [a b]. apply cr_eq; cbn; ring.
Qed.
Lemma diagR_add f g m n : kadd (diagR f m n) (diagR g m n) = diagR (fun k => (f k + g k)%R) m n.
Proof. unfold diagR. destruct (m =? n); [now rewrite <- RC_add|ring]. Qed.
Lemma diagR_ext f g m n : (forall k, f k = g k) -> diagR f m n = diagR g m n.
Proof. intros H. unfold diagR. now rewrite H. Qed.
Lemma herm_sch z eta p m n : kadd (schM z eta p m n) (kconj (schM z eta p n m)) = diagR (fun m => (- 2 * INR m * cre z)%R) m n.
Proof.
  unfold schM. rewrite kconj_add. set (o := if isNonZero z then pKerr p else 0%R).
  transitivity (kadd (kadd (hOverIM z eta o m n) (kconj (hOverIM z eta o n m))) (kadd (kerrM (pKerrAlter p) m n) (kconj (kerrM (pKerrAlter p) n m)))); [ring|].
  rewrite herm_hOverI, herm_kerr. ring.
Qed.
Lemma herm_ip zSch zI eta p t m n : kadd (ipM zSch zI eta p t m n) (kconj (ipM zSch zI eta p t n m)) = diagR (fun m => (- 2 * INR m * cre (kadd zSch zI))%R) m n.
Proof.
  unfold ipM. rewrite !kconj_add, !kconj_mul, kconj_invol. set (o := if isNonZero zSch then pKerr p else 0%R).
  transitivity (kadd (kadd (kmul (kmul (phaseK (pKerr p) t m) (kadd (hOverIM zSch eta o m n) (kconj (hOverIM zSch eta o n m)))) (kconj (phaseK (pKerr p) t n)))
                           (kadd (kerrM (pKerrAlter p) m n) (kconj (kerrM (pKerrAlter p) n m))))
                     (kadd (eigM zI m n) (kconj (eigM zI n m)))); [ring|].
  rewrite herm_hOverI, herm_kerr, herm_eig.
  assert (E : kmul (kmul (phaseK (pKerr p) t m) (diagR (fun m => (- 2 * INR m * cre zSch)%R) m n)) (kconj (phaseK (pKerr p) t n)) = diagR (fun m => (- 2 * INR m * cre zSch)%R) m n).
  { unfold diagR. destruct (Nat.eqb_spec m n) as [->|]; [|ring].
    transitivity (kmul (kmul (phaseK (pKerr p) t n) (kconj (phaseK (pKerr p) t n))) (RC (- 2 * INR n * cre zSch))); [ring|]. rewrite phaseK_inv. ring. }
  rewrite E.
  transitivity (kadd (diagR (fun m => (- 2 * INR m * cre zSch)%R) m n) (diagR (fun m => (- 2 * INR m * cre zI)%R) m n)); [ring|].
  rewrite diagR_add. apply diagR_ext. intros k. destruct zSch, zI. cbn. ring.
Qed.

(** modes: any generator at any time *)
Definition dampedAt (sys : modeSys) (r : R) : Prop :=
  forall ts t, (exists G, generator_at sys ts t G) /\
    forall G, generator_at sys ts t G -> forall m n, m < msDim sys -> n < msDim sys ->
      kadd (G m n) (kconj (G n m)) = diagR (fun m => (- 2 * INR m * r)%R) m n.
Lemma dampedAt_intro sys r M : (forall ts t, generator_at sys ts t (M t)) ->
  (forall t m n, kadd (M t m n) (kconj (M t n m)) = diagR (fun m => (- 2 * INR m * r)%R) m n) -> dampedAt sys r.
Proof.
  intros H K ts t. split; [eexists; apply H|]. intros G HG m n Hm Hn.
  rewrite !(generator_unique sys ts t G (M t) HG (H ts t)) by auto. apply K.
Qed.
Lemma damped_ip zSch zI eta p ls : (0 < pCutoff p)%nat ->
  exists sys, withIP zSch zI eta p ls = Ok sys /\ msDim sys = pCutoff p /\ msLindblads sys = ls /\ dampedAt sys (cre (kadd zSch zI)).
Proof.
  intros Hd. destruct (withIP_at zSch zI eta p ls Hd) as (sys & E1 & E2 & E3 & E4). exists sys. repeat (split; [assumption|]).
  apply (dampedAt_intro sys _ (ipM zSch zI eta p)); auto. intros. apply herm_ip.
Qed.
Lemma damped_sch z eta p ls : (0 < pCutoff p)%nat ->
  exists sys, withSch z eta p ls = Ok sys /\ msDim sys = pCutoff p /\ msLindblads sys = ls /\ dampedAt sys (cre z).
Proof.
  intros Hd. destruct (withSch_generator z eta p ls Hd) as (sys & E1 & E2 & E3 & E4). exists sys. repeat (split; [assumption|]).
  apply (dampedAt_intro sys _ (fun _ => schM z eta p)); auto. intros. apply herm_sch.
Qed.
Lemma damped_exact dim z ls : dampedAt (mkMode dim (Some z) None ls) (cre z).
Proof.
  apply (dampedAt_intro _ _ (fun _ => eigM z)); [|intros; apply herm_eig]. intros ts t. unfold generator_at. cbn [msExact msH msDim]. reflexivity.
Qed.
Lemma damped_eq sys r r' : r = r' -> dampedAt sys r -> dampedAt sys r'. Proof. now intros ->. Qed.

Lemma make_damped p qmp : (0 < pCutoff p)%nat ->
  exists sys, make p qmp = Ok sys /\ msDim sys = pCutoff p /\ msLindblads sys = loss_part p /\ dampedAt sys (pKappa p * (2 * pNTh p + 1)).
Proof.
  intros Hd. unfold make, makePumped, makeLossy, makePlain, loss_part. pose proof (decay_at p) as Dr.
  assert (Ls : modeLindblads (negb (Reqb (pNTh p) 0)) false p =
            if Reqb (pNTh p) 0 then modeLoss false (pCutoff p) (pKappa p) else modeThermal false (pCutoff p) (pKappa p) (pNTh p)).
  { unfold modeLindblads. destruct (Reqb (pNTh p) 0); reflexivity. }
  assert (KE : Reqb (pKappa p) 0 = true /\ pKappa p = 0%R \/ Reqb (pKappa p) 0 = false /\ pKappa p <> 0%R).
  { unfold Reqb. destruct (Req_EM_T (pKappa p) 0); auto. }
  assert (Ip : forall zSch zI eta ls, cre (kadd zSch zI) = (pKappa p * (2 * pNTh p + 1))%R ->
    exists sys, withIP zSch zI eta p ls = Ok sys /\ msDim sys = pCutoff p /\ msLindblads sys = ls /\ dampedAt sys (pKappa p * (2 * pNTh p + 1))).
  { intros zSch zI eta ls <-. now apply damped_ip. }
  assert (Sch : forall z eta ls, cre z = (pKappa p * (2 * pNTh p + 1))%R ->
    exists sys, withSch z eta p ls = Ok sys /\ msDim sys = pCutoff p /\ msLindblads sys = ls /\ dampedAt sys (pKappa p * (2 * pNTh p + 1))).
  { intros z eta ls <-. now apply damped_sch. }
  destruct KE as [[KE Kk]|[KE Kk]], (isNonZero (pEta p)) eqn:EE; rewrite KE; cbn [negb]; rewrite <- ?Ls.
  - destruct qmp; cbn [switch]; [apply Ip|apply Ip|apply Sch]; rewrite Kk; cbn; ring.
  - destruct qmp; cbn [switch]; [| |apply Sch; rewrite Kk; cbn; ring];
      (eexists; split; [reflexivity|]; split; [reflexivity|]; split; [reflexivity|]); eapply damped_eq; [|apply damped_exact| |apply damped_exact]; rewrite Kk; cbn; ring.
  - destruct qmp; cbn [switch]; [apply Ip|apply Ip|apply Sch]; rewrite Dr; cbn; ring.
  - destruct qmp; cbn [switch].
    + eexists. split; [reflexivity|]. split; [reflexivity|]. split; [reflexivity|]. eapply damped_eq; [|apply damped_exact]. rewrite Dr. reflexivity.
    + apply Ip. rewrite Dr. cbn. ring.
    + apply Sch. rewrite Dr. reflexivity.
Qed.

Lemma modeJumps_sum p m n : (0 <= pKappa p)%R -> (0 <= pNTh p)%R -> m < pCutoff p -> n < pCutoff p ->
  ksum (fun J => jdagj (pCutoff p) J m n) (modeJumps p) =
  diagR (fun m => (2 * (pKappa p * (pNTh p + 1)) * INR m + 2 * (pKappa p * pNTh p) * (if m + 1 <? pCutoff p then INR (m + 1) else 0))%R) m n.
Proof.
  intros Hk Hn Hm Hn'. assert (0 <= pKappa p * pNTh p)%R by now apply Rmult_le_pos. unfold modeJumps, Reqb.
  destruct (Req_EM_T (pKappa p) 0) as [E|E]; [|destruct (Req_EM_T (pNTh p) 0) as [E'|E']]; unfold ksum; cbn [map fold_right].
  - unfold diagR. destruct (m =? n); [|reflexivity]. rewrite E. apply cr_eq; cbn; ring.
  - rewrite jdagj_loss by auto. unfold diagR. destruct (m =? n); [|ring]. rewrite E'. apply cr_eq; cbn; ring.
  - rewrite jdagj_loss, jdagj_absorption by (auto; lra). unfold diagR. destruct (m =? n); [|ring].
    destruct (m + 1 <? pCutoff p); apply cr_eq; cbn; ring.
Qed.
Lemma modeJumps_describe p : (0 <= pKappa p)%R -> (0 <= pNTh p)%R -> Forall2 (describes (pCutoff p)) (loss_part p) (modeJumps p).
Proof.
  intros Hk Hn. unfold loss_part, modeJumps. destruct (Reqb (pKappa p) 0); [constructor|].
  destruct (mode_superoperators false (pCutoff p) (pKappa p) (pNTh p) Hk Hn) as [A B]. destruct (Reqb (pNTh p) 0); assumption.
Qed.
Lemma mode_damping p qmp : (0 < pCutoff p)%nat -> (0 <= pKappa p)%R -> (0 <= pNTh p)%R ->
  exists sys, make p qmp = Ok sys /\ msDim sys = pCutoff p /\ Forall2 (describes (pCutoff p)) (msLindblads sys) (modeJumps p) /\
    forall ts t, (exists G, generator_at sys ts t G) /\
      forall G, generator_at sys ts t G -> damping_matches (pCutoff p) (below_top p) G (2 * pKappa p * pNTh p) (modeJumps p).
Proof.
  intros Hd Hk Hn. destruct (make_damped p qmp Hd) as (sys & E1 & E2 & E3 & E4). exists sys. split; [exact E1|]. split; [exact E2|].
  split; [rewrite E3; now apply modeJumps_describe|]. intros ts t. destruct (E4 ts t) as [A B]. split; [exact A|].
  intros G HG m n Hm Hn' Hkeep. rewrite B by (auto; rewrite E2; auto). rewrite modeJumps_sum by auto.
  unfold diagR. destruct (Nat.eqb_spec m n) as [->|]; [|ring]. rewrite plus_INR.
  destruct Hkeep as [Hz|[Hlt|]]; [| |congruence].
  - rewrite Hz. destruct (n + 1 <? pCutoff p); apply cr_eq; cbn; ring.
  - apply Nat.ltb_lt in Hlt. rewrite Hlt. apply cr_eq; cbn; ring.
Qed.
(** alternative *)
Lemma alternative_damping p : (0 < pCutoff p)%nat -> (0 <= pKappa p)%R ->
  exists sys, cPumpedLossyModeAlternative false p = Ok sys /\ Forall2 (describes (pCutoff p)) (msLindblads sys) [mscale (sqrt (2 * pKappa p)) annihilation] /\
    forall ts t, (exists G, generator_at sys ts t G) /\
      forall G, generator_at sys ts t G -> damping_matches (pCutoff p) everywhere G 0 [mscale (sqrt (2 * pKappa p)) annihilation].
Proof.
  intros Hd Hk. destruct (damped_ip k0 (pKappa p, - pDelta p)%R (pEta p) p (modeLindblads false true p) Hd) as (sys & E1 & E2 & E3 & E4).
  exists sys. split; [exact E1|]. split; [rewrite E3; apply (mode_superoperators true (pCutoff p) (pKappa p) 0); lra|].
  intros ts t. destruct (E4 ts t) as [A B]. split; [exact A|]. intros G HG m n Hm Hn _. rewrite B by (auto; rewrite E2; auto).
  unfold ksum; cbn [map fold_right]. rewrite jdagj_loss by auto. unfold diagR. destruct (m =? n); [|ring]. apply cr_eq; cbn; ring.
Qed.
Lemma alternative_refuted p : (3 <= pCutoff p)%nat -> (0 < pKappa p)%R -> (0 < pNTh p)%R ->
  exists sys, cPumpedLossyModeAlternative true p = Ok sys /\
    Forall2 (describes (pCutoff p)) (msLindblads sys) (thermalJumps p) /\
    forall ts t G c, generator_at sys ts t G -> ~ damping_matches (pCutoff p) (below_top p) G c (thermalJumps p).
Proof.
  intros Hd Hk Hn. assert (0 < pKappa p * pNTh p)%R by now apply Rmult_lt_0_compat.
  destruct (damped_ip k0 (pKappa p, - pDelta p)%R (pEta p) p (modeLindblads true true p)) as (sys & E1 & E2 & E3 & E4); [lia|].
  exists sys. split; [exact E1|]. split; [rewrite E3; apply (mode_superoperators true (pCutoff p) (pKappa p) (pNTh p)); lra|].
  intros ts t G c HG D. destruct (E4 ts t) as [_ B]. specialize (B G HG).
  assert (X : forall m, m + 1 < pCutoff p -> (- 2 * INR m * pKappa p = c - (2 * (pKappa p * (pNTh p + 1)) * INR m + 2 * (pKappa p * pNTh p) * INR (m + 1)))%R).
  { intros m Hm. specialize (D m m ltac:(lia) ltac:(lia) (or_intror (or_introl Hm))). rewrite B in D by (rewrite E2; lia).
    unfold thermalJumps, ksum in D. cbn [map fold_right] in D. rewrite jdagj_loss, jdagj_absorption in D by (lra || lia).
    unfold diagR in D. rewrite Nat.eqb_refl in D. apply Nat.ltb_lt in Hm. rewrite Hm in D. apply (f_equal fst) in D. cbn -[INR] in D. lra. }
  pose proof (X 0%nat ltac:(lia)) as X0. pose proof (X 1%nat ltac:(lia)) as X1. cbn in X0, X1. lra.
Qed.
Lemma damping_top_refuted p qmp : (0 < pCutoff p)%nat -> (1 < pCutoff p)%nat -> (0 < pKappa p)%R -> (0 < pNTh p)%R ->
  exists sys, make p qmp = Ok sys /\ forall ts t G c, generator_at sys ts t G -> ~ damping_matches (pCutoff p) everywhere G c (modeJumps p).
Proof.
  intros Hd Hd' Hk Hn. assert (0 < pKappa p * pNTh p)%R by now apply Rmult_lt_0_compat.
  destruct (make_damped p qmp Hd) as (sys & E1 & E2 & E3 & E4). exists sys. split; [exact E1|]. intros ts t G c HG D.
  destruct (E4 ts t) as [_ B]. specialize (B G HG).
  pose proof (D 0%nat 0%nat ltac:(lia) ltac:(lia) I) as X0.
  pose proof (D (pCutoff p - 1)%nat (pCutoff p - 1)%nat ltac:(lia) ltac:(lia) I) as X1.
  rewrite B, modeJumps_sum in X0, X1 by (lra || lia). unfold diagR in X0, X1. rewrite !Nat.eqb_refl in X0, X1.
  replace (0 + 1 <? pCutoff p) with true in X0 by (symmetry; apply Nat.ltb_lt; lia).
  replace (pCutoff p - 1 + 1 <? pCutoff p) with false in X1 by (symmetry; apply Nat.ltb_ge; lia).
  apply (f_equal fst) in X0. apply (f_equal fst) in X1. cbn -[INR] in X0, X1. cbn in X0.
  assert (1 <= INR (pCutoff p - 1))%R by (change 1%R with (INR 1); apply le_INR; lia).
  assert (c = 2 * (pKappa p * pNTh p))%R by lra. subst c.
  assert (0 < (pKappa p * pNTh p) * INR (pCutoff p - 1))%R by (apply Rmult_lt_0_compat; lra). lra.
Qed.

(** qbits *)
Lemma qbit_generator delta gamma gammaPar eta qmp :
  exists sys, qbitNoiseMake delta gamma gammaPar eta qmp = Ok sys /\ msDim sys = 2%nat /\ no_jump_generator sys (modeGenerator (qbitPars delta gamma eta)).
Proof.
  set (p := qbitPars delta gamma eta). unfold qbitNoiseMake, qbitMake. fold p.
  destruct (Reqb gammaPar 0) eqn:Eg.
  - destruct (make_generator p qmp) as (sys & E1 & E2 & _ & E4); [cbn; lia|cbn; lra|split; left; reflexivity|]. eauto.
  - assert (Ip : forall zSch zI et ls, et = pEta p -> kadd zSch zI = ((gamma, - delta)%R : CR) ->
      exists sys, withIP zSch zI et p ls = Ok sys /\ msDim sys = 2%nat /\ no_jump_generator sys (modeGenerator p)).
    { intros zSch zI et ls -> Hz. destruct (withIP_generator zSch zI (pEta p) p ls) as (sys & E1 & E2 & _ & E4); [cbn; lia|left; reflexivity|].
      exists sys. split; [exact E1|]. split; [exact E2|]. eapply generator_ext; [|exact E4]. intros m n _ _. cbn beta. apply gen_ip.
      - rewrite Hz. cbn. apply cr_eq; cbn; ring.
      - cbn [pKerr p qbitPars]. destruct (isNonZero zSch); reflexivity. }
    destruct (isNonZero eta) eqn:Ee.
    + destruct qmp; apply Ip; auto; apply cr_eq; cbn; ring.
    + apply isNonZero_false in Ee. assert (E0 : k0 = pEta p) by (cbn [pEta p qbitPars]; rewrite Ee; apply cr_eq; cbn; ring).
      destruct qmp; [|apply Ip; [exact E0|apply cr_eq; cbn; ring]|];
        (eexists; split; [reflexivity|]; split; [reflexivity|]; intros ts t; unfold generator_at; cbn [msExact msH msDim]; intros m n _ _; symmetry;
         apply (gen_exact p); [now rewrite <- E0|reflexivity|reflexivity|cbn; apply cr_eq; cbn; ring]).
Qed.
Lemma qbit_damping delta gamma gammaPar eta qmp : (0 <= gamma)%R -> (0 <= gammaPar)%R ->
  exists sys, qbitNoiseMake delta gamma gammaPar eta qmp = Ok sys /\ msDim sys = 2%nat /\
    Forall2 (describes 2) (msLindblads sys) (qbitJumps gamma gammaPar) /\
    forall G, no_jump_generator sys G -> damping_matches 2 everywhere G (2 * gammaPar) (qbitJumps gamma gammaPar).
Proof.
  intros Hg Hp. destruct (qbit_generator delta gamma gammaPar eta qmp) as (sys & E1 & E2 & E3). exists sys. split; [exact E1|]. split; [exact E2|].
  set (p := qbitPars delta gamma eta) in *.
  assert (Gs : forall G, no_jump_generator sys G -> forall m n, m < 2 -> n < 2 -> kadd (G m n) (kconj (G n m)) = diagR (fun m => (- 2 * INR m * gamma)%R) m n).
  { intros G HG m n Hm Hn. assert (U : forall i j, i < 2 -> j < 2 -> G i j = modeGenerator p i j).
    { intros i j Hi Hj. apply (generator_unique sys [] 0%R); [apply HG|apply E3|rewrite E2; auto|rewrite E2; auto]. }
    rewrite !U by auto. rewrite <- !(gen_sch p (gamma, - delta)%R 0%R) by (auto; cbn; apply cr_eq; cbn; ring).
    rewrite kconj_add. transitivity (kadd (kadd (hOverIM (gamma, - delta)%R (pEta p) 0 m n) (kconj (hOverIM (gamma, - delta)%R (pEta p) 0 n m)))
      (kadd (kerrM (pKerrAlter p) m n) (kconj (kerrM (pKerrAlter p) n m)))); [ring|]. rewrite herm_hOverI, herm_kerr. cbn [cre fst]. ring. }
  unfold qbitNoiseMake in E1. unfold qbitJumps. destruct (Reqb gammaPar 0) eqn:Eg.
  - assert (Ez : gammaPar = 0%R) by (unfold Reqb in Eg; destruct (Req_EM_T gammaPar 0); congruence).
    change (modeJumps (qbitPars 0 gamma k0)) with (modeJumps p).
    destruct (mode_damping p qmp) as (sys' & F1 & F2 & F3 & F4); [cbn; lia|exact Hg|cbn; lra|].
    change (qbitMake delta gamma eta qmp) with (make p qmp) in E1. rewrite E1 in F1. injection F1 as <-. split; [exact F3|].
    intros G HG. destruct (F4 [] 0%R) as [_ F5]. specialize (F5 G (HG [] 0%R)).
    intros m n Hm Hn _. rewrite (F5 m n Hm Hn (or_introl eq_refl)). rewrite Ez. cbn [pKappa pNTh p qbitPars pCutoff].
    replace (2 * gamma * 0)%R with (2 * 0)%R by ring. reflexivity.
  - split.
    + assert (L : msLindblads sys = qbitPhaseNoise gamma gammaPar).
      { clear - E1. destruct qmp; destruct (isNonZero eta); unfold withIP in E1;
          try (injection E1 as <-; reflexivity);
          (match type of E1 with bind ?o _ = _ => destruct o; [|discriminate..] end; injection E1 as <-; reflexivity). }
      rewrite L. apply qbitNoise_ok.
    + intros G HG m n Hm Hn _. rewrite Gs by auto. unfold ksum; cbn [map fold_right].
      rewrite jdagj_ketbra, jdagj_flip by (auto; lia). unfold diagR. destruct (m =? n); [|ring].
      destruct m as [|[|m]]; [| |lia]; apply cr_eq; cbn; ring.
Qed.

(** two-level and multi-level *)
Lemma twoLevel_damping gamma delta eta : (0 <= gamma)%R ->
  Forall2 (describes 2) (twoLevelLoss (twoLevelZa gamma delta)) [mscale (sqrt (2 * gamma)) (ketbra 0 1)] /\
  damping_matches 2 everywhere (twoLevelH (twoLevelZa gamma delta) eta) 0 [mscale (sqrt (2 * gamma)) (ketbra 0 1)].
Proof.
  intros Hg. split.
  - pose proof (twoLevel_ok (twoLevelZa gamma delta)) as H. cbn [cre fst twoLevelZa] in H. rewrite Ropp_involutive in H.
    specialize (H ltac:(lra)). inversion H as [|? ? ? ? [H1 H2] H3]; subst. constructor; auto.
  - intros m n Hm Hn _. unfold ksum; cbn [map fold_right]. rewrite jdagj_ketbra by (auto; lia).
    destruct eta as [a b]. destruct m as [|[|m]]; [| |lia]; destruct n as [|[|n]]; try lia; apply cr_eq; cbn; ring.
Qed.
Definition pumpElem (p : pump) (m n : nat) : CR :=
  ksub (if andb (m =? pmFirst p) (n =? pmSecond p) then kconj (pmEta p) else k0) (if andb (m =? pmSecond p) (n =? pmFirst p) then pmEta p else k0).
Definition multiM (z : nat -> CR) (pumps : list pump) : mat :=
  fun m n => kadd (if m =? n then kopp (z m) else k0) (ksum (fun p => pumpElem p m n) pumps).
Lemma diag_loop z psi d dim : forall m, fold_left (fun d i => upd d i (kadd (d i) (kmul (kopp (z i)) (psi i)))) (seq 0 dim) d m =
  if m <? dim then kadd (d m) (kmul (kopp (z m)) (psi m)) else d m.
Proof.
  induction dim as [|D IH]; intros m; [reflexivity|]. rewrite seq_S, fold_left_app. cbn [fold_left Nat.add]. unfold upd at 1.
  destruct (Nat.eqb_spec m D) as [->|].
  - rewrite IH, Nat.ltb_irrefl. replace (D <? S D) with true by (symmetry; apply Nat.ltb_lt; lia). reflexivity.
  - rewrite IH. destruct (Nat.ltb_spec m D), (Nat.ltb_spec m (S D)); auto; lia.
Qed.
Lemma pump_act dim p psi m : pmFirst p < dim -> pmSecond p < dim -> lsum dim (fun n => kmul (pumpElem p m n) (psi n)) =
  ksub (if m =? pmFirst p then kmul (kconj (pmEta p)) (psi (pmSecond p)) else k0) (if m =? pmSecond p then kmul (pmEta p) (psi (pmFirst p)) else k0).
Proof.
  intros H1 H2. unfold pumpElem.
  rewrite (lsum_ext dim _ (fun n => ksub (if n =? pmSecond p then (if m =? pmFirst p then kmul (kconj (pmEta p)) (psi n) else k0) else k0)
                                        (if n =? pmFirst p then (if m =? pmSecond p then kmul (pmEta p) (psi n) else k0) else k0))).
  - unfold lsum. rewrite ksum_sub. fold (lsum dim (fun n => if n =? pmSecond p then (if m =? pmFirst p then kmul (kconj (pmEta p)) (psi n) else k0) else k0)).
    fold (lsum dim (fun n => if n =? pmFirst p then (if m =? pmSecond p then kmul (pmEta p) (psi n) else k0) else k0)).
    rewrite (lsum_if dim (fun n => if m =? pmFirst p then kmul (kconj (pmEta p)) (psi n) else k0)).
    rewrite (lsum_if dim (fun n => if m =? pmSecond p then kmul (pmEta p) (psi n) else k0)).
    apply Nat.ltb_lt in H1, H2. now rewrite H1, H2.
  - intros n _. destruct (m =? pmFirst p), (n =? pmSecond p), (m =? pmSecond p), (n =? pmFirst p); cbn [andb]; ring.
Qed.
Lemma multi_operator dim z pumps psi d m : pumps_in dim pumps -> m < dim ->
  multiLevelH dim z pumps psi d m = kadd (d m) (lsum dim (fun n => kmul (multiM z pumps m n) (psi n))).
Proof.
  intros Hp Hm. unfold multiLevelH.
  assert (L : forall d, fold_left (fun d p => let d' := upd d (pmFirst p) (kadd (d (pmFirst p)) (kmul (kconj (pmEta p)) (psi (pmSecond p)))) in
      upd d' (pmSecond p) (ksub (d' (pmSecond p)) (kmul (pmEta p) (psi (pmFirst p))))) pumps d m =
    kadd (d m) (lsum dim (fun n => kmul (ksum (fun p => pumpElem p m n) pumps) (psi n)))).
  { induction Hp as [|p l [H1 H2] H IH]; intros d0.
    - cbn [fold_left]. rewrite lsum_zero; [ring|]. intros n _. rewrite ksum_nil. ring.
    - cbn [fold_left]. rewrite IH.
      assert (E : lsum dim (fun n => kmul (ksum (fun p => pumpElem p m n) (p :: l)) (psi n)) =
                  kadd (lsum dim (fun n => kmul (pumpElem p m n) (psi n))) (lsum dim (fun n => kmul (ksum (fun p => pumpElem p m n) l) (psi n)))).
      { unfold lsum. rewrite <- ksum_add. apply ksum_ext. intros n _. change (p :: l) with ([p] ++ l). rewrite ksum_app. unfold ksum at 1. cbn [map fold_right]. ring. }
      rewrite E, pump_act by auto. unfold upd.
      destruct (Nat.eqb_spec m (pmSecond p)) as [E1|E1], (Nat.eqb_spec m (pmFirst p)) as [E2|E2].
      + rewrite <- E1, <- E2, Nat.eqb_refl. ring.
      + rewrite <- E1. destruct (Nat.eqb_spec m (pmFirst p)); [congruence|]. ring.
      + rewrite <- E2. ring.
      + ring. }
  rewrite L, diag_loop. apply Nat.ltb_lt in Hm as Hm'. rewrite Hm'. unfold multiM.
  assert (E : lsum dim (fun n => kmul (kadd (if m =? n then kopp (z m) else k0) (ksum (fun p => pumpElem p m n) pumps)) (psi n)) =
    kadd (kmul (kopp (z m)) (psi m)) (lsum dim (fun n => kmul (ksum (fun p => pumpElem p m n) pumps) (psi n)))).
  { transitivity (kadd (lsum dim (fun n => if n =? m then kmul (kopp (z m)) (psi n) else k0)) (lsum dim (fun n => kmul (ksum (fun p => pumpElem p m n) pumps) (psi n)))).
    - unfold lsum. rewrite <- ksum_add. apply ksum_ext. intros n _. rewrite (Nat.eqb_sym n m). destruct (m =? n); ring.
    - now rewrite (lsum_if dim (fun n => kmul (kopp (z m)) (psi n))), Hm'. }
  rewrite E. ring.
Qed.
Lemma multiLevelZ_re decays : forall z0 m, cre (fold_left (fun z dc => upd z (dcSecond dc) (kadd (z (dcSecond dc)) (RC (dcGamma dc)))) decays z0 m) =
  (cre (z0 m) + rsum (fun dc => if m =? dcSecond dc then dcGamma dc else 0)%R decays)%R.
Proof.
  induction decays as [|dc l IH]; intros z0 m; [unfold rsum; cbn; ring|]. cbn [fold_left]. rewrite IH. unfold rsum. cbn [fold_right]. unfold upd.
  destruct (Nat.eqb_spec m (dcSecond dc)) as [<-|]; [|ring]. destruct (z0 m); cbn. ring.
Qed.
Lemma radiative_sum dim decays m n : decays_in dim decays -> m < dim -> n < dim ->
  ksum (fun J => jdagj dim J m n) (radiativeOps decays) = diagR (fun m => (2 * rsum (fun dc => if m =? dcSecond dc then dcGamma dc else 0) decays)%R) m n.
Proof.
  intros H Hm Hn. unfold radiativeOps. rewrite ksum_map. induction H as [|dc l (A & B & C) H IH].
  - rewrite ksum_nil. unfold diagR, rsum. cbn [fold_right]. destruct (m =? n); [|reflexivity]. apply cr_eq; cbn; ring.
  - change (dc :: l) with ([dc] ++ l) at 1. rewrite ksum_app, IH. unfold ksum. cbn [map fold_right]. rewrite jdagj_ketbra by auto.
    unfold diagR, rsum. cbn [fold_right]. destruct (m =? n); [|ring]. destruct (m =? dcSecond dc); apply cr_eq; cbn; ring.
Qed.
Lemma flips_damp dim gammas m n : Forall (fun g => (0 <= g)%R) gammas -> m < dim -> n < dim ->
  ksum (fun J => jdagj dim J m n) (flips dim gammas) = diagR (fun _ => rsum (fun k => (2 * nth k gammas 0)%R) (seq 0 dim)) m n.
Proof.
  intros Hg Hm Hn. unfold flips. rewrite ksum_map.
  rewrite (ksum_ext _ (fun k => if m =? n then RC (2 * nth k gammas 0%R) else k0)).
  - unfold diagR. destruct (m =? n); [apply ksum_RC|apply ksum_0].
  - intros k _. apply jdagj_flip; auto. destruct (Nat.lt_ge_cases k (length gammas)) as [L|L].
    + rewrite Forall_forall in Hg. apply Hg. now apply nth_In.
    + rewrite nth_overflow by auto. lra.
Qed.
Lemma multi_herm deltas decays pumps m n :
  kadd (multiM (multiLevelZ deltas decays) pumps m n) (kconj (multiM (multiLevelZ deltas decays) pumps n m)) =
  diagR (fun m => (- 2 * rsum (fun dc => if m =? dcSecond dc then dcGamma dc else 0) decays)%R) m n.
Proof.
  unfold multiM. rewrite kconj_add, ksum_conj.
  assert (E : kadd (ksum (fun p => pumpElem p m n) pumps) (ksum (fun p => kconj (pumpElem p n m)) pumps) = k0).
  { rewrite <- ksum_add. apply ksum_zero. intros p _. unfold pumpElem. rewrite kconj_sub.
    rewrite (andb_comm (n =? pmFirst p)), (andb_comm (n =? pmSecond p)).
    destruct ((m =? pmFirst p) && (n =? pmSecond p))%bool, ((m =? pmSecond p) && (n =? pmFirst p))%bool; rewrite ?kconj_0, ?kconj_invol; ring. }
  transitivity (kadd (kadd (if m =? n then kopp (multiLevelZ deltas decays m) else k0) (kconj (if n =? m then kopp (multiLevelZ deltas decays n) else k0)))
                     (kadd (ksum (fun p => pumpElem p m n) pumps) (ksum (fun p => kconj (pumpElem p n m)) pumps))); [ring|].
  rewrite E, (Nat.eqb_sym n m). unfold diagR. destruct (Nat.eqb_spec m n) as [->|]; [|rewrite kconj_0; ring].
  pose proof (multiLevelZ_re decays (fun i => kmul (RC (deltas i)) (kopp CI)) n) as H. fold (multiLevelZ deltas decays) in H.
  replace (cre (kmul (RC (deltas n)) (kopp CI))) with 0%R in H by (cbn; ring).
  destruct (multiLevelZ deltas decays n) as [a b]. cbn [cre fst] in H. apply cr_eq; cbn [fst snd]; [|cbn; ring].
  cbn. cbn in H. rewrite H. ring.
Qed.
Lemma multiLevel_damping dim deltas decays pumps diffusion : decays_in dim decays -> pumps_in dim pumps ->
  (forall gs, diffusion = Some gs -> Forall (fun g => (0 <= g)%R) gs) ->
  let Js := radiativeOps decays ++ match diffusion with Some gs => flips dim gs | None => [] end in
  Forall2 (fun l J => is_operator dim (lbJump l) J) (multiLevelLoss dim decays diffusion) Js /\
  exists G, (forall psi d m, m < dim -> multiLevelH dim (multiLevelZ deltas decays) pumps psi d m = kadd (d m) (lsum dim (fun n => kmul (G m n) (psi n)))) /\
    damping_matches dim everywhere G (match diffusion with Some gs => rsum (fun k => (2 * nth k gs 0)%R) (seq 0 dim) | None => 0%R end) Js.
Proof.
  intros Hd Hp Hf Js. split.
  - unfold multiLevelLoss, Js. apply Forall2_app.
    + pose proof (multilevel_ok dim decays Hd) as H. unfold multiLevelLoss in H. rewrite app_nil_r in H.
      clear - H. induction H as [|l J ls Js [[H1 _] _] H IH]; constructor; auto.
    + destruct diffusion as [gs|]; [apply diffusive_jumps|constructor].
  - exists (multiM (multiLevelZ deltas decays) pumps). split; [intros; now apply multi_operator|].
    intros m n Hm Hn _. rewrite multi_herm. unfold Js. rewrite ksum_app, radiative_sum by auto.
    destruct diffusion as [gs|].
    + rewrite flips_damp by auto. unfold diagR. destruct (m =? n); [|ring].
      set (a := rsum (fun dc => if m =? dcSecond dc then dcGamma dc else 0)%R decays). set (b := rsum _ (seq 0 dim)). apply cr_eq; cbn; ring.
    + rewrite ksum_nil. unfold diagR. destruct (m =? n); [|ring]. set (a := rsum _ decays). apply cr_eq; cbn; ring.
Qed.
