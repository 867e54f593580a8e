From Coq Require Import List Arith Bool Lia Reals Lra FunctionalExtensionality.
From Verif Require Import Star CReal Arr SliceModel SliceSpec SliceProofs HermModel HermSpec HermProofs DensityModel PureModel PureProofs
  OdeModel MasterModel MasterSpec MasterProofs.
Import ListNotations.

Section Gen.
Context {K : StarRing}.
Add Ring KringML : (k_ring K).
Local Open Scope K_scope.
Notation op := (list nat -> list nat -> K).
Definition oneOp : op := fun i j => if listnat_eqb i j then 1 else 0.
Lemma one_l dims (a : op) : mmeq dims (mmul dims oneOp a) a.
Proof.
  intros i j Hi Hj. unfold mmul, oneOp. rewrite (isum_single dims _ i Hi).
  - rewrite listnat_eqb_refl. ring.
  - intros b _ Hb. replace (listnat_eqb i b) with false; [ring|]. symmetry. apply listnat_eqb_neq. congruence.
Qed.
Lemma one_r dims (a : op) : mmeq dims (mmul dims a oneOp) a.
Proof.
  intros i j Hi Hj. unfold mmul, oneOp. rewrite (isum_single dims _ j Hj).
  - rewrite listnat_eqb_refl. ring.
  - intros b _ Hb. replace (listnat_eqb b j) with false; [ring|]. symmetry. now apply listnat_eqb_neq.
Qed.
Lemma dag_one i j : dag oneOp i j = oneOp i j.
Proof.
  unfold dag, oneOp. destruct (listnat_eqb_spec i j) as [->|H].
  - rewrite listnat_eqb_refl. apply kconj_1.
  - replace (listnat_eqb j i) with false; [apply kconj_0|]. symmetry. apply listnat_eqb_neq. congruence.
Qed.
Lemma mtrace_add dims (a b : op) : mtrace dims (madd a b) = mtrace dims a + mtrace dims b.
Proof. apply isum_add. Qed.
Lemma mtrace_sum dims (l : list op) : mtrace dims (msum l) = ksum (mtrace dims) l.
Proof.
  unfold mtrace, msum. induction l as [|a l IH]; cbn.
  - apply isum_zero. reflexivity.
  - rewrite <- IH. apply isum_add.
Qed.
Lemma trace_isometric dims (u rho : op) : isometric dims u -> mtrace dims (conjugated dims u rho) = mtrace dims rho.
Proof.
  intros H. rewrite trace_conjugated. apply mtrace_ext. intros i j Hi Hj.
  rewrite (mmul_ext dims _ oneOp rho rho H (fun i j _ _ => eq_refl) i j Hi Hj). now apply one_l.
Qed.
Lemma msum_hermitian dims (l : list op) : Forall (hermitian dims) l -> hermitian dims (msum l).
Proof.
  intros H i j Hi Hj. unfold dag, msum. rewrite ksum_conj. apply ksum_ext. intros a Ha.
  rewrite Forall_forall in H. now apply (H a Ha).
Qed.
Lemma mmul_msum_l dims (l : list op) (rho : op) i j : mmul dims (msum l) rho i j = ksum (fun a => mmul dims a rho i j) l.
Proof.
  unfold mmul, msum. induction l as [|a l IH]; cbn.
  - apply isum_zero. intros k _. ring.
  - rewrite <- IH. rewrite <- isum_add. apply isum_ext. intros k _. ring.
Qed.

End Gen.

Section Real.
Add Ring KringMR : (k_ring CR).
Notation array := (list nat -> CR).
Notation op := (list nat -> list nat -> CR).

Lemma rhs_none dims cs js rho : (forall k, In k dims -> (0 < k)%nat) -> hermitian dims (asOp rho) -> Forall2 (channel_is dims) cs js ->
  exists d, masterRhs dims None cs rho = Some d /\ mmeq dims (asOp d) (msum (map (fun a : op => conjugated dims a (asOp rho)) js)).
Proof.
  intros Hpos Hh HF. unfold masterRhs, hamiltonianPart.
  destruct (resetPart_spec dims rho Hpos Hh cs js (twoRealPart dims (fun _ => k0)) HF) as [d [E H]].
  exists d. split; auto. intros i j Hi Hj. rewrite H by auto. unfold madd at 1. rewrite twoRealPart_spec by auto.
  unfold madd, dag, asOp at 1 2. rewrite kconj_0. ring.
Qed.

Lemma rhs_lindblad dims h hnh cs js rho : (forall k, In k dims -> (0 < k)%nat) -> hermitian dims (asOp rho) ->
  hamiltonian_is dims h hnh -> Forall2 (channel_is dims) cs js ->
  exists d, masterRhs dims h cs rho = Some d /\ mmeq dims (asOp d) (lindblad dims hnh js (asOp rho)).
Proof.
  intros Hpos Hh HH HF. destruct h as [f|].
  - destruct (masterRhs_spec dims f _ cs js rho Hpos Hh HH HF) as [d [E H]]. exists d. split; auto.
    intros i j Hi Hj. rewrite H by auto. unfold madd, lindblad. f_equal.
    assert (E1 : mmul dims (fun i j => kmul (kopp CI) (hnh i j)) (asOp rho) i j = kmul (kopp CI) (mmul dims hnh (asOp rho) i j)).
    { unfold mmul. rewrite <- isum_scal_l. apply isum_ext. intros k _. ring. }
    assert (E2 : dag (mmul dims (fun i j => kmul (kopp CI) (hnh i j)) (asOp rho)) i j = kmul CI (mmul dims (asOp rho) (dag hnh) i j)).
    { rewrite dag_mmul. unfold mmul. rewrite <- isum_scal_l. apply isum_ext. intros k Hk.
      rewrite (Hh i k Hi Hk). unfold dag. rewrite kconj_mul. replace (kconj (kopp CI)) with CI; [ring|].
      apply cr_eq; cbn; lra. }
    rewrite E1, E2. ring.
  - destruct (rhs_none dims cs js rho Hpos Hh HF) as [d [E H]]. exists d. split; auto.
    intros i j Hi Hj. rewrite H by auto. unfold lindblad.
    assert (E1 : mmul dims hnh (asOp rho) i j = k0) by (apply isum_zero; intros k _; rewrite HH; ring).
    assert (E2 : mmul dims (asOp rho) (dag hnh) i j = k0) by (apply isum_zero; intros k _; unfold dag; rewrite HH, kconj_0; ring).
    rewrite E1, E2. ring.
Qed.

Lemma lindblad_hermitian dims hnh js rho : hermitian dims rho -> hermitian dims (lindblad dims hnh js rho).
Proof.
  intros Hh i j Hi Hj. unfold dag at 1, lindblad. rewrite kconj_add, kconj_mul, kconj_sub.
  change (kconj (mmul dims hnh rho j i)) with (dag (mmul dims hnh rho) i j).
  change (kconj (mmul dims rho (dag hnh) j i)) with (dag (mmul dims rho (dag hnh)) i j).
  rewrite !dag_mmul.
  assert (E1 : mmul dims (dag rho) (dag hnh) i j = mmul dims rho (dag hnh) i j).
  { apply isum_ext. intros k Hk. now rewrite (Hh i k Hi Hk). }
  assert (E2 : mmul dims (dag (dag hnh)) (dag rho) i j = mmul dims hnh rho i j).
  { apply isum_ext. intros k Hk. rewrite (Hh k j Hk Hj). unfold dag. now rewrite kconj_invol. }
  rewrite E1, E2. f_equal.
  - replace (kconj (kopp CI)) with CI by (apply cr_eq; cbn; lra). ring.
  - apply (msum_hermitian dims); auto. apply Forall_forall. intros a Ha. apply in_map_iff in Ha. destruct Ha as [b [<- _]].
    now apply conjugated_hermitian.
Qed.

Lemma lindblad_trace dims (h : op) js rho hnh : hermitian dims h -> mmeq dims hnh (nonHermitian dims h js) ->
  mtrace dims (lindblad dims hnh js rho) = k0.
Proof.
  intros Hh Hn. set (D := msum (map (fun a => mmul dims (dag a) a) js)).
  assert (HD : hermitian dims D).
  { apply msum_hermitian. apply Forall_forall. intros x Hx. apply in_map_iff in Hx. destruct Hx as [a [<- _]].
    intros i j _ _. rewrite dag_mmul. apply isum_ext. intros k _. unfold dag. now rewrite kconj_invol. }
  set (c := kmul CI (RC (1/2))).
  assert (T1 : mtrace dims (mmul dims hnh rho) = ksub (mtrace dims (mmul dims h rho)) (kmul c (mtrace dims (mmul dims D rho)))).
  { unfold mtrace. rewrite <- isum_scal_l. 
    transitivity (isum dims (fun i => kadd (mmul dims h rho i i) (kopp (kmul c (mmul dims D rho i i))))).
    - apply isum_ext. intros i Hi. unfold mmul.
      transitivity (isum dims (fun k => kadd (kmul (h i k) (rho k i)) (kmul (kopp c) (kmul (D i k) (rho k i))))).
      + apply isum_ext. intros k Hk. rewrite Hn by auto. unfold nonHermitian. fold D. fold c. ring.
      + rewrite isum_add, isum_scal_l. ring.
    - rewrite isum_add. transitivity (kadd (isum dims (fun i => mmul dims h rho i i)) (isum dims (fun i => kmul (kopp k1) (kmul c (mmul dims D rho i i))))).
      + f_equal. apply isum_ext. intros i _. ring.
      + rewrite isum_scal_l. ring. }
  assert (T2 : mtrace dims (mmul dims rho (dag hnh)) = kadd (mtrace dims (mmul dims h rho)) (kmul c (mtrace dims (mmul dims D rho)))).
  { rewrite trace_mmul. unfold mtrace. rewrite <- isum_scal_l, <- isum_add. apply isum_ext. intros i Hi. unfold mmul.
    rewrite <- isum_scal_l, <- isum_add. apply isum_ext. intros k Hk. unfold dag at 1. rewrite Hn by auto. unfold nonHermitian.
    fold D. fold c. rewrite kconj_sub, kconj_mul. change (kconj (h k i)) with (dag h i k). change (kconj (D k i)) with (dag D i k).
    rewrite (Hh i k Hi Hk), (HD i k Hi Hk). replace (kconj c) with (kopp c) by (unfold c, RC, CI; apply cr_eq; cbn; lra). ring. }
  assert (T3 : mtrace dims (msum (map (fun a => conjugated dims a rho) js)) = mtrace dims (mmul dims D rho)).
  { rewrite mtrace_sum, ksum_map.
    rewrite (ksum_ext _ (fun a => mtrace dims (mmul dims (mmul dims (dag a) a) rho))) by (intros a _; apply trace_conjugated).
    unfold mtrace at 2. unfold D. rewrite (isum_ext _ _ (fun i => ksum (fun a => mmul dims a rho i i) (map (fun a => mmul dims (dag a) a) js)))
      by (intros i _; apply mmul_msum_l).
    clear. induction js as [|a js IH]; cbn [map].
    - symmetry. apply isum_zero. reflexivity.
    - change (kadd (mtrace dims (mmul dims (mmul dims (dag a) a) rho)) (ksum (fun a => mtrace dims (mmul dims (mmul dims (dag a) a) rho)) js) =
        isum dims (fun i => kadd (mmul dims (mmul dims (dag a) a) rho i i) (ksum (fun a => mmul dims a rho i i) (map (fun a => mmul dims (dag a) a) js)))).
      rewrite isum_add, <- IH. reflexivity. }
  transitivity (kadd (kmul (kopp CI) (ksub (mtrace dims (mmul dims hnh rho)) (mtrace dims (mmul dims rho (dag hnh)))))
                     (mtrace dims (msum (map (fun a => conjugated dims a rho) js)))).
  - unfold mtrace at 1, lindblad. rewrite isum_add. f_equal. rewrite isum_scal_l. f_equal.
    transitivity (isum dims (fun i => kadd (mmul dims hnh rho i i) (kmul (kopp k1) (mmul dims rho (dag hnh) i i)))).
    + apply isum_ext. intros i _. ring.
    + rewrite isum_add, isum_scal_l. unfold mtrace. ring.
  - rewrite T1, T2, T3. set (x := mtrace dims (mmul dims D rho)). set (y := mtrace dims (mmul dims h rho)).
    replace x with (kmul (kmul (kadd k1 k1) (kmul CI (kopp c))) x) at 3.
    + ring.
    + replace (kmul (kadd k1 k1) (kmul CI (kopp c))) with (k1 : CR); [ring|]. unfold c, RC, CI. apply cr_eq; cbn; lra.
Qed.

(** * C39 *)
Lemma cre_trace dims (m : array) : rsum (fun i => cre (m (i ++ i))) (indices dims) = cre (mtrace dims (asOp m)).
Proof. unfold mtrace, isum. rewrite cre_ksum. reflexivity. Qed.

Lemma clean_spec dims sigma : cre (mtrace dims (asOp sigma)) <> 0%R ->
  let rho := asOp (renormArray dims (twoRealPart dims sigma)) in
  mmeq dims rho (cleaned dims (asOp sigma)) /\ hermitian dims rho /\ mtrace dims rho = k1.
Proof.
  intros Hn rho.
  assert (Et : mtrace dims (asOp (twoRealPart dims sigma)) = RC (2 * cre (mtrace dims (asOp sigma)))).
  { rewrite (mtrace_ext dims _ _ (twoRealPart_spec dims sigma)), mtrace_add, trace_dag.
    unfold RC, cre. destruct (mtrace dims (asOp sigma)) as [a b]. apply cr_eq; cbn; lra. }
  assert (H1 : mmeq dims rho (cleaned dims (asOp sigma))).
  { intros i j Hi Hj. unfold rho, asOp at 1, renormArray, cleaned. rewrite cre_trace, Et. cbn [cre RC fst]. f_equal.
    apply (twoRealPart_spec dims sigma i j Hi Hj). }
  split; [exact H1|]. split.
  - intros i j Hi Hj. unfold dag. rewrite !H1 by auto. unfold cleaned, dag. rewrite kconj_mul, RC_conj, kconj_add, kconj_invol.
    f_equal. ring.
  - unfold mtrace, rho, asOp, renormArray. rewrite cre_trace, Et, isum_scal_l.
    change (isum dims (fun x => twoRealPart dims sigma (x ++ x))) with (mtrace dims (asOp (twoRealPart dims sigma))).
    rewrite Et, RC_mul. cbn [cre RC fst]. rewrite Rinv_l; [reflexivity|]. lra.
Qed.

Lemma step_clean odeTry sys odeFuel Dt x y e t rho u : (forall k, In k (qDims sys) -> (0 < k)%nat) ->
  step (odeTry (derivative sys (mT0 x))) odeFuel Dt (mOde x) (mTime x) (mRho x) = Some (e, t, rho) ->
  propagator_is sys t (mT0 x) u -> cre (mtrace (qDims sys) (asOp rho)) <> 0%R ->
  masterStep odeTry sys odeFuel Dt x = Some y ->
  mmeq (qDims sys) (asOp (mRho y)) (cleaned (qDims sys) (conjugated (qDims sys) u (asOp rho))) /\
  hermitian (qDims sys) (asOp (mRho y)) /\ mtrace (qDims sys) (asOp (mRho y)) = k1 /\ mTime y = t.
Proof.
  intros Hpos Es Hu Hn. unfold masterStep. rewrite Es. unfold propagator_is in Hu.
  assert (Ex : exists sigma, (match qEx sys with Some u0 => exactPart (qDims sys) (u0 t (mT0 x)) rho | None => Some rho end) = Some sigma /\
    mmeq (qDims sys) (asOp sigma) (conjugated (qDims sys) u (asOp rho)) /\ mtrace (qDims sys) (asOp sigma) = mtrace (qDims sys) (asOp rho)).
  { destruct (qEx sys) as [f|].
    - destruct Hu as [Hu Hi]. destruct (exactPart_spec (qDims sys) (f t (mT0 x)) u rho Hpos Hu) as [s [E H]].
      exists s. split; auto. split; auto. rewrite (mtrace_ext _ _ _ H). now apply trace_isometric.
    - exists rho. split; auto. split; auto. intros i j Hi Hj. unfold conjugated.
      assert (Eu : mmeq (qDims sys) u oneOp) by (intros a b _ _; apply Hu).
      assert (Ed : mmeq (qDims sys) (dag u) oneOp) by (intros a b Ha Hb; unfold dag; rewrite Eu by auto; apply dag_one).
      rewrite (mmul_ext (qDims sys) u oneOp _ (asOp rho) Eu); auto.
      + symmetry. now apply one_l.
      + intros a b Ha Hb. rewrite (mmul_ext (qDims sys) (asOp rho) (asOp rho) (dag u) oneOp (fun _ _ _ _ => eq_refl) Ed a b Ha Hb).
        now apply one_r. }
  destruct Ex as [s (E1 & H1 & H2)]. rewrite E1. intros Ey. injection Ey as <-. cbn [mRho mTime].
  rewrite <- H2 in Hn. destruct (clean_spec (qDims sys) s Hn) as (C1 & C2 & C3). split; [|auto].
  intros i j Hi Hj. rewrite C1 by auto. unfold cleaned, dag. rewrite !H1 by auto. now rewrite (mtrace_ext _ _ _ H1).
Qed.

Lemma cleaned_good dims (sigma : op) : hermitian dims sigma -> mtrace dims sigma = k1 -> mmeq dims (cleaned dims sigma) sigma.
Proof.
  intros Hh Ht i j Hi Hj. unfold cleaned. rewrite Ht, (Hh i j Hi Hj). unfold RC, cre. destruct (sigma i j) as [a b].
  apply cr_eq; cbn; lra.
Qed.

(** * the Master half of C36 *)
Lemma steps_t0 odeTry sys odeFuel Dts : forall x y, mT0 x = mTime x -> masterSteps odeTry sys odeFuel Dts x = Some y -> mT0 y = mTime y.
Proof.
  induction Dts as [|Dt Dts IH]; cbn; intros x y Hx.
  - congruence.
  - destruct (masterStep odeTry sys odeFuel Dt x) as [z|] eqn:E; [|discriminate]. apply IH.
    unfold masterStep in E. destruct (step _ _ _ _ _ _) as [[[e t] rho]|]; [|discriminate].
    destruct (match qEx sys with Some u => exactPart (qDims sys) (u t (mT0 x)) rho | None => Some rho end); [|discriminate].
    injection E as <-. reflexivity.
Qed.
Lemma load_master odeTry sys odeFuel rho dtInit x0 Dts x : newMaster sys rho dtInit = Some x0 ->
  masterSteps odeTry sys odeFuel Dts x0 = Some x -> forall y, loadMaster (saveMaster x) y = x.
Proof.
  unfold newMaster. destruct (qApplicable sys); [|discriminate]. intros E Es y. injection E as <-.
  apply steps_t0 in Es; [|reflexivity]. destruct x; cbn in *. now subst.
Qed.
End Real.
