From Coq Require Import Reals Lra List Arith Lia Permutation.
From Verif Require Import Star CReal Arr HermSpec DensityModel DensitySpec PureModel PureProofs EnsembleModel EnsembleSpec.
Import ListNotations.

Section Generic.
Context {K : StarRing}.
Local Open Scope K_scope.
Add Ring KREn : (k_ring K).

Lemma fold_add_dyads dims (psis : list (carr K)) : forall rho i j, (forall p, In p psis -> cSh p = dims) ->
  cSh rho = dims ++ dims -> inr dims i -> inr dims j ->
  let r := fold_left (fun r p => addTo p r 1) psis rho in
  cSh r = dims ++ dims /\ indexDO r i j = indexDO rho i j + ksum (fun p => pure (cElem p) i j) psis.
Proof.
  induction psis as [|p l IH]; intros rho i j Hp E Hi Hj; cbn zeta.
  - cbn. split; auto. ring.
  - cbn [fold_left ksum]. assert (Ep : cSh p = dims) by (apply Hp; left; auto).
    destruct (IH (addTo p rho 1) i j (fun q Hq => Hp q (or_intror Hq)) E Hi Hj) as [A B]. split; auto.
    cbn zeta in B. rewrite B. rewrite addTo_elem by (rewrite ?Ep; auto). unfold indexSV, pure. ring.
Qed.

Lemma dyad_hermitian (psi : list nat -> K) i j : kconj (pure psi j i) = pure psi i j.
Proof. unfold pure. rewrite kconj_mul, kconj_invol. ring. Qed.

Lemma quadratic_dyad dims (psi v : list nat -> K) :
  isum dims (fun i => isum dims (fun j => kconj (v i) * pure psi i j * v j)) =
  kconj (isum dims (fun i => kconj (psi i) * v i)) * isum dims (fun i => kconj (psi i) * v i).
Proof.
  rewrite isum_conj, <- isum_scal_r. apply isum_ext. intros i _. rewrite <- isum_scal_l. apply isum_ext. intros j _.
  unfold pure. rewrite kconj_mul, kconj_invol. ring.
Qed.

Lemma ksum_isum2 {A} dims (f : A -> list nat -> list nat -> K) l :
  isum dims (fun i => isum dims (fun j => ksum (fun a => f a i j) l)) =
  ksum (fun a => isum dims (fun i => isum dims (f a i))) l.
Proof.
  unfold isum. rewrite <- (ksum_swap (fun i a => ksum (f a i) (indices dims))). apply ksum_ext. intros i _.
  rewrite <- (ksum_swap (fun j a => f a i j)). reflexivity.
Qed.
Lemma fold_addArr dims (l : list (carr CR)) : forall a x, (forall b, In b l -> cSh b = dims) -> cSh a = dims ->
  cSh (fold_left addArr l a) = dims /\ cElem (fold_left addArr l a) x = kadd (cElem a x) (ksum (fun b => cElem b x) l).
Proof.
  induction l as [|b l IH]; intros a x H E; cbn [fold_left ksum].
  - split; auto. apply cr_eq; cbn; ring.
  - destruct (IH (addArr a b) x (fun c Hc => H c (or_intror Hc)) E) as [A B]. split; auto. rewrite B.
    assert (X : cElem (addArr a b) x = kadd (cElem a x) (cElem b x)).
    { unfold cElem. cbn [addArr cDat cSh]. rewrite (H b (or_introl eq_refl)), E. reflexivity. }
    rewrite X. generalize (ksum (fun b0 => cElem b0 x) l) (cElem a x) (cElem b x). intros k y z. apply cr_eq; cbn; ring.
Qed.
End Generic.

Lemma scaleBy_index (a : carr CR) x i j : indexDO (scaleBy a x) i j = kmul (RC x) (indexDO a i j).
Proof. reflexivity. Qed.

Lemma average_spec dims rho trajs : trajs <> [] -> cSh rho = dims ++ dims -> (forall p, In p trajs -> cSh p = dims) ->
  exists r, averageTrajectories rho trajs = Some r /\ cSh r = dims ++ dims /\
    mmeq dims (indexDO r) (meanDyad (map cElem trajs)).
Proof.
  intros Ne E H. destruct trajs as [|psi rest]; [contradiction|]. eexists. split; [reflexivity|].
  assert (Ep : cSh psi = dims) by (apply H; left; auto).
  assert (Ea : cSh (assignSV rho psi) = dims ++ dims) by exact E.
  split.
  - cbn [scaleBy cSh]. clear - Ea. revert Ea. generalize (assignSV rho psi). induction rest as [|p l IH]; intros a Ea; auto.
    cbn. apply IH. exact Ea.
  - intros i j Hi Hj. rewrite scaleBy_index.
    destruct (fold_add_dyads dims rest (assignSV rho psi) i j (fun q Hq => H q (or_intror Hq)) Ea Hi Hj) as [_ B].
    cbn zeta in B. rewrite B. unfold meanDyad. rewrite map_length. f_equal. rewrite ksum_map. cbn [ksum]. f_equal.
    rewrite assignSV_elem by (rewrite ?Ep; auto). reflexivity.
Qed.

Lemma INR_inv_pos n : (n <> 0)%nat -> (0 < / INR n)%R.
Proof. intros H. apply Rinv_0_lt_compat, lt_0_INR. lia. Qed.

Lemma mean_hermitian dims psis : hermitian dims (meanDyad psis).
Proof.
  intros i j _ _. unfold dag, meanDyad. rewrite kconj_mul, RC_conj, ksum_conj. f_equal. apply ksum_ext. intros psi _.
  apply dyad_hermitian.
Qed.

Lemma mean_positive dims psis : positive dims (meanDyad psis).
Proof.
  intros v. exists (/ INR (length psis) * rsum (fun psi => csq (isum dims (fun i => kmul (kconj (psi i)) (v i)))) psis)%R. split.
  - destruct psis as [|p l]; [cbn; rewrite Rmult_0_r; lra|]. apply Rmult_le_pos.
    + left. apply INR_inv_pos. discriminate.
    + apply rsum_nonneg. intros. apply csq_nonneg.
  - rewrite <- RC_mul, <- ksum_RC.
    transitivity (isum dims (fun i => isum dims (fun j => ksum (fun psi =>
      kmul (RC (/ INR (length psis))) (kmul (kmul (kconj (v i)) (pure psi i j)) (v j))) psis))).
    + apply isum_ext. intros i _. apply isum_ext. intros j _. unfold meanDyad. rewrite ksum_scal_l.
      rewrite (ksum_scal_r (v j) (fun psi => kmul (kconj (v i)) (pure psi i j))), ksum_scal_l.
      generalize (ksum (fun a : list nat -> CR => pure a i j) psis). generalize (kconj (v i)). intros a b.
      apply cr_eq; cbn; ring.
    + rewrite ksum_isum2, <- ksum_scal_l. apply ksum_ext. intros psi _.
      rewrite <- csq_conj, <- quadratic_dyad.
      rewrite <- isum_scal_l. apply isum_ext. intros i _. rewrite <- isum_scal_l. reflexivity.
Qed.

Lemma mean_trace dims psis : psis <> [] -> (forall psi, In psi psis -> normalised dims psi) -> mtrace dims (meanDyad psis) = k1.
Proof.
  intros Ne H. unfold mtrace, meanDyad. rewrite isum_scal_l. unfold isum.
  rewrite (ksum_swap (fun i psi => pure psi i i)).
  rewrite (ksum_ext _ (fun _ => RC 1)).
  - rewrite ksum_RC, RC_mul. assert (E : rsum (fun _ : list nat -> CR => 1%R) psis = INR (length psis)).
    { clear. induction psis as [|p l IH]; auto. cbn [length]. rewrite S_INR, <- IH. unfold rsum. cbn. ring. }
    rewrite E, Rinv_l; [reflexivity|]. apply not_0_INR. destruct psis; [contradiction|discriminate].
  - intros psi Hp. change (RC 1) with (k1 : CR). rewrite <- (H psi Hp). unfold isum. apply ksum_ext. intros i _. unfold pure.
    apply cr_eq; cbn; ring.
Qed.

Lemma mean_perm psis psis' i j : Permutation psis psis' -> meanDyad psis i j = meanDyad psis' i j.
Proof. intros P. unfold meanDyad. rewrite (Permutation_length P). f_equal. now apply ksum_perm. Qed.

Lemma mean_expectation dims A psis :
  expectation dims A (meanDyad psis) = kmul (RC (/ INR (length psis))) (ksum (fun psi => expectation dims A (pure psi)) psis).
Proof.
  unfold expectation. rewrite <- (ksum_isum2 dims (fun psi i j => kmul (A i j) (pure psi j i))), <- isum_scal_l.
  apply isum_ext. intros i _. rewrite <- isum_scal_l. apply isum_ext. intros j _. unfold meanDyad. rewrite ksum_scal_l.
  generalize (ksum (fun a : list nat -> CR => pure a j i) psis). intros a. apply cr_eq; cbn; ring.
Qed.

Lemma ensemble_all dims rho trajs : trajs <> [] -> cSh rho = dims ++ dims -> (forall p, In p trajs -> cSh p = dims) ->
  exists r, averageTrajectories rho trajs = Some r /\
    mmeq dims (indexDO r) (meanDyad (map cElem trajs)) /\
    hermitian dims (indexDO r) /\ positive dims (indexDO r) /\
    ((forall p, In p trajs -> normalised dims (cElem p)) -> mtrace dims (indexDO r) = k1) /\
    (forall A, expectation dims A (indexDO r) =
       kmul (RC (/ INR (length trajs))) (ksum (fun p => expectation dims A (pure (cElem p))) trajs)) /\
    (forall rho' trajs', cSh rho' = dims ++ dims -> Permutation trajs trajs' ->
       exists r', averageTrajectories rho' trajs' = Some r' /\ mmeq dims (indexDO r) (indexDO r')).
Proof.
  intros Ne E H. destruct (average_spec dims rho trajs Ne E H) as (r & Er & Es & M). exists r.
  split; [|split; [|split; [|split; [|split; [|split]]]]]; auto.
  - intros i j Hi Hj. unfold dag. rewrite !M by auto. apply (mean_hermitian dims); auto.
  - intros v. destruct (mean_positive dims (map cElem trajs) v) as (x & Hx & Ex). exists x. split; auto. rewrite <- Ex.
    apply isum_ext. intros i Hi. apply isum_ext. intros j Hj. now rewrite M.
  - intros N. rewrite <- (mean_trace dims (map cElem trajs)).
    + apply isum_ext. intros i Hi. now apply M.
    + destruct trajs; [contradiction|discriminate].
    + intros psi Hp. apply in_map_iff in Hp as (p & <- & Hp). auto.
  - intros A. rewrite <- (map_length cElem trajs).
    rewrite <- (ksum_map cElem (fun psi => expectation dims A (pure psi)) trajs), <- mean_expectation.
    apply isum_ext. intros i Hi. apply isum_ext. intros j Hj. now rewrite M.
  - intros rho' trajs' E' P. destruct (average_spec dims rho' trajs') as (r' & Er' & _ & M'); auto.
    + intros ->. apply Permutation_sym, Permutation_nil in P. auto.
    + intros p Hp. apply H. now apply (Permutation_in p (Permutation_sym P)).
    + exists r'. split; auto. intros i j Hi Hj. rewrite M, M' by auto. apply mean_perm. now apply Permutation_map.
Qed.

(** ensembles of ensembles *)
Lemma members_spec dims rho ens : cSh rho = dims ++ dims -> (forall e, In e ens -> e <> [] /\ forall p, In p e -> cSh p = dims) ->
  exists l, averageMembers rho ens = Some l /\ length l = length ens /\ (forall a, In a l -> cSh a = dims ++ dims) /\
    forall i j, inr dims i -> inr dims j -> ksum (fun a => indexDO a i j) l = ksum (fun e => meanDyad (map cElem e) i j) ens.
Proof.
  intros E. induction ens as [|e ens IH]; intros H.
  - exists []. cbn. firstorder.
  - destruct (H e (or_introl eq_refl)) as [Ne He]. destruct (average_spec dims rho e Ne E He) as (a & Ea & Sa & Ma).
    destruct IH as (l & El & Ll & Sl & Ml); [firstorder|]. exists (a :: l). cbn [averageMembers]. rewrite Ea, El.
    split; [reflexivity|]. split; [cbn; auto|]. split.
    + intros b [<-|Hb]; auto.
    + intros i j Hi Hj. cbn [ksum]. rewrite (Ma i j Hi Hj), Ml; auto.
Qed.

Lemma ensembles_spec dims rho ens : ens <> [] -> cSh rho = dims ++ dims ->
  (forall e, In e ens -> e <> [] /\ forall p, In p e -> cSh p = dims) ->
  exists r, averageEnsembles rho ens = Some r /\
    mmeq dims (indexDO r) (fun i j => kmul (RC (/ INR (length ens))) (ksum (fun e => meanDyad (map cElem e) i j) ens)).
Proof.
  intros Ne E H. destruct (members_spec dims rho ens E H) as (l & El & Ll & Sl & Ml).
  unfold averageEnsembles. rewrite El. destruct l as [|a l]; [destruct ens; [contradiction|discriminate]|].
  eexists. split; [reflexivity|]. intros i j Hi Hj. rewrite scaleBy_index, Ll. f_equal. rewrite <- Ml by auto. cbn [ksum].
  unfold indexDO. exact (proj2 (fold_addArr (dims ++ dims) l a (i ++ j) (fun b Hb => Sl b (or_intror Hb)) (Sl a (or_introl eq_refl)))).
Qed.

Lemma nested_equal dims rho ens n : (0 < n)%nat -> ens <> [] -> cSh rho = dims ++ dims ->
  (forall e, In e ens -> length e = n /\ forall p, In p e -> cSh p = dims) ->
  exists r, averageEnsembles rho ens = Some r /\ mmeq dims (indexDO r) (meanDyad (map cElem (concat ens))).
Proof.
  intros Hn Ne E H. destruct (ensembles_spec dims rho ens Ne E) as (r & Er & M).
  { intros e He. destruct (H e He) as [L S]. split; auto. intros ->. cbn in L. lia. }
  exists r. split; auto. intros i j Hi Hj. rewrite M by auto. unfold meanDyad. rewrite ksum_map.
  rewrite (ksum_ext _ (fun e => kmul (RC (/ INR n)) (ksum (fun p => pure (cElem p) i j) e))).
  2:{ intros e He. rewrite map_length, (proj1 (H e He)), ksum_map. reflexivity. }
  assert (L : length (concat ens) = (length ens * n)%nat).
  { clear - H. induction ens as [|e l IH]; auto. cbn. rewrite app_length, IH by (firstorder). destruct (H e (or_introl eq_refl)). lia. }
  rewrite map_length, L, mult_INR, ksum_scal_l.
  assert (C : ksum (fun p => pure (cElem p) i j) (concat ens) = ksum (ksum (fun p => pure (cElem p) i j)) ens).
  { clear. induction ens as [|e l IH]; auto. cbn [concat ksum]. now rewrite ksum_app, IH. }
  rewrite C. change (fun e : list (carr CR) => ksum (fun p => pure (cElem p) i j) e) with (ksum (fun p : carr CR => pure (cElem p) i j)).
  generalize (ksum (ksum (fun p : carr CR => pure (cElem p) i j)) ens). intros k.
  rewrite Rinv_mult. generalize (/ INR (length ens))%R (/ INR n)%R. intros u w. apply cr_eq; cbn; ring.
Qed.
