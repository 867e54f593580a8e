From Coq Require Import List Arith Bool Lia Permutation PeanoNat.
From Verif Require Import Star Arr MultiIndexModel SliceModel SliceSpec SliceProofs HermSpec HermProofs DensityModel DensitySpec DensityProofs.
Import ListNotations.

Lemma fillIdx_length V ords d s : length (fillIdx V ords d s) = length ords.
Proof.
  revert d s; induction ords as [|o ords IH]; intros d s; cbn; auto.
  destruct (contains V o); [destruct s | destruct d]; cbn; auto.
Qed.

Section PT.
Context {K : StarRing} (P : Parts K).
Local Open Scope K_scope.
Add Ring KRP : (k_ring K).
Notation mfun := (list nat -> list nat -> K).

Section Shape.
Variables (dims V : list nat).
Let n := length dims.
Hypothesis HV : good_positions n V.
Let sV := shV V dims.
Let sD := shD n V dims.

Lemma sum_ptr (a : mfun) s s' : inr sV s -> inr sV s' ->
  ksum (fun d => a (addr n V d s) (addr n V d s')) (indices sD) = ptr V dims a s s'.
Proof.
  intros Hs Hs'. unfold ptr.
  pose proof (inr_length _ _ Hs) as Ls. pose proof (inr_length _ _ Hs') as Ls'.
  unfold sV in Ls, Ls'. rewrite shV_length in Ls, Ls'.
  assert (Ld : forall d, inr sD d -> length d = (n - length V)%nat).
  { intros d Hd. rewrite (inr_length _ _ Hd). now apply shD_length. }
  apply (ksum_bij _ _ _ _ (fun d => addr n V d s)).
  - apply indices_NoDup.
  - apply NoDup_filter, indices_NoDup.
  - intros d Hd. apply in_indices in Hd. apply filter_In. split.
    + apply in_indices. now apply addr_inr.
    + apply listnat_eqb_eq. now apply (of_addr n V HV d s Ls (Ld d Hd)).
  - intros d d' Hd Hd' E. apply in_indices in Hd, Hd'.
    rewrite <- (proj1 (of_addr n V HV d s Ls (Ld d Hd))), <- (proj1 (of_addr n V HV d' s Ls (Ld d' Hd'))). now rewrite E.
  - intros y Hy. apply filter_In in Hy. destruct Hy as [Hy E]. apply in_indices in Hy. apply listnat_eqb_eq in E.
    assert (Ly : length y = n) by (apply (inr_length _ _ Hy)).
    exists (dOf n V y). split.
    + apply in_indices. apply (inr_split n V HV dims eq_refl y Ly). exact Hy.
    + rewrite <- E. apply addr_of; auto.
  - intros d Hd. apply in_indices in Hd. f_equal.
    destruct (of_addr n V HV d s Ls (Ld d Hd)) as (E1 & E2 & E3).
    rewrite <- (addr_replace n V s' (addr n V d s)); auto. now rewrite E1.
Qed.

Lemma fold_mplus (g : list nat -> mfun) ds : forall acc i j,
  fold_left (fun acc d => mplus acc (g d)) ds acc i j = acc i j + ksum (fun d => g d i j) ds.
Proof.
  induction ds as [|d ds IH]; intros acc i j; cbn [fold_left ksum].
  - cbn. ring.
  - rewrite IH. unfold mplus. cbn. ring.
Qed.

Lemma fold_partial {SL RES} (slice : list nat -> option SL) (sl : list nat -> SL) (f : SL -> option RES) (g : list nat -> RES) (plus : RES -> RES -> RES) ds :
  forall acc : RES, (forall d, In d ds -> slice d = Some (sl d)) -> (forall d, In d ds -> f (sl d) = Some (g d)) ->
  fold_left (fun acc d => match acc, slice d with Some res, Some sl => option_map (plus res) (f sl) | _, _ => None end) ds (Some acc) =
  Some (fold_left (fun acc d => plus acc (g d)) ds acc).
Proof.
  induction ds as [|d ds IH]; intros acc H1 H2; auto. cbn [fold_left].
  rewrite H1, H2 by (now left). cbn [option_map]. apply IH; intros; [apply H1 | apply H2]; now right.
Qed.

Hypothesis Hpos : forall m, In m dims -> (0 < m)%nat.
Variable fuel : nat.
Hypothesis Hfuel : (fold_right Nat.mul 1%nat dims <= fuel)%nat.

Lemma pos_nth c : (c < n)%nat -> (0 < nth c dims 0)%nat.
Proof. intros H. apply Hpos. now apply nth_In. Qed.

Lemma sD_pos m : In m sD -> (0 < m)%nat.
Proof.
  unfold sD, shD. intros H. apply in_map_iff in H. destruct H as [o [<- Ho]].
  unfold negated, ordinals in Ho. apply filter_In in Ho. destruct Ho as [Ho _]. apply in_seq in Ho. apply pos_nth. lia.
Qed.
Lemma sV_pos m : In m sV -> (0 < m)%nat.
Proof.
  unfold sV, shV. intros H. apply in_map_iff in H. destruct H as [o [<- Ho]]. apply pos_nth. now apply HV.
Qed.

Lemma prod_split : (fold_right Nat.mul 1 sD * fold_right Nat.mul 1 sV = fold_right Nat.mul 1 dims)%nat.
Proof.
  rewrite <- !indices_length.
  rewrite <- (prod_length (indices sD) (indices sV)).
  assert (Ld : forall d, inr sD d -> length d = (n - length V)%nat).
  { intros d Hd. rewrite (inr_length _ _ Hd). now apply shD_length. }
  assert (Lv : forall s, inr sV s -> length s = length V).
  { intros s Hs. rewrite (inr_length _ _ Hs). apply shV_length. }
  rewrite <- (map_length (fun p => addr n V (fst p) (snd p))).
  apply Permutation_length. apply NoDup_Permutation.
  - apply NoDup_map_inj.
    + intros [d s] [d' s'] H H' E. apply in_prod_iff in H, H'. rewrite !in_indices in H, H'. cbn [fst snd] in E.
      destruct H as [Hd Hs], H' as [Hd' Hs'].
      destruct (of_addr n V HV d s (Lv s Hs) (Ld d Hd)) as (E1 & E2 & _).
      destruct (of_addr n V HV d' s' (Lv s' Hs') (Ld d' Hd')) as (E1' & E2' & _).
      rewrite E in E1, E2. congruence.
    + assert (G : forall (l1 l2 : list (list nat)), NoDup l1 -> NoDup l2 -> NoDup (list_prod l1 l2)).
      { induction l1 as [|x l1 IH]; intros l2 H1 H2; cbn; [constructor|]. inversion H1; subst.
        apply NoDup_app'; auto.
        - apply NoDup_map_inj; auto. intros a b _ _ E. now injection E.
        - intros [a b] Ha Hb. apply in_map_iff in Ha. destruct Ha as [z [E _]]. injection E as <- <-.
          apply in_prod_iff in Hb. tauto. }
      apply G; apply indices_NoDup.
  - apply indices_NoDup.
  - intros y. rewrite in_indices, in_map_iff. split.
    + intros [[d s] [<- H]]. apply in_prod_iff in H. rewrite !in_indices in H. now apply addr_inr.
    + intros Hy. assert (Ly : length y = n) by (apply (inr_length _ _ Hy)).
      exists (dOf n V y, sOf V y). cbn [fst snd]. split; [apply addr_of; auto|].
      apply in_prod_iff. rewrite !in_indices. apply (inr_split n V HV dims eq_refl y Ly). exact Hy.
Qed.

Lemma prod_pos l : (forall m, In m l -> (0 < m)%nat) -> (0 < fold_right Nat.mul 1 l)%nat.
Proof.
  induction l as [|m l IH]; cbn; intros H; [lia|]. specialize (IH (fun m Hm => H m (or_intror Hm))).
  specialize (H m (or_introl eq_refl)). nia.
Qed.

Lemma fuel_D : (fold_right Nat.mul 1 sD <= fuel)%nat.
Proof. pose proof prod_split. pose proof (prod_pos sV sV_pos). nia. Qed.
Lemma fuel_V : (fold_right Nat.mul 1 sV <= fuel)%nat.
Proof. pose proof prod_split. pose proof (prod_pos sD sD_pos). nia. Qed.

Lemma dummies_perm : exists d0 ds, dummies fuel n V dims = Some (d0 :: ds) /\ Permutation (d0 :: ds) (indices sD).
Proof.
  destruct (dummies_ok n V HV dims eq_refl fuel Hpos fuel_D) as [ds (E & Hn & H)].
  assert (HP : Permutation ds (indices sD)).
  { apply NoDup_Permutation; auto; [apply indices_NoDup|]. intros x. rewrite in_indices. apply H. }
  destruct ds as [|d0 ds].
  - exfalso. apply Permutation_length in HP. rewrite indices_length in HP. pose proof (prod_pos sD sD_pos). cbn in HP. lia.
  - eauto.
Qed.

(** any partial trace with a multi-matrix-valued function *)
Lemma partialTrace_sum {SL} (slice : list nat -> option SL) (sl : list nat -> SL) (f : SL -> option mfun) (g : list nat -> mfun) :
  (forall d, inr sD d -> slice d = Some (sl d)) -> (forall d, inr sD d -> f (sl d) = Some (g d)) ->
  exists res, partialTrace fuel n V dims slice f mplus = Some res /\ forall i j, res i j = ksum (fun d => g d i j) (indices sD).
Proof.
  intros H1 H2. destruct dummies_perm as [d0 [ds [E HP]]].
  assert (Hin : forall d, In d (d0 :: ds) -> inr sD d).
  { intros d Hd. apply in_indices. eapply Permutation_in; eauto. }
  unfold partialTrace. rewrite E. rewrite H1 by (apply Hin; now left). rewrite H2 by (apply Hin; now left).
  rewrite (fold_partial slice sl f g mplus ds (g d0)).
  - eexists. split; [reflexivity|]. intros i j. rewrite fold_mplus.
    rewrite <- (ksum_perm (fun d => g d i j) _ _ HP). reflexivity.
  - intros d Hd. apply H1, Hin. now right.
  - intros d Hd. apply H2, Hin. now right.
Qed.

Lemma reduceDO_ok (arr : list nat -> K) :
  exists res, reduceDO fuel V dims arr = Some res /\ mmeq sV res (ptr V dims (fun i j => arr (i ++ j))).
Proof.
  destruct (transposer_perm n V HV) as [r [Er Pr]].
  set (sl := fun d s s' => arr (transposeIdx (r ++ map (fun v => (v + n)%nat) r)
                                 (fillIdx V (ordinals n) d s ++ fillIdx V (ordinals n) d s'))).
  destruct (partialTrace_sum (sliceDO n V arr) sl Some sl) as [res [E H]].
  - intros d _. unfold sliceDO. now rewrite Er.
  - reflexivity.
  - exists res. split; [exact E|]. intros s s' Hs Hs'. rewrite H. rewrite <- sum_ptr by auto.
    apply ksum_ext. intros d _. unfold sl. f_equal.
    rewrite (transposeIdx_double n); auto.
    + unfold addr, sliceAddr. now rewrite Er.
    + rewrite fillIdx_length. unfold ordinals. apply seq_length.
    + rewrite fillIdx_length. unfold ordinals. apply seq_length.
Qed.

Lemma reduceSV_ok (psi : list nat -> K) : V <> [] ->
  exists res, reduceSV P fuel V dims psi = Some res /\ mmeq sV res (ptr V dims (pure psi)).
Proof.
  intros Hne. destruct (transposer_perm n V HV) as [r [Er Pr]].
  set (sl := fun d s => psi (transposeIdx r (fillIdx V (ordinals n) d s))).
  set (f := fun sl : list nat -> K => densityOperatorize P fuel (shapeOf V dims) (fun i j => sl i * kconj (sl j))).
  set (g := fun d => match f (sl d) with Some r => r | None => fun _ _ => 0 end).
  assert (Hf : forall d, f (sl d) = Some (g d) /\ mmeq sV (g d) (pure (sl d))).
  { intros d. destruct (densityOperatorize_ok P (pure (sl d)) sV fuel) as [res [E H]].
    - intros E. apply Hne. apply length_zero_iff_nil. rewrite <- (shV_length V dims). unfold sV in E. now rewrite E.
    - apply sV_pos.
    - apply fuel_V.
    - intros i j _ _. unfold dag, pure. rewrite kconj_mul, kconj_invol. ring.
    - assert (Ef : f (sl d) = Some res) by exact E. unfold g. rewrite Ef. auto. }
  destruct (partialTrace_sum (sliceSV n V psi) sl f g) as [res [E H]].
  - intros d _. unfold sliceSV. now rewrite Er.
  - intros d _. apply Hf.
  - exists res. split; [exact E|]. intros s s' Hs Hs'. rewrite H. rewrite <- sum_ptr by auto.
    apply ksum_ext. intros d _. rewrite (proj2 (Hf d)) by auto. unfold pure, sl, addr, sliceAddr. now rewrite Er.
Qed.

(** ** properties of the partial trace *)
Lemma ptr_hermitian (a : mfun) : hermitian dims a -> hermitian sV (ptr V dims a).
Proof.
  intros H s s' Hs Hs'. unfold dag. rewrite <- !sum_ptr by auto. rewrite ksum_conj. apply ksum_ext.
  intros d Hd. apply in_indices in Hd. apply (H (addr n V d s) (addr n V d s')); now apply addr_inr.
Qed.

Lemma ptr_trace (a : mfun) : mtrace sV (ptr V dims a) = mtrace dims a.
Proof.
  unfold mtrace.
  transitivity (isum sV (fun s => ksum (fun d => a (addr n V d s) (addr n V d s)) (indices sD))).
  { apply isum_ext. intros s Hs. now rewrite sum_ptr. }
  unfold isum. rewrite ksum_swap.
  assert (Ld : forall d, inr sD d -> length d = (n - length V)%nat).
  { intros d Hd. rewrite (inr_length _ _ Hd). now apply shD_length. }
  assert (Lv : forall s, inr sV s -> length s = length V).
  { intros s Hs. rewrite (inr_length _ _ Hs). apply shV_length. }
  transitivity (ksum (fun y => a y y) (flat_map (fun d => map (fun s => addr n V d s) (indices sV)) (indices sD))).
  { rewrite ksum_flat_map. apply ksum_ext. intros d _. now rewrite ksum_map. }
  apply ksum_perm. apply NoDup_Permutation.
  - apply NoDup_flat_map.
    + apply indices_NoDup.
    + intros d Hd. apply in_indices in Hd. apply NoDup_map_inj; [|apply indices_NoDup].
      intros s s' Hs Hs' E. apply in_indices in Hs, Hs'.
      destruct (of_addr n V HV d s (Lv s Hs) (Ld d Hd)) as (_ & E2 & _).
      destruct (of_addr n V HV d s' (Lv s' Hs') (Ld d Hd)) as (_ & E2' & _). rewrite E in E2. congruence.
    + intros d d' y Hd Hd' Hy Hy'. apply in_indices in Hd, Hd'. apply in_map_iff in Hy, Hy'.
      destruct Hy as [s [<- Hs]], Hy' as [s' [E Hs']]. apply in_indices in Hs, Hs'.
      destruct (of_addr n V HV d s (Lv s Hs) (Ld d Hd)) as (E1 & _ & _).
      destruct (of_addr n V HV d' s' (Lv s' Hs') (Ld d' Hd')) as (E1' & _ & _). rewrite E in E1'. congruence.
  - apply indices_NoDup.
  - intros y. rewrite in_flat_map, in_indices. split.
    + intros [d [Hd Hy]]. apply in_map_iff in Hy. destruct Hy as [s [<- Hs]]. apply in_indices in Hd, Hs. now apply addr_inr.
    + intros Hy. assert (Ly : length y = n) by (apply (inr_length _ _ Hy)).
      pose proof (proj1 (inr_split n V HV dims eq_refl y Ly) Hy) as [H1 H2].
      exists (dOf n V y). split; [now apply in_indices|]. apply in_map_iff. exists (sOf V y).
      split; [apply addr_of; auto | now apply in_indices].
Qed.

Lemma ptr_product (b c : mfun) : mmeq sV (ptr V dims (product V dims b c)) (fun s s' => b s s' * mtrace sD c).
Proof.
  intros s s' Hs Hs'. rewrite <- sum_ptr by auto. unfold mtrace, isum. rewrite <- ksum_scal_l. apply ksum_ext.
  intros d Hd. apply in_indices in Hd.
  assert (Ld : length d = (n - length V)%nat).
  { rewrite (inr_length _ _ Hd). now apply shD_length. }
  assert (Lv : forall s, inr sV s -> length s = length V).
  { intros t Ht. rewrite (inr_length _ _ Ht). apply shV_length. }
  destruct (of_addr n V HV d s (Lv s Hs) Ld) as (E1 & E2 & _).
  destruct (of_addr n V HV d s' (Lv s' Hs') Ld) as (E1' & E2' & _).
  unfold product. fold n. unfold dOf, sOf in *. unfold others, coords. rewrite <- !negated_spec in *.
  now rewrite E1, E2, E1', E2'.
Qed.
End Shape.
End PT.
