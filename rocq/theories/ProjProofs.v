From Coq Require Import String List Arith Bool Reals Lra Lia.
From Verif Require Import Star CReal Arr ProjModel ProjSpec.
Import ListNotations.
Local Open Scope nat_scope.
Local Open Scope K_scope.
Add Ring CRp : (k_ring CR).

Section P.
Variable dims : list nat.
Notation braket := (braket dims).

Lemma braket_conj a b : kconj (braket a b) = braket b a.
Proof.
  unfold ProjModel.braket. rewrite isum_conj. apply isum_ext. intros x _. rewrite kconj_mul, kconj_invol. ring.
Qed.
Lemma braket_ext a a' b b' : (forall x, inr dims x -> a x = a' x) -> (forall x, inr dims x -> b x = b' x) -> braket a b = braket a' b'.
Proof. intros H1 H2. unfold ProjModel.braket. apply isum_ext. intros x Hx. now rewrite H1, H2. Qed.
Lemma braket_sub_r a b c : braket a (fun x => b x - c x) = braket a b - braket a c.
Proof.
  unfold ProjModel.braket. unfold isum. rewrite <- ksum_sub. apply ksum_ext. intros x _. ring.
Qed.
Lemma braket_sum_r a (basis : list state) c : braket a (superposition basis c) = ksum (fun j => c j * braket a (nthState basis j)) (seq 0%nat (length basis)).
Proof.
  unfold ProjModel.braket, superposition, isum.
  transitivity (ksum (fun j => ksum (fun i => c j * (kconj (a i) * nthState basis j i)) (indices dims)) (seq 0%nat (length basis))).
  - rewrite <- ksum_swap. apply ksum_ext. intros x _. rewrite <- ksum_scal_l. apply ksum_ext. intros j _. ring.
  - apply ksum_ext. intros j _. now rewrite ksum_scal_l.
Qed.
Lemma braket_span a basis phi : inSpan dims basis phi -> orthogonalTo dims basis a -> braket phi a = 0 /\ braket a phi = 0.
Proof.
  intros [c Hc] Ho. assert (E : braket a phi = 0).
  { rewrite (braket_ext a a phi (superposition basis c)) by auto. rewrite braket_sum_r. apply ksum_zero. intros j Hj. apply in_seq in Hj.
    rewrite <- braket_conj, Ho by lia. rewrite kconj_0. ring. }
  split; [|exact E]. now rewrite <- braket_conj, E, kconj_0.
Qed.
Lemma cre_sum {A} (f : A -> CR) l : cre (ksum f l) = fold_right Rplus 0%R (map (fun a => cre (f a)) l).
Proof. induction l as [|a l IH]; [reflexivity|]. cbn [ksum map fold_right]. rewrite <- IH. reflexivity. Qed.
Lemma fold_left_sum {A} (f : A -> R) l : forall s, fold_left (fun s a => s + f a)%R l s = (s + fold_right Rplus 0 (map f l))%R.
Proof. induction l as [|a l IH]; intros s; cbn; [lra|]. rewrite IH. lra. Qed.
Lemma weight_nonneg phi : (0 <= weight dims phi)%R.
Proof.
  unfold weight, ProjModel.braket, isum. rewrite cre_sum. induction (indices dims) as [|x l IH]; cbn [map fold_right]; [lra|].
  assert (E : cre (kconj (phi x) * phi x) = csq (phi x)) by (rewrite csq_conj; reflexivity). rewrite E. pose proof (csq_nonneg (phi x)). lra.
Qed.
Lemma braket_self phi : braket phi phi = RC (weight dims phi).
Proof.
  apply cr_eq; [reflexivity|]. pose proof (braket_conj phi phi) as H. apply (f_equal snd) in H. cbn in H. cbn [snd RC]. 
  change (snd (RC (weight dims phi))) with 0%R. set (z := snd (braket phi phi)) in *. change (- z = z)%R in H. lra.
Qed.
Lemma weight_zero phi : weight dims phi = 0%R -> forall x, inr dims x -> phi x = 0.
Proof.
  unfold weight, ProjModel.braket, isum. rewrite cre_sum. intros H x Hx. apply in_indices in Hx.
  assert (G : forall l, (0 <= fold_right Rplus 0%R (map (fun a => cre (kconj (phi a) * phi a)%KK) l))%R /\
     (fold_right Rplus 0%R (map (fun a => cre (kconj (phi a) * phi a)) l) = 0%R -> forall y, In y l -> csq (phi y) = 0%R)).
  { clear. induction l as [|y l [IH1 IH2]]; cbn [map fold_right]; [split; [lra|intros _ y []]|].
    assert (E : cre (kconj (phi y) * phi y) = csq (phi y)) by (rewrite csq_conj; reflexivity). rewrite E. pose proof (csq_nonneg (phi y)) as P. split; [lra|].
    intros Z w [Hw|Hw]; [subst w; lra|]. apply IH2; [lra|exact Hw]. }
  pose proof (proj2 (G _) H x Hx) as Z. unfold csq in Z. apply cr_eq; cbn; nra.
Qed.

(** the matrix calculated is that of the overlaps *)
Definition good (basis : list state) (m : matrix) (i j : nat) : Prop := m i j = braket (nthState basis i) (nthState basis j).
Lemma entry_good basis i j m a b : good basis m a b -> good basis (metricEntry dims basis i m j) a b.
Proof.
  unfold good, metricEntry, setAt. intros H. cbv zeta. destruct (Nat.eqb_spec a j) as [->|Ha], (Nat.eqb_spec b i) as [->|Hb]; cbn [andb].
  - apply braket_conj.
  - destruct ((j =? i) && (b =? j)) eqn:E; [|exact H]. apply andb_true_iff in E. destruct E as [E1 E2]. apply Nat.eqb_eq in E1. apply Nat.eqb_eq in E2. congruence.
  - destruct ((a =? i) && (i =? j)) eqn:E; [|exact H]. apply andb_true_iff in E. destruct E as [E1 E2]. apply Nat.eqb_eq in E1. apply Nat.eqb_eq in E2. congruence.
  - destruct ((a =? i) && (b =? j)) eqn:E; [|exact H]. apply andb_true_iff in E. destruct E as [E1 E2]. apply Nat.eqb_eq in E1. apply Nat.eqb_eq in E2. now subst.
Qed.
Lemma entry_set basis i j m : good basis (metricEntry dims basis i m j) i j.
Proof.
  unfold good, metricEntry, setAt. cbv zeta. rewrite !Nat.eqb_refl. cbn [andb]. destruct ((i =? j) && (j =? i)) eqn:E; [|reflexivity].
  apply andb_true_iff in E. destruct E as [E _]. apply Nat.eqb_eq in E. subst. apply braket_conj.
Qed.
Lemma entries_keep basis i l : forall m a b, good basis m a b -> good basis (fold_left (metricEntry dims basis i) l m) a b.
Proof. induction l as [|j l IH]; intros m a b H; [exact H|]. cbn [fold_left]. apply IH. now apply entry_good. Qed.
Lemma entries_set basis i l : forall m j, In j l -> good basis (fold_left (metricEntry dims basis i) l m) i j.
Proof.
  induction l as [|k l IH]; intros m j H; [destruct H|]. cbn [fold_left]. destruct H as [->|H]; [|now apply IH]. apply entries_keep, entry_set.
Qed.
Lemma row_keep basis i m a b : a < length basis -> b < length basis -> good basis m a b -> good basis (metricRow dims basis m i) a b.
Proof.
  intros Ha Hb H. destruct (Nat.eq_dec a i) as [->|N].
  - unfold metricRow. apply entries_set. apply in_seq. lia.
  - unfold metricRow. apply entries_keep. unfold good, setAt. rewrite (proj2 (Nat.eqb_neq a i) N). exact H.
Qed.
Lemma metric_good memory basis i j : i < length basis -> j < length basis -> metric dims memory basis i j = braket (nthState basis i) (nthState basis j).
Proof.
  intros Hi Hj. unfold metric.
  assert (K : forall l m, good basis m i j -> good basis (fold_left (metricRow dims basis) l m) i j).
  { induction l as [|k l IH]; intros m H; [exact H|]. cbn [fold_left]. apply IH. now apply row_keep. }
  assert (G : forall l m, In i l -> good basis (fold_left (metricRow dims basis) l m) i j).
  { induction l as [|k l IH]; intros m H; [destruct H|]. cbn [fold_left]. destruct H as [->|H]; [|now apply IH]. apply K. unfold metricRow. apply entries_set. apply in_seq. lia. }
  apply G. apply in_seq. lia.
Qed.

Variable invert : nat -> matrix -> matrix.
Variable memory : matrix.
Notation streamed := (streamed dims invert memory).
Lemma uu_inverse basis : basis <> [] -> inverts dims invert basis -> inverseOfOverlaps dims basis (metricTensor_uu dims invert memory basis).
Proof.
  intros N H. unfold metricTensor_uu. destruct (Nat.eqb_spec (length basis) 0) as [Z|_]; [destruct basis; [congruence|discriminate]|].
  apply H. intros i j Hi Hj. now apply metric_good.
Qed.
Definition coefficient (basis : list state) (psi : state) (j : nat) : CR :=
  ksum (fun i => metricTensor_uu dims invert memory basis j i * braket (nthState basis i) psi) (seq 0%nat (length basis)).
Definition projected (basis : list state) (psi : state) : state := superposition basis (coefficient basis psi).
Lemma projected_is basis psi : basis <> [] -> inverts dims invert basis -> projectionOf dims basis psi (projected basis psi).
Proof.
  intros N H. split; [exists (coefficient basis psi); reflexivity|]. intros k Hk. rewrite braket_sub_r. unfold projected. rewrite braket_sum_r.
  assert (E : ksum (fun j => coefficient basis psi j * braket (nthState basis k) (nthState basis j)) (seq 0%nat (length basis)) = braket (nthState basis k) psi).
  { transitivity (ksum (fun i => ksum (fun j => braket (nthState basis k) (nthState basis j) * metricTensor_uu dims invert memory basis j i) (seq 0%nat (length basis)) * braket (nthState basis i) psi) (seq 0%nat (length basis))).
    - rewrite (ksum_ext _ (fun j => ksum (fun i => braket (nthState basis k) (nthState basis j) * metricTensor_uu dims invert memory basis j i * braket (nthState basis i) psi) (seq 0%nat (length basis)))).
      + rewrite ksum_swap. apply ksum_ext. intros i _. now rewrite ksum_scal_r.
      + intros j _. unfold coefficient. rewrite <- ksum_scal_r. apply ksum_ext. intros i _. ring.
    - rewrite (ksum_single _ _ k).
      + rewrite (uu_inverse basis N H) by lia. rewrite Nat.eqb_refl. ring.
      + apply seq_NoDup.
      + apply in_seq. lia.
      + intros i Hi Hne. apply in_seq in Hi. rewrite (uu_inverse basis N H) by lia. rewrite (proj2 (Nat.eqb_neq k i)) by congruence. ring. }
  rewrite E. ring.
Qed.
Lemma sum_column basis psi : basis <> [] -> last (streamed basis psi) 0%R = cre (braket psi (projected basis psi)).
Proof.
  intros N. unfold ProjModel.streamed. destruct (Nat.eqb_spec (length basis) 0) as [Z|_]; [destruct basis; [congruence|discriminate]|]. rewrite last_last.
  rewrite fold_left_sum, Rplus_0_l. unfold projected. rewrite braket_sum_r.
  rewrite (ksum_ext _ (fun j => ksum (fun i => braket psi (nthState basis j) * braket (nthState basis i) psi * metricTensor_uu dims invert memory basis j i) (seq 0%nat (length basis)))).
  - rewrite ksum_swap, cre_sum. f_equal. apply map_ext. intros i. rewrite fold_left_sum, Rplus_0_l, cre_sum. reflexivity.
  - intros j _. unfold coefficient. rewrite <- ksum_scal_r. apply ksum_ext. intros i _. ring.
Qed.
Lemma proj_weight basis psi phi : projectionOf dims basis psi phi -> braket psi phi = RC (weight dims phi).
Proof.
  intros [Hs Ho]. destruct (braket_span _ _ _ Hs Ho) as [H1 _]. rewrite braket_sub_r in H1. rewrite braket_self in H1.
  assert (E : braket phi psi = RC (weight dims phi)) by (transitivity (braket phi psi - RC (weight dims phi) + RC (weight dims phi)); [ring|rewrite H1; ring]).
  rewrite <- braket_conj, E. apply RC_conj.
Qed.
Lemma span_sub basis f g : inSpan dims basis f -> inSpan dims basis g -> inSpan dims basis (fun x => f x - g x).
Proof.
  intros [c Hc] [d Hd]. exists (fun j => c j - d j). intros x Hx. rewrite Hc, Hd by exact Hx. unfold superposition. rewrite <- ksum_sub. apply ksum_ext. intros j _. ring.
Qed.
Lemma proj_unique basis psi f g : projectionOf dims basis psi f -> projectionOf dims basis psi g -> forall x, inr dims x -> f x = g x.
Proof.
  intros [Hf Of] [Hg Og].
  assert (O : orthogonalTo dims basis (fun x => f x - g x)).
  { intros k Hk. specialize (Of k Hk). specialize (Og k Hk). rewrite braket_sub_r in *.
    transitivity ((braket (nthState basis k) psi - braket (nthState basis k) g) - (braket (nthState basis k) psi - braket (nthState basis k) f)); [ring|]. rewrite Of, Og. ring. }
  destruct (braket_span _ _ _ (span_sub _ _ _ Hf Hg) O) as [Z _]. rewrite braket_self in Z. apply (f_equal cre) in Z. change (weight dims (fun x => f x - g x) = 0%R) in Z.
  intros x Hx. pose proof (weight_zero _ Z x Hx) as E. cbv beta in E. transitivity (f x - g x + g x); [ring|]. rewrite E. ring.
Qed.
Lemma weight_ext f g : (forall x, inr dims x -> f x = g x) -> weight dims f = weight dims g.
Proof. intros H. unfold weight. f_equal. now apply braket_ext. Qed.

Lemma sum_is_weight basis psi : basis <> [] -> inverts dims invert basis ->
  (exists phi, projectionOf dims basis psi phi) /\ forall phi, projectionOf dims basis psi phi -> last (streamed basis psi) 0%R = weight dims phi.
Proof.
  intros N H. pose proof (projected_is basis psi N H) as P. split; [eauto|]. intros phi Hp.
  rewrite (sum_column basis psi N), (proj_weight _ _ _ P). change (weight dims (projected basis psi) = weight dims phi). apply weight_ext. exact (proj_unique _ _ _ _ P Hp).
Qed.
Lemma pythagoras basis psi phi : projectionOf dims basis psi phi -> weight dims psi = (weight dims phi + weight dims (fun x => psi x - phi x)%KK)%R.
Proof.
  intros P. pose proof (proj_weight _ _ _ P) as E. destruct P as [Hs Ho].
  assert (E' : braket phi psi = RC (weight dims phi)) by (rewrite <- braket_conj, E; apply RC_conj).
  apply RC_inj. rewrite <- RC_add, <- !braket_self. rewrite braket_sub_r.
  rewrite <- (braket_conj psi (fun x => psi x - phi x)), <- (braket_conj phi (fun x => psi x - phi x)), !braket_sub_r, !kconj_sub, !braket_conj, E, E', !braket_self. ring.
Qed.
Lemma bounds basis psi : basis <> [] -> inverts dims invert basis ->
  (0 <= last (streamed basis psi) 0 <= weight dims psi)%R /\ (last (streamed basis psi) 0%R = weight dims psi <-> inSpan dims basis psi).
Proof.
  intros N H. destruct (sum_is_weight basis psi N H) as [[phi P] E]. rewrite (E phi P). pose proof (pythagoras _ _ _ P) as Y.
  pose proof (weight_nonneg phi) as W1. pose proof (weight_nonneg (fun x => psi x - phi x)) as W2. split; [lra|]. split.
  - intros Q. assert (Z : weight dims (fun x => psi x - phi x) = 0%R) by lra. destruct P as [[c Hc] _]. exists c. intros x Hx. rewrite <- Hc by exact Hx.
    pose proof (weight_zero _ Z x Hx) as V. cbv beta in V. transitivity (psi x - phi x + phi x); [ring|]. rewrite V. ring.
  - intros S. apply weight_ext. assert (P' : projectionOf dims basis psi psi).
    { split; [exact S|]. intros k Hk. rewrite braket_sub_r. ring. }
    exact (proj_unique _ _ _ _ P P').
Qed.

Lemma orthonormal_sum basis psi : basis <> [] -> orthonormal dims basis -> inverts dims invert basis ->
  last (streamed basis psi) 0%R = fold_right Rplus 0%R (map (fun i => nth i (streamed basis psi) 0%R) (seq 0%nat (length basis))).
Proof.
  intros N O H. rewrite (sum_column basis psi N). unfold projected. rewrite braket_sum_r.
  assert (C : forall j, j < length basis -> coefficient basis psi j = braket (nthState basis j) psi).
  { intros j Hj. destruct (projected_is basis psi N H) as [_ P]. specialize (P j Hj). rewrite braket_sub_r in P. unfold projected in P. rewrite braket_sum_r in P.
    rewrite (ksum_single _ _ j) in P.
    - rewrite (O j j Hj Hj), Nat.eqb_refl in P. transitivity (braket (nthState basis j) psi - (braket (nthState basis j) psi - coefficient basis psi j * 1)); [ring|]. rewrite P. ring.
    - apply seq_NoDup.
    - apply in_seq. lia.
    - intros i Hi Hne. apply in_seq in Hi. rewrite O by lia. rewrite (proj2 (Nat.eqb_neq j i)) by congruence. ring. }
  rewrite cre_sum. f_equal. apply map_ext_in. intros j Hj. apply in_seq in Hj. rewrite C by lia.
  unfold ProjModel.streamed. destruct (Nat.eqb_spec (length basis) 0) as [Z|_]; [lia|]. rewrite app_nth1 by (rewrite map_length, seq_length; lia).
  rewrite nth_indep with (d' := csq (braket (nthState basis 0) psi)) by (rewrite map_length, seq_length; lia).
  rewrite (map_nth (fun i => csq (braket (nthState basis i) psi)) (seq 0%nat (length basis)) 0%nat j), seq_nth by lia. cbn [Nat.add]. rewrite <- (braket_conj (nthState basis j) psi).
  replace (braket (nthState basis j) psi * kconj (braket (nthState basis j) psi)) with (kconj (braket (nthState basis j) psi) * braket (nthState basis j) psi) by ring.
  rewrite csq_conj. reflexivity.
Qed.
Lemma columns_of_key basis psi i : basis <> [] -> length (streamed basis psi) = announced (key basis i) /\
  forall k, k < length basis -> nth k (streamed basis psi) 0%R = csq (braket (nthState basis k) psi).
Proof.
  intros N. unfold ProjModel.streamed. destruct (Nat.eqb_spec (length basis) 0) as [Z|P]; [destruct basis; [congruence|discriminate]|].
  split; [rewrite app_length, map_length, seq_length; unfold announced, key; cbn [fold_right fst snd length]; lia|]. intros k Hk.
  rewrite app_nth1 by (rewrite map_length, seq_length; lia).
  rewrite nth_indep with (d' := csq (braket (nthState basis 0) psi)) by (rewrite map_length, seq_length; lia).
  rewrite (map_nth (fun i => csq (braket (nthState basis i) psi)) (seq 0%nat (length basis)) 0%nat k), seq_nth by lia. reflexivity.
Qed.
End P.
