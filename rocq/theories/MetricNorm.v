From Coq Require Import List Arith Bool Lia Reals Lra.
From Verif Require Import Star CReal Arr MetricModel MetricSpec MetricProofs.
Import ListNotations.
Local Open Scope nat_scope.
Add Ring NormRing : (k_ring CR).

Lemma given_buffer n : Given n <> Buffer.
Proof. discriminate. Qed.
Lemma updated v M : matrix_of (nTrafo v) (nDims v) M -> exists d, update v = mkNosv (nDims v) (nPsi v) (Some d) (nTrafo v) /\ forall y, inr (nDims v) y -> d y = isum (nDims v) (fun x => kmul (M y x) (nPsi v x)).
Proof.
  intros H. unfold update. set (m := fun a : addr => _).
  destruct (transform_matrix (nTrafo v) (nDims v) M m (Given 0) (Given 1) H ltac:(discriminate) (given_buffer 0) (given_buffer 1)) as (m' & a & -> & D).
  exists (m' a). split; [reflexivity|]. exact D.
Qed.
(** sum of conj psi G psi is the length squared *)
Lemma quadratic dims space e (psi : list nat -> CR) :
  isum dims (fun y => kmul (kconj (psi y)) (isum dims (fun x => kmul (metric space e y x) (psi x)))) = lengthSq space (vectorOf dims e psi).
Proof.
  unfold lengthSq, vectorOf, metric.
  transitivity (isum dims (fun y => isum dims (fun x => isum space (fun a => kmul (kmul (kconj (psi y)) (kconj (e y a))) (kmul (psi x) (e x a)))))).
  { apply isum_ext. intros y _. rewrite <- isum_scal_l. apply isum_ext. intros x _. rewrite <- isum_scal_r, <- isum_scal_l. apply isum_ext. intros a _. ring. }
  transitivity (isum dims (fun y => isum space (fun a => isum dims (fun x => kmul (kmul (kconj (psi y)) (kconj (e y a))) (kmul (psi x) (e x a)))))).
  { apply isum_ext. intros y _. apply isum_swap. }
  rewrite isum_swap. apply isum_ext. intros a _. rewrite isum_conj, <- isum_scal_r. apply isum_ext. intros y _. rewrite <- isum_scal_l. apply isum_ext. intros x _. rewrite kconj_mul. ring.
Qed.
Lemma metric_norm v space e : on_basis v space e -> norm (update v) = Some (lengthOf v space e).
Proof.
  intros (M & HM & HE). destruct (updated v M HM) as (d & -> & D). unfold norm. cbn [nDual nDims nPsi]. unfold lengthOf. do 3 f_equal. rewrite <- quadratic. apply isum_ext. intros y Hy. rewrite D by exact Hy.
  f_equal. apply isum_ext. intros x Hx. now rewrite HE.
Qed.
Lemma times_basis v w s1 s2 e1 e2 : on_basis v s1 e1 -> on_basis w s2 e2 ->
  on_basis (times v w) (s1 ++ s2) (fun x a => kmul (e1 (firstn (length (nDims v)) x) (firstn (length s1) a)) (e2 (skipn (length (nDims v)) x) (skipn (length s1) a))).
Proof.
  intros (M1 & H1 & E1) (M2 & H2 & E2). destruct (compose_matrix _ _ _ _ _ _ H1 H2) as (M & HM & P). exists M. split; [exact HM|].
  unfold times. cbn [nDims newNosv]. intros y x Hy Hx.
  apply Forall2_app_inv_r in Hy. destruct Hy as (a & b & Ha & Hb & ->). apply Forall2_app_inv_r in Hx. destruct Hx as (c & d & Hc & Hd & ->).
  rewrite P by assumption. rewrite E1, E2 by assumption. unfold metric. rewrite isum_app.
  assert (F1 : forall (u v : list nat) n, length u = n -> firstn n (u ++ v) = u) by (intros u z n <-; now rewrite firstn_app, Nat.sub_diag, firstn_all, app_nil_r).
  assert (F2 : forall (u v : list nat) n, length u = n -> skipn n (u ++ v) = v) by (intros u z n <-; now rewrite skipn_app, Nat.sub_diag, skipn_all).
  rewrite !F1, !F2 by (now apply inr_length). rewrite <- isum_scal_r. apply isum_ext. intros p Hp. rewrite <- isum_scal_l. apply isum_ext. intros q _. rewrite F1, F2 by (now apply inr_length). rewrite kconj_mul. ring.
Qed.
Lemma lengthSq_product v w (s1 s2 : list nat) e1 e2 :
  lengthSq (s1 ++ s2) (vectorOf (nDims (times v w)) (fun x a => kmul (e1 (firstn (length (nDims v)) x) (firstn (length s1) a)) (e2 (skipn (length (nDims v)) x) (skipn (length s1) a))) (nPsi (times v w))) =
  kmul (lengthSq s1 (vectorOf (nDims v) e1 (nPsi v))) (lengthSq s2 (vectorOf (nDims w) e2 (nPsi w))).
Proof.
  assert (F1 : forall (u v : list nat) n, length u = n -> firstn n (u ++ v) = u) by (intros u z n <-; now rewrite firstn_app, Nat.sub_diag, firstn_all, app_nil_r).
  assert (F2 : forall (u v : list nat) n, length u = n -> skipn n (u ++ v) = v) by (intros u z n <-; now rewrite skipn_app, Nat.sub_diag, skipn_all).
  unfold lengthSq. rewrite isum_app, <- isum_scal_r. apply isum_ext. intros p Hp. rewrite <- isum_scal_l. apply isum_ext. intros q Hq.
  assert (V : vectorOf (nDims (times v w)) (fun x a => kmul (e1 (firstn (length (nDims v)) x) (firstn (length s1) a)) (e2 (skipn (length (nDims v)) x) (skipn (length s1) a))) (nPsi (times v w)) (p ++ q) =
    kmul (vectorOf (nDims v) e1 (nPsi v) p) (vectorOf (nDims w) e2 (nPsi w) q)).
  { unfold vectorOf, times, newNosv. cbn [nDims nPsi]. rewrite isum_app, <- isum_scal_r. apply isum_ext. intros x Hx. rewrite <- isum_scal_l. apply isum_ext. intros z Hz.
    rewrite !F1, !F2 by (now apply inr_length). ring. }
  rewrite V, kconj_mul. ring.
Qed.
Lemma lengthSq_real space v : (0 <= cre (lengthSq space v))%R /\ cim (lengthSq space v) = 0%R.
Proof.
  unfold lengthSq, isum. induction (indices space) as [|a l [H1 H2]]; [cbn; split; [apply Rle_refl|reflexivity]|].
  cbn [ksum map fold_right]. rewrite csq_conj. pose proof (csq_nonneg (v a)). cbn [cre cim fst snd kadd CR RC] in *. unfold cre, cim in *. cbn in *. split; lra.
Qed.
Lemma norm_product v w s1 s2 e1 e2 : on_basis v s1 e1 -> on_basis w s2 e2 -> exists a b, norm (update v) = Some a /\ norm (update w) = Some b /\ norm (update (times v w)) = Some (a * b)%R.
Proof.
  intros H1 H2. exists (lengthOf v s1 e1), (lengthOf w s2 e2). split; [now apply metric_norm|]. split; [now apply metric_norm|].
  rewrite (metric_norm _ _ _ (times_basis v w s1 s2 e1 e2 H1 H2)). f_equal. unfold lengthOf. rewrite lengthSq_product.
  destruct (lengthSq_real s1 (vectorOf (nDims v) e1 (nPsi v))) as [P1 Q1], (lengthSq_real s2 (vectorOf (nDims w) e2 (nPsi w))) as [P2 Q2].
  destruct (lengthSq s1 _) as [a b], (lengthSq s2 _) as [c d]. unfold cre, cim in *. cbn in *. subst. rewrite <- sqrt_mult by assumption. f_equal. ring.
Qed.
(** ** without update *)
Lemma conj_real c : kconj (RC c) = RC c.
Proof. apply cr_eq; cbn; [reflexivity|apply Ropp_0]. Qed.
Lemma norm_stale v space e c : on_basis v space e -> (0 <= c)%R -> norm (scale (RC c) (update v)) = Some (sqrt c * lengthOf v space e)%R.
Proof.
  intros (M & HM & HE) Hc. destruct (updated v M HM) as (d & -> & D). unfold norm, scale. cbn [nDual nDims nPsi]. f_equal. unfold lengthOf.
  destruct (lengthSq_real space (vectorOf (nDims v) e (nPsi v))) as [P _].
  rewrite <- sqrt_mult by assumption. f_equal.
  transitivity (cre (kmul (RC c) (lengthSq space (vectorOf (nDims v) e (nPsi v))))).
  - f_equal. rewrite <- quadratic, <- isum_scal_l. apply isum_ext. intros y Hy. rewrite D by exact Hy. rewrite kconj_mul.
    rewrite conj_real.
    transitivity (kmul (RC c) (kmul (kconj (nPsi v y)) (isum (nDims v) (fun x => kmul (M y x) (nPsi v x))))); [ring|]. do 2 f_equal. apply isum_ext. intros x Hx. now rewrite HE.
  - destruct (lengthSq space _) as [a b]. cbn. ring.
Qed.
Lemma scaled_length v space e c : (0 <= c)%R -> lengthOf (scale (RC c) v) space e = (c * lengthOf v space e)%R.
Proof.
  intros Hc. unfold lengthOf. destruct (lengthSq_real space (vectorOf (nDims v) e (nPsi v))) as [P _].
  transitivity (sqrt (c * c * cre (lengthSq space (vectorOf (nDims v) e (nPsi v))))%R).
  - f_equal. transitivity (cre (kmul (RC (c * c)) (lengthSq space (vectorOf (nDims v) e (nPsi v))))).
    + f_equal. unfold lengthSq. rewrite <- isum_scal_l. apply isum_ext. intros a _.
      assert (E : vectorOf (nDims (scale (RC c) v)) e (nPsi (scale (RC c) v)) a = kmul (RC c) (vectorOf (nDims v) e (nPsi v) a)).
      { unfold vectorOf, scale. cbn [nDims nPsi]. rewrite <- isum_scal_l. apply isum_ext. intros x _. ring. }
      rewrite E, kconj_mul. rewrite conj_real. rewrite <- RC_mul. ring.
    + destruct (lengthSq space _) as [a b]. cbn. ring.
  - rewrite sqrt_mult; [|nra|exact P]. now rewrite sqrt_square.
Qed.
Lemma norm_unset dims psi t v : norm (newNosv dims psi t) = None /\ norm (copyNosv v) = None.
Proof. split; reflexivity. Qed.
