From Coq Require Import List Arith Bool Lia Reals Lra.
From Verif Require Import Star CReal Arr SliceModel SliceSpec SliceProofs HermModel HermSpec HermProofs DensityModel PureModel PureProofs
  OdeModel MasterModel MasterSpec.
Import ListNotations.

Lemma nth_indices_pos sh x d : inr sh x -> nth (pos sh x) (indices sh) d = x.
Proof.
  intros H. apply in_indices in H. destruct (In_nth _ _ d H) as [k [Hk E]].
  assert (Ep : nth k (map (pos sh) (indices sh)) (pos sh d) = pos sh x) by (rewrite map_nth; now rewrite E).
  rewrite map_pos in Ep. rewrite indices_length in Hk. rewrite seq_nth in Ep by auto. cbn in Ep. now subst k.
Qed.

Lemma left_good R : good_positions (R + R) (left R).
Proof. split; [apply seq_NoDup|]. intros v Hv. apply in_seq in Hv. lia. Qed.

Lemma map_left {A} (d : A) (i j : list A) : map (fun v => nth v (i ++ j) d) (left (length i)) = i.
Proof.
  unfold left. apply (nth_ext _ _ d d); [now rewrite map_length, seq_length|]. intros k Hk.
  rewrite map_length, seq_length in Hk.
  rewrite (nth_indep _ d (nth 0 (i ++ j) d)) by (rewrite map_length, seq_length; lia).
  rewrite (map_nth (fun v => nth v (i ++ j) d)), seq_nth by lia. cbn. now rewrite app_nth1 by lia.
Qed.

Lemma negated_left R : negated (R + R) (left R) = seq R R.
Proof.
  unfold negated, ordinals, left. rewrite seq_app, filter_app. cbn [Nat.add].
  assert (C : forall o, contains (seq 0 R) o = (o <? R)).
  { intros o. rewrite contains_in. destruct (in_dec Nat.eq_dec o (seq 0 R)) as [H|H]; rewrite in_seq in H;
      symmetry; [apply Nat.ltb_lt | apply Nat.ltb_ge]; lia. }
  assert (E1 : filter (fun o => negb (contains (seq 0 R) o)) (seq 0 R) = []).
  { rewrite (filter_ext_in _ (fun _ => false)); [clear; induction (seq 0 R) as [|x l IH]; [reflexivity|exact IH]|].
    intros o Ho. apply in_seq in Ho. rewrite C. apply negb_false_iff, Nat.ltb_lt. lia. }
  assert (E2 : filter (fun o => negb (contains (seq 0 R) o)) (seq R R) = seq R R).
  { rewrite (filter_ext_in _ (fun _ => true)); [induction (seq R R) as [|a l IH]; cbn; congruence|].
    intros o Ho. apply in_seq in Ho. rewrite C. apply negb_true_iff, Nat.ltb_ge. lia. }
  now rewrite E1, E2.
Qed.

Section Left.
Context {A : Type}.
(** slices over the ket indices *)
Lemma left_spec (dims : list nat) (f : @mem A -> @mem A) (m : @mem A) :
  (forall k, In k dims -> 0 < k) ->
  (forall g g', (forall s, inr dims s -> g s = g' s) -> forall s, inr dims s -> f g s = f g' s) ->
  exists m', forEachSlice (fold_right Nat.mul 1 (dims ++ dims)) f (left (length dims)) (dims ++ dims) m = Some m' /\
    forall i j, inr dims i -> inr dims j -> m' (i ++ j) = f (fun i' => m (i' ++ j)) i.
Proof.
  intros Hpos Hext. set (R := length dims).
  assert (HV := left_good R).
  assert (L : length (dims ++ dims) = R + R) by (rewrite app_length; reflexivity).
  assert (EV : shV (left R) (dims ++ dims) = dims) by (unfold shV; apply map_left).
  assert (ED : shD (R + R) (left R) (dims ++ dims) = dims).
  { unfold shD. rewrite negated_left. apply map_nth_seq_app2. reflexivity. }
  destruct (forEachSlice_spec (R + R) (left R) HV (dims ++ dims) L (fold_right Nat.mul 1 (dims ++ dims)) f m) as [m' [E H]].
  - rewrite EV. exact Hext.
  - intros k Hk. apply in_app_or in Hk. destruct Hk; auto.
  - rewrite ED. rewrite app_shape_size.
    assert (0 < fold_right Nat.mul 1 dims).
    { clear - Hpos. induction dims as [|a l IH]; cbn; [lia|]. specialize (IH (fun k Hk => Hpos k (or_intror Hk))).
      specialize (Hpos a (or_introl eq_refl)). nia. }
    nia.
  - exists m'. split; auto. intros i j Hi Hj.
    pose proof (inr_length _ _ Hi) as Li. pose proof (inr_length _ _ Hj) as Lj. fold R in Li, Lj.
    assert (Hd : forall i', length i' = R -> dOf (R + R) (left R) (i' ++ j) = j).
    { intros i' Li'. unfold dOf. rewrite negated_left. rewrite <- Lj at 2. apply map_nth_seq_app2. auto. }
    assert (Hs : forall i', length i' = R -> sOf (left R) (i' ++ j) = i').
    { intros i' Li'. unfold sOf. rewrite <- Li'. apply map_left. }
    rewrite H by (apply inr_app; auto). rewrite Hd, Hs by auto.
    apply Hext; auto. intros i' Hi'. pose proof (inr_length _ _ Hi') as Li'. fold R in Li'. f_equal.
    rewrite <- (Hd i' Li') at 1. rewrite <- (Hs i' Li') at 2.
    apply (addr_of (R + R) (left R) HV). rewrite app_length. lia.
Qed.
End Left.

Section RhsP.
Context {K : StarRing}.
Add Ring KringMaster : (k_ring K).
Local Open Scope K_scope.
Notation array := (list nat -> K).
Notation op := (list nat -> list nat -> K).

Definition injective_view (o : obj K) : Prop :=
  forall x y, inr (oShape o) x -> inr (oShape o) y -> oView o x = oView o y -> x = y.

Lemma writeThrough_read (o : obj K) m x : injective_view o -> inr (oShape o) x -> oRead (writeThrough o m) x = m x.
Proof.
  intros Hi Hx. unfold oRead, writeThrough. cbn [oMem oView].
  destruct (find (fun x0 => listnat_eqb (oView o x0) (oView o x)) (indices (oShape o))) as [x'|] eqn:E.
  - apply find_some in E. destruct E as [H1 H2]. apply listnat_eqb_eq in H2. apply in_indices in H1. f_equal. now apply Hi.
  - exfalso. apply (find_none _ _ E x) in Hx || (apply in_indices in Hx; apply (find_none _ _ E x) in Hx).
    rewrite listnat_eqb_refl in Hx. discriminate.
Qed.

Lemma acts_as_ext dims f (a : op) : acts_as dims f a ->
  forall g g', (forall s, inr dims s -> g s = g' s) -> forall s, inr dims s -> f g s = f g' s.
Proof. intros H g g' E s Hs. rewrite !H by auto. apply isum_ext. intros x Hx. now rewrite E. Qed.

Lemma forEachLeft_spec dims f (a : op) (o : obj K) : (forall k, In k dims -> (0 < k)%nat) -> acts_as dims f a ->
  oShape o = dims ++ dims -> injective_view o ->
  exists o', forEachLeft (length dims) f o = Some o' /\ oShape o' = dims ++ dims /\ oView o' = oView o /\
    mmeq dims (mm o') (mmul dims a (mm o)).
Proof.
  intros Hpos Ha Hs Hi. unfold forEachLeft. rewrite Hs.
  destruct (left_spec dims f (oRead o) Hpos (acts_as_ext dims f a Ha)) as [m' [E H]]. rewrite E.
  eexists. split; [reflexivity|]. split; [auto|]. split; [reflexivity|].
  intros i j Hii Hj. unfold mm. rewrite writeThrough_read; auto.
  - rewrite H by auto. rewrite Ha by auto. reflexivity.
  - rewrite Hs. apply inr_app; auto. now apply inr_length.
Qed.

Lemma hcs_injective dims (o : obj K) : oShape o = dims ++ dims -> injective_view o ->
  injective_view (hermitianConjugateSelf (length dims) o).
Proof.
  intros E Hi x y. rewrite (proj1 (hcs_spec dims o E)). intros Hx Hy.
  assert (Sp : forall z, inr (dims ++ dims) z -> exists z1 z2, z = z1 ++ z2 /\ inr dims z1 /\ inr dims z2).
  { intros z Hz. exists (firstn (length dims) z), (skipn (length dims) z). split; [now rewrite firstn_skipn|].
    apply inr_app; [|now rewrite firstn_skipn]. pose proof (inr_length _ _ Hz) as L. rewrite app_length in L.
    rewrite firstn_length. lia. }
  destruct (Sp x Hx) as (x1 & x2 & -> & X1 & X2). destruct (Sp y Hy) as (y1 & y2 & -> & Y1 & Y2).
  pose proof (inr_length _ _ X1). pose proof (inr_length _ _ X2). pose proof (inr_length _ _ Y1). pose proof (inr_length _ _ Y2).
  unfold hermitianConjugateSelf, transposeSelf, conjSelf. cbn [oView]. rewrite !hermPerm_swap by auto.
  intros Ev. apply Hi in Ev; [|rewrite E; apply inr_app; auto ..].
  apply (f_equal (firstn (length dims))) in Ev as E1. apply (f_equal (skipn (length dims))) in Ev as E2.
  rewrite !firstn_app, !firstn_all2 in E1 by lia. rewrite !skipn_app, !skipn_all2 in E2 by lia.
  replace (length dims - length x2)%nat with 0%nat in * by lia. replace (length dims - length y2)%nat with 0%nat in * by lia.
  cbn in E1, E2. rewrite !app_nil_r in E1. rewrite firstn_all2 in E1 by lia. rewrite skipn_all2 in E2 by lia. cbn in E2. now subst.
Qed.

Lemma id_injective (m : array) sh : injective_view (mkObj m sh (fun y => y)).
Proof. intros x y _ _ E. exact E. Qed.

(** ** f on the kets, then Hermitian conjugation, then f on the kets: the result seen through the transposed view *)
Lemma twoSided dims f (a : op) rho : (forall k, In k dims -> (0 < k)%nat) -> acts_as dims f a ->
  exists o1 o2, forEachLeft (length dims) f (mkObj rho (dims ++ dims) (fun y => y)) = Some o1 /\
    forEachLeft (length dims) f (hermitianConjugateSelf (length dims) o1) = Some o2 /\
    oShape o2 = dims ++ dims /\
    (forall i j, length i = length dims -> length j = length dims -> oView o2 (i ++ j) = j ++ i) /\
    mmeq dims (mm o2) (dag (conjugated dims a (asOp rho))).
Proof.
  intros Hpos Ha.
  destruct (forEachLeft_spec dims f a (mkObj rho (dims ++ dims) (fun y => y)) Hpos Ha eq_refl (id_injective _ _)) as (o1 & E1 & S1 & V1 & H1).
  exists o1.
  assert (I1 : injective_view o1) by (intros x y _ _; rewrite V1; auto).
  destruct (hcs_spec dims o1 S1) as [S1' H1'].
  destruct (forEachLeft_spec dims f a (hermitianConjugateSelf (length dims) o1) Hpos Ha S1' (hcs_injective dims o1 S1 I1)) as (o2 & E2 & S2 & V2 & H2).
  exists o2. split; [auto|]. split; [auto|]. split; [auto|]. split.
  - intros i j Li Lj. rewrite V2. unfold hermitianConjugateSelf, transposeSelf, conjSelf. cbn [oView]. rewrite V1.
    cbn [oView]. now apply hermPerm_swap.
  - intros i j Hi Hj. rewrite H2 by auto. unfold dag, conjugated, mmul.
    rewrite isum_conj.
    transitivity (isum dims (fun k => isum dims (fun l => a i k * (kconj (a j l) * kconj (asOp rho l k))))).
    + apply isum_ext. intros k Hk. rewrite H1' by auto. unfold dag. rewrite H1 by auto. unfold mmul. rewrite isum_conj.
      rewrite <- isum_scal_l. apply isum_ext. intros l Hl. now rewrite kconj_mul.
    + rewrite isum_swap. apply isum_ext. intros l Hl. rewrite kconj_mul, isum_conj, <- isum_scal_l.
      apply isum_ext. intros k Hk. unfold dag. rewrite kconj_mul, kconj_invol. ring.
Qed.

Lemma exactPart_spec dims u (U : op) rho : (forall k, In k dims -> (0 < k)%nat) -> acts_as dims u U ->
  exists rho', exactPart dims u rho = Some rho' /\ mmeq dims (asOp rho') (conjugated dims U (asOp rho)).
Proof.
  intros Hpos Hu. destruct (twoSided dims u U rho Hpos Hu) as (o1 & o2 & E1 & E2 & S2 & V2 & H2).
  unfold exactPart. rewrite E1, E2. eexists. split; [reflexivity|].
  intros i j Hi Hj. pose proof (inr_length _ _ Hi). pose proof (inr_length _ _ Hj). unfold asOp at 1.
  assert (Eq : oMem (conjSelf o2) (i ++ j) = oRead (conjSelf o2) (j ++ i)).
  { unfold oRead. change (oView (conjSelf o2)) with (oView o2). now rewrite V2 by auto. }
  rewrite Eq, conjSelf_read by (rewrite S2; apply inr_app; auto).
  fold (mm o2 j i). rewrite H2 by auto. unfold dag at 1. apply kconj_invol.
Qed.

Lemma twoRealPart_spec dims (m : array) : mmeq dims (asOp (twoRealPart dims m)) (madd (asOp m) (dag (asOp m))).
Proof.
  intros i j Hi Hj. unfold asOp at 1, twoRealPart.
  pose proof (inr_length _ _ Hi) as Li. pose proof (inr_length _ _ Hj) as Lj.
  rewrite <- Li.
  rewrite firstn_app, firstn_all, Nat.sub_diag, skipn_app, skipn_all, Nat.sub_diag. cbn [firstn skipn app].
  rewrite app_nil_r. rewrite twoRe_spec by (now apply pos_lt). rewrite !nth_indices_pos by auto. reflexivity.
Qed.

Lemma hamiltonianPart_spec dims h (a : op) rho : (forall k, In k dims -> (0 < k)%nat) -> acts_as dims h a ->
  exists d, hamiltonianPart dims (Some h) rho = Some d /\ mmeq dims (asOp d) (mmul dims a (asOp rho)).
Proof.
  intros Hpos Ha. unfold hamiltonianPart.
  match goal with |- context [forEachSlice ?n ?F _ _ ?m0] => destruct (left_spec dims F m0 Hpos) as [m' [E H]] end.
  - intros g g' Eg s Hs. rewrite Eg by auto. f_equal. f_equal. apply (acts_as_ext dims h a Ha); auto.
    intros x Hx. now rewrite Eg.
  - rewrite E. cbn [option_map]. eexists. split; [reflexivity|].
    intros i j Hi Hj. unfold asOp at 1. rewrite H by auto. cbn [fst snd]. rewrite Ha by auto. unfold mmul, asOp. ring.
Qed.

Lemma resetFallback_spec dims j (a : op) rho d : (forall k, In k dims -> (0 < k)%nat) -> acts_as dims j a ->
  exists d', resetFallback dims j rho d = Some d' /\
    mmeq dims (asOp d') (madd (asOp d) (dag (conjugated dims a (asOp rho)))).
Proof.
  intros Hpos Ha. destruct (twoSided dims j a rho Hpos Ha) as (o1 & o2 & E1 & E2 & S2 & V2 & H2).
  unfold resetFallback. rewrite E1, E2. eexists. split; [reflexivity|].
  intros x y Hx Hy. unfold asOp at 1, madd. fold (mm o2 x y). now rewrite H2.
Qed.

Lemma mmul_ext dims (a a' b b' : op) : mmeq dims a a' -> mmeq dims b b' -> mmeq dims (mmul dims a b) (mmul dims a' b').
Proof. intros H1 H2 i j Hi Hj. apply isum_ext. intros k Hk. now rewrite H1, H2. Qed.
Lemma mmul_assoc dims (a b c : op) i j : mmul dims a (mmul dims b c) i j = mmul dims (mmul dims a b) c i j.
Proof.
  unfold mmul. transitivity (isum dims (fun k => isum dims (fun l => a i k * b k l * c l j))).
  - apply isum_ext. intros k _. rewrite <- isum_scal_l. apply isum_ext. intros l _. ring.
  - rewrite isum_swap. apply isum_ext. intros l _. now rewrite isum_scal_r.
Qed.
Lemma dag_mmul dims (a b : op) i j : dag (mmul dims a b) i j = mmul dims (dag b) (dag a) i j.
Proof. unfold dag, mmul. rewrite isum_conj. apply isum_ext. intros k _. rewrite kconj_mul. ring. Qed.
Lemma conjugated_dag dims (a rho : op) : mmeq dims (dag (conjugated dims a rho)) (conjugated dims a (dag rho)).
Proof.
  intros i j Hi Hj. unfold conjugated. rewrite dag_mmul.
  transitivity (mmul dims (mmul dims a (dag rho)) (dag a) i j).
  - apply mmul_ext; auto; [|intros x y _ _; reflexivity].
    intros x y _ _. rewrite dag_mmul. unfold mmul. apply isum_ext. intros k _. unfold dag. rewrite kconj_invol. reflexivity.
  - symmetry. apply mmul_assoc.
Qed.
Lemma conjugated_ext dims (a b rho : op) : mmeq dims a b -> forall rho', mmeq dims rho rho' ->
  mmeq dims (conjugated dims a rho) (conjugated dims b rho').
Proof.
  intros H rho' H'. unfold conjugated. apply mmul_ext; auto. apply mmul_ext; auto.
  intros i j Hi Hj. unfold dag. now rewrite H.
Qed.
Lemma conjugated_hermitian dims (a rho : op) : hermitian dims rho -> hermitian dims (conjugated dims a rho).
Proof.
  intros H i j Hi Hj. rewrite (conjugated_dag dims a rho i j Hi Hj). apply conjugated_ext; auto. intros x y _ _. reflexivity.
Qed.
Lemma trace_mmul dims (a b : op) : mtrace dims (mmul dims a b) = mtrace dims (mmul dims b a).
Proof.
  unfold mtrace, mmul. rewrite isum_swap. apply isum_ext. intros k _. apply isum_ext. intros i _. ring.
Qed.
Lemma mtrace_ext dims (a b : op) : mmeq dims a b -> mtrace dims a = mtrace dims b.
Proof. intros H. apply isum_ext. intros i Hi. now apply H. Qed.
Lemma trace_conjugated dims (a rho : op) : mtrace dims (conjugated dims a rho) = mtrace dims (mmul dims (mmul dims (dag a) a) rho).
Proof.
  unfold conjugated.
  rewrite (mtrace_ext dims _ (mmul dims (mmul dims a rho) (dag a))) by (intros i j _ _; apply mmul_assoc).
  rewrite trace_mmul. apply mtrace_ext. intros i j _ _. apply mmul_assoc.
Qed.
Lemma trace_dag dims (a : op) : mtrace dims (dag a) = kconj (mtrace dims a).
Proof. unfold mtrace. rewrite isum_conj. reflexivity. Qed.

Lemma resetPart_spec dims rho : (forall k, In k dims -> (0 < k)%nat) -> hermitian dims (asOp rho) ->
  forall cs (js : list op) d, Forall2 (channel_is dims) cs js ->
  exists d', resetPart dims cs rho d = Some d' /\
    mmeq dims (asOp d') (madd (asOp d) (msum (map (fun a => conjugated dims a (asOp rho)) js))).
Proof.
  intros Hpos Hh. induction cs as [|[j s] cs IH]; intros js d HF; inversion HF as [|? a ? js' [Hj Hs] HF']; subst; cbn [resetPart].
  - exists d. split; auto. intros i k _ _. unfold madd, msum. cbn. ring.
  - assert (Step : exists d1, (match s with Some sup => Some (sup rho d) | None => resetFallback dims j rho d end) = Some d1 /\
      mmeq dims (asOp d1) (madd (asOp d) (conjugated dims a (asOp rho)))).
    { destruct s as [sup|].
      - exists (sup rho d). split; [reflexivity|apply Hs].
      - destruct (resetFallback_spec dims j a rho d Hpos Hj) as [d1 [E H]]. exists d1. split; auto.
        intros x y Hx Hy. rewrite H by auto. unfold madd. f_equal. now apply conjugated_hermitian. }
    destruct Step as [d1 [E1 H1]]. destruct (IH js' d1 HF') as [d2 [E2 H2]]. exists d2. split.
    + destruct s as [sup|]; [injection E1 as ->; auto|]. now rewrite E1.
    + intros x y Hx Hy. rewrite H2 by auto. unfold madd at 1. rewrite H1 by auto. unfold madd, msum.
      cbn [map ksum fold_right]. unfold ksum. cbn. ring.
Qed.

Lemma masterRhs_spec dims h (a : op) cs js rho : (forall k, In k dims -> (0 < k)%nat) -> hermitian dims (asOp rho) ->
  acts_as dims h a -> Forall2 (channel_is dims) cs js ->
  exists d, masterRhs dims (Some h) cs rho = Some d /\
    mmeq dims (asOp d) (madd (madd (mmul dims a (asOp rho)) (dag (mmul dims a (asOp rho))))
                             (msum (map (fun a => conjugated dims a (asOp rho)) js))).
Proof.
  intros Hpos Hh Ha HF. unfold masterRhs.
  destruct (hamiltonianPart_spec dims h a rho Hpos Ha) as [d0 [E0 H0]]. rewrite E0.
  destruct (resetPart_spec dims rho Hpos Hh cs js (twoRealPart dims d0) HF) as [d [E H]].
  exists d. split; auto. intros i j Hi Hj. rewrite H by auto. unfold madd. f_equal.
  rewrite twoRealPart_spec by auto. unfold madd, dag. now rewrite !H0.
Qed.
End RhsP.
