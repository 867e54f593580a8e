From Coq Require Import Reals Lra List Arith Lia PeanoNat.
From Verif Require Import Star CReal Arr SliceProofs HermSpec DensityModel DensitySpec PureModel.
Import ListNotations.

(** * Storage positions *)
Lemma pos_app s1 s2 x1 x2 : length x1 = length s1 ->
  pos (s1 ++ s2) (x1 ++ x2) = pos s1 x1 * fold_right Nat.mul 1 s2 + pos s2 x2.
Proof.
  revert x1; induction s1 as [|n s1 IH]; intros [|i x1] L; cbn [pos app length fold_right] in *; try discriminate; try lia.
  rewrite IH by lia. replace (fold_right Nat.mul 1 (s1 ++ s2)) with (fold_right Nat.mul 1 s1 * fold_right Nat.mul 1 s2).
  - ring.
  - clear. induction s1 as [|n s1 IH]; cbn; [lia|]. rewrite <- IH. ring.
Qed.

Lemma pos_lt sh x : inr sh x -> pos sh x < fold_right Nat.mul 1 sh.
Proof.
  unfold inr. revert x; induction sh as [|n sh IH]; intros x H; inversion H as [|i ? x' ? Hi Hx]; subst; cbn; [lia|].
  specialize (IH _ Hx). nia.
Qed.

Lemma map_pos sh : map (pos sh) (indices sh) = seq 0 (fold_right Nat.mul 1 sh).
Proof.
  induction sh as [|n sh IH]; auto. cbn [indices fold_right].
  set (p := fold_right Nat.mul 1 sh) in *.
  assert (G : forall m s, map (pos (n :: sh)) (flat_map (fun i => map (cons i) (indices sh)) (seq s m)) = seq (s * p) (m * p)).
  { induction m as [|m IHm]; intros s; auto. cbn [seq flat_map]. rewrite map_app, IHm.
    replace (S m * p) with (p + m * p) by lia. rewrite seq_app. f_equal; [|f_equal; lia].
    rewrite map_map. rewrite (map_ext _ (fun x => s * p + pos sh x)) by reflexivity.
    rewrite <- (map_map (pos sh) (fun k => s * p + k)), IH.
    clear. generalize (s * p) as a. intros a. clear s.
    assert (E : forall b, map (fun k => a + k) (seq b p) = seq (a + b) p).
    { induction p as [|p IH]; intros b; cbn; auto. f_equal. rewrite IH. f_equal. lia. }
    rewrite E. f_equal. lia. }
  rewrite G. f_equal. 
Qed.

Lemma app_shape_size (s1 s2 : list nat) : fold_right Nat.mul 1 (s1 ++ s2) = fold_right Nat.mul 1 s1 * fold_right Nat.mul 1 s2.
Proof. induction s1 as [|n s1 IH]; cbn; [lia|]. rewrite IH. ring. Qed.

Section Pure.
Context {K : StarRing}.
Local Open Scope K_scope.
Add Ring KRPu : (k_ring K).

Lemma ksum_pos sh (f : nat -> K) : ksum f (seq 0 (fold_right Nat.mul 1%nat sh)) = isum sh (fun x => f (pos sh x)).
Proof. rewrite <- map_pos, ksum_map. reflexivity. Qed.

Lemma doDirect_elem (A B : carr K) x y : inr (cSh A) x -> inr (cSh B) y ->
  cElem (doDirect A B) (x ++ y) = cElem A x * cElem B y /\ cElem (doDirectSum A B) (x ++ y) = cElem A x + cElem B y.
Proof.
  intros Hx Hy. unfold cElem, doDirect, doDirectSum. cbn [cDat cSh].
  rewrite pos_app by (apply (inr_length _ _ Hx)). pose proof (pos_lt _ _ Hy) as HL. fold (cSize B) in *.
  rewrite Nat.div_add_l by lia. rewrite (Nat.div_small (pos (cSh B) y)) by auto. rewrite Nat.add_0_r.
  rewrite (Nat.add_comm (_ * _)), Nat.mod_add by lia. rewrite Nat.mod_small by auto. auto.
Qed.

Lemma cConj_elem (A : carr K) x : cElem (cConj A) x = kconj (cElem A x).
Proof. reflexivity. Qed.

Lemma densityOf_elem (psi : carr K) i j : inr (cSh psi) i -> inr (cSh psi) j ->
  indexDO (densityOf psi) i j = indexSV psi i j.
Proof.
  intros Hi Hj. unfold indexDO, densityOf, dyad, indexSV.
  rewrite (proj1 (doDirect_elem psi (cConj psi) i j Hi Hj)). reflexivity.
Qed.

(** ** loops over the matrix view *)
Lemma inner_loop dim i (F : nat -> nat -> K -> K) n : forall s d, (s + n <= dim)%nat ->
  let d' := fold_left (fun d j => setDat d (i * dim + j) (F i j (d (i * dim + j)%nat))) (seq s n) d in
  (forall j, (s <= j < s + n)%nat -> d' (i * dim + j)%nat = F i j (d (i * dim + j)%nat)) /\
  (forall p, (forall j, (s <= j < s + n)%nat -> p <> i * dim + j)%nat -> d' p = d p).
Proof.
  induction n as [|n IH]; intros s d Hs d'; cbn [seq fold_left] in d'.
  - split; [intros; lia | reflexivity].
  - set (d1 := setDat d (i * dim + s) (F i s (d (i * dim + s)%nat))) in d'.
    destruct (IH (S s) d1 ltac:(lia)) as [H1 H2]. fold d' in H1, H2. split.
    + intros j Hj. destruct (Nat.eq_dec j s) as [->|Hne].
      * rewrite H2 by (intros; lia). unfold d1, setDat. now rewrite Nat.eqb_refl.
      * rewrite H1 by lia. f_equal. unfold d1, setDat. destruct (Nat.eqb_spec (i * dim + j) (i * dim + s)); auto. lia.
    + intros p Hp. rewrite H2 by (intros; apply Hp; lia). unfold d1, setDat.
      destruct (Nat.eqb_spec p (i * dim + s)); auto. exfalso. apply (Hp s); lia.
Qed.

Lemma matrixLoop_ok dim (F : nat -> nat -> K -> K) d i j : (i < dim)%nat -> (j < dim)%nat ->
  matrixLoop dim F d (i * dim + j)%nat = F i j (d (i * dim + j)%nat).
Proof.
  intros Hi Hj. unfold matrixLoop.
  assert (G : forall n s d, (s + n <= dim)%nat -> forall a b, (a < dim)%nat -> (b < dim)%nat ->
    fold_left (fun d i => fold_left (fun d j => setDat d (i * dim + j) (F i j (d (i * dim + j)%nat))) (seq 0 dim) d) (seq s n) d (a * dim + b)%nat
    = if andb (s <=? a)%nat (a <? s + n)%nat then F a b (d (a * dim + b)%nat) else d (a * dim + b)%nat).
  { induction n as [|n IH]; intros s d0 Hs a b Ha Hb; cbn [seq fold_left].
    - destruct (Nat.leb_spec s a), (Nat.ltb_spec a (s + 0)); cbn; auto; lia.
    - rewrite IH by lia.
      destruct (inner_loop dim s F dim 0 d0 ltac:(lia)) as [H1 H2].
      set (d1 := fold_left _ (seq 0 dim) d0) in *.
      destruct (Nat.eq_dec a s) as [->|Hne].
      + replace (S s <=? s) with false by (symmetry; apply Nat.leb_gt; lia). cbn [andb].
        rewrite H1 by lia. destruct (Nat.leb_spec s s), (Nat.ltb_spec s (s + S n)); cbn; auto; lia.
      + assert (E : d1 (a * dim + b)%nat = d0 (a * dim + b)%nat).
        { apply H2. intros j' Hj' E. assert (a = s) by nia. contradiction. }
        rewrite E. destruct (Nat.leb_spec (S s) a), (Nat.ltb_spec a (S s + n)), (Nat.leb_spec s a), (Nat.ltb_spec a (s + S n)); cbn; auto; lia. }
  rewrite G by lia. destruct (Nat.leb_spec 0 i), (Nat.ltb_spec i (0 + dim)); cbn; auto; lia.
Qed.

Lemma indexDO_pos dims (rho : carr K) i j : cSh rho = dims ++ dims -> inr dims i ->
  indexDO rho i j = cDat rho (pos dims i * fold_right Nat.mul 1%nat dims + pos dims j)%nat.
Proof. intros E Hi. unfold indexDO, cElem. rewrite E, pos_app by (apply (inr_length _ _ Hi)). reflexivity. Qed.

Lemma assignSV_elem (rho psi : carr K) i j : cSh rho = cSh psi ++ cSh psi -> inr (cSh psi) i -> inr (cSh psi) j ->
  indexDO (assignSV rho psi) i j = indexSV psi i j.
Proof.
  intros E Hi Hj. rewrite (indexDO_pos (cSh psi)) by auto. unfold assignSV. cbn [cDat].
  pose proof (pos_lt _ _ Hi). pose proof (pos_lt _ _ Hj).
  rewrite (matrixLoop_ok (cSize psi)) by auto. reflexivity.
Qed.

Lemma addTo_elem (rho psi : carr K) w i j : cSh rho = cSh psi ++ cSh psi -> inr (cSh psi) i -> inr (cSh psi) j ->
  indexDO (addTo psi rho w) i j = indexDO rho i j + w * indexSV psi i j.
Proof.
  intros E Hi Hj. rewrite !(indexDO_pos (cSh psi)) by auto. unfold addTo. cbn [cDat].
  pose proof (pos_lt _ _ Hi). pose proof (pos_lt _ _ Hj).
  rewrite (matrixLoop_ok (cSize psi)) by auto. unfold indexSV, cElem. unfold cSize. f_equal. ring.
Qed.

Lemma traceDO_ok dims (rho : carr K) : cSh rho = dims ++ dims -> traceDO dims rho = mtrace dims (indexDO rho).
Proof.
  intros E. unfold traceDO, mtrace. rewrite (ksum_pos dims). apply isum_ext. intros i Hi.
  now rewrite (indexDO_pos dims) by auto.
Qed.

Lemma braket_ok (a b : carr K) : cSh a = cSh b -> braket a b = isum (cSh a) (fun x => kconj (cElem a x) * cElem b x).
Proof. intros E. unfold braket, cSize. rewrite ksum_pos. unfold cElem. now rewrite E. Qed.

(** trace and expectation value of a product *)
Lemma direct_braket (a1 b1 a2 b2 : carr K) : cSh a1 = cSh a2 -> cSh b1 = cSh b2 ->
  braket (doDirect a1 b1) (doDirect a2 b2) = braket a1 a2 * braket b1 b2.
Proof.
  intros E1 E2. rewrite !braket_ok by (auto; cbn; congruence). cbn [cSh doDirect]. rewrite isum_app.
  rewrite <- isum_scal_r. apply isum_ext. intros x Hx. rewrite <- isum_scal_l. apply isum_ext. intros y Hy.
  rewrite (proj1 (doDirect_elem a1 b1 x y Hx Hy)).
  rewrite (proj1 (doDirect_elem a2 b2 x y ltac:(now rewrite <- E1) ltac:(now rewrite <- E2))).
  rewrite kconj_mul. ring.
Qed.
End Pure.

(** * Norms *)
Local Open Scope R_scope.
Lemma rsum_ext {A} (f g : A -> R) l : (forall a, In a l -> f a = g a) -> rsum f l = rsum g l.
Proof. induction l as [|a l IH]; cbn; intros H; auto. rewrite H by auto. f_equal. apply IH. auto. Qed.
Lemma rsum_map {A B} (h : A -> B) (f : B -> R) l : rsum f (map h l) = rsum (fun a => f (h a)) l.
Proof. induction l as [|a l IH]; cbn; auto. f_equal. exact IH. Qed.
Lemma rsum_app {A} (f : A -> R) l1 l2 : rsum f (l1 ++ l2) = rsum f l1 + rsum f l2.
Proof. unfold rsum. induction l1 as [|a l IH]; cbn; [ring|]. rewrite IH. ring. Qed.
Lemma rsum_flat_map {A B} (h : A -> list B) (f : B -> R) l : rsum f (flat_map h l) = rsum (fun a => rsum f (h a)) l.
Proof. induction l as [|a l IH]; cbn [flat_map]; auto. rewrite rsum_app, IH. reflexivity. Qed.
Lemma rsum_scal {A} c (f : A -> R) l : rsum (fun a => c * f a) l = c * rsum f l.
Proof. unfold rsum. induction l as [|a l IH]; cbn; [ring|]. rewrite IH. ring. Qed.
Lemma rsum_nonneg {A} (f : A -> R) l : (forall a, In a l -> 0 <= f a) -> 0 <= rsum f l.
Proof. unfold rsum. induction l as [|a l IH]; cbn; intros H; [lra|]. pose proof (H a (or_introl eq_refl)). specialize (IH (fun x Hx => H x (or_intror Hx))). lra. Qed.
Lemma ksum_RC {A} (f : A -> R) l : ksum (fun a => RC (f a)) l = RC (rsum f l).
Proof. induction l as [|a l IH]; [reflexivity|]. cbn [ksum]. rewrite IH. apply RC_add. Qed.
Lemma cre_ksum {A} (f : A -> CR) l : cre (ksum f l) = rsum (fun a => cre (f a)) l.
Proof. induction l as [|a l IH]; [reflexivity|]. cbn [ksum]. change (cre (f a) + cre (ksum f l) = cre (f a) + rsum (fun a => cre (f a)) l). now rewrite IH. Qed.

(** sum of the squared moduli over the multi-indices *)
Definition sumSq (sh : list nat) (f : list nat -> CR) : R := rsum (fun x => csq (f x)) (indices sh).

Lemma sqrNorm_ok (a : carr CR) : sqrNorm a = sumSq (cSh a) (cElem a).
Proof. unfold sqrNorm, cSize, sumSq. rewrite <- map_pos, rsum_map. reflexivity. Qed.

Lemma sumSq_nonneg sh f : 0 <= sumSq sh f.
Proof. apply rsum_nonneg. intros; apply csq_nonneg. Qed.

Lemma indices_app s1 s2 : indices (s1 ++ s2) = flat_map (fun x => map (fun y => x ++ y) (indices s2)) (indices s1).
Proof.
  induction s1 as [|n s1 IH]; cbn.
  - rewrite app_nil_r. now rewrite map_id.
  - rewrite IH. clear IH. induction (seq 0 n) as [|i l IHl]; cbn; auto. rewrite IHl, flat_map_app. f_equal.
    clear. induction (indices s1) as [|x l IH]; cbn; auto. rewrite map_app, IH. f_equal. rewrite map_map. reflexivity.
Qed.

Lemma traceDO_pure (psi : carr CR) : traceOfDO (cSh psi) (densityOf psi) = sqrNorm psi.
Proof.
  unfold traceOfDO. rewrite traceDO_ok by reflexivity. unfold mtrace, isum. rewrite cre_ksum, sqrNorm_ok. apply rsum_ext.
  intros i Hi. apply in_indices in Hi. rewrite densityOf_elem by auto. unfold indexSV.
  unfold csq. cbn. ring.
Qed.

Lemma purity_pure (psi : carr CR) : purity (densityOf psi) = sqrNorm psi * sqrNorm psi.
Proof.
  unfold purity. rewrite !sqrNorm_ok. unfold densityOf, dyad, sumSq. cbn [cSh doDirect cConj]. rewrite indices_app, rsum_flat_map.
  transitivity (rsum (fun x => sumSq (cSh psi) (cElem psi) * csq (cElem psi x)) (indices (cSh psi))).
  - apply rsum_ext. intros x Hx. apply in_indices in Hx. rewrite rsum_map. unfold sumSq. rewrite Rmult_comm, <- rsum_scal.
    apply rsum_ext. intros y Hy. apply in_indices in Hy. rewrite (proj1 (doDirect_elem psi (cConj psi) x y Hx Hy)).
    rewrite csq_mul. f_equal. rewrite cConj_elem. unfold csq. cbn. unfold cr_conj; cbn. ring.
  - rewrite rsum_scal. reflexivity.
Qed.

Lemma trace_agrees_iff (psi : carr CR) :
  traceOfSV psi = traceOfDO (cSh psi) (densityOf psi) <-> sqrNorm psi = 0 \/ sqrNorm psi = 1.
Proof.
  rewrite traceDO_pure. unfold traceOfSV, frobeniusNorm.
  assert (H0 : 0 <= sqrNorm psi) by (rewrite sqrNorm_ok; apply sumSq_nonneg).
  set (q := sqrNorm psi) in *. split.
  - intros E. assert (E2 : q * q = q) by (rewrite <- E at 1 2; now apply sqrt_sqrt).
    destruct (Req_dec q 0); auto. right. nra.
  - intros [-> | ->]; [apply sqrt_0 | apply sqrt_1].
Qed.

(** renormalisation *)
Lemma sqrNorm_scale (a : carr CR) x : sqrNorm (scaleBy a x) = x * x * sqrNorm a.
Proof.
  unfold sqrNorm, scaleBy, cSize. cbn [cDat cSh]. rewrite <- rsum_scal. apply rsum_ext. intros p _.
  rewrite csq_mul, csq_RC. reflexivity.
Qed.
Lemma renormSV_ok (psi : carr CR) : sqrNorm psi <> 0 ->
  let (n, psi') := renormSV psi in sqrNorm psi' = 1 /\ n * n = sqrNorm psi /\ 0 < n /\
    (forall x, kmul (RC n) (cElem psi' x) = cElem psi x).
Proof.
  intros H. unfold renormSV. assert (H0 : 0 <= sqrNorm psi) by (rewrite sqrNorm_ok; apply sumSq_nonneg).
  assert (Hp : 0 < frobeniusNorm psi) by (apply sqrt_lt_R0; lra).
  assert (Hs : frobeniusNorm psi * frobeniusNorm psi = sqrNorm psi) by (apply sqrt_sqrt; auto).
  split; [|split; [|split]]; auto.
  - rewrite sqrNorm_scale. rewrite <- Hs. field. lra.
  - intros x. unfold scaleBy, cElem. cbn [cDat cSh]. apply cr_eq; cbn; field; lra.
Qed.
Lemma renormDO_ok dims (rho : carr CR) : cSh rho = dims ++ dims -> traceOfDO dims rho <> 0 ->
  let (tr, rho') := renormDO dims rho in traceOfDO dims rho' = 1 /\
    forall x, kmul (RC tr) (cElem rho' x) = cElem rho x.
Proof.
  intros E H. unfold renormDO. split.
  - unfold traceOfDO at 1, traceDO. rewrite cre_ksum. cbn [cDat scaleBy].
    rewrite (rsum_ext _ (fun i => / traceOfDO dims rho * cre (cDat rho (i * fold_right Nat.mul 1 dims + i)%nat))).
    + rewrite rsum_scal. assert (E1 : traceOfDO dims rho =
        rsum (fun i => cre (cDat rho (i * fold_right Nat.mul 1 dims + i)%nat)) (seq 0 (fold_right Nat.mul 1%nat dims)))
        by (unfold traceOfDO, traceDO; now rewrite cre_ksum).
      rewrite <- E1. now apply Rinv_l.
    + intros i _. unfold cre, RC. cbn. ring.
  - intros x. unfold scaleBy, cElem. cbn [cDat cSh]. apply cr_eq; cbn; field; auto.
Qed.
