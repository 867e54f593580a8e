From Coq Require Import List Arith Bool Lia Reals Lra.
From Verif Require Import Star CReal Arr MetricModel MetricSpec.
Import ListNotations.
Local Open Scope nat_scope.

Section P.
Context {K : StarRing}.
Add Ring MetricRing : (k_ring K).
Notation tensor := (list nat -> K).
Notation part := (@part K).

(** ** the plan of slices *)
Fixpoint plan (o : nat) (ts : list (@trafo K)) : list (trafo * nat) :=
  match ts with [] => [] | t :: ts' => (if notIdentity t then [(t, o)] else []) ++ plan (o + rankOf t) ts' end.
Lemma plan_algorithm : forall ts v o, fst (fold_left (fun (vo : list nat * nat) (t : @trafo K) => (if notIdentity t then fst vo ++ [snd vo] else fst vo, snd vo + rankOf t)) ts (v, o)) = v ++ map snd (plan o ts).
Proof.
  induction ts as [|t ts IH]; intros v o; cbn [fold_left plan map app fst snd]; [now rewrite app_nil_r|]. rewrite IH.
  destruct (notIdentity t); cbn [app map snd]; [now rewrite <- app_assoc|reflexivity].
Qed.
Lemma plan_filter : forall ts o, map fst (plan o ts) = filter notIdentity ts.
Proof. induction ts as [|t ts IH]; intros o; cbn [plan filter map app]; [reflexivity|]. destruct (notIdentity t); cbn [app map fst]; now rewrite IH. Qed.
Lemma zip_plan ts : zip ts = plan 0 ts.
Proof.
  unfold zip, algorithm. rewrite plan_algorithm, <- (plan_filter ts 0). cbn [app]. induction (plan 0 ts) as [|[t o] l IH]; [reflexivity|]. cbn. now rewrite IH.
Qed.
Lemma plan_length ts o : length (plan o ts) = length (filter notIdentity ts).
Proof. now rewrite <- (plan_filter ts o), map_length. Qed.

(** ** what the slices give *)
Definition slices (dims : list nat) (l : list (trafo * nat)) (psi : tensor) : tensor := fold_left (fun p t => transformSlices dims (fst t) (snd t) p) l psi.
Lemma firstn_at {A} (a b c : list A) n r : length a = n -> length b = r -> firstn r (skipn n (a ++ b ++ c)) = b.
Proof. intros <- <-. rewrite skipn_app, skipn_all, Nat.sub_diag. cbn. now rewrite firstn_app, Nat.sub_diag, firstn_all, app_nil_r. Qed.
Lemma performed_matrix (t : trafo) ds (m : list nat -> list nat -> K) psi y : has_matrix t ds m -> inr ds y -> performed t ds psi y = isum ds (fun x => kmul (m y x) (psi x)).
Proof.
  intros [L H] Hy. destruct t as [r|r m'|r f]; cbn [performed].
  - rewrite (isum_single ds _ y Hy); [rewrite H, listnat_eqb_refl; ring|]. intros b _ Hb. rewrite H. destruct (listnat_eqb y b) eqn:E; [apply listnat_eqb_eq in E; congruence|ring].
  - apply isum_ext. intros x Hx. now rewrite H.
  - now apply H.
Qed.
Lemma slices_tensor (pre : list nat) : forall (ps : list part) psi y1 y2, valid ps -> length y1 = length pre -> inr (dimsOf ps) y2 -> forall dims, (forall o, skipn (length pre + o) dims = skipn o (dimsOf ps)) ->
  slices dims (plan (length pre) (trafosOf ps)) psi (y1 ++ y2) = isum (dimsOf ps) (fun x => kmul (tensorOf ps y2 x) (psi (y1 ++ x))).
Proof.
  intros ps. revert pre. induction ps as [|[[t ds] m] ps IH]; intros pre psi y1 y2 V L1 Hy dims Hd.
  - inversion Hy; subst. change (psi (y1 ++ []) = isum [] (fun x => kmul k1 (psi (y1 ++ x)))). rewrite isum_nil. ring.
  - inversion V as [|? ? V1 V2]; subst. cbn [fst snd] in V1. pose proof (proj1 V1) as Lr.
    change (dimsOf ((t, ds, m) :: ps)) with (ds ++ dimsOf ps) in *.
    assert (exists ya yb, y2 = ya ++ yb /\ inr ds ya /\ inr (dimsOf ps) yb) as (ya & yb & -> & Hya & Hyb).
    { apply Forall2_app_inv_r in Hy. destruct Hy as (a & b & Ha & Hb & E). exists a, b. split; [exact E|split; assumption]. }
    pose proof (inr_length _ _ Hya) as La.
    rewrite isum_app.
    transitivity (slices dims (plan (length (pre ++ ds)) (trafosOf ps)) (if notIdentity t then transformSlices dims t (length pre) psi else psi) ((y1 ++ ya) ++ yb)).
    { rewrite <- app_assoc. unfold trafosOf. cbn [map fst plan]. fold (trafosOf ps). unfold slices. rewrite fold_left_app. rewrite app_length, Lr. destruct (notIdentity t); reflexivity. }
    rewrite (IH (pre ++ ds) _ (y1 ++ ya) yb V2 ltac:(rewrite !app_length; congruence) Hyb dims).
    2:{ intros o. rewrite app_length, <- Nat.add_assoc, Hd. rewrite skipn_app. rewrite skipn_all2 by lia. cbn. f_equal. lia. }
    transitivity (isum (dimsOf ps) (fun x => kmul (tensorOf ps yb x) (isum ds (fun z => kmul (m ya z) (psi (y1 ++ z ++ x)))))).
    { apply isum_ext. intros x Hx. f_equal. destruct (notIdentity t) eqn:EN.
      - unfold transformSlices. rewrite <- Lr.
        pose proof (Hd 0) as Hd0. rewrite Nat.add_0_r in Hd0. rewrite Hd0. cbn [skipn]. rewrite firstn_app, Nat.sub_diag, firstn_all, app_nil_r.
        rewrite <- app_assoc. rewrite (firstn_at y1 ya x (length pre) (length ds) L1 La). rewrite performed_matrix with (m := m) by assumption.
        apply isum_ext. intros z _. f_equal. f_equal. rewrite firstn_app, L1, Nat.sub_diag, <- L1, firstn_all, app_nil_r. f_equal. f_equal.
        rewrite app_assoc. rewrite skipn_app. rewrite skipn_all2 by (rewrite app_length; lia). cbn. rewrite app_length. replace (length y1 + length ds - (length y1 + length ya)) with 0 by lia. reflexivity.
      - destruct t; try discriminate. destruct V1 as [_ V1]. rewrite (isum_single ds _ ya Hya); [rewrite V1, listnat_eqb_refl, app_assoc; ring|].
        intros b _ Hb. rewrite V1. destruct (listnat_eqb ya b) eqn:E; [apply listnat_eqb_eq in E; congruence|ring]. }
    transitivity (isum (dimsOf ps) (fun x => isum ds (fun z => kmul (tensorOf ((t, ds, m) :: ps) (ya ++ yb) (z ++ x)) (psi (y1 ++ z ++ x))))).
    { apply isum_ext. intros x Hx. rewrite <- isum_scal_l. apply isum_ext. intros z Hz. cbn [tensorOf]. pose proof (inr_length _ _ Hz) as Lz.
      assert (F1 : forall (u v : list nat), length u = length ds -> firstn (length ds) (u ++ v) = u) by (intros u v <-; now rewrite firstn_app, Nat.sub_diag, firstn_all, app_nil_r).
      assert (F2 : forall (u v : list nat), length u = length ds -> skipn (length ds) (u ++ v) = v) by (intros u v <-; now rewrite skipn_app, Nat.sub_diag, skipn_all).
      rewrite !F1, !F2 by assumption. ring. }
    apply isum_swap.
Qed.
Lemma whole_tensor (ps : list part) psi y : valid ps -> inr (dimsOf ps) y -> slices (dimsOf ps) (plan 0 (trafosOf ps)) psi y = isum (dimsOf ps) (fun x => kmul (tensorOf ps y x) (psi x)).
Proof. intros V H. exact (slices_tensor [] ps psi [] y V eq_refl H (dimsOf ps) (fun o => eq_refl)). Qed.

(** ** the storage *)
Lemma write_same (m : addr -> tensor) a v : write m a v a = v.
Proof. unfold write. destruct (addr_eq_dec a a); congruence. Qed.
Lemma write_other (m : addr -> tensor) a v b : b <> a -> write m a v b = m b.
Proof. unfold write. destruct (addr_eq_dec b a); congruence. Qed.
(** after the first step, the array read is the one out_ refers to *)
Lemma steps dims : forall l m i o b, l <> [] -> i <> b -> o <> b -> exists m',
  fold_left (transformSubsystem dims) l (Some (mkState m i o b)) =
    Some (if Nat.even (length l) then mkState m' o o b else mkState m' b b o) /\
  (if Nat.even (length l) then m' o else m' b) = slices dims l (m i) /\
  (if Nat.even (length l) then m' b else m' o) = (if length l =? 1 then m o else slices dims (removelast l) (m i)) /\
  forall a, a <> o -> a <> b -> m' a = m a.
Proof.
  intros l. induction l as [|t l IH] using rev_ind; [congruence|]. intros m i o b _ Hi Ho. rewrite fold_left_app, app_length, removelast_last. unfold slices. rewrite fold_left_app.
  destruct l as [|t' l].
  - cbn [fold_left length plus Nat.even]. unfold transformSubsystem. cbn [inA bufA mem outA]. destruct (addr_eq_dec i b); [congruence|].
    exists (write m b (transformSlices dims (fst t) (snd t) (m i))). split; [reflexivity|]. split; [apply write_same|]. split; [cbn; now apply write_other|].
    intros a _ Ha. now apply write_other.
  - destruct (IH m i o b ltac:(discriminate) Hi Ho) as (m' & E & C & _ & F). rewrite E. clear E IH. set (l' := t' :: l) in *.
    assert (E1 : (length l' + length [t] =? 1) = false) by (cbn; destruct (length l); reflexivity). rewrite E1.
    cbn [length]. rewrite Nat.add_1_r, Nat.even_succ, <- Nat.negb_even. unfold slices in C. destruct (Nat.even (length l')); cbn [negb fold_left].
    + unfold transformSubsystem. cbn [inA bufA mem outA]. destruct (addr_eq_dec o b); [congruence|]. rewrite C.
      eexists. split; [reflexivity|]. split; [apply write_same|]. split; [rewrite write_other by exact Ho; exact C|]. intros a A B. rewrite write_other by exact B. now apply F.
    + unfold transformSubsystem. cbn [inA bufA mem outA]. destruct (addr_eq_dec b o) as [E|_]; [congruence|]. rewrite C.
      eexists. split; [reflexivity|]. split; [apply write_same|]. split; [rewrite write_other by congruence; exact C|]. intros a A B. rewrite write_other by exact A. now apply F.
Qed.

(** ** Composite::transform *)
Lemma composite_result (ps : list part) m i o : valid ps -> (factors ps = 1 -> i <> o) -> i <> Buffer -> o <> Buffer -> exists m' a,
  compositeTransform (dimsOf ps) (trafosOf ps) m i o = Some (m', a) /\
  (forall y, inr (dimsOf ps) y -> m' a y = isum (dimsOf ps) (fun x => kmul (tensorOf ps y x) (m i x))) /\
  (forall b, b <> o -> b <> Buffer -> m' b = m b) /\
  (a = o <-> factors ps <= 1 \/ Nat.even (factors ps) = true) /\ (a = o \/ a = Buffer).
Proof.
  intros V Hio Hi Ho. unfold compositeTransform. unfold factors in *. rewrite zip_plan.
  assert (W : forall y, inr (dimsOf ps) y -> slices (dimsOf ps) (plan 0 (trafosOf ps)) (m i) y = isum (dimsOf ps) (fun x => kmul (tensorOf ps y x) (m i x))) by (intros y; now apply whole_tensor).
  pose proof (plan_length (trafosOf ps) 0) as PL. set (l := plan 0 (trafosOf ps)) in *. clearbody l. rewrite <- PL in *.
  destruct l as [|t [|t' l]]; cbn [length].
  - exists (write m o (m i)), o. split; [reflexivity|]. split; [intros y Hy; rewrite write_same; now apply W|]. split; [intros b Hb _; now apply write_other|]. split; [|now left]. split; [left; lia|reflexivity].
  - cbn [fold_left]. unfold transformSubsystem. cbn [inA bufA mem outA]. destruct (addr_eq_dec i o) as [E|_]; [now destruct (Hio eq_refl)|]. cbn [mem outA].
    eexists _, o. split; [reflexivity|]. split; [intros y Hy; rewrite write_same; now apply W|]. split; [intros b Hb _; now apply write_other|]. split; [|now left]. split; [left; lia|reflexivity].
  - set (l' := t :: t' :: l) in *. destruct (steps (dimsOf ps) l' m i o Buffer ltac:(discriminate) Hi Ho) as (m' & E & C & _ & F). rewrite E.
    change (S (S (length l))) with (length l'). destruct (Nat.even (length l')) eqn:EE.
    + exists m', o. split; [reflexivity|]. split; [intros y Hy; rewrite C; now apply W|]. split; [exact F|]. split; [|now left]. split; [now right|reflexivity].
    + exists m', Buffer. split; [reflexivity|]. split; [intros y Hy; rewrite C; now apply W|]. split; [exact F|]. split; [|now right]. split; [congruence|]. intros [H|H]; [cbn in H; lia|congruence].
Qed.
(** with an odd number of factors, more than one, the storage given keeps what was there before the last one *)
Lemma composite_storage (ps : list part) m i o : valid ps -> 1 < factors ps -> Nat.even (factors ps) = false -> i <> Buffer -> o <> Buffer -> exists m',
  compositeTransform (dimsOf ps) (trafosOf ps) m i o = Some (m', Buffer) /\ m' o = slices (dimsOf ps) (removelast (plan 0 (trafosOf ps))) (m i).
Proof.
  intros V H1 H2 Hi Ho. unfold compositeTransform. unfold factors in *. rewrite zip_plan.
  pose proof (plan_length (trafosOf ps) 0) as PL. set (l := plan 0 (trafosOf ps)) in *. rewrite <- PL in *.
  destruct (steps (dimsOf ps) l m i o Buffer) as (m' & E & _ & C & _); [destruct l; [cbn in H1; lia|discriminate]|assumption|assumption|]. rewrite H2 in *.
  exists m'. rewrite E. destruct (length l) as [|[|n]]; [lia|lia|]. split; [reflexivity|exact C].
Qed.
Lemma overlap (ps : list part) m o : factors ps = 1 -> compositeTransform (dimsOf ps) (trafosOf ps) m o o = None.
Proof.
  unfold factors, compositeTransform. intros H. rewrite H. rewrite zip_plan. pose proof (plan_length (trafosOf ps) 0) as PL. rewrite H in PL. destruct (plan 0 (trafosOf ps)) as [|t [|]]; try discriminate.
  cbn [fold_left]. unfold transformSubsystem. cbn [inA bufA]. destruct (addr_eq_dec o o); congruence.
Qed.

(** ** composition *)
Lemma dimsOf_app (p q : list part) : dimsOf (p ++ q) = dimsOf p ++ dimsOf q.
Proof. unfold dimsOf. now rewrite map_app, concat_app. Qed.
Lemma trafosOf_app (p q : list part) : trafosOf (p ++ q) = trafosOf p ++ trafosOf q.
Proof. apply map_app. Qed.
Lemma tensorOf_app : forall (p q : list part) y1 y2 x1 x2, inr (dimsOf p) y1 -> inr (dimsOf p) x1 -> tensorOf (p ++ q) (y1 ++ y2) (x1 ++ x2) = kmul (tensorOf p y1 x1) (tensorOf q y2 x2).
Proof.
  induction p as [|[[t ds] m] p IH]; intros q y1 y2 x1 x2 Hy Hx.
  - inversion Hy; inversion Hx; subst. cbn [app tensorOf]. ring.
  - change (dimsOf ((t, ds, m) :: p)) with (ds ++ dimsOf p) in *.
    apply Forall2_app_inv_r in Hy. destruct Hy as (a & b & Ha & Hb & ->). apply Forall2_app_inv_r in Hx. destruct Hx as (c & d & Hc & Hd & ->).
    pose proof (inr_length _ _ Ha) as La. pose proof (inr_length _ _ Hc) as Lc. rewrite <- !app_assoc. cbn [app tensorOf].
    assert (F1 : forall (u v : list nat), length u = length ds -> firstn (length ds) (u ++ v) = u) by (intros u v <-; now rewrite firstn_app, Nat.sub_diag, firstn_all, app_nil_r).
    assert (F2 : forall (u v : list nat), length u = length ds -> skipn (length ds) (u ++ v) = v) by (intros u v <-; now rewrite skipn_app, Nat.sub_diag, skipn_all).
    rewrite !F1, !F2 by assumption. rewrite IH by assumption. ring.
Qed.
Lemma compose_matrix t1 t2 d1 d2 (m1 m2 : list nat -> list nat -> K) : matrix_of t1 d1 m1 -> matrix_of t2 d2 m2 -> exists m, matrix_of (compose t1 t2) (d1 ++ d2) m /\
  forall y1 y2 x1 x2, inr d1 y1 -> inr d1 x1 -> m (y1 ++ y2) (x1 ++ x2) = kmul (m1 y1 x1) (m2 y2 x2).
Proof.
  intros (p & V1 & T1 & -> & ->) (q & V2 & T2 & -> & ->). exists (tensorOf (p ++ q)). split.
  - exists (p ++ q). split; [now apply Forall_app|]. split; [cbn; now rewrite T1, T2, trafosOf_app|]. split; [now rewrite dimsOf_app|reflexivity].
  - intros. now apply tensorOf_app.
Qed.
Lemma compose_assoc (t1 t2 t3 : @transformation K) : compose (compose t1 t2) t3 = compose t1 (compose t2 t3).
Proof. unfold compose. cbn [getTrafos]. now rewrite app_assoc. Qed.
Lemma compose_rank (t1 t2 : @transformation K) : totalRank (compose t1 t2) = totalRank t1 + totalRank t2.
Proof. unfold totalRank, compose. cbn [getTrafos]. rewrite map_app. induction (map rankOf (getTrafos t1)) as [|n l IH]; [reflexivity|]. cbn. rewrite IH. lia. Qed.
Lemma transform_matrix t dims (M : list nat -> list nat -> K) m i o : matrix_of t dims M -> i <> o -> i <> Buffer -> o <> Buffer -> exists m' a, transform dims t m i o = Some (m', a) /\
  forall y, inr dims y -> m' a y = isum dims (fun x => kmul (M y x) (m i x)).
Proof.
  intros (ps & V & T & -> & ->) Hio Hi Ho. destruct t as [t|ts]; cbn [getTrafos] in T.
  - destruct ps as [|[[t' ds] M'] [|]]; try discriminate. injection T as ->. inversion V as [|? ? V1 _]; subst. cbn [fst snd] in V1.
    set (D := dimsOf _). assert (ED : D = ds) by (unfold D, dimsOf; cbn; apply app_nil_r). clearbody D. subst D. cbn [transform].
    assert (G : forall y, inr ds y -> performed t' ds (m i) y = isum ds (fun x => kmul (tensorOf [(t', ds, M')] y x) (m i x))).
    { intros y Hy. rewrite performed_matrix with (m := M') by assumption. apply isum_ext. intros x Hx. cbn [tensorOf]. rewrite <- (inr_length _ _ Hx) at 2. rewrite <- (inr_length _ _ Hy), !firstn_all. ring. }
    destruct (notIdentity t') eqn:EN.
    + destruct (addr_eq_dec i o); [congruence|]. eexists _, _. split; [reflexivity|]. intros y Hy. rewrite write_same. now apply G.
    + eexists _, _. split; [reflexivity|]. intros y Hy. rewrite write_same, <- G by exact Hy. destruct t'; try discriminate. reflexivity.
  - subst ts. cbn [transform]. destruct (composite_result ps m i o V (fun _ => Hio) Hi Ho) as (m' & a & E & H & _). exists m', a. split; assumption.
Qed.
End P.
