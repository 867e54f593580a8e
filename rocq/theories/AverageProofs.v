From Coq Require Import List Arith Lia Reals Lra Bool String.
From Verif Require Import Star CReal Arr PureModel HermSpec MasterSpec ElementModel ElementSpec ElementProofs CompositeModel CompositeSpec InteractionSpec AverageModel AverageSpec.
Import ListNotations.
Local Open Scope nat_scope.
Add Ring CRAverage : (k_ring CR).

(** * Arrays of averages *)
Lemma length_setAt k x l : List.length (setAt k x l) = List.length l.
Proof. revert k. induction l as [|y l IH]; intros [|k]; cbn; auto. Qed.
Lemma get_setAt k x l j : k < List.length l -> get j (setAt k x l) = if j =? k then x else get j l.
Proof.
  revert k j. induction l as [|y l IH]; intros [|k] [|j] H; cbn in *; try lia; try reflexivity. apply (IH k j). lia.
Qed.
Definition adds (N : nat) (F : list R -> list R) (g : nat -> R) : Prop :=
  forall l, List.length l = N -> List.length (F l) = N /\ forall j, get j (F l) = (get j l + g j)%R.
Lemma adds_inc N k x : k < N -> adds N (incAt k x) (fun j => if j =? k then x else 0%R).
Proof.
  intros H l E. unfold incAt. split; [now rewrite length_setAt|]. intros j. rewrite get_setAt by lia. destruct (j =? k) eqn:J.
  - apply Nat.eqb_eq in J. now subst.
  - ring.
Qed.
Lemma adds_comp N F G g h : adds N F g -> adds N G h -> adds N (fun l => G (F l)) (fun j => g j + h j)%R.
Proof. intros HF HG l E. destruct (HF l E) as [E1 Hj]. destruct (HG (F l) E1) as [E2 Hk]. split; auto. intros j. rewrite Hk, Hj. ring. Qed.
Lemma adds_id N : adds N (fun l => l) (fun _ => 0%R).
Proof. intros l E. split; auto. intros j. ring. Qed.
Lemma adds_if N (b : bool) F G g h : adds N F g -> adds N G h -> adds N (fun l => if b then F l else G l) (fun j => if b then g j else h j).
Proof. destruct b; auto. Qed.
Lemma adds_fold {X} N (F : X -> list R -> list R) (g : X -> nat -> R) xs : (forall x, In x xs -> adds N (F x) (g x)) ->
  adds N (fun l => fold_left (fun a x => F x a) xs l) (fun j => rsum (fun x => g x j) xs).
Proof.
  induction xs as [|x xs IH]; intros H.
  - apply adds_id.
  - intros l E. cbn [fold_left]. destruct (H x (or_introl eq_refl) l E) as [E1 Hj].
    destruct (IH (fun y Hy => H y (or_intror Hy)) (F x l) E1) as [E2 Hk]. split; auto.
    intros j. rewrite Hk, Hj. unfold rsum. cbn [fold_right]. ring.
Qed.
Lemma adds_ext N F G g h : (forall l, F l = G l) -> (forall j, g j = h j) -> adds N F g -> adds N G h.
Proof. intros HF Hg H l E. destruct (H l E) as [A B]. rewrite <- HF. split; auto. intros j. rewrite B, Hg. reflexivity. Qed.
Lemma get_init n j : get j (initialized n) = 0%R.
Proof. unfold get, initialized. revert j. induction n; intros [|j]; cbn; auto. Qed.
Lemma length_init n : List.length (initialized n) = n.
Proof. unfold initialized. apply repeat_length. Qed.
Lemma list_get (l l' : list R) : List.length l = List.length l' -> (forall j, j < List.length l' -> get j l = get j l') -> l = l'.
Proof. intros E H. apply (nth_ext _ _ 0%R 0%R); auto. intros n Hn. apply H. lia. Qed.

(** * Sums *)
Definition bmean (d : nat) (A : mat) (r : mat) : CR := lsum d (fun i => lsum d (fun k => kmul (A i k) (r k i))).
Lemma bmean_ext d A B r s : (forall i k, i < d -> k < d -> A i k = B i k) -> (forall i k, i < d -> k < d -> r i k = s i k) -> bmean d A r = bmean d B s.
Proof. intros H1 H2. apply lsum_ext. intros i Hi. apply lsum_ext. intros k Hk. now rewrite H1, H2. Qed.
Lemma lsum_add d f g : lsum d (fun n => kadd (f n) (g n)) = kadd (lsum d f) (lsum d g).
Proof. apply ksum_add. Qed.
Lemma lsum_scale d c f : lsum d (fun n => kmul c (f n)) = kmul c (lsum d f).
Proof. apply ksum_scal_l. Qed.
Lemma bmean_add d A B r : bmean d (fun i k => kadd (A i k) (B i k)) r = kadd (bmean d A r) (bmean d B r).
Proof. unfold bmean. rewrite <- lsum_add. apply lsum_ext. intros i _. rewrite <- lsum_add. apply lsum_ext. intros k _. ring. Qed.
Lemma bmean_scale d c A r : bmean d (fun i k => kmul c (A i k)) r = kmul c (bmean d A r).
Proof. unfold bmean. rewrite <- lsum_scale. apply lsum_ext. intros i _. rewrite <- lsum_scale. apply lsum_ext. intros k _. ring. Qed.
Lemma bmean_addr d A r s : bmean d A (fun i k => kadd (r i k) (s i k)) = kadd (bmean d A r) (bmean d A s).
Proof. unfold bmean. rewrite <- lsum_add. apply lsum_ext. intros i _. rewrite <- lsum_add. apply lsum_ext. intros k _. ring. Qed.
Lemma bmean_scaler d c A r : bmean d A (fun i k => kmul c (r i k)) = kmul c (bmean d A r).
Proof. unfold bmean. rewrite <- lsum_scale. apply lsum_ext. intros i _. rewrite <- lsum_scale. apply lsum_ext. intros k _. ring. Qed.
Lemma mean1 d A rho : mean [d] (kron [A]) rho = bmean d A (fun k i => rho [k] [i]).
Proof.
  unfold mean, mtrace, mmul, bmean, lsum. rewrite isum_cons. apply ksum_ext. intros i _. rewrite isum_nil, isum_cons. apply ksum_ext. intros k _.
  rewrite isum_nil. cbn [kron]. ring.
Qed.
Lemma mean2 d0 d1 A B rho : mean [d0; d1] (kron [A; B]) rho = bmean d0 A (fun k0 i0 => bmean d1 B (fun k1 i1 => rho [k0; k1] [i0; i1])).
Proof.
  unfold mean, mtrace, mmul, bmean, lsum. rewrite isum_cons. apply ksum_ext. intros i0 _. rewrite isum_cons.
  transitivity (ksum (fun i1 => ksum (fun k => ksum (fun k' => kmul (kmul (A i0 k) (B i1 k')) (rho [k; k'] [i0; i1])) (seq 0 d1)) (seq 0 d0)) (seq 0 d1)).
  - apply ksum_ext. intros i1 _. rewrite isum_nil, isum_cons. apply ksum_ext. intros k _. rewrite isum_cons. apply ksum_ext. intros k' _. rewrite isum_nil. cbn [kron]. ring.
  - rewrite ksum_swap. apply ksum_ext. intros k _. rewrite <- ksum_scal_l. apply ksum_ext. intros i1 _. rewrite <- ksum_scal_l. apply ksum_ext. intros k' _. ring.
Qed.

Lemma seq_from (f : nat -> CR) p d : ksum (fun n => if p <=? n then f n else k0) (seq 0 d) = ksum f (seq p (d - p)).
Proof.
  destruct (le_lt_dec p d) as [H|H].
  - replace d with (p + (d - p)) at 1 by lia. rewrite seq_app, ksum_app. rewrite ksum_zero.
    + rewrite Nat.add_0_l. transitivity (ksum (fun n => if p <=? n then f n else k0) (seq p (d - p))); [ring|]. apply ksum_ext. intros n Hn. apply in_seq in Hn.
      destruct (Nat.leb_spec p n); [reflexivity|lia].
    + intros n Hn. apply in_seq in Hn. destruct (Nat.leb_spec p n); [lia|reflexivity].
  - replace (d - p) with 0 by lia. cbn [seq ksum]. apply ksum_zero. intros n Hn. apply in_seq in Hn. destruct (Nat.leb_spec p n); [lia|reflexivity].
Qed.
Lemma bmean_swap d A r : bmean d A r = bmean d (fun i k => A k i) (fun k i => r i k).
Proof. unfold bmean, lsum. rewrite ksum_swap. reflexivity. Qed.
Lemma band_up d p w r : bmean d (fun i k => if k =? i + p then w k else k0) r = ksum (fun n => kmul (w n) (r n (n - p))) (seq p (d - p)).
Proof.
  rewrite bmean_swap. rewrite <- seq_from. unfold bmean, lsum. apply ksum_ext. intros n Hn. apply in_seq in Hn. destruct (Nat.leb_spec p n) as [L|L].
  - transitivity (lsum d (fun k => if k =? n - p then kmul (w n) (r n k) else k0)).
    + apply ksum_ext. intros k _. destruct (Nat.eqb_spec n (k + p)), (Nat.eqb_spec k (n - p)); try lia; ring.
    + rewrite lsum_if. destruct (Nat.ltb_spec (n - p) d); [reflexivity|lia].
  - apply ksum_zero. intros k _. destruct (Nat.eqb_spec n (k + p)); [lia|ring].
Qed.
Lemma band_down d p w r : bmean d (fun i k => if i =? k + p then w i else k0) r = ksum (fun n => kmul (w n) (r (n - p) n)) (seq p (d - p)).
Proof. rewrite bmean_swap. apply (band_up d p w (fun k i => r i k)). Qed.
Lemma cre_ksum {X} (f : X -> CR) l : cre (ksum f l) = rsum (fun x => cre (f x)) l.
Proof. unfold rsum. induction l as [|x l IH]; [reflexivity|]. cbn [ksum fold_right]. rewrite <- IH. reflexivity. Qed.
Lemma cim_ksum {X} (f : X -> CR) l : cim (ksum f l) = rsum (fun x => cim (f x)) l.
Proof. unfold rsum. induction l as [|x l IH]; [reflexivity|]. cbn [ksum fold_right]. rewrite <- IH. reflexivity. Qed.
Lemma rsum_ext {X} (f g : X -> R) l : (forall x, In x l -> f x = g x) -> rsum f l = rsum g l.
Proof. unfold rsum. induction l as [|x l IH]; intros H; cbn; auto. rewrite (H x (or_introl eq_refl)), IH; auto. intros y Hy. apply H. now right. Qed.
Lemma rsum_zero {X} (l : list X) : rsum (fun _ => 0%R) l = 0%R.
Proof. unfold rsum. induction l as [|x l IH]; cbn; auto. rewrite IH. ring. Qed.
Lemma cre_RC x z : cre (kmul (RC x) z) = (x * cre z)%R. Proof. destruct z. cbn. ring. Qed.
Lemma cim_RC x z : cim (kmul (RC x) z) = (x * cim z)%R. Proof. destruct z. cbn. ring. Qed.
Lemma cre_mI z : cre (kmul (kopp CI) z) = cim z. Proof. destruct z. cbn. ring. Qed.
Lemma mean_times sh c O rho : mean sh (timesO c O) rho = kmul c (mean sh O rho).
Proof.
  unfold mean, mtrace, mmul, timesO. rewrite <- isum_scal_l. apply isum_ext. intros i _. rewrite <- isum_scal_l. apply isum_ext. intros k _. ring.
Qed.
Lemma expectation_mean sh O rho : expectation sh O rho = cre (mean sh O rho). Proof. reflexivity. Qed.
(** the imaginary part as an expectation value *)
Lemma expectation_im sh O rho : expectation sh (timesO (kopp CI) O) rho = cim (mean sh O rho).
Proof. rewrite expectation_mean, mean_times. apply cre_mI. Qed.
Lemma mean_zero sh rho : mean sh zero rho = k0.
Proof. unfold mean, mtrace, mmul, zero. apply isum_zero. intros i _. apply isum_zero. intros k _. ring. Qed.

(** * Matrices of single elements *)
Definition numberSq : mat := fun m n => if m =? n then RC (INR m * INR m) else k0.
Definition annSq : mat := fun m n => if n =? m + 2 then RC (sqrt (INR n * (INR n - 1))) else k0.
Definition creSq : mat := fun m n => if m =? n + 2 then RC (sqrt (INR m * (INR m - 1))) else k0.
Lemma diag_mean d (w : nat -> R) r : cre (bmean d (fun m n => if m =? n then RC (w m) else k0) r) = rsum (fun n => w n * cre (r n n))%R (seq 0 d).
Proof.
  rewrite (bmean_ext d _ (fun i k => if i =? k + 0 then RC (w i) else k0) r r); [|intros i k _ _; rewrite Nat.add_0_r; reflexivity|auto].
  rewrite band_down, Nat.sub_0_r, cre_ksum. apply rsum_ext. intros n _. rewrite cre_RC, Nat.sub_0_r. reflexivity.
Qed.
Lemma ann_mean d r : bmean d annihilation r = ksum (fun n => kmul (RC (sqrt (INR n))) (r n (n - 1))) (seq 1 (d - 1)).
Proof. apply (band_up d 1 (fun n => RC (sqrt (INR n))) r). Qed.
Lemma annSq_mean d r : bmean d annSq r = ksum (fun n => kmul (RC (sqrt (INR n * (INR n - 1)))) (r n (n - 2))) (seq 2 (d - 2)).
Proof. apply (band_up d 2 (fun n => RC (sqrt (INR n * (INR n - 1)))) r). Qed.

Definition modeOps : list op := [kron [number]; kron [numberSq]; kron [annihilation]; timesO (kopp CI) (kron [annihilation])].
Definition expects (sh : list nat) (Os : list op) (m : op) (j : nat) : R := get j (map (fun O => expectation sh O m) Os).
Lemma mode_raw dim N t m : 4 <= N -> List.length (modeAverage dim N t m) = N /\ forall j, get j (modeAverage dim N t m) = expects [dim] modeOps m j.
Proof.
  intros HN. unfold modeAverage.
  match goal with |- List.length (fold_left ?f ?xs ?i) = _ /\ _ => pose (F := fun (n : nat) av => f av n) end.
  assert (HF : forall x, In x (seq 1 (dim - 1)) -> adds N (F x) (fun j => ((((if (j =? 0)%nat then INR x * diagonal m [x] else 0) + (if (j =? 1)%nat then INR x * INR x * diagonal m [x] else 0))
     + (if (j =? 2)%nat then cre (kmul (RC (sqrt (INR x))) (m [x] [(x - 1)%nat])) else 0)) + (if (j =? 3)%nat then cim (kmul (RC (sqrt (INR x))) (m [x] [(x - 1)%nat])) else 0))%R)).
  { intros x _. unfold F. cbv zeta. repeat apply adds_comp; apply adds_inc; lia. }
  destruct (adds_fold N F _ _ HF (initialized N) (length_init N)) as [E Hj]. split; [exact E|]. intros j.
  change (fold_left _ _ _) with (fold_left (fun a x => F x a) (seq 1 (dim - 1)) (initialized N)). rewrite Hj, get_init. clear Hj E HF. unfold expects, modeOps, get.
  destruct j as [|[|[|[|j]]]]; cbn [map nth Nat.eqb].
  - rewrite expectation_mean, mean1. unfold number. rewrite (diag_mean dim INR). rewrite <- rsum_from1 by (cbn; ring).
    rewrite Rplus_0_l. apply rsum_ext. intros n _. unfold diagonal. ring.
  - rewrite expectation_mean, mean1. unfold numberSq. rewrite (diag_mean dim (fun n => INR n * INR n)%R). rewrite <- rsum_from1 by (cbn; ring).
    rewrite Rplus_0_l. apply rsum_ext. intros n _. unfold diagonal. ring.
  - rewrite expectation_mean, mean1, ann_mean, cre_ksum. rewrite Rplus_0_l. apply rsum_ext. intros n _. ring.
  - rewrite expectation_im, mean1, ann_mean, cim_ksum. rewrite Rplus_0_l. apply rsum_ext. intros n _. ring.
  - rewrite Rplus_0_l. transitivity (rsum (fun _ : nat => 0%R) (seq 1 (dim - 1))); [|rewrite rsum_zero; destruct j; reflexivity]. apply rsum_ext. intros n _. ring.
Qed.
Lemma expects_list sh Os m l : List.length l = List.length Os -> (forall j, j < List.length Os -> get j l = expects sh Os m j) -> l = map (fun O => expectation sh O m) Os.
Proof. intros E H. apply list_get; rewrite map_length; auto. Qed.
Lemma mode_list dim t m : modeAverage dim 4 t m = map (fun O => expectation [dim] O m) modeOps.
Proof. destruct (mode_raw dim 4 t m) as [E H]; [lia|]. apply expects_list; auto. Qed.

Definition quadOps : list op := modeOps ++ [kron [annSq]; timesO (kopp CI) (kron [annSq]); zero].
Lemma expectation_zero sh m : expectation sh zero m = 0%R.
Proof. rewrite expectation_mean, mean_zero. reflexivity. Qed.
Lemma list4 (l : list R) : 4 <= List.length l -> firstn 4 l = [get 0 l; get 1 l; get 2 l; get 3 l].
Proof. destruct l as [|a [|b [|c [|d l]]]]; cbn; try lia. reflexivity. Qed.
Lemma quad_raw dim N t m : 7 <= N -> List.length (quadAverage dim N t m) = N /\ forall j, get j (quadAverage dim N t m) = expects [dim] quadOps m j.
Proof.
  intros HN. unfold quadAverage. destruct (mode_raw dim N t m) as [E0 G0]; [lia|].
  set (start := writeWindow 0 (window 0 4 (modeAverage dim N t m)) (initialized N)).
  assert (Es : start = [get 0 (modeAverage dim N t m); get 1 (modeAverage dim N t m); get 2 (modeAverage dim N t m); get 3 (modeAverage dim N t m)] ++ initialized (N - 4)).
  { unfold start, writeWindow, window. cbn [skipn]. rewrite list4 by lia. cbn [List.length Nat.add app firstn]. f_equal. f_equal. f_equal. f_equal. unfold initialized.
    replace N with (4 + (N - 4)) at 1 by lia. reflexivity. }
  assert (Ls : List.length start = N). { rewrite Es, app_length, length_init. cbn. lia. }
  assert (Gs : forall j, get j start = expects [dim] modeOps m j).
  { intros j. rewrite Es, !G0. destruct j as [|[|[|[|j]]]]; try reflexivity. unfold get. cbn [app nth]. change (nth j (initialized (N - 4)) 0%R) with (get j (initialized (N - 4))).
    rewrite get_init. unfold expects, get. cbn. destruct j; reflexivity. }
  match goal with |- List.length (fold_left ?f ?xs ?i) = _ /\ _ => pose (F := fun (n : nat) av => f av n) end.
  assert (HF : forall x, In x (seq 2 (dim - 2)) -> adds N (F x) (fun j => ((if (j =? 4)%nat then cre (kmul (RC (sqrt (INR x * (INR x - 1)))) (m [x] [(x - 2)%nat])) else 0)
     + (if (j =? 5)%nat then cim (kmul (RC (sqrt (INR x * (INR x - 1)))) (m [x] [(x - 2)%nat])) else 0))%R)).
  { intros x _. unfold F. cbv zeta. repeat apply adds_comp; apply adds_inc; lia. }
  destruct (adds_fold N F _ _ HF start Ls) as [E Hj]. split; [exact E|]. intros j.
  change (fold_left _ _ _) with (fold_left (fun a x => F x a) (seq 2 (dim - 2)) start). rewrite Hj, Gs. clear Hj E HF Gs Ls Es.
  assert (Z : forall k, k <> 4 -> k <> 5 -> rsum (fun x => ((if (k =? 4)%nat then cre (kmul (RC (sqrt (INR x * (INR x - 1)))) (m [x] [(x - 2)%nat])) else 0)
     + (if (k =? 5)%nat then cim (kmul (RC (sqrt (INR x * (INR x - 1)))) (m [x] [(x - 2)%nat])) else 0))%R) (seq 2 (dim - 2)) = 0%R).
  { intros k K4 K5. apply Nat.eqb_neq in K4, K5. rewrite K4, K5. transitivity (rsum (fun _ : nat => 0%R) (seq 2 (dim - 2))); [|apply rsum_zero]. apply rsum_ext. intros. ring. }
  unfold expects, quadOps, modeOps, get in *.
  destruct j as [|[|[|[|[|[|[|j]]]]]]]; cbn [map nth app]; try (rewrite Z by lia; ring).
  - cbn [Nat.eqb]. rewrite expectation_mean, mean1, annSq_mean, cre_ksum, Rplus_0_l. apply rsum_ext. intros n _. ring.
  - cbn [Nat.eqb]. rewrite expectation_im, mean1, annSq_mean, cim_ksum, Rplus_0_l. apply rsum_ext. intros n _. ring.
  - rewrite Z by lia. rewrite expectation_zero. ring.
  - rewrite Z by lia. destruct j; cbn [nth]; ring.
Qed.
Lemma quad_list dim t m : quadAverage dim 7 t m = map (fun O => expectation [dim] O m) quadOps.
Proof. destruct (quad_raw dim 7 t m) as [E H]; [lia|]. apply expects_list; auto. Qed.
