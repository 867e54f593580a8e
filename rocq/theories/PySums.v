(** Sums over axes: StateVector.diagexpvalue and reduce. *)
From Coq Require Import List Arith Reals Lra Lia Bool Sorted Permutation.
From Verif Require Import Star Arr CReal MultiIndexModel SliceModel SliceSpec SliceProofs EmbedProofs FourierModel FourierSpec PyModel PySpec PyLists PyExpect.
Import ListNotations.
Local Open Scope nat_scope.
Add Ring KPS : (k_ring CR).

(** one axis *)
Lemma isum_axis : forall sh p (F : list nat -> CR), p < length sh ->
  isum (removeAt p sh) (fun x => ksum (fun j => F (insertAt p j x)) (seq 0 (nth p sh 0))) = isum sh F.
Proof.
  induction sh as [|a sh IH]; intros p F Hp; [cbn in Hp; lia|]. rewrite isum_cons. destruct p as [|p].
  - unfold removeAt, insertAt. cbn [firstn skipn app nth]. unfold isum at 1. rewrite ksum_swap. apply ksum_ext. intros j _. reflexivity.
  - change (removeAt (S p) (a :: sh)) with (a :: removeAt p sh). rewrite isum_cons. apply ksum_ext. intros i _. cbn [nth].
    rewrite <- (IH p) by (cbn in Hp; lia). apply isum_ext. intros x _. apply ksum_ext. intros j _. reflexivity.
Qed.
Lemma remove_insert p j x : p <= length x -> removeAt p (insertAt p j x) = x.
Proof.
  intros H. unfold removeAt, insertAt. rewrite firstn_app, firstn_firstn, firstn_length, Nat.min_id, (Nat.min_l p _ H), Nat.sub_diag, firstn_O, app_nil_r.
  rewrite skipn_app, firstn_length, (Nat.min_l p _ H). rewrite skipn_all2 by (rewrite firstn_length; lia). replace (S p - p) with 1 by lia. cbn [skipn app]. apply firstn_skipn.
Qed.
Lemma removeAt_length p x : p < length x -> length (removeAt p x) = length x - 1.
Proof. intros H. unfold removeAt. rewrite app_length, firstn_length, skipn_length. lia. Qed.

(** axes in decreasing order *)
Fixpoint decreasing_below (n : nat) (l : list nat) : Prop := match l with [] => True | p :: r => p < n /\ decreasing_below p r end.
Definition removed (l x : list nat) : list nat := fold_left (fun x p => removeAt p x) l x.
Definition sums (l : list nat) (a : ndarray) : ndarray := fold_left sumAxis l a.
Lemma sums_shape l : forall a, shape (sums l a) = removed l (shape a).
Proof. induction l as [|p l IH]; intros a; cbn; auto. unfold sums in IH. now rewrite IH. Qed.
Lemma decreasing_weaken l n m : n <= m -> decreasing_below n l -> decreasing_below m l.
Proof. destruct l; cbn; intros; auto. intuition lia. Qed.
Lemma sums_total l : forall a (G : list nat -> CR), decreasing_below (ndim a) l ->
  isum (shape (sums l a)) (fun x => kmul (elem (sums l a) x) (G x)) = isum (shape a) (fun y => kmul (elem a y) (G (removed l y))).
Proof.
  induction l as [|p l IH]; intros a G H; [reflexivity|]. cbn [decreasing_below] in H. destruct H as [H1 H2]. unfold sums. cbn [fold_left]. fold (sums l (sumAxis a p)).
  rewrite IH.
  2:{ eapply decreasing_weaken; [|exact H2]. unfold ndim, sumAxis in *. cbn [shape]. rewrite removeAt_length by auto. lia. }
  unfold sumAxis. cbn [shape elem]. rewrite <- (isum_axis (shape a) p) by auto. apply isum_ext. intros x Hx. rewrite <- ksum_scal_r. apply ksum_ext. intros j _. f_equal.
  unfold removed. cbn [fold_left]. rewrite remove_insert; auto. rewrite (inr_length _ _ Hx), removeAt_length by auto. unfold ndim in H1. lia.
Qed.
Lemma decreasing_rev n : forall l, StronglySorted lt l -> (forall x, In x l -> x < n) -> decreasing_below n (rev l).
Proof.
  intros l. revert n. pattern l. apply rev_ind; clear l; [intros; exact I|]. intros p l IH n S B. rewrite rev_app_distr. cbn. split; [apply B, in_app_iff; right; left; auto|].
  assert (S' : StronglySorted lt l /\ forall x, In x l -> x < p).
  { clear -S. induction l as [|a l IH]; [split; [constructor|intros ? []]|]. cbn in S. inversion S as [|? ? S1 F]; subst. destruct (IH S1) as [H1 H2].
    rewrite Forall_forall in F. split; [constructor; auto; apply Forall_forall; intros x Hx; apply F, in_app_iff; auto|]. intros x [<-|Hx]; [apply F, in_app_iff; right; left; auto|auto]. }
  apply IH; tauto.
Qed.
(** what is left *)
Lemma removed_app l a : forall x, decreasing_below (length x) l -> removed l (x ++ [a]) = removed l x ++ [a].
Proof.
  induction l as [|p l IH]; intros x H; [reflexivity|]. cbn in H. destruct H as [H1 H2]. unfold removed. cbn [fold_left].
  replace (removeAt p (x ++ [a])) with (removeAt p x ++ [a]).
  - apply IH. rewrite removeAt_length by auto. eapply decreasing_weaken; [|exact H2]. lia.
  - unfold removeAt. rewrite firstn_app, skipn_app. replace (p - length x) with 0 by lia. replace (S p - length x) with 0 by lia. cbn [firstn skipn]. now rewrite app_nil_r, app_assoc.
Qed.
Lemma decreasing_filter f n : decreasing_below n (rev (filter f (seq 0 n))).
Proof.
  apply decreasing_rev; [apply sorted_filter, sorted_seq|]. intros x H. apply filter_In in H. destruct H as [H _]. apply in_seq in H. lia.
Qed.
Lemma removed_filter f : forall n x, length x = n -> removed (rev (filter f (seq 0 n))) x = map (fun v => nth v x 0) (filter (fun p => negb (f p)) (seq 0 n)).
Proof.
  induction n as [|n IH]; intros x L; [destruct x; [reflexivity|discriminate]|].
  destruct (exists_last (l := x)) as (y & a & ->); [intros ->; discriminate|]. rewrite app_length in L. cbn in L. assert (Ly : length y = n) by lia.
  rewrite seq_S, !filter_app. cbn [Nat.add filter]. rewrite rev_app_distr, map_app.
  assert (E : map (fun v => nth v (y ++ [a]) 0) (filter (fun p => negb (f p)) (seq 0 n)) = map (fun v => nth v y 0) (filter (fun p => negb (f p)) (seq 0 n))).
  { apply map_ext_in. intros v Hv. apply filter_In in Hv. destruct Hv as [Hv _]. apply in_seq in Hv. apply app_nth1. lia. }
  rewrite E, <- IH by auto. destruct (f n); cbn [rev app negb map].
  - unfold removed. cbn [fold_left]. replace (removeAt n (y ++ [a])) with y; [now rewrite app_nil_r|].
    unfold removeAt. rewrite firstn_app, skipn_app, Ly, Nat.sub_diag. rewrite <- Ly, firstn_all. replace (S (length y) - length y) with 1 by lia. rewrite skipn_all2 by lia. cbn. now rewrite !app_nil_r.
  - rewrite removed_app by (rewrite Ly; apply decreasing_filter). f_equal. rewrite app_nth2 by lia. now rewrite Ly, Nat.sub_diag.
Qed.

(** diagonal operators *)
Lemma expectation_diagonal f V sh psi : good_positions (length sh) V ->
  expectation (diagonal f) V sh psi = isum sh (fun y => kmul (kmul (psi y) (kconj (psi y))) (f (map (fun v => nth v y 0) V))).
Proof.
  intros HV. rewrite expectation_slices by auto. rewrite (isum_split sh V HV). apply isum_ext. intros d Hd. apply isum_ext. intros s Hs.
  pose proof (sD_len sh V HV d Hd) as Ld. pose proof (sV_len sh V s Hs) as Ls. destruct (of_addr (length sh) V HV d s Ls Ld) as (_ & E & _).
  fold (sOf V (addr (length sh) V d s)). rewrite E. rewrite (isum_single _ _ s).
  - unfold diagonal. rewrite listnat_eqb_refl. ring.
  - exact Hs.
  - intros b Hb N. unfold diagonal. destruct (listnat_eqb_spec s b); [congruence|ring].
Qed.
Lemma diagexpvalue_spec sv op l V : good_positions (ndim sv) l -> increasing V -> Permutation l V -> shape op = dimensions V (shape sv) ->
  diagexpvalue sv op (Some l) = Some (expectation (diagonal (elem op)) V (shape sv) (elem sv)).
Proof.
  intros Hl S P R1. set (n := ndim sv). assert (HV : good_positions n V) by (eapply good_perm; eauto).
  unfold diagexpvalue, conjugateIndices. replace (forallb (fun i => i <? ndim sv) l) with true.
  2:{ symmetry. apply forallb_forall. intros x Hx. apply Nat.ltb_lt. now apply Hl. }
  cbn [option_map]. fold n. rewrite (unlisted_perm n l V P). rewrite (sortedReverse_sorted (unlisted n V)) by apply unlisted_sorted.
  set (sq := mkArr (shape sv) _). fold (sums (rev (unlisted n V)) sq). unfold times. rewrite sums_shape.
  assert (E : forall x, length x = n -> removed (rev (unlisted n V)) x = map (fun v => nth v x 0) V).
  { intros x Lx. unfold unlisted. rewrite removed_filter by auto. f_equal. apply sorted_unique; auto; [apply sorted_filter, sorted_seq|].
    intros y. rewrite filter_In, negb_involutive, member_In, in_seq. split; [tauto|]. intros H. split; auto. destruct HV as [_ HV]. apply HV in H. lia. }
  change (shape sq) with (shape sv). rewrite E by reflexivity. rewrite R1. unfold dimensions. rewrite listnat_eqb_refl. cbn [option_map]. f_equal.
  unfold total. cbn [shape elem]. transitivity (isum (shape (sums (rev (unlisted n V)) sq)) (fun x => kmul (elem (sums (rev (unlisted n V)) sq) x) (elem op x))).
  { rewrite sums_shape. change (shape sq) with (shape sv). now rewrite E by reflexivity. }
  rewrite sums_total by apply decreasing_filter. rewrite expectation_diagonal by exact HV. cbn [shape elem sq]. apply isum_ext. intros y Hy. f_equal. f_equal. apply E. apply (inr_length _ _ Hy).
Qed.
Lemma diagexpvalue_whole sv op : shape op = shape sv -> diagexpvalue sv op None = Some (expectation (diagonal (elem op)) (seq 0 (ndim sv)) (shape sv) (elem sv)).
Proof.
  intros E. unfold diagexpvalue, times. cbn [shape elem]. rewrite E, listnat_eqb_refl. cbn [option_map]. f_equal. unfold total. cbn [shape elem].
  rewrite expectation_diagonal by (destruct (increasing_seq (ndim sv)); now apply increasing_good). apply isum_ext. intros y Hy. f_equal. f_equal.
  unfold ndim. rewrite <- (inr_length _ _ Hy). symmetry. apply map_nth_all.
Qed.

(** reduce *)
Lemma csq_mul_conj (z : CR) : kmul z (kconj z) = RC (csq z).
Proof. rewrite <- csq_conj. ring. Qed.
Definition proportional (c : R) (a b : ndarray) : Prop := shape a = shape b /\ forall x, elem a x = kmul (RC c) (elem b x).
Lemma norm_proportional c a b : (0 < c)%R -> proportional c a b -> norm a = (c * norm b)%R.
Proof.
  intros Hc [E1 E2]. unfold norm. rewrite E1. rewrite (isum_ext _ _ (fun x => kmul (RC (c * c)) (kmul (elem b x) (kconj (elem b x))))).
  2:{ intros x _. rewrite E2, <- RC_mul. rewrite kconj_mul, RC_conj. ring. }
  rewrite isum_scal_l. set (z := isum _ _). assert (Ez : cre (kmul (RC (c * c)) z) = (c * c * cre z)%R) by (unfold cre, RC; cbn; ring). rewrite Ez.
  rewrite sqrt_mult_alt by nra. now rewrite sqrt_square by lra.
Qed.
Lemma sumAxis_proportional c a b p : proportional c a b -> proportional c (sumAxis a p) (sumAxis b p).
Proof.
  intros [E1 E2]. split; [cbn; now rewrite E1|]. intros x. cbn [sumAxis elem]. rewrite E1. rewrite <- ksum_scal_l. apply ksum_ext. intros j _. apply E2.
Qed.
Lemma normalize_proportional c a b : (0 < c)%R -> (0 < norm b)%R -> proportional c a b -> proportional (/ norm b) (normalize a) b.
Proof.
  intros Hc Hb Hp. split; [apply Hp|]. intros x. unfold normalize, scale. cbn [elem]. rewrite (norm_proportional c a b) by auto. destruct Hp as [_ E]. rewrite E.
  replace (/ norm b)%R with (/ (c * norm b) * c)%R by (field; lra). rewrite <- RC_mul. ring.
Qed.
Lemma norm_nonneg a : (0 <= norm a)%R. Proof. apply sqrt_pos. Qed.
Lemma isum_re_sum sh (f : list nat -> CR) : cre (isum sh f) = fold_right (fun x s => (cre (f x) + s)%R) 0%R (indices sh).
Proof. unfold isum. induction (indices sh) as [|x l IH]; cbn; [reflexivity|]. rewrite <- IH. reflexivity. Qed.
Lemma norm_zero a : norm a = 0%R -> forall x, inr (shape a) x -> elem a x = k0.
Proof.
  unfold norm. intros H. apply sqrt_eq_0 in H.
  - rewrite isum_re_sum in H. intros x Hx. apply in_indices in Hx. revert H Hx.
    assert (P : forall l, (0 <= fold_right (fun x s => (cre (kmul (elem a x) (kconj (elem a x))) + s)%R) 0%R l)%R).
    { induction l as [|y l IH]; cbn [fold_right]; [lra|]. rewrite csq_mul_conj. cbn [cre RC fst]. pose proof (csq_nonneg (elem a y)). lra. }
    induction (indices (shape a)) as [|y l IH]; cbn [fold_right]; intros H Hx; [destruct Hx|]. specialize (P l). rewrite csq_mul_conj in H. cbn [cre RC fst] in H.
    pose proof (csq_nonneg (elem a y)) as C. destruct Hx as [->|Hx]; [|apply IH; auto; lra].
    assert (C0 : csq (elem a x) = 0%R) by lra. unfold csq in C0. apply cr_eq; cbn; nra.
  - rewrite isum_re_sum. induction (indices (shape a)) as [|y l IH]; cbn [fold_right]; [lra|]. rewrite csq_mul_conj. cbn [cre RC fst]. pose proof (csq_nonneg (elem a y)). lra.
Qed.
Lemma norm_of_zero a : (forall x, inr (shape a) x -> elem a x = k0) -> norm a = 0%R.
Proof.
  intros H. unfold norm. rewrite (isum_zero _ _). apply sqrt_0. intros b Hb. rewrite H by auto. ring.
Qed.
Lemma insertAt_inr : forall sh p j x, p < length sh -> j < nth p sh 0 -> inr (removeAt p sh) x -> inr sh (insertAt p j x).
Proof.
  induction sh as [|a sh IH]; intros p j x Hp Hj Hx; [cbn in Hp; lia|]. destruct p as [|p].
  - unfold removeAt in Hx. cbn in Hx. unfold insertAt. cbn. constructor; auto.
  - change (removeAt (S p) (a :: sh)) with (a :: removeAt p sh) in Hx. inversion Hx as [|b ? x' ? Hb Hx']; subst. change (insertAt (S p) j (b :: x')) with (b :: insertAt p j x').
    constructor; auto. apply IH; auto. cbn in Hp. lia.
Qed.
Lemma sumAxis_zero a p : p < ndim a -> norm a = 0%R -> norm (sumAxis a p) = 0%R.
Proof.
  intros Hp H. apply norm_of_zero. intros x Hx. cbn [sumAxis elem shape] in *. apply ksum_zero. intros j Hj. apply in_seq in Hj. apply norm_zero; auto. apply insertAt_inr; auto. lia.
Qed.
Lemma sums_zero l : forall a, decreasing_below (ndim a) l -> norm a = 0%R -> norm (sums l a) = 0%R.
Proof.
  induction l as [|p l IH]; intros a D H; [exact H|]. cbn in D. destruct D as [D1 D2]. unfold sums. cbn [fold_left]. apply IH; [|now apply sumAxis_zero].
  eapply decreasing_weaken; [|exact D2]. unfold ndim, sumAxis in *. cbn [shape]. rewrite removeAt_length by auto. lia.
Qed.
Lemma reduce_steps l : forall c a b, (0 < c)%R -> proportional c a b -> decreasing_below (ndim b) l -> (norm (sums l b) <> 0)%R -> l <> [] ->
  proportional (/ norm (sums l b)) (fold_left (fun a i => normalize (sumAxis a i)) l a) (sums l b).
Proof.
  induction l as [|p l IH]; intros c a b Hc Hp D N Nn; [congruence|]. cbn in D. destruct D as [D1 D2]. unfold sums in *. cbn [fold_left] in *.
  assert (D3 : decreasing_below (ndim (sumAxis b p)) l).
  { eapply decreasing_weaken; [|exact D2]. unfold ndim, sumAxis in *. cbn [shape]. rewrite removeAt_length by auto. lia. }
  assert (Nz : (0 < norm (sumAxis b p))%R).
  { destruct (norm_nonneg (sumAxis b p)) as [|E]; auto. exfalso. apply N. apply sums_zero; auto. }
  pose proof (normalize_proportional c _ _ Hc Nz (sumAxis_proportional c a b p Hp)) as Hp'.
  destruct l as [|q l]; [exact Hp'|]. apply (IH (/ norm (sumAxis b p))%R); auto; [now apply Rinv_0_lt_compat | discriminate].
Qed.
Lemma sums_marginal sv V : increasing V -> (forall v, In v V -> v < ndim sv) ->
  shape (sums (rev V) sv) = remaining V (shape sv) /\ forall x, inr (remaining V (shape sv)) x -> elem (sums (rev V) sv) x = marginal V (shape sv) (elem sv) x.
Proof.
  intros S B. assert (E : V = filter (fun p => member p V) (seq 0 (ndim sv))).
  { apply sorted_unique; auto; [apply sorted_filter, sorted_seq|]. intros y. rewrite filter_In, member_In, in_seq. split; [|tauto]. intros H. split; auto. apply B in H. lia. }
  assert (R : forall x, length x = ndim sv -> removed (rev V) x = map (fun o => nth o x 0) (filter (fun o => if in_dec Nat.eq_dec o V then false else true) (seq 0 (ndim sv)))).
  { intros x Lx. rewrite E at 1. rewrite removed_filter by auto. f_equal. apply filter_ext. intros o. destruct (in_dec Nat.eq_dec o V) as [H|H]; [apply member_In in H|apply member_nIn in H]; now rewrite H. }
  assert (Sh : shape (sums (rev V) sv) = remaining V (shape sv)) by (rewrite sums_shape; apply R; reflexivity).
  split; auto. intros x Hx.
  pose proof (sums_total (rev V) sv (fun z => if listnat_eqb x z then k1 else k0)) as T. rewrite Sh in T.
  assert (D : decreasing_below (ndim sv) (rev V)) by (apply decreasing_rev; auto). specialize (T D).
  rewrite (isum_ext _ _ (fun z => if listnat_eqb x z then elem (sums (rev V) sv) z else k0)) in T by (intros z _; destruct (listnat_eqb x z); ring).
  rewrite isum_delta in T by auto. rewrite T. unfold marginal. rewrite ksum_filter. apply isum_ext. intros y Hy. rewrite R by (apply (inr_length _ _ Hy)). unfold ndim.
  set (m := map _ _). destruct (listnat_eqb_spec x m) as [->|N]; [rewrite listnat_eqb_refl; ring|]. destruct (listnat_eqb_spec m x) as [Em|]; [congruence|ring].
Qed.
Lemma reduce_unnormalised sv l V : good_positions (ndim sv) l -> increasing V -> Permutation l V ->
  shape (reduce sv l false) = remaining V (shape sv) /\ forall x, inr (remaining V (shape sv)) x -> elem (reduce sv l false) x = marginal V (shape sv) (elem sv) x.
Proof.
  intros Hl S P. assert (HV : good_positions (ndim sv) V) by (eapply good_perm; eauto). unfold reduce.
  replace (sortedReverse l) with (rev V); [apply sums_marginal; auto; apply HV|]. unfold sortedReverse. f_equal. apply sorted_unique; auto; [apply sort_sorted; apply Hl|].
  intros x. rewrite sort_In. split; [apply (Permutation_in x (Permutation_sym P)) | apply (Permutation_in x P)].
Qed.
Lemma weight_norm a : norm a = sqrt (weight (shape a) (elem a)).
Proof. unfold norm, weight. f_equal. f_equal. apply isum_ext. intros x _. ring. Qed.
Lemma norm_ext sh f a : shape a = sh -> (forall x, inr sh x -> elem a x = f x) -> norm a = sqrt (weight sh f).
Proof. intros <- E. rewrite weight_norm. f_equal. unfold weight. f_equal. apply isum_ext. intros x Hx. now rewrite E. Qed.
Lemma reduce_normalised sv l V : good_positions (ndim sv) l -> increasing V -> Permutation l V -> V <> [] ->
  weight (remaining V (shape sv)) (marginal V (shape sv) (elem sv)) <> 0%R ->
  shape (reduce sv l true) = remaining V (shape sv) /\ forall x, inr (remaining V (shape sv)) x ->
  elem (reduce sv l true) x = kmul (RC (/ sqrt (weight (remaining V (shape sv)) (marginal V (shape sv) (elem sv))))) (marginal V (shape sv) (elem sv) x).
Proof.
  intros Hl S P Ne W. assert (HV : good_positions (ndim sv) V) by (eapply good_perm; eauto). unfold reduce.
  replace (sortedReverse l) with (rev V).
  2:{ unfold sortedReverse. f_equal. apply sorted_unique; auto; [apply sort_sorted; apply Hl|]. intros x. rewrite sort_In. split; [apply (Permutation_in x (Permutation_sym P)) | apply (Permutation_in x P)]. }
  destruct (sums_marginal sv V S (proj2 HV)) as [E1 E2]. pose proof (norm_ext _ _ _ E1 E2) as En.
  assert (Pw : (0 <= weight (remaining V (shape sv)) (marginal V (shape sv) (elem sv)))%R).
  { unfold weight. rewrite isum_re_sum. induction (indices (remaining V (shape sv))) as [|y t IH]; cbn [fold_right]; [lra|]. rewrite csq_conj. cbn [cre RC fst].
    pose proof (csq_nonneg (marginal V (shape sv) (elem sv) y)). lra. }
  destruct (reduce_steps (rev V) 1 sv sv) as [F1 F2].
  - lra.
  - split; auto. intros x. apply cr_eq; cbn; ring.
  - apply decreasing_rev; auto. apply HV.
  - rewrite En. intros E. apply W. apply sqrt_eq_0; auto.
  - intros E. apply Ne. rewrite <- (rev_involutive V), E. reflexivity.
  - split; [rewrite F1; exact E1|]. intros x Hx. rewrite F2, En, E2; auto.
Qed.
