From Coq Require Import List Arith Bool Lia Permutation PeanoNat.
From Verif Require Import Star Arr SliceModel SliceSpec SliceProofs HermModel HermSpec.
Import ListNotations.

(** * Transposed multi-indices *)
Lemma nth_transposeIdx r x c : c < length r -> nth c (transposeIdx r x) 0 = lookup c (combine r x).
Proof.
  intros Hc. unfold transposeIdx.
  rewrite (nth_indep _ 0 (lookup 0 (combine r x))) by (rewrite map_length, seq_length; lia).
  rewrite (map_nth (fun c => lookup c (combine r x))). now rewrite seq_nth.
Qed.

Lemma in_combine_nth (r x : list nat) i : i < length r -> length x = length r ->
  In (nth i r 0, nth i x 0) (combine r x).
Proof.
  revert x i; induction r as [|a r IH]; intros [|b x] i Hi L; cbn in *; try lia.
  destruct i as [|i]; [auto|]. right. apply IH; lia.
Qed.

Lemma transposeIdx_unique n r x y : Permutation r (seq 0 n) -> length x = n -> length y = n ->
  (forall i, i < n -> nth (nth i r 0) y 0 = nth i x 0) -> transposeIdx r x = y.
Proof.
  intros HP Lx Ly H.
  assert (Lr : length r = n) by (rewrite (Permutation_length HP); apply seq_length).
  apply (nth_ext _ _ 0 0).
  { unfold transposeIdx. rewrite map_length, seq_length. lia. }
  intros c Hc. unfold transposeIdx in Hc. rewrite map_length, seq_length in Hc.
  rewrite nth_transposeIdx by lia.
  assert (Hin : In c r).
  { eapply Permutation_in; [symmetry; exact HP|]. apply in_seq. lia. }
  destruct (In_nth r c 0 Hin) as [i [Hi Ei]].
  rewrite <- Ei at 2. rewrite H by lia. apply lookup_In.
  - rewrite map_fst_combine by lia. eapply Permutation_NoDup; [symmetry; exact HP|]. apply seq_NoDup.
  - rewrite <- Ei. apply in_combine_nth; lia.
Qed.

Lemma transposeIdx_length r x : length (transposeIdx r x) = length r.
Proof. unfold transposeIdx. now rewrite map_length, seq_length. Qed.

Lemma transposeIdx_nth n r x i : Permutation r (seq 0 n) -> length x = n -> i < n ->
  nth (nth i r 0) (transposeIdx r x) 0 = nth i x 0.
Proof.
  intros HP Lx Hi.
  assert (Lr : length r = n) by (rewrite (Permutation_length HP); apply seq_length).
  assert (Hin : In (nth i r 0) r) by (apply nth_In; lia).
  assert (nth i r 0 < n).
  { apply (Permutation_in _ HP) in Hin. apply in_seq in Hin. lia. }
  rewrite nth_transposeIdx by lia. apply lookup_In.
  - rewrite map_fst_combine by lia. eapply Permutation_NoDup; [symmetry; exact HP|]. apply seq_NoDup.
  - apply in_combine_nth; lia.
Qed.

Lemma transposeIdx_double n r x x' : Permutation r (seq 0 n) -> length x = n -> length x' = n ->
  transposeIdx (r ++ map (fun v => v + n) r) (x ++ x') = transposeIdx r x ++ transposeIdx r x'.
Proof.
  intros HP Lx Lx'.
  assert (Lr : length r = n) by (rewrite (Permutation_length HP); apply seq_length).
  apply (transposeIdx_unique (n + n)).
  - rewrite seq_app. apply Permutation_app; auto. cbn.
    transitivity (map (fun v => v + n) (seq 0 n)); [now apply Permutation_map|].
    replace (map (fun v => v + n) (seq 0 n)) with (seq n n); auto.
    apply (nth_ext _ _ 0 (0 + n)); [now rewrite map_length, !seq_length|].
    intros k Hk. rewrite seq_length in Hk. rewrite seq_nth by lia.
    rewrite (map_nth (fun v => v + n)). rewrite seq_nth by lia. lia.
  - rewrite app_length. lia.
  - rewrite app_length, !transposeIdx_length. lia.
  - intros i Hi. destruct (Nat.lt_ge_cases i n) as [H|H].
    + rewrite (app_nth1 r) by lia. rewrite (app_nth1 x) by lia.
      rewrite app_nth1; [now apply (transposeIdx_nth n)|].
      rewrite transposeIdx_length, Lr.
      assert (Hin : In (nth i r 0) r) by (apply nth_In; lia).
      apply (Permutation_in _ HP) in Hin. apply in_seq in Hin. lia.
    + rewrite (app_nth2 r) by lia. rewrite (app_nth2 x) by lia. rewrite Lr, Lx.
      rewrite (nth_indep (map (fun v => v + n) r) 0 (0 + n)) by (rewrite map_length; lia).
      rewrite (map_nth (fun v => v + n)).
      rewrite app_nth2; rewrite transposeIdx_length, Lr; [|lia].
      replace (nth (i - n) r 0 + n - n) with (nth (i - n) r 0) by lia.
      apply (transposeIdx_nth n); auto. lia.
Qed.

(** * Hermitian conjugation *)
Lemma hermPerm_perm R : Permutation (hermPerm R) (seq 0 (2 * R)).
Proof.
  unfold hermPerm. replace (2 * R) with (R + R) by lia. rewrite seq_app. apply Permutation_app_comm.
Qed.

Lemma hermPerm_swap R i j : length i = R -> length j = R -> transposeIdx (hermPerm R) (i ++ j) = j ++ i.
Proof.
  intros Li Lj. apply (transposeIdx_unique (2 * R)).
  - apply hermPerm_perm.
  - rewrite app_length. lia.
  - rewrite app_length. lia.
  - intros k Hk. unfold hermPerm. destruct (Nat.lt_ge_cases k R) as [H|H].
    + rewrite (app_nth1 (seq R R)) by (rewrite seq_length; lia). rewrite seq_nth by lia.
      rewrite (app_nth1 i) by lia. rewrite app_nth2 by lia. f_equal. lia.
    + rewrite (app_nth2 (seq R R)) by (rewrite seq_length; lia). rewrite seq_length, seq_nth by lia.
      rewrite (app_nth2 i) by lia. rewrite app_nth1 by lia. f_equal. lia.
Qed.

Lemma map_nth_seq_app1 (l1 l2 : list nat) : map (fun i => nth i (l1 ++ l2) 0) (seq 0 (length l1)) = l1.
Proof.
  apply (nth_ext _ _ 0 0); [now rewrite map_length, seq_length|]. intros k Hk.
  rewrite map_length, seq_length in Hk.
  rewrite (nth_indep _ 0 (nth 0 (l1 ++ l2) 0)) by (rewrite map_length, seq_length; lia).
  rewrite (map_nth (fun i => nth i (l1 ++ l2) 0)), seq_nth by lia. cbn [Nat.add]. now rewrite app_nth1 by lia.
Qed.
Lemma map_nth_seq_app2 (l1 l2 : list nat) n : n = length l1 ->
  map (fun i => nth i (l1 ++ l2) 0) (seq n (length l2)) = l2.
Proof.
  intros ->. apply (nth_ext _ _ 0 0); [now rewrite map_length, seq_length|]. intros k Hk.
  rewrite map_length, seq_length in Hk.
  rewrite (nth_indep _ 0 (nth 0 (l1 ++ l2) 0)) by (rewrite map_length, seq_length; lia).
  rewrite (map_nth (fun i => nth i (l1 ++ l2) 0)), seq_nth by lia. rewrite app_nth2 by lia. f_equal. lia.
Qed.

Lemma hermPerm_shape (s1 s2 : list nat) R : length s1 = R -> length s2 = R ->
  map (fun i => nth i (s1 ++ s2) 0) (hermPerm R) = s2 ++ s1.
Proof.
  intros L1 L2. unfold hermPerm. rewrite map_app. f_equal.
  - rewrite <- L2 at 2. apply map_nth_seq_app2. auto.
  - rewrite <- L1. apply map_nth_seq_app1.
Qed.

Section HermP.
Context {K : StarRing}.
Local Open Scope K_scope.

Add Ring KringHerm : (k_ring K).
(** the multi-matrix read through an array object *)
Definition mm (o : obj K) : list nat -> list nat -> K := fun i j => oRead o (i ++ j).

Lemma conjSelf_read (o : obj K) x : inr (oShape o) x -> oRead (conjSelf o) x = kconj (oRead o x).
Proof.
  intros H. unfold oRead, conjSelf. cbn.
  destruct (existsb _ _) eqn:E; auto. exfalso.
  assert (existsb (fun x0 => listnat_eqb (oView o x0) (oView o x)) (indices (oShape o)) = true); [|congruence].
  apply existsb_exists. exists x. split; [now apply in_indices|]. apply listnat_eqb_refl.
Qed.

Lemma hcs_spec dims (o : obj K) : oShape o = dims ++ dims ->
  oShape (hermitianConjugateSelf (length dims) o) = dims ++ dims /\
  mmeq dims (mm (hermitianConjugateSelf (length dims) o)) (dag (mm o)).
Proof.
  intros E. split.
  - unfold hermitianConjugateSelf, transposeSelf. cbn [oShape conjSelf]. rewrite E. now apply hermPerm_shape.
  - intros i j Hi Hj. pose proof (inr_length _ _ Hi). pose proof (inr_length _ _ Hj).
    unfold mm, dag, hermitianConjugateSelf, transposeSelf.
    unfold oRead at 1. cbn [oView oMem]. rewrite hermPerm_swap by auto.
    change (oMem (conjSelf o) (oView (conjSelf o) (j ++ i))) with (oRead (conjSelf o) (j ++ i)).
    apply conjSelf_read. rewrite E. apply inr_app; auto.
Qed.

Lemma hc_spec dims (o : obj K) : oShape o = dims ++ dims ->
  oShape (hermitianConjugate (length dims) o) = dims ++ dims /\
  mmeq dims (mm (hermitianConjugate (length dims) o)) (dag (mm o)).
Proof.
  intros E. split.
  - unfold hermitianConjugate, transposeSelf. cbn [oShape]. rewrite E. now apply hermPerm_shape.
  - intros i j Hi Hj. pose proof (inr_length _ _ Hi). pose proof (inr_length _ _ Hj).
    unfold mm, dag, hermitianConjugate, transposeSelf.
    unfold oRead at 1. cbn [oView oMem]. now rewrite hermPerm_swap by auto.
Qed.

Lemma hcs_involutive dims (o : obj K) : oShape o = dims ++ dims ->
  mmeq dims (mm (hermitianConjugateSelf (length dims) (hermitianConjugateSelf (length dims) o))) (mm o).
Proof.
  intros E i j Hi Hj. destruct (hcs_spec dims o E) as [E1 H1].
  destruct (hcs_spec dims _ E1) as [_ H2]. rewrite H2 by auto. unfold dag. rewrite H1 by auto.
  unfold dag. apply kconj_invol.
Qed.

Lemma hc_involutive dims (o : obj K) : oShape o = dims ++ dims ->
  mmeq dims (mm (hermitianConjugate (length dims) (hermitianConjugate (length dims) o))) (mm o).
Proof.
  intros E i j Hi Hj. destruct (hc_spec dims o E) as [E1 H1].
  destruct (hc_spec dims _ E1) as [_ H2]. rewrite H2 by auto. unfold dag. rewrite H1 by auto.
  unfold dag. apply kconj_invol.
Qed.

(** * Twice the real part *)
(** after the rows before [i] and, in row [i], the columns before [j] (with the diagonal) have been processed *)
Definition done (i j a b : nat) : bool := (Nat.min a b <? i) || ((Nat.min a b =? i) && (Nat.max a b <? j)).

Lemma fold_left_inv {A} (P : A -> nat -> Prop) (f : A -> nat -> A) n s acc :
  P acc s -> (forall acc i, s <= i < s + n -> P acc i -> P (f acc i) (S i)) ->
  P (fold_left f (seq s n) acc) (s + n)%nat.
Proof.
  revert s acc; induction n as [|n IH]; intros s acc H0 Hs; cbn.
  - now rewrite Nat.add_0_r.
  - replace (s + S n)%nat with (S s + n)%nat by lia. apply IH.
    + apply Hs; auto. lia.
    + intros a i Hi. apply Hs. lia.
Qed.

Lemma mset_eq (m : mat K) i j v a b : mset m i j v a b = if (a =? i) && (b =? j) then v else m a b.
Proof. reflexivity. Qed.

Definition twoReInv (dim : nat) (m0 : mat K) (i j : nat) (m : mat K) : Prop :=
  forall a b, (a < dim)%nat -> (b < dim)%nat -> m a b = if done i j a b then m0 a b + kconj (m0 b a) else m0 a b.

Lemma done_sym i j a b : done i j a b = done i j b a.
Proof. unfold done. now rewrite Nat.min_comm, Nat.max_comm. Qed.

Ltac dn := unfold done in *; repeat match goal with
  | |- context [?x <? ?y] => destruct (Nat.ltb_spec x y)
  | |- context [?x =? ?y] => destruct (Nat.eqb_spec x y) end; cbn [andb orb]; auto; try lia.

Lemma twoReRow_spec dim m0 i m : (i < dim)%nat -> twoReInv dim m0 i 0 m ->
  twoReInv dim m0 (S i) 0 (twoReRow dim m i).
Proof.
  intros Hi H. unfold twoReRow.
  assert (G : twoReInv dim m0 i (S i + (dim - S i)) (fold_left (twoReOff i) (seq (S i) (dim - S i)) (mset m i i (m i i + kconj (m i i))))).
  { apply (@fold_left_inv (mat K) (fun m j => twoReInv dim m0 i j m)).
    - intros a b Ha Hb. rewrite mset_eq. destruct ((a =? i) && (b =? i)) eqn:E.
      + apply andb_true_iff in E. rewrite !Nat.eqb_eq in E. destruct E; subst. rewrite !H by auto.
        replace (done i 0 i i) with false by dn. replace (done i (S i) i i) with true by dn. reflexivity.
      + rewrite H by auto. apply andb_false_iff in E. rewrite !Nat.eqb_neq in E.
        replace (done i (S i) a b) with (done i 0 a b) by dn. reflexivity.
    - intros m1 j Hj H1 a b Ha Hb. unfold twoReOff. rewrite !mset_eq.
      assert (Dij : done i j i j = false) by dn.
      assert (Dij' : done i (S j) i j = true) by dn.
      assert (Hoth : (a = j /\ b = i \/ a = i /\ b = j) \/ done i (S j) a b = done i j a b) by dn.
      destruct ((a =? j) && (b =? i)) eqn:E.
      + apply andb_true_iff in E. rewrite !Nat.eqb_eq in E. destruct E; subst.
        rewrite (done_sym i (S j)), Dij'. rewrite !H1 by lia. rewrite (done_sym i j j i), Dij.
        rewrite kconj_add, kconj_invol. ring.
      + apply andb_false_iff in E. rewrite !Nat.eqb_neq in E.
        destruct ((a =? i) && (b =? j)) eqn:E'.
        * apply andb_true_iff in E'. rewrite !Nat.eqb_eq in E'. destruct E'; subst.
          rewrite Dij'. rewrite !H1 by lia. rewrite (done_sym i j j i), Dij. reflexivity.
        * apply andb_false_iff in E'. rewrite !Nat.eqb_neq in E'.
          rewrite H1 by auto. destruct Hoth as [Ho| ->]; auto. lia. }
  intros a b Ha Hb. rewrite G by auto.
  replace (done (S i) 0 a b) with (done i (S i + (dim - S i)) a b) by dn. reflexivity.
Qed.

Lemma twoRe_spec dim (m : mat K) i j : (i < dim)%nat -> (j < dim)%nat ->
  calculateTwoTimesRealPartOfSelf dim m i j = m i j + kconj (m j i).
Proof.
  intros Hi Hj. unfold calculateTwoTimesRealPartOfSelf.
  assert (H : twoReInv dim m (0 + dim) 0 (fold_left (twoReRow dim) (seq 0 dim) m)).
  { apply (@fold_left_inv (mat K) (fun m' i => twoReInv dim m i 0 m')).
    - intros a b _ _. replace (done 0 0 a b) with false by dn. reflexivity.
    - intros m1 r Hr H1. apply twoReRow_spec; auto. lia. }
  rewrite H by auto. replace (done (0 + dim) 0 i j) with true by dn. reflexivity.
Qed.

(** * Partial transposition *)
Lemma contains_in V o : contains V o = if in_dec Nat.eq_dec o V then true else false.
Proof.
  unfold contains. destruct (in_dec Nat.eq_dec o V) as [H|H].
  - apply existsb_exists. exists o. split; auto. apply Nat.eqb_refl.
  - destruct (existsb (Nat.eqb o) V) eqn:E; auto. apply existsb_exists in E. destruct E as [x [Hx E]].
    apply Nat.eqb_eq in E. subst. contradiction.
Qed.

Definition ptF (R : nat) (V : list nat) (o : nat) : nat :=
  if o <? R then (if contains V o then o + R else o) else (if contains V (o - R) then o - R else o).

Lemma ptPerm_map R V : ptPerm R V = map (ptF R V) (seq 0 (2 * R)).
Proof.
  unfold ptPerm, ordinals. replace (2 * R)%nat with (R + R)%nat by lia. rewrite seq_app, map_app. cbn [Nat.add]. f_equal.
  - apply map_ext_in. intros o Ho. apply in_seq in Ho. unfold ptF. now replace (o <? R) with true by (symmetry; apply Nat.ltb_lt; lia).
  - apply map_ext_in. intros o Ho. apply in_seq in Ho. unfold ptF. now replace (o <? R) with false by (symmetry; apply Nat.ltb_ge; lia).
Qed.

Lemma ptF_lt R V o : (o < 2 * R)%nat -> (ptF R V o < 2 * R)%nat.
Proof. intros H. unfold ptF. destruct (Nat.ltb_spec o R), (contains V o), (contains V (o - R)); lia. Qed.

Lemma ptF_invol R V o : (o < 2 * R)%nat -> ptF R V (ptF R V o) = o.
Proof.
  intros H. unfold ptF at 2. destruct (Nat.ltb_spec o R) as [L|L].
  - destruct (contains V o) eqn:E; unfold ptF.
    + replace (o + R <? R) with false by (symmetry; apply Nat.ltb_ge; lia).
      replace (o + R - R)%nat with o by lia. now rewrite E.
    + replace (o <? R) with true by (symmetry; apply Nat.ltb_lt; lia). now rewrite E.
  - destruct (contains V (o - R)) eqn:E; unfold ptF.
    + replace (o - R <? R) with true by (symmetry; apply Nat.ltb_lt; lia). rewrite E. lia.
    + replace (o <? R) with false by (symmetry; apply Nat.ltb_ge; lia). now rewrite E.
Qed.

Lemma ptPerm_perm R V : Permutation (ptPerm R V) (seq 0 (2 * R)).
Proof.
  rewrite ptPerm_map. apply NoDup_Permutation_bis.
  - apply NoDup_map_inj; [|apply seq_NoDup]. intros a b Ha Hb E. apply in_seq in Ha, Hb.
    rewrite <- (ptF_invol R V a), <- (ptF_invol R V b) by lia. now rewrite E.
  - rewrite map_length. auto.
  - intros o Ho. apply in_map_iff in Ho. destruct Ho as [x [<- Hx]]. apply in_seq in Hx. apply in_seq.
    pose proof (ptF_lt R V x). lia.
Qed.

Lemma transposerMeta_all V ords rest : (forall o, In o ords -> contains V o = true) -> length rest = length ords ->
  transposerMeta V ords rest = Some rest.
Proof.
  revert rest; induction ords as [|o ords IH]; intros [|v rest] H L; cbn in *; try lia; auto.
  rewrite H by auto. rewrite IH; auto.
Qed.

Lemma transposer_perm_all n r : Permutation r (seq 0 n) -> transposer n r = Some r.
Proof.
  intros HP. unfold transposer, ordinals. apply transposerMeta_all.
  - intros o Ho. unfold contains. apply existsb_exists. exists o. split; [|apply Nat.eqb_refl].
    eapply Permutation_in; [symmetry; exact HP | exact Ho].
  - now rewrite (Permutation_length HP).
Qed.

Lemma nth_take_from V i j k : (k < length i)%nat ->
  nth k (take_from V i j) 0%nat = if contains V k then nth k j 0%nat else nth k i 0%nat.
Proof.
  intros H. unfold take_from.
  set (f := fun o => if in_dec Nat.eq_dec o V then nth o j 0%nat else nth o i 0%nat).
  rewrite (nth_indep _ 0%nat (f 0%nat)) by (rewrite map_length, seq_length; lia).
  rewrite (map_nth f), seq_nth by lia. cbn [Nat.add]. unfold f. rewrite contains_in.
  now destruct (in_dec Nat.eq_dec k V).
Qed.
Lemma take_from_length V i j : length (take_from V i j) = length i.
Proof. unfold take_from. now rewrite map_length, seq_length. Qed.

Lemma ptPerm_swap R V i j : length i = R -> length j = R ->
  transposeIdx (ptPerm R V) (i ++ j) = take_from V i j ++ take_from V j i.
Proof.
  intros Li Lj. apply (transposeIdx_unique (2 * R)).
  - apply ptPerm_perm.
  - rewrite app_length. lia.
  - rewrite app_length, !take_from_length. lia.
  - intros k Hk. rewrite ptPerm_map.
    rewrite (nth_indep (map (ptF R V) (seq 0 (2 * R))) 0%nat (ptF R V 0%nat)) by (rewrite map_length, seq_length; lia).
    rewrite (map_nth (ptF R V)), seq_nth by lia. cbn [Nat.add]. unfold ptF.
    destruct (Nat.ltb_spec k R) as [L|L].
    + rewrite (app_nth1 i) by lia. destruct (contains V k) eqn:E.
      * rewrite app_nth2; rewrite take_from_length; [|lia].
        replace (k + R - length i)%nat with k by lia. rewrite nth_take_from by lia. now rewrite E.
      * rewrite app_nth1 by (rewrite take_from_length; lia). rewrite nth_take_from by lia. now rewrite E.
    + rewrite (app_nth2 i) by lia. rewrite Li. destruct (contains V (k - R)) eqn:E.
      * rewrite app_nth1 by (rewrite take_from_length; lia). rewrite nth_take_from by lia. now rewrite E.
      * rewrite app_nth2; rewrite take_from_length; [|lia]. rewrite Li, nth_take_from by lia. now rewrite E.
Qed.

Lemma ptPerm_shape dims V : map (fun i => nth i (dims ++ dims) 0%nat) (ptPerm (length dims) V) = dims ++ dims.
Proof.
  set (R := length dims). rewrite ptPerm_map, map_map.
  apply (nth_ext _ _ 0%nat 0%nat).
  - rewrite map_length, seq_length, app_length. fold R. lia.
  - intros k Hk. rewrite map_length, seq_length in Hk.
    rewrite (nth_indep _ 0%nat ((fun x => nth (ptF R V x) (dims ++ dims) 0%nat) 0%nat)) by (rewrite map_length, seq_length; lia).
    rewrite (map_nth (fun x => nth (ptF R V x) (dims ++ dims) 0%nat)), seq_nth by lia. cbn [Nat.add].
    assert (D : forall o, (o < R)%nat -> nth (o + R) (dims ++ dims) 0%nat = nth o (dims ++ dims) 0%nat).
    { intros o Ho. rewrite app_nth2 by (fold R; lia). rewrite app_nth1 by (fold R; lia). f_equal. fold R. lia. }
    unfold ptF. destruct (Nat.ltb_spec k R); destruct (contains V _); auto.
    rewrite <- D by lia. f_equal. lia.
Qed.

Lemma take_from_inr V dims i j : inr dims i -> inr dims j -> inr dims (take_from V i j).
Proof.
  intros Hi Hj. pose proof (inr_length _ _ Hi). pose proof (inr_length _ _ Hj).
  apply (inr_nth (length dims) dims eq_refl). split; [rewrite take_from_length; auto|].
  intros c Hc. rewrite nth_take_from by lia.
  apply (inr_nth (length dims) dims eq_refl) in Hi, Hj. destruct (contains V c); [apply Hj | apply Hi]; auto.
Qed.

Lemma pt_spec dims V (o : obj K) : oShape o = dims ++ dims ->
  exists o', partialTranspose (length dims) V o = Some o' /\ oShape o' = dims ++ dims /\
    mmeq dims (mm o') (ptransp V (mm o)).
Proof.
  intros E. unfold partialTranspose. rewrite (transposer_perm_all (2 * length dims)) by apply ptPerm_perm.
  eexists. split; [reflexivity|]. split.
  - cbn. rewrite E. apply ptPerm_shape.
  - intros i j Hi Hj. pose proof (inr_length _ _ Hi). pose proof (inr_length _ _ Hj).
    unfold mm, ptransp. unfold oRead at 1. cbn [oMem oView]. unfold transposeSelf, oRead. cbn [oMem oView].
    now rewrite ptPerm_swap by auto.
Qed.

Lemma take_from_twice V i j : length j = length i -> take_from V (take_from V i j) (take_from V j i) = i.
Proof.
  intros L. apply (nth_ext _ _ 0%nat 0%nat); [now rewrite !take_from_length|]. intros k Hk. rewrite !take_from_length in Hk.
  rewrite nth_take_from by (rewrite take_from_length; lia). rewrite !nth_take_from by lia.
  now destruct (contains V k).
Qed.
Lemma take_from_self V i : take_from V i i = i.
Proof.
  apply (nth_ext _ _ 0%nat 0%nat); [now rewrite !take_from_length|]. intros k Hk. rewrite !take_from_length in Hk.
  rewrite nth_take_from by lia. now destruct (contains V k).
Qed.
Lemma take_from_compl V W i j : length j = length i ->
  (forall o, (o < length i)%nat -> (In o V <-> ~ In o W)) -> take_from V i j = take_from W j i.
Proof.
  intros L H. apply (nth_ext _ _ 0%nat 0%nat); [rewrite !take_from_length; lia|]. intros k Hk. rewrite take_from_length in Hk.
  rewrite !nth_take_from by lia. rewrite !contains_in.
  destruct (in_dec Nat.eq_dec k V) as [a|a], (in_dec Nat.eq_dec k W) as [b|b]; auto; exfalso; apply (H k Hk) in a || idtac; auto.
  apply a. apply (H k Hk). exact b.
Qed.

Lemma ptransp_invol dims V (a : list nat -> list nat -> K) : mmeq dims (ptransp V (ptransp V a)) a.
Proof.
  intros i j Hi Hj. pose proof (inr_length _ _ Hi). pose proof (inr_length _ _ Hj).
  unfold ptransp. now rewrite !take_from_twice by lia.
Qed.
Lemma ptransp_trace dims V (a : list nat -> list nat -> K) : mtrace dims (ptransp V a) = mtrace dims a.
Proof. unfold mtrace. apply isum_ext. intros i _. unfold ptransp. now rewrite take_from_self. Qed.
Lemma ptransp_herm dims V (a : list nat -> list nat -> K) : hermitian dims a -> hermitian dims (ptransp V a).
Proof.
  intros H i j Hi Hj. unfold dag, ptransp. apply (H (take_from V i j) (take_from V j i)); now apply take_from_inr.
Qed.
Lemma ptransp_compl dims V W (a : list nat -> list nat -> K) : (forall o, (o < length dims)%nat -> (In o V <-> ~ In o W)) ->
  mmeq dims (ptransp V a) (transp (ptransp W a)).
Proof.
  intros H i j Hi Hj. pose proof (inr_length _ _ Hi). pose proof (inr_length _ _ Hj).
  unfold transp, ptransp. rewrite (take_from_compl V W i j), (take_from_compl V W j i); auto; try lia.
  - intros o Ho. apply H. lia.
  - intros o Ho. apply H. lia.
Qed.

Lemma mmeq_ptransp dims V (a b : list nat -> list nat -> K) : mmeq dims a b -> mmeq dims (ptransp V a) (ptransp V b).
Proof. intros H i j Hi Hj. apply H; now apply take_from_inr. Qed.

Lemma pt_all dims V (o : obj K) : oShape o = dims ++ dims ->
  exists o', partialTranspose (length dims) V o = Some o' /\ oShape o' = dims ++ dims /\
    mmeq dims (mm o') (ptransp V (mm o)) /\
    mtrace dims (mm o') = mtrace dims (mm o) /\
    (hermitian dims (mm o) -> hermitian dims (mm o')) /\
    (exists o'', partialTranspose (length dims) V o' = Some o'' /\ mmeq dims (mm o'') (mm o)) /\
    (forall W, (forall k, (k < length dims)%nat -> (In k V <-> ~ In k W)) ->
      exists oW, partialTranspose (length dims) W o = Some oW /\ mmeq dims (mm oW) (transp (mm o'))).
Proof.
  intros E. destruct (pt_spec dims V o E) as [o' [E1 [S1 H1]]]. exists o'.
  split; [auto|]. split; [auto|]. split; [auto|]. split; [|split; [|split]].
  - rewrite <- (ptransp_trace dims V (mm o)). apply isum_ext. intros i Hi. now apply H1.
  - intros Hh i j Hi Hj. unfold dag. rewrite !H1 by auto. now apply (ptransp_herm dims V (mm o) Hh).
  - destruct (pt_spec dims V o' S1) as [o'' [E2 [S2 H2]]]. exists o''. split; auto.
    intros i j Hi Hj. rewrite H2 by auto. rewrite (mmeq_ptransp _ _ _ _ H1) by auto. now apply (ptransp_invol dims V (mm o)).
  - intros W HW. destruct (pt_spec dims W o E) as [oW [EW [SW H2]]]. exists oW. split; auto.
    intros i j Hi Hj. rewrite H2 by auto. unfold transp. rewrite H1 by auto.
    apply (ptransp_compl dims W V (mm o)); auto. intros k Hk. specialize (HW k Hk).
    destruct (in_dec Nat.eq_dec k V), (in_dec Nat.eq_dec k W); tauto.
Qed.
End HermP.
