From Coq Require Import List Arith Bool Lia.
From Verif Require Import Star Arr TriModel GenApplyModel.
Import ListNotations.

(** number of a range in TriModel *)
Definition num (l : letter) : nat := match l with Whole => 0 | Low => 1 | High => 2 end.
Definition names (i : nat) (v : list letter) : list rangeName := combine (seq i (length v)) v.
Lemma names_app v l : names 0 (v ++ [l]) = names 0 v ++ [(length v, l)].
Proof.
  unfold names. rewrite app_length. cbn [length]. rewrite seq_app. cbn [seq plus].
  assert (H : forall (a b : list nat) (c d : list letter), length a = length c -> combine (a ++ b) (c ++ d) = combine a c ++ combine b d).
  { induction a as [|x a IH]; intros b [|y c] d E; try discriminate; [reflexivity|]. cbn. f_equal. apply IH. now inversion E. }
  rewrite H by apply seq_length. reflexivity.
Qed.
Section P.
Context {K : StarRing} {T : Type}.
Variable t : tri K T.
Lemma one_range d k l i : (let (a, b) := match l with Whole => (0, d) | Low => (0, d - k) | High => (0 + k, d - k + k) end in (a <=? i) && (i <? b)) =
  (fst (range d k (num l)) <=? i) && (i <? snd (range d k (num l))).
Proof.
  destruct l; cbn [num range fst snd]; try reflexivity. cbn [plus].
  destruct (Nat.leb_spec k i); [|reflexivity]. cbn [andb]. destruct (Nat.ltb_spec i (d - k + k)), (Nat.ltb_spec i d); lia || reflexivity.
Qed.
Lemma selected_in : forall v ds ks m y, length v = length ds -> length ks = length ds ->
  (forall i, nth (m + i) (dims t) 0 = nth i ds 0) -> (forall i, nth (m + i) (diffs t) 0 = nth i ks 0) ->
  selected (map (declared t) (combine (seq m (length v)) v)) y = inRanges ds ks (map num v) y.
Proof.
  induction v as [|l v IH]; intros [|d ds] [|k ks] m y L1 L2 H1 H2; try discriminate.
  - destruct y; reflexivity.
  - cbn [length seq combine map inRanges]. destruct y as [|i y].
    + cbn [selected]. destruct (declared t (m, l)). reflexivity.
    + pose proof (H1 0) as D0. pose proof (H2 0) as K0. rewrite Nat.add_0_r in D0, K0. cbn [nth] in D0, K0.
      pose proof (one_range d k l i) as O. unfold declared at 1. cbn [fst snd]. rewrite D0, K0.
      rewrite <- O. destruct (match l with Whole => (0, d) | Low => (0, d - k) | High => (0 + k, d - k + k) end) as [a b]. cbn [selected]. f_equal.
      apply IH; [now inversion L1|now inversion L2| |]; intros j; [rewrite <- (H1 (S j) : _ = nth j ds 0)|rewrite <- (H2 (S j) : _ = nth j ks 0)]; f_equal; lia.
Qed.
Lemma lower_bound m l d k : nth m (dims t) 0 = d -> nth m (diffs t) 0 = k -> fst (declared t (m, l)) = fst (range d k (num l)).
Proof. intros <- <-. destruct l; reflexivity. Qed.
Lemma corresponding_move : forall v v' ds ks m y, length v = length ds -> length v' = length ds -> length ks = length ds ->
  (forall i, nth (m + i) (dims t) 0 = nth i ds 0) -> (forall i, nth (m + i) (diffs t) 0 = nth i ks 0) ->
  corresponding (map (declared t) (combine (seq m (length v)) v)) (map (declared t) (combine (seq m (length v')) v')) y = moveIdx ds ks (map num v) (map num v') y.
Proof.
  induction v as [|l v IH]; intros [|l' v'] [|d ds] [|k ks] m y L1 L1' L2 H1 H2; try discriminate; [reflexivity|].
  cbn [length seq combine map moveIdx]. pose proof (H1 0) as D0. pose proof (H2 0) as K0. rewrite Nat.add_0_r in D0, K0. cbn [nth] in D0, K0.
  pose proof (lower_bound m l d k D0 K0) as E1. pose proof (lower_bound m l' d k D0 K0) as E2.
  destruct (declared t (m, l)) as [a b], (declared t (m, l')) as [a' b']. cbn [fst] in E1, E2. subst a a'. cbn [corresponding]. destruct y as [|i y]; [reflexivity|]. f_equal.
  apply IH; [now inversion L1|now inversion L1'|now inversion L2| |]; intros j; [rewrite <- (H1 (S j) : _ = nth j ds 0)|rewrite <- (H2 (S j) : _ = nth j ks 0)]; f_equal; lia.
Qed.
Lemma exec_leaf j v0 v1 v2 psi dpsidt y : length v0 = rankOf t -> length v1 = rankOf t -> length v2 = rankOf t -> length (diffs t) = rankOf t ->
  exec1 t psi dpsidt (mkStmt j (names 0 v0) (names 0 v1) (names 0 v2)) y = applyLeaf t j (map num v0) (map num v1) (map num v2) psi dpsidt y.
Proof.
  unfold rankOf. intros L0 L1 L2 L. unfold exec1, applyLeaf. cbn [sJ s0 s1 s2]. destruct (nonempty (diags t j)); [|reflexivity]. unfold names.
  rewrite (selected_in v0 (dims t) (diffs t) 0 y L0 L (fun i => eq_refl) (fun i => eq_refl)).
  rewrite (corresponding_move v0 v1 (dims t) (diffs t) 0 y L0 L1 L (fun i => eq_refl) (fun i => eq_refl)).
  now rewrite (corresponding_move v0 v2 (dims t) (diffs t) 0 y L0 L2 L (fun i => eq_refl) (fun i => eq_refl)).
Qed.
Lemma applyLeaf_ext j v0 v1 v2 psi a b : (forall y, a y = b y) -> forall y, applyLeaf t j v0 v1 v2 psi a y = applyLeaf t j v0 v1 v2 psi b y.
Proof. intros H y. unfold applyLeaf. destruct (nonempty _); [|apply H]. now rewrite (H y). Qed.
Lemma doApply_ext psi : forall rem j v0 v1 v2 a b, (forall y, a y = b y) -> forall y, doApply t rem j v0 v1 v2 psi a y = doApply t rem j v0 v1 v2 psi b y.
Proof. induction rem as [|rem IH]; intros j v0 v1 v2 a b H y; cbn [doApply]; [now apply applyLeaf_ext|]. now repeat apply IH. Qed.
Lemma exec1_ext s psi a b : (forall y, a y = b y) -> forall y, exec1 t psi a s y = exec1 t psi b s y.
Proof. intros H y. unfold exec1. destruct (nonempty _); [|apply H]. cbv zeta. now rewrite (H y). Qed.
Lemma exec_ext psi : forall l a b, (forall y, a y = b y) -> forall y, fold_left (exec1 t psi) l a y = fold_left (exec1 t psi) l b y.
Proof. induction l as [|s l IH]; intros a b H y; cbn [fold_left]; [apply H|]. apply IH. intros z. now apply exec1_ext. Qed.

Lemma recurse_right psi : length (diffs t) = rankOf t -> forall rem j v0 v1 v2, length v0 + rem = rankOf t -> length v1 = length v0 -> length v2 = length v0 ->
  let (p, j') := recurse rem j (length v0) (names 0 v0) (names 0 v1) (names 0 v2) in
  j' = j + 3 ^ rem /\ map sJ p = seq j (3 ^ rem) /\ forall dpsidt y, fold_left (exec1 t psi) p dpsidt y = doApply t rem j (map num v0) (map num v1) (map num v2) psi dpsidt y.
Proof.
  intros L. induction rem as [|rem IH]; intros j v0 v1 v2 Hl E1 E2.
  - cbn [recurse]. split; [reflexivity|]. split; [reflexivity|]. intros dpsidt y. cbn [fold_left doApply]. apply exec_leaf; lia.
  - cbn [recurse].
    assert (N : forall l0 l1 l2 j0, let (p, j') := recurse rem j0 (length v0 + 1) (names 0 v0 ++ [(length v0, l0)]) (names 0 v1 ++ [(length v0, l1)]) (names 0 v2 ++ [(length v0, l2)]) in
      j' = j0 + 3 ^ rem /\ map sJ p = seq j0 (3 ^ rem) /\ forall dpsidt y, fold_left (exec1 t psi) p dpsidt y = doApply t rem j0 (map num v0 ++ [num l0]) (map num v1 ++ [num l1]) (map num v2 ++ [num l2]) psi dpsidt y).
    { intros l0 l1 l2 j0. specialize (IH j0 (v0 ++ [l0]) (v1 ++ [l1]) (v2 ++ [l2])). rewrite !app_length, !names_app, !map_app, E1, E2 in IH. cbn [length map] in IH.
      apply IH; lia. }
    pose proof (N Whole Whole Whole j) as A. destruct (recurse rem j _ _ _ _) as [p1 j1]. destruct A as (-> & S1 & A).
    pose proof (N High Low Low (j + 3 ^ rem)) as B. destruct (recurse rem (j + 3 ^ rem) _ _ _ _) as [p2 j2]. destruct B as (-> & S2 & B).
    pose proof (N Low Low High (j + 3 ^ rem + 3 ^ rem)) as C. destruct (recurse rem (j + 3 ^ rem + 3 ^ rem) _ _ _ _) as [p3 j3]. destruct C as (-> & S3 & C).
    split; [rewrite Nat.pow_succ_r'; lia|]. split.
    + rewrite !map_app, S1, S2, S3, <- !seq_app. f_equal. rewrite Nat.pow_succ_r'. lia.
    + intros dpsidt y. rewrite !fold_left_app, C. cbn [doApply]. cbv zeta. rewrite Nat.mul_0_l, Nat.add_0_r, Nat.mul_1_l. replace (j + 2 * 3 ^ rem) with (j + 3 ^ rem + 3 ^ rem) by lia.
      apply doApply_ext. intros z. rewrite B. apply doApply_ext. intros w. apply A.
Qed.
Lemma top_as_recurse rank : 0 < rank -> generate rank = fst (recurse rank 0 0 [] [] []).
Proof.
  intros H. destruct rank as [|r]; [lia|]. unfold generate. cbn [recurse app plus]. rewrite Nat.sub_succ, Nat.sub_0_r.
  destruct (recurse r 0 1 _ _ _) as [p1 j1], (recurse r j1 1 _ _ _) as [p2 j2], (recurse r j2 1 _ _ _) as [p3 j3]. reflexivity.
Qed.
Lemma generated_right rank psi dpsidt : 0 < rank -> rankOf t = rank -> length (diffs t) = rank -> forall y, generatedApply rank t psi dpsidt y = apply t psi dpsidt y.
Proof.
  intros Hr <- L y. unfold generatedApply. rewrite top_as_recurse by exact Hr.
  pose proof (recurse_right psi L (rankOf t) 0 [] [] [] eq_refl eq_refl eq_refl) as H. destruct (recurse (rankOf t) 0 _ _ _ _) as [p j'] eqn:Q in H.
  change (recurse (rankOf t) 0 0 [] [] [] = (p, j')) in Q. rewrite Q. cbn [fst]. apply H.
Qed.
End P.
Definition dummy (rank : nat) : tri GaussZ unit := mkTri (repeat 1 rank) (repeat 0 rank) (fun _ => emptyArr 0) tt (fun _ => emptyArr 0).
Lemma generated_count rank : 0 < rank -> map sJ (generate rank) = seq 0 (3 ^ rank).
Proof.
  intros Hr. rewrite top_as_recurse by exact Hr.
  pose proof (recurse_right (dummy rank) (fun _ => k0)) as H. unfold rankOf, dummy in H. cbn [dims diffs] in H. rewrite !repeat_length in H.
  specialize (H eq_refl rank 0 [] [] [] eq_refl eq_refl eq_refl). destruct (recurse rank 0 _ _ _ _) as [p j'] eqn:Q in H.
  change (recurse rank 0 0 [] [] [] = (p, j')) in Q. rewrite Q. cbn [fst]. apply H.
Qed.
