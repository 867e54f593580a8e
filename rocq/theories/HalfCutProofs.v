(** Dimensions of density operators. *)
From Coq Require Import List Arith Bool ZArith Lia Permutation.
From Verif Require Import HalfCutModel HalfCutSpec.
Import ListNotations.
Local Open Scope nat_scope.

Lemma setAt_app a b i v : setAt (a ++ b) (i + length a) v = a ++ setAt b i v.
Proof. induction a as [|x a IH]; cbn; [now rewrite Nat.add_0_r|]. rewrite Nat.add_succ_r. cbn. now rewrite IH. Qed.
Lemma setAt_left a b i v : i < length a -> setAt (a ++ b) i v = setAt a i v ++ b.
Proof. revert i. induction a as [|x a IH]; intros [|i] Hi; cbn in *; try lia; [reflexivity|]. rewrite IH by lia. reflexivity. Qed.
Lemma setAt_len t i v : length (setAt t i v) = length t.
Proof. revert i. induction t as [|x t IH]; intros [|i]; cbn; auto. Qed.
Lemma fill_gen (t : tiny) off : forall m k (pre r : tiny), length pre = k + off -> k + m <= length t -> length r = m ->
  fold_left (fun res i => setAt res (i + off) (at_ t i)) (seq k m) (pre ++ r) = pre ++ firstn m (skipn k t).
Proof.
  induction m as [|m IH]; intros k pre r Lp Lt Lr.
  - destruct r; [|discriminate]. cbn. reflexivity.
  - destruct r as [|x r]; [discriminate|]. cbn [seq fold_left]. rewrite <- Lp. replace (setAt (pre ++ x :: r) (length pre) (at_ t k)) with ((pre ++ [at_ t k]) ++ r).
    2:{ pose proof (setAt_app pre (x :: r) 0 (at_ t k)) as H. cbn in H. rewrite H, <- app_assoc. reflexivity. }
    rewrite IH by (rewrite ?app_length; cbn in *; lia). rewrite <- app_assoc. f_equal. cbn [app].
    assert (Hk : k < length t) by lia. clear -Hk. unfold at_. revert t Hk. induction k as [|k IHk]; intros [|y t] Hk; cbn in Hk; try lia; [reflexivity|]. cbn [skipn nth]. apply IHk. lia.
Qed.
Lemma fill_all (t r : tiny) m : m <= length t -> length r = m -> fold_left (fun res i => setAt res i (at_ t i)) (seq 0 m) r = firstn m t.
Proof.
  intros Lt Lr. pose proof (fill_gen t 0 m 0 [] r eq_refl Lt Lr) as H. cbn [app skipn] in H. rewrite <- H.
  assert (G : forall l (a : tiny), fold_left (fun res i => setAt res i (at_ t i)) l a = fold_left (fun res i => setAt res (i + 0) (at_ t i)) l a).
  { induction l as [|i l IH]; intros a; cbn; [reflexivity|]. now rewrite IH, Nat.add_0_r. }
  apply G.
Qed.
Lemma fill_app_left (t a b : tiny) : forall l, (forall i, In i l -> i < length a) ->
  fold_left (fun res i => setAt res i (at_ t i)) l (a ++ b) = fold_left (fun res i => setAt res i (at_ t i)) l a ++ b.
Proof.
  intros l. revert a. induction l as [|i l IH]; intros a H; cbn; [reflexivity|].
  rewrite setAt_left by (apply H; left; reflexivity). apply IH. intros j Hj. rewrite setAt_len. apply H. right. exact Hj.
Qed.
Lemma concatenate_app (a b : tiny) : concatenateTinies a b = a ++ b.
Proof.
  unfold concatenateTinies. rewrite repeat_app, fill_app_left by (intros i Hi; apply in_seq in Hi; rewrite repeat_length; lia).
  rewrite (fill_all a) by (rewrite ?repeat_length; lia). rewrite firstn_all.
  rewrite (fill_gen b (length a) (length b) 0 a) by (rewrite ?repeat_length; lia). cbn [skipn]. now rewrite firstn_all.
Qed.
Lemma half_len (a b : tiny) : length a = length b -> length (a ++ b) / 2 = length a.
Proof. intros E. rewrite app_length, <- E. replace (length a + length a) with (length a * 2) by lia. apply Nat.div_mul. lia. Qed.
Lemma nth_eq_dec (a b : tiny) : length a = length b -> existsb (fun i => negb (Z.eqb (at_ (a ++ b) i) (at_ (a ++ b) (i + length a)))) (seq 0 (length a)) = true <-> a <> b.
Proof.
  intros L. rewrite existsb_exists. split.
  - intros (i & Hi & E) ->. apply in_seq in Hi. unfold at_ in E. rewrite app_nth1, app_nth2 in E by lia. replace (i + length b - length b) with i in E by lia. rewrite Z.eqb_refl in E. discriminate.
  - intros N. assert (D : forall x y : tiny, length x = length y -> x <> y -> exists i, i < length x /\ nth i x 0%Z <> nth i y 0%Z).
    { induction x as [|u x IH]; intros [|v y] Lx Nx; cbn in *; try discriminate; [congruence|]. destruct (Z.eq_dec u v) as [->|Nu]; [|exists 0; split; [lia|exact Nu]].
      destruct (IH y) as (i & Hi & Ni); [lia|congruence|]. exists (S i). split; [lia|exact Ni]. }
    destruct (D a b L N) as (i & Hi & Ni). exists i. split; [apply in_seq; lia|]. unfold at_. rewrite app_nth1, app_nth2 by lia. replace (i + length a - length a) with i by lia.
    apply negb_true_iff, Z.eqb_neq. exact Ni.
Qed.
Lemma half_cut_value debug (a b : tiny) : length a = length b -> halfCutTiny debug (a ++ b) = if debug && (if list_eq_dec Z.eq_dec a b then false else true) then None else Some a.
Proof.
  intros L. unfold halfCutTiny. rewrite (half_len a b L). pose proof (nth_eq_dec a b L) as H.
  rewrite fill_all by (rewrite ?app_length, ?repeat_length; lia). rewrite firstn_app, firstn_all, Nat.sub_diag, firstn_O, app_nil_r.
  destruct (list_eq_dec Z.eq_dec a b) as [->|N].
  - destruct (existsb _ _) eqn:B; [exfalso; apply H; auto|]. now rewrite andb_false_r.
  - destruct (existsb _ _) eqn:B; [reflexivity|]. apply H in N. congruence.
Qed.
Lemma half_cut_twice debug (d : tiny) : halfCutTiny debug (d ++ d) = Some d.
Proof. rewrite half_cut_value by reflexivity. destruct (list_eq_dec Z.eq_dec d d); [now rewrite andb_false_r|congruence]. Qed.
Lemma half_cut_debug t r : length t = 2 * r -> forall d, halfCutTiny true t = Some d <-> t = d ++ d.
Proof.
  intros L d. rewrite <- (firstn_skipn r t) at 1. assert (La : length (firstn r t) = r) by (rewrite firstn_length; lia). assert (Lb : length (skipn r t) = r) by (rewrite skipn_length; lia).
  rewrite half_cut_value by congruence. destruct (list_eq_dec Z.eq_dec (firstn r t) (skipn r t)) as [E|N]; cbn; split; intros H.
  - injection H as <-. rewrite E at 2. now rewrite firstn_skipn.
  - subst t. assert (length d = r) by (rewrite app_length in L; lia). rewrite firstn_app, H, Nat.sub_diag, firstn_O, app_nil_r, <- H, firstn_all. reflexivity.
  - discriminate.
  - exfalso. apply N. subst t. assert (length d = r) by (rewrite app_length in L; lia). rewrite <- H, firstn_app, skipn_app, Nat.sub_diag, firstn_all, skipn_all. cbn. now rewrite app_nil_r.
Qed.
Lemma joined_fact debug a b : concatenateTinies a b = a ++ b /\ halfCutTiny debug (concatenateTinies a a) = Some a.
Proof. split; [apply concatenate_app|]. rewrite concatenate_app. apply half_cut_twice. Qed.
Lemma product_volume t : product t = volume t.
Proof.
  unfold product, volume. assert (G : forall a, fold_left Z.mul t a = (a * fold_right Z.mul 1 t)%Z); [|rewrite G; apply Z.mul_1_l]. induction t as [|x t IH]; intros a; cbn [fold_left fold_right]; [ring|]. rewrite IH. ring.
Qed.
Lemma volume_perm a b : Permutation a b -> volume a = volume b.
Proof. unfold volume. induction 1; cbn [fold_right]; [reflexivity|now rewrite IHPermutation|ring|congruence]. Qed.
Lemma rearranged_perm {A} (z : A) p (x : list A) : Permutation p (seq 0 (length x)) -> Permutation (rearranged z p x) x.
Proof.
  intros H. unfold rearranged. apply Permutation_trans with (map (fun i => nth i x z) (seq 0 (length x))); [now apply Permutation_map|].
  replace (map (fun i => nth i x z) (seq 0 (length x))) with x; [apply Permutation_refl|]. clear. induction x as [|a x IH]; [reflexivity|]. cbn. f_equal. rewrite <- seq_shift, map_map. exact IH.
Qed.

Section S.
Context {E : Type}.
Lemma keep_sound d (e : list nat -> E) sh : sh = d ++ d -> sound (keep E d (mkArray sh e)).
Proof. intros ->. split; [reflexivity|apply product_volume]. Qed.
Lemma new_sound d (e : list nat -> E) : sound (ofDimensions d e) /\ dDims (ofDimensions d e) = d.
Proof. split; [|reflexivity]. unfold ofDimensions. apply keep_sound. apply concatenate_app. Qed.
Lemma transposed_shape d p : Permutation p (seq 0 (length d)) -> map (at_ (d ++ d)) (p ++ map (fun i => i + length p) p) = rearranged 0%Z p d ++ rearranged 0%Z p d.
Proof.
  intros H. assert (L : length p = length d) by (rewrite (Permutation_length H), seq_length; reflexivity). rewrite map_app, map_map. unfold rearranged.
  assert (B : forall i, In i p -> i < length d) by (intros i Hi; apply (Permutation_in _ H) in Hi; apply in_seq in Hi; lia).
  f_equal; apply map_ext_in; intros i Hi; specialize (B i Hi); unfold at_; [now rewrite app_nth1 by lia|]. rewrite app_nth2 by lia. f_equal. lia.
Qed.
Lemma transpose_fact debug p (rho : density E) : sound rho -> Permutation p (seq 0 (length (dDims rho))) ->
  exists rho', transposeSelf debug p rho = Some rho' /\ sound rho' /\ dDims rho' = rearranged 0%Z p (dDims rho) /\ dTotal rho' = dTotal rho /\
    forall i j, length i = length p -> length j = length p -> index rho' (rearranged 0 p i) (rearranged 0 p j) = index rho i j.
Proof.
  intros [S1 S2] H. assert (L : length p = length (dDims rho)) by (rewrite (Permutation_length H), seq_length; reflexivity).
  unfold transposeSelf. cbn [aShape transposed]. rewrite S1, (transposed_shape _ p H), half_cut_twice. cbn [option_map]. eexists. split; [reflexivity|].
  split; [apply keep_sound; rewrite S1; exact (transposed_shape _ p H)|]. split; [reflexivity|]. split.
  - cbn [dTotal keep]. rewrite product_volume, S2. apply volume_perm. now apply rearranged_perm.
  - intros i j Li Lj. unfold index. cbn [dArray keep aElem transposed]. rewrite !concatenate_app, !map_app, !map_map.
    rewrite !(map_ext (fun x => Z.to_nat (Z.of_nat x)) (fun x => x)) by (intros x; apply Nat2Z.id). rewrite !map_id. f_equal.
    rewrite app_length, map_length, L. set (n := length (dDims rho)) in *.
    assert (ND : NoDup p) by (apply (Permutation_NoDup (Permutation_sym H)), seq_NoDup).
    assert (PL : forall (q : list nat) o, In o q -> placeOf o q < length q /\ nth (placeOf o q) q 0 = o).
    { induction q as [|x q IH]; intros o Ho; [destruct Ho|]. cbn. destruct (Nat.eqb_spec x o) as [->|N]; [split; [lia|reflexivity]|]. destruct Ho as [->|Ho]; [congruence|]. destruct (IH o Ho). split; [lia|auto]. }
    assert (PA : forall (q r : list nat) o, In o q -> placeOf o (q ++ r) = placeOf o q).
    { induction q as [|x q IH]; intros r o Ho; [destruct Ho|]. cbn. destruct (Nat.eqb_spec x o) as [->|N]; [reflexivity|]. destruct Ho as [->|Ho]; [congruence|]. now rewrite IH. }
    assert (PB : forall (q r : list nat) o, ~ In o q -> placeOf o (q ++ r) = length q + placeOf o r).
    { induction q as [|x q IH]; intros r o Ho; [reflexivity|]. cbn. destruct (Nat.eqb_spec x o) as [->|N]; [exfalso; apply Ho; left; reflexivity|]. rewrite IH; [reflexivity|]. intros I. apply Ho. right. exact I. }
    assert (PM : forall (q : list nat) k o, placeOf (o + k) (map (fun i => i + k) q) = placeOf o q).
    { induction q as [|x q IH]; intros k o; [reflexivity|]. cbn. destruct (Nat.eqb_spec (x + k) (o + k)), (Nat.eqb_spec x o); try lia. now rewrite IH. }
    assert (IN : forall o, o < n -> In o p) by (intros o Ho; apply (Permutation_in _ (Permutation_sym H)), in_seq; lia).
    assert (NI : forall o, n <= o -> ~ In o p) by (intros o Ho I; apply (Permutation_in _ H) in I; apply in_seq in I; lia).
    assert (RE : forall (x : list nat) o, length x = n -> o < n -> nth (placeOf o p) (rearranged 0 p x) 0 = nth o x 0).
    { intros x o Lx Ho. destruct (PL p o (IN o Ho)) as [P1 P2]. unfold rearranged. rewrite (nth_indep _ 0 (nth 0 x 0)) by (rewrite map_length; exact P1).
      rewrite (map_nth (fun i => nth i x 0)). now rewrite P2. }
    apply nth_ext with 0 0; [rewrite map_length, seq_length, app_length; lia|]. rewrite map_length, seq_length. intros o Ho.
    rewrite (nth_indep _ 0 ((fun o => nth (placeOf o (p ++ map (fun i => i + n) p)) (rearranged 0 p i ++ rearranged 0 p j) 0) 0)) by (rewrite map_length, seq_length; exact Ho).
    rewrite (map_nth (fun o => nth (placeOf o (p ++ map (fun i => i + n) p)) (rearranged 0 p i ++ rearranged 0 p j) 0)), seq_nth by exact Ho. cbn [Nat.add].
    assert (LR : forall x : list nat, length (rearranged 0 p x) = n) by (intros x; unfold rearranged; now rewrite map_length).
    destruct (lt_dec o n) as [B|B].
    + rewrite PA by (now apply IN). rewrite !app_nth1 by (rewrite ?LR; try lia; destruct (PL p o (IN o B)); lia). apply RE; lia.
    + rewrite PB by (apply NI; lia). rewrite L. rewrite !app_nth2 by (rewrite ?LR; lia). rewrite LR. replace (n + placeOf o (map (fun i => i + n) p) - n) with (placeOf o (map (fun i => i + n) p)) by lia.
      replace o with ((o - n) + n) at 1 by lia. rewrite PM, RE by lia. f_equal. lia.
Qed.
Lemma kept_app {A} : forall s (x : list A) s' x', length s = length x -> keptOf (s ++ s') (x ++ x') = keptOf s x ++ keptOf s' x'.
Proof. induction s as [|[i|] s IH]; intros [|v x] s' x' L; cbn in *; try discriminate; [reflexivity|now rewrite IH by lia|now rewrite IH by lia]. Qed.
Lemma places_cons o s : keptPlaces (o :: s) = (match o with None => [0] | Some _ => [] end) ++ map S (keptPlaces s).
Proof.
  assert (G : forall l, filter (fun k => match nth k (o :: s) None with None => true | Some _ => false end) (map S l) = map S (filter (fun k => match nth k s None with None => true | Some _ => false end) l)).
  { induction l as [|k l IH]; [reflexivity|]. cbn [map filter]. rewrite IH. cbn [nth]. destruct (nth k s None); reflexivity. }
  transitivity ((match o with None => [0] | Some _ => [] end) ++ filter (fun k => match nth k (o :: s) None with None => true | Some _ => false end) (seq 1 (length s))); [destruct o; reflexivity|].
  rewrite <- seq_shift, G. reflexivity.
Qed.
Lemma kept_places {A} (z : A) : forall s x, length s = length x -> keptOf s x = rearranged z (keptPlaces s) x.
Proof.
  induction s as [|o s IH]; intros [|v x] L; cbn in L; try discriminate; [reflexivity|]. rewrite places_cons. unfold rearranged. rewrite map_app, map_map. cbn [nth].
  specialize (IH x ltac:(lia)). unfold rearranged in IH. rewrite <- IH. destruct o; reflexivity.
Qed.
Lemma placed_kept : forall s x, within s x -> placed s (keptOf s x) = x.
Proof.
  induction s as [|o s IH]; intros [|v x] [L H]; cbn in L; try discriminate; [reflexivity|].
  assert (W : within s x) by (split; [lia|intros k i Hk; exact (H (S k) i Hk)]). specialize (IH x W). destruct o as [i|]; cbn; rewrite IH; [f_equal; symmetry; exact (H 0 i eq_refl)|reflexivity].
Qed.
Lemma placed_app : forall s (x : list nat) s' y', length s = length x -> placed (s ++ s') (keptOf s x ++ y') = placed s (keptOf s x) ++ placed s' y'.
Proof. induction s as [|[i|] s IH]; intros [|v x] s' y' L; cbn in *; try discriminate; [reflexivity|now rewrite IH by lia|now rewrite IH by lia]. Qed.
Lemma index_fact (rho : density E) i j : index rho i j = aElem (dArray rho) (i ++ j).
Proof. unfold index. rewrite concatenate_app, map_app, !map_map, !(map_ext (fun x => Z.to_nat (Z.of_nat x)) (fun x => x)) by (intros x; apply Nat2Z.id). now rewrite !map_id. Qed.
Lemma slice_fact debug subs (rho : density E) : sound rho -> length subs = length (dDims rho) ->
  exists rho', diagonalSliceIndex debug subs rho = Some rho' /\ sound rho' /\ dDims rho' = rearranged 0%Z (keptPlaces subs) (dDims rho) /\
    forall i j, within subs i -> within subs j -> index rho' (rearranged 0 (keptPlaces subs) i) (rearranged 0 (keptPlaces subs) j) = index rho i j.
Proof.
  intros [S1 S2] L. unfold diagonalSliceIndex, byReference. cbn [aShape slice]. rewrite S1, kept_app, half_cut_twice by exact L. cbn [option_map]. eexists. split; [reflexivity|].
  split; [apply keep_sound; rewrite S1; now apply kept_app|]. split; [cbn [dDims keep]; now apply kept_places|].
  intros i j Wi Wj. rewrite !index_fact. cbn [dArray keep aElem slice]. destruct (Wi) as [Li _]. destruct (Wj) as [Lj _].
  rewrite <- !kept_places by lia. rewrite placed_app by lia. now rewrite !placed_kept.
Qed.
Lemma bounds_fact debug (rho : density E) : sound rho -> lbound debug rho = Some (map (fun _ => 0%Z) (dDims rho)) /\ ubound debug rho = Some (map (fun n => (n - 1)%Z) (dDims rho)).
Proof. intros [S1 _]. unfold lbound, ubound. rewrite S1, !map_app, !half_cut_twice. split; reflexivity. Qed.
Lemma run_sound debug twofold (cs : list (cmd E)) : debug || twofold = true -> reasonableAll debug twofold (Some []) cs ->
  match run debug cs with Some l => Forall sound l | None => twofold = false end.
Proof.
  intros HD. unfold run. assert (G : forall cs (s : option (list (density E))), match s with Some l => Forall sound l | None => twofold = false end -> reasonableAll debug twofold s cs ->
    match fold_left (step debug) cs s with Some l => Forall sound l | None => twofold = false end).
  2:{ apply G. constructor. }
  clear cs. induction cs as [|c cs IH]; intros s Hs Hr; [exact Hs|]. cbn [fold_left]. destruct Hr as [Hc Hr]. apply IH; [|exact Hr]. clear IH Hr.
  destruct s as [l|]; [|exact Hs]. assert (A : forall rho : density E, sound rho -> Forall sound (l ++ [rho])) by (intros rho Hrho; apply Forall_app; split; [exact Hs|constructor; [exact Hrho|constructor]]).
  destruct c as [d e|a|x|x p|x subs]; cbn [step].
  - apply A, new_sound.
  - unfold byReference. cbn in Hc. destruct twofold.
    + destruct Hc as [d Hd]. rewrite Hd, half_cut_twice. cbn. apply A. destruct a as [sh e]. cbn in *. now apply keep_sound.
    + destruct Hc as [r Hr]. destruct debug; [|discriminate]. destruct (halfCutTiny true (aShape a)) as [d|] eqn:B; cbn; [|reflexivity]. apply A. destruct a as [sh e]. cbn in *. apply keep_sound. now apply (half_cut_debug sh r Hr).
  - destruct (nth_error l x) as [rho|] eqn:B; [|exact Hs]. apply A. rewrite Forall_forall in Hs. destruct (Hs rho (nth_error_In _ _ B)) as [S1 S2]. split; [exact S1|apply product_volume].
  - destruct (nth_error l x) as [rho|] eqn:B; [|exact Hs]. rewrite Forall_forall in Hs. destruct (transpose_fact debug p rho (Hs rho (nth_error_In _ _ B)) (Hc rho B)) as (rho' & -> & S' & _).
    apply Forall_app. split; [|constructor; [exact S'|]].
    + apply Forall_forall. intros y Hy. apply Hs. rewrite <- (firstn_skipn x l). apply in_or_app. left. exact Hy.
    + apply Forall_forall. intros y Hy. apply Hs. rewrite <- (firstn_skipn (S x) l). apply in_or_app. right. exact Hy.
  - destruct (nth_error l x) as [rho|] eqn:B; [|exact Hs]. rewrite Forall_forall in Hs. destruct (slice_fact debug subs rho (Hs rho (nth_error_In _ _ B)) (Hc rho B)) as (rho' & -> & S' & _).
    apply A. exact S'.
Qed.
Lemma refused_fact (a : array E) r : length (aShape a) = 2 * r -> (byReference true a = None <-> ~ exists d, aShape a = d ++ d).
Proof.
  intros L. unfold byReference. pose proof (half_cut_debug (aShape a) r L) as H. destruct (halfCutTiny true (aShape a)) as [d|]; cbn; split; try discriminate; try reflexivity.
  - intros N. exfalso. apply N. exists d. now apply H.
  - intros _ [d Hd]. apply H in Hd. discriminate.
Qed.
Lemma unsound_fact (a : array E) : aShape a = [2; 3]%Z -> exists rho, byReference false a = Some rho /\ dDims rho = [2]%Z /\ ~ sound rho.
Proof. intros H. unfold byReference. rewrite H. eexists. split; [reflexivity|]. split; [reflexivity|]. intros [S _]. cbn in S. rewrite H in S. discriminate. Qed.
End S.
