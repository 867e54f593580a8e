From Coq Require Import List Arith Bool Lia Permutation PeanoNat Sorting.Sorted.
From Verif Require Import Star Arr MultiIndexModel MultiIndexSpec MultiIndexProofs SliceModel SliceSpec SliceProofs
  HermSpec HermProofs DensityModel DensitySpec.
Import ListNotations.

(** * Iteration over all multi-indices *)
Lemma loop_mono f f' lb ub x l : mii_loop f lb ub x = Some l -> f <= f' -> mii_loop f' lb ub x = Some l.
Proof.
  revert f' x l; induction f as [|f IH]; intros f' x l H Hf.
  - destruct f' as [|f']; auto. cbn [mii_loop] in *. destruct (idx_eqb x (mii_end lb ub)); [auto|discriminate].
  - destruct f' as [|f']; [lia|]. cbn [mii_loop] in *. destruct (idx_eqb x (mii_end lb ub)); auto.
    destruct (mii_loop f lb ub (mii_incr lb ub x)) as [l'|] eqn:E; [|discriminate].
    rewrite (IH f' _ _ E) by lia. auto.
Qed.

Lemma loop_tight f lb ub x l : mii_loop f lb ub x = Some l -> mii_loop (length l) lb ub x = Some l.
Proof.
  revert x l; induction f as [|f IH]; intros x l H; cbn [mii_loop] in H.
  - destruct (idx_eqb x (mii_end lb ub)) eqn:E; [|discriminate]. injection H as <-. cbn. now rewrite E.
  - destruct (idx_eqb x (mii_end lb ub)) eqn:E.
    + injection H as <-. cbn. now rewrite E.
    + destruct (mii_loop f lb ub (mii_incr lb ub x)) as [l'|] eqn:E'; [|discriminate]. injection H as <-.
      cbn [length mii_loop]. now rewrite E, (IH _ _ E').
Qed.

(** [l] is what the iterator visits from [x] on *)
Definition chain (dims x : list nat) (l : list (list nat)) : Prop := itFrom (length l) dims x = Some l.

Lemma chain_from fuel dims x l : chain dims x l -> length l <= fuel -> itFrom fuel dims x = Some l.
Proof. intros H Hf. exact (loop_mono _ _ _ _ _ _ H Hf). Qed.

Lemma chain_cons dims x y l : chain dims x (y :: l) -> y = x /\ chain dims (itNext dims x) l.
Proof.
  unfold chain, itFrom, itNext. cbn [length mii_loop]. destruct (idx_eqb x _); [discriminate|].
  destruct (mii_loop (length l) _ _ _) as [l'|] eqn:E; [|discriminate]. intros H. injection H as <- <-. auto.
Qed.

(** strictly sorted lists with the same elements are equal *)
Lemma lex_irrefl a : ~ lex_lt a a.
Proof. induction a as [|x a IH]; intros H; inversion H; subst; [lia|auto]. Qed.
Lemma lex_trans a b c : lex_lt a b -> lex_lt b c -> lex_lt a c.
Proof.
  intros H; revert c; induction H as [x y a b Hxy L|x a b H IH]; intros c Hc; inversion Hc; subst.
  - apply lex_here; lia.
  - apply lex_here; auto. assert (HL : forall u v, lex_lt u v -> length u = length v).
    { induction 1; cbn; congruence. } rewrite L. now apply HL.
  - apply lex_here; auto. assert (HL : forall u v, lex_lt u v -> length u = length v).
    { induction 1; cbn; congruence. } rewrite <- H4. now apply HL.
  - apply lex_next. auto.
Qed.

Lemma sorted_unique l : forall l', StronglySorted lex_lt l -> StronglySorted lex_lt l' ->
  (forall x, In x l <-> In x l') -> l = l'.
Proof.
  induction l as [|a l IH]; intros [|b l'] H H' HE; auto.
  - exfalso. apply (proj2 (HE b)). now left.
  - exfalso. apply (proj1 (HE a)). now left.
  - inversion H as [|? ? Hs Hf]; subst. inversion H' as [|? ? Hs' Hf']; subst.
    rewrite Forall_forall in Hf, Hf'.
    assert (a = b).
    { destruct (proj1 (HE a) (or_introl eq_refl)) as [E|E]; auto.
      destruct (proj2 (HE b) (or_introl eq_refl)) as [E'|E']; auto.
      exfalso. apply (lex_irrefl a). eapply lex_trans; [apply Hf, E' | apply Hf', E]. }
    subst b. f_equal. apply IH; auto. intros x. split; intros Hx.
    + destruct (proj1 (HE x) (or_intror Hx)) as [E|E]; auto. subst. exfalso. apply (lex_irrefl x). auto.
    + destruct (proj2 (HE x) (or_intror Hx)) as [E|E]; auto. subst. exfalso. apply (lex_irrefl x). auto.
Qed.

Lemma ss_app l1 l2 : StronglySorted lex_lt l1 -> StronglySorted lex_lt l2 ->
  (forall a b, In a l1 -> In b l2 -> lex_lt a b) -> StronglySorted lex_lt (l1 ++ l2).
Proof.
  induction l1 as [|a l1 IH]; cbn; auto. intros H1 H2 H. inversion H1 as [|? ? Hs Hf]; subst.
  constructor; [apply IH; auto|]. rewrite Forall_forall in *. intros x Hx. apply in_app_iff in Hx. destruct Hx; auto.
Qed.

Lemma indices_sorted dims : StronglySorted lex_lt (indices dims).
Proof.
  induction dims as [|n dims IH]; cbn.
  - constructor; constructor.
  - generalize 0 at 1. induction n as [|n IHn]; intros s; cbn; [constructor|].
    apply ss_app; auto.
    + clear IHn. induction IH as [|a l Hs IH' Hf]; cbn; constructor; auto.
      rewrite Forall_forall in *. intros x Hx. apply in_map_iff in Hx. destruct Hx as [y [<- Hy]]. apply lex_next. auto.
    + intros a b Ha Hb. apply in_map_iff in Ha. destruct Ha as [x [<- Hx]].
      apply in_flat_map in Hb. destruct Hb as [t [Ht Hb]]. apply in_map_iff in Hb. destruct Hb as [y [<- Hy]].
      apply in_seq in Ht. apply lex_here; [lia|]. apply in_indices in Hx, Hy.
      now rewrite (inr_length _ _ Hx), (inr_length _ _ Hy).
Qed.

Lemma chain_all dims : dims <> [] -> (forall n, In n dims -> 0 < n) -> chain dims (zeros dims) (indices dims).
Proof.
  intros Hne Hpos. unfold chain, itFrom. rewrite indices_length.
  destruct (visit_ok (zeros dims) (map pred dims)) with (fuel := fold_right Nat.mul 1 dims) as [l (El & H1 & H2 & H3)].
  - destruct dims; [congruence|discriminate].
  - clear Hne. induction dims as [|n dims IH]; cbn; constructor; [lia|]. apply IH. intros; apply Hpos; now right.
  - unfold zeros. rewrite (box_size_map 0 [] eq_refl); auto.
  - unfold mii_visit, mii_begin in El. rewrite El. f_equal. apply sorted_unique; auto; [apply indices_sorted|].
    intros x. rewrite H1, in_indices. unfold zeros. apply (between_inr 0 [] ltac:(split; [constructor|easy]) [] eq_refl). auto.
Qed.

Lemma indices_zero dims n : In n dims -> n = 0 -> indices dims = [].
Proof.
  intros H ->. apply length_zero_iff_nil. rewrite indices_length.
  induction dims as [|m dims IH]; cbn; [easy|]. destruct H as [->|H]; [reflexivity|]. rewrite IH by auto. lia.
Qed.

Section D.
Context {K : StarRing} (P : Parts K).
Local Open Scope K_scope.
Add Ring KRD : (k_ring K).
Notation mfun := (list nat -> list nat -> K).

(** ** deflate *)
Fixpoint offL {A} (f : list nat -> list nat -> list A) (l : list (list nat)) : list A :=
  match l with [] => [] | i :: l' => flat_map (f i) l' ++ offL f l' end.

Lemma flat_map_two {A B} (f : A -> B) (g : A -> B) l : length (flat_map (fun a => [f a; g a]) l) = (2 * length l)%nat.
Proof. induction l as [|a l IH]; cbn in *; auto. lia. Qed.

Lemma offL_length {A} (f g : list nat -> list nat -> A) l :
  (length (offL (fun i j => [f i j; g i j]) l) + length l = length l * length l)%nat.
Proof.
  induction l as [|i l IH]; cbn [offL]; auto. rewrite app_length, (flat_map_two (f i) (g i)). cbn [length].
  remember (length l) as n eqn:E. clear E. nia.
Qed.

Lemma deflateDiag_ok m dims dim l : forall fuel i acc, chain dims i l ->
  (length acc + length l = dim)%nat -> (length l <= fuel)%nat ->
  deflateDiag P fuel dim dims i m acc = Some (acc ++ map (fun i => reP P (m i i)) l).
Proof.
  induction l as [|y l IH]; intros fuel i acc Hc Hl Hf.
  - cbn in Hl. destruct fuel; cbn [deflateDiag]; replace (length acc <? dim) with false by (symmetry; apply Nat.ltb_ge; lia);
      cbn; now rewrite app_nil_r.
  - destruct (chain_cons _ _ _ _ Hc) as [-> Hc']. destruct fuel as [|fuel]; [cbn in Hf; lia|].
    cbn [deflateDiag]. replace (length acc <? dim) with true by (symmetry; apply Nat.ltb_lt; cbn in Hl; lia).
    rewrite IH; auto.
    + cbn [map]. now rewrite <- app_assoc.
    + rewrite app_length. cbn in *. lia.
    + cbn in Hf. lia.
Qed.

Lemma deflateOff_ok (m : mfun) dims dim l : forall fuel i acc, chain dims i l ->
  let r := offL (fun i j => [reP P (m i j); imP P (m i j)]) l in
  (length acc + length r = dim * dim)%nat -> (length l <= fuel)%nat ->
  deflateOff P fuel dim dims i m acc = Some (acc ++ r).
Proof.
  induction l as [|y l IH]; intros fuel i acc Hc r Hl Hf.
  - cbn in Hl. unfold r; cbn [offL]. rewrite app_nil_r.
    destruct fuel; cbn [deflateOff]; now replace (length acc <? dim * dim) with false by (symmetry; apply Nat.ltb_ge; lia).
  - destruct (chain_cons _ _ _ _ Hc) as [-> Hc']. destruct fuel as [|fuel]; [cbn in Hf; lia|].
    cbn [deflateOff]. destruct (Nat.ltb_spec (length acc) (dim * dim)) as [Hlt|Hge].
    + rewrite (chain_from (S fuel) _ _ _ Hc') by (cbn in Hf; lia). unfold r. cbn [offL]. rewrite app_assoc.
      apply IH; auto; [|cbn in Hf; lia].
      unfold r in Hl. cbn [offL] in Hl. rewrite app_length in *. lia.
    + assert (Hr : length r = 0%nat) by lia. apply length_zero_iff_nil in Hr. rewrite Hr. now rewrite app_nil_r.
Qed.

Definition deflated (m : mfun) (dims : list nat) (off : bool) : list (T P) :=
  map (fun i => reP P (m i i)) (indices dims) ++
  (if off then offL (fun i j => [reP P (m i j); imP P (m i j)]) (indices dims) else []).

Lemma deflate_ok (m : mfun) dims off fuel : dims <> [] -> (forall n, In n dims -> (0 < n)%nat) ->
  (fold_right Nat.mul 1%nat dims <= fuel)%nat -> deflate P fuel dims m off = Some (deflated m dims off).
Proof.
  intros Hne Hpos Hf. pose proof (chain_all dims Hne Hpos) as Hc. pose proof (indices_length dims) as HL.
  unfold deflate. rewrite (deflateDiag_ok m dims _ (indices dims)); auto; [|cbn; lia].
  unfold deflated. destruct off; [|now rewrite app_nil_r].
  rewrite (deflateOff_ok m dims _ (indices dims)); auto; [|lia].
  cbn [app]. rewrite map_length. pose proof (offL_length (fun i j => reP P (m i j)) (fun i j => imP P (m i j)) (indices dims)).
  rewrite HL in *. lia.
Qed.

Lemma deflated_length (m : mfun) dims off : length (deflated m dims off) =
  (let dim := fold_right Nat.mul 1 dims in if off then dim * dim else dim)%nat.
Proof.
  unfold deflated. rewrite app_length, map_length. pose proof (indices_length dims) as HL.
  destruct off; cbn [length]; [|lia].
  pose proof (offL_length (fun i j => reP P (m i j)) (fun i j => imP P (m i j)) (indices dims)).
  rewrite HL in *. lia.
Qed.

(** ** inflate *)
Lemma rset_eq (m : mfun) i j v a b : rset m i j v a b = if listnat_eqb a i && listnat_eqb b j then v else m a b.
Proof. reflexivity. Qed.

Lemma inflateRow_ok (rho : mfun) i fl js : forall idx m, ~ In i js -> NoDup js ->
  (forall j, In j js -> kconj (rho i j) = rho j i) ->
  (forall k, (k < 2 * length js)%nat -> fl (idx + k)%nat = nth k (flat_map (fun j => [reP P (rho i j); imP P (rho i j)]) js) (t0 P)) ->
  exists m', inflateRow P js i fl idx m = ((idx + 2 * length js)%nat, m') /\
    forall a b, ((a = i /\ In b js) \/ (b = i /\ In a js) -> m' a b = rho a b) /\
                (~ ((a = i /\ In b js) \/ (b = i /\ In a js)) -> m' a b = m a b).
Proof.
  induction js as [|j js IH]; intros idx m Hni Hnd Hh Hfl.
  - exists m. split; [cbn; f_equal; lia|]. intros a b. split; auto. intros [[_ []]|[_ []]].
  - inversion Hnd as [|? ? Hj Hnd']; subst. cbn [inflateRow].
    assert (E0 : fl idx = reP P (rho i j)). { specialize (Hfl 0%nat). rewrite Nat.add_0_r in Hfl. apply Hfl. cbn; lia. }
    assert (E1 : fl (S idx) = imP P (rho i j)). { specialize (Hfl 1%nat). replace (S idx) with (idx + 1)%nat by lia. apply Hfl. cbn; lia. }
    rewrite E0, E1, cplx_parts.
    destruct (IH (idx + 2)%nat (rset (rset m i j (rho i j)) j i (kconj (rho i j)))) as [m' [Em Hm]]; auto.
    { intros H; apply Hni; now right. }
    { intros; apply Hh; now right. }
    { intros k Hk. rewrite <- Nat.add_assoc. rewrite Hfl by (cbn; lia). reflexivity. }
    exists m'. split; [rewrite Em; cbn [length]; f_equal; lia|]. intros a b. destruct (Hm a b) as [H1 H2].
    assert (Hij : i <> j) by (intros ->; apply Hni; now left).
    split.
    + intros HC.
      destruct (in_dec (list_eq_dec Nat.eq_dec) b js) as [Hb|Hb], (in_dec (list_eq_dec Nat.eq_dec) a js) as [Ha|Ha],
        (list_eq_dec Nat.eq_dec a i) as [Ea|Ea], (list_eq_dec Nat.eq_dec b i) as [Eb|Eb];
        try (rewrite H1 by tauto; reflexivity);
        (rewrite H2 by tauto; rewrite !rset_eq;
         destruct HC as [[X [Y|Y]]|[X [Y|Y]]]; try contradiction; subst;
         rewrite ?listnat_eqb_refl; cbn [andb];
         try (rewrite (proj2 (listnat_eqb_neq _ _)) by congruence; cbn [andb]); try congruence;
         try reflexivity; try (apply Hh; now left)).
    + intros HC. rewrite H2 by (intros [[X Y]|[X Y]]; apply HC; [left|right]; split; auto; now right).
      rewrite !rset_eq.
      destruct (listnat_eqb_spec a j) as [Ea|Ea], (listnat_eqb_spec b i) as [Eb|Eb],
        (listnat_eqb_spec a i) as [Ec|Ec], (listnat_eqb_spec b j) as [Ed|Ed]; cbn [andb]; auto; exfalso; apply HC;
        first [left; split; [exact Ec | left; now symmetry] | right; split; [exact Eb | left; now symmetry]].
Qed.

Lemma inflateOff_ok (rho : mfun) fl dims dim l : forall fuel i idx m, chain dims i l -> NoDup l ->
  (forall a b, In a l -> In b l -> kconj (rho a b) = rho b a) ->
  let r := offL (fun i j => [reP P (rho i j); imP P (rho i j)]) l in
  (forall k, (k < length r)%nat -> fl (idx + k)%nat = nth k r (t0 P)) ->
  (idx + length r = dim * dim)%nat -> (length l <= fuel)%nat ->
  exists m', inflateOff P fuel dim dims i fl idx m = Some ((dim * dim)%nat, m') /\
    forall a b, (In a l /\ In b l /\ a <> b -> m' a b = rho a b) /\ (~ (In a l /\ In b l /\ a <> b) -> m' a b = m a b).
Proof.
  induction l as [|y l IH]; intros fuel i idx m Hc Hnd Hh r Hfl Hl Hf.
  - exists m. split; [|intros a b; split; auto; intros [[] _]].
    cbn in Hl. destruct fuel; cbn [inflateOff]; replace (idx <? dim * dim) with false by (symmetry; apply Nat.ltb_ge; lia);
      do 2 f_equal; lia.
  - destruct (chain_cons _ _ _ _ Hc) as [-> Hc']. destruct fuel as [|fuel]; [cbn in Hf; lia|].
    inversion Hnd as [|? ? Hni Hnd']; subst.
    cbn [inflateOff]. destruct (Nat.ltb_spec idx (dim * dim)) as [Hlt|Hge].
    + rewrite (chain_from (S fuel) _ _ _ Hc') by (cbn in Hf; lia).
      pose proof (flat_map_two (fun j => reP P (rho i j)) (fun j => imP P (rho i j)) l) as HL2.
      destruct (inflateRow_ok rho i fl l idx m) as [m1 [E1 H1]]; auto.
      { intros j Hj. apply Hh; [now left | now right]. }
      { intros k Hk. rewrite Hfl by (unfold r; cbn [offL]; rewrite app_length; lia).
        unfold r. cbn [offL]. now rewrite app_nth1 by lia. }
      rewrite E1. unfold r in Hl, Hfl. cbn [offL] in Hl, Hfl. rewrite app_length in Hl, Hfl.
      destruct (IH fuel (itNext dims i) (idx + 2 * length l)%nat m1) as [m' [Em Hm]]; auto.
      { intros a b Ha Hb. apply Hh; now right. }
      { intros k Hk. rewrite <- Nat.add_assoc. rewrite Hfl by lia. rewrite app_nth2 by lia. f_equal. lia. }
      { lia. }
      { cbn in Hf. lia. }
      exists m'. split; auto. intros a b. destruct (Hm a b) as [G1 G2]. destruct (H1 a b) as [G3 G4]. split.
      * intros (Ha & Hb & Hab).
        destruct (in_dec (list_eq_dec Nat.eq_dec) a l) as [Ia|Ia], (in_dec (list_eq_dec Nat.eq_dec) b l) as [Ib|Ib].
        -- apply G1. auto.
        -- rewrite G2 by tauto. apply G3. destruct Hb as [<-|Hb]; [|contradiction]. auto.
        -- rewrite G2 by tauto. apply G3. destruct Ha as [<-|Ha]; [|contradiction]. auto.
        -- exfalso. destruct Ha as [<-|Ha], Hb as [<-|Hb]; auto.
      * intros HC. rewrite G2 by (intros (Ha & Hb & Hab); apply HC; repeat split; auto; now right).
        apply G4. intros [[-> Hb]|[-> Ha]]; apply HC.
        -- split; [now left|]. split; [now right|]. intros <-. contradiction.
        -- split; [now right|]. split; [now left|]. intros ->. contradiction.
    + assert (Hr : length r = 0%nat) by lia. exists m. split; [do 2 f_equal; lia|]. intros a b. split; auto.
      intros (Ha & Hb & Hab). exfalso.
      assert (HO : (length r + length (i :: l) = length (i :: l) * length (i :: l))%nat)
        by exact (offL_length (fun i j => reP P (rho i j)) (fun i j => imP P (rho i j)) (i :: l)).
      rewrite Hr in HO. destruct l as [|z l]; [|cbn in HO; lia].
      destruct Ha as [<-|[]], Hb as [<-|[]]. congruence.
Qed.

Lemma inflateDiag_ok (rho : mfun) fl dims dim l : forall fuel i idx m, chain dims i l -> NoDup l ->
  (forall a, In a l -> kconj (rho a a) = rho a a) ->
  (forall k, (k < length l)%nat -> fl (idx + k)%nat = nth k (map (fun i => reP P (rho i i)) l) (t0 P)) ->
  (idx + length l = dim)%nat -> (length l <= fuel)%nat ->
  exists m', inflateDiag P fuel dim dims i fl idx m = Some (dim, m') /\
    forall a b, (In a l /\ a = b -> m' a b = rho a b) /\ (~ (In a l /\ a = b) -> m' a b = m a b).
Proof.
  induction l as [|y l IH]; intros fuel i idx m Hc Hnd Hh Hfl Hl Hf.
  - exists m. split; [|intros a b; split; auto; intros [[] _]].
    cbn in Hl. destruct fuel; cbn [inflateDiag]; replace (idx <? dim) with false by (symmetry; apply Nat.ltb_ge; lia);
      do 2 f_equal; lia.
  - destruct (chain_cons _ _ _ _ Hc) as [-> Hc']. destruct fuel as [|fuel]; [cbn in Hf; lia|].
    inversion Hnd as [|? ? Hni Hnd']; subst. cbn [length] in *.
    cbn [inflateDiag]. replace (idx <? idx + S (length l)) with true by (symmetry; apply Nat.ltb_lt; lia).
    assert (E0 : fl idx = reP P (rho i i)). { specialize (Hfl 0%nat). rewrite Nat.add_0_r in Hfl. apply Hfl. lia. }
    assert (Er : cplx P (fl idx) (t0 P) = rho i i).
    { rewrite E0. rewrite <- (imP_real P (rho i i)) by (apply Hh; now left). apply cplx_parts. }
    rewrite Er.
    destruct (IH fuel (itNext dims i) (S idx) (rset m i i (rho i i))) as [m' [Em Hm]]; auto.
    { intros a Ha. apply Hh. now right. }
    { intros k Hk. replace (S idx + k)%nat with (idx + S k)%nat by lia. rewrite Hfl by lia. reflexivity. }
    { lia. }
    { lia. }
    exists m'. split; [exact Em|]. intros a b. destruct (Hm a b) as [H1 H2]. split.
    + intros [[<-|Ha] <-]; [|apply H1; auto]. rewrite H2 by tauto. rewrite rset_eq, listnat_eqb_refl. reflexivity.
    + intros HC. rewrite H2 by (intros [Ha E]; apply HC; split; auto; now right). rewrite rset_eq.
      destruct (listnat_eqb_spec a i), (listnat_eqb_spec b i); cbn [andb]; auto. subst. exfalso. apply HC. split; auto. now left.
Qed.

Lemma inflate_deflate (rho m : mfun) dims off fuel fl : dims <> [] -> (forall n, In n dims -> (0 < n)%nat) ->
  (fold_right Nat.mul 1%nat dims <= fuel)%nat -> hermitian dims rho ->
  (forall k, (k < length (deflated rho dims off))%nat -> fl k = nth k (deflated rho dims off) (t0 P)) ->
  exists m', inflate P fuel dims fl m off = Some m' /\
    (forall i j, inr dims i -> inr dims j -> (i = j \/ off = true) -> m' i j = rho i j) /\
    (forall i j, (i <> j /\ off = false) \/ ~ inr dims i \/ ~ inr dims j -> m' i j = m i j).
Proof.
  intros Hne Hpos Hf Hh Hfl. pose proof (chain_all dims Hne Hpos) as Hc. pose proof (indices_length dims) as HL.
  pose proof (deflated_length rho dims off) as HD. cbn zeta in HD.
  assert (Hfl1 : forall k, (k < length (indices dims))%nat -> fl (0 + k)%nat = nth k (map (fun i => reP P (rho i i)) (indices dims)) (t0 P)).
  { intros k Hk. cbn [Nat.add]. rewrite Hfl by (unfold deflated; rewrite app_length, map_length; lia).
    unfold deflated. now rewrite app_nth1 by (rewrite map_length; lia). }
  destruct (inflateDiag_ok rho fl dims (fold_right Nat.mul 1%nat dims) (indices dims) fuel (zeros dims) 0%nat m) as [m1 [E1 H1]]; auto.
  { apply indices_NoDup. }
  { intros a Ha. apply in_indices in Ha. apply Hh; auto. }
  { lia. }
  unfold inflate. rewrite E1. destruct off.
  - destruct (inflateOff_ok rho fl dims (fold_right Nat.mul 1%nat dims) (indices dims) fuel (zeros dims) (fold_right Nat.mul 1%nat dims) m1)
      as [m2 [E2 H2]]; auto.
    { apply indices_NoDup. }
    { intros a b Ha Hb. apply in_indices in Ha, Hb. apply (Hh b a); auto. }
    { intros k Hk. rewrite Hfl by (unfold deflated; rewrite app_length, map_length; lia).
      unfold deflated. rewrite app_nth2 by (rewrite map_length; lia). f_equal. rewrite map_length. lia. }
    { rewrite <- HL. pose proof (offL_length (fun i j => reP P (rho i j)) (fun i j => imP P (rho i j)) (indices dims)).
      rewrite HL in *. lia. }
    { lia. }
    exists m2. rewrite E2. split; [reflexivity|]. split.
    + intros i j Hi Hj _. apply in_indices in Hi, Hj. destruct (list_eq_dec Nat.eq_dec i j) as [->|Hij].
      * rewrite (proj2 (H2 j j)) by tauto. apply (proj1 (H1 j j)). auto.
      * apply (proj1 (H2 i j)). auto.
    + intros i j HC. rewrite (proj2 (H2 i j)), (proj2 (H1 i j)); auto; rewrite !in_indices.
      * intros [Hi <-]. destruct HC as [[_ HC]|[HC|HC]]; [discriminate| |]; auto.
      * intros [Hi [Hj _]]. destruct HC as [[_ HC]|[HC|HC]]; [discriminate| |]; auto.
  - exists m1. split; [reflexivity|]. split.
    + intros i j Hi Hj [<-|HC]; [|discriminate]. apply (proj1 (H1 i i)). split; auto. now apply in_indices.
    + intros i j HC. apply (proj2 (H1 i j)). rewrite in_indices. intros [Hi <-]. destruct HC as [[HC _]|[HC|HC]]; auto.
Qed.

(** ** labels *)
Lemma labelsOff_ok dims l : forall fuel i, chain dims i l -> (length l <= fuel)%nat ->
  labelsOff fuel dims l = Some (offL (fun i j => [LRe i j; LIm i j]) l).
Proof.
  induction l as [|y l IH]; intros fuel i Hc Hf; auto.
  destruct (chain_cons _ _ _ _ Hc) as [-> Hc']. cbn [labelsOff length offL] in *.
  rewrite (chain_from fuel _ _ _ Hc') by lia. rewrite (IH fuel (itNext dims i)) by (auto; lia). reflexivity.
Qed.

Lemma keyLabels_ok dims off sub fuel : dims <> [] -> (forall n, In n dims -> (0 < n)%nat) ->
  (fold_right Nat.mul 1%nat dims <= fuel)%nat ->
  keyLabels fuel dims off sub = Some (map LDiag (indices dims) ++
    if off then offL (fun i j => [LRe i j; LIm i j]) (indices dims) ++ map LSub sub else []).
Proof.
  intros Hne Hpos Hf. pose proof (chain_all dims Hne Hpos) as Hc. pose proof (indices_length dims) as HL.
  unfold keyLabels. rewrite (chain_from fuel _ _ _ Hc) by lia. destruct off; [|now rewrite app_nil_r].
  rewrite (labelsOff_ok dims (indices dims) fuel (zeros dims)); auto. lia.
Qed.

Lemma Forall2_says_off (rho : mfun) l :
  Forall2 (says P rho) (offL (fun i j => [LRe i j; LIm i j]) l) (offL (fun i j => [reP P (rho i j); imP P (rho i j)]) l).
Proof.
  induction l as [|i l IH]; cbn [offL]; [constructor|]. apply Forall2_app; auto.
  clear IH. induction l as [|j l IH]; cbn; repeat constructor. exact IH.
Qed.

Lemma labels_says (rho : mfun) dims (off : bool) :
  Forall2 (says P rho) (map LDiag (indices dims) ++ (if off then offL (fun i j => [LRe i j; LIm i j]) (indices dims) else []))
    (deflated rho dims off).
Proof.
  unfold deflated. apply Forall2_app.
  - induction (indices dims); cbn; constructor; cbn; auto.
  - destruct off; [apply Forall2_says_off | constructor].
Qed.

(** ** densityOperatorize *)
Lemma densRow_ok (m : mfun) i js : forall res, ~ In i js -> NoDup js -> (forall j, In j js -> kconj (m i j) = m j i) ->
  forall a b, ((a = i /\ In b js) \/ (b = i /\ In a js) -> densRow js i m res a b = m a b) /\
              (~ ((a = i /\ In b js) \/ (b = i /\ In a js)) -> densRow js i m res a b = res a b).
Proof.
  induction js as [|j js IH]; intros res Hni Hnd Hh a b; cbn [densRow].
  - split; auto. intros [[_ []]|[_ []]].
  - inversion Hnd as [|? ? Hj Hnd']; subst.
    destruct (IH (rset (rset res i j (m i j)) j i (kconj (m i j)))) with (a := a) (b := b) as [H1 H2]; auto.
    { intros H; apply Hni; now right. } { intros; apply Hh; now right. }
    assert (Hij : i <> j) by (intros ->; apply Hni; now left).
    split.
    + intros HC.
      destruct (in_dec (list_eq_dec Nat.eq_dec) b js) as [Hb|Hb], (in_dec (list_eq_dec Nat.eq_dec) a js) as [Ha|Ha],
        (list_eq_dec Nat.eq_dec a i) as [Ea|Ea], (list_eq_dec Nat.eq_dec b i) as [Eb|Eb];
        try (rewrite H1 by tauto; reflexivity);
        (rewrite H2 by tauto; rewrite !rset_eq;
         destruct HC as [[X [Y|Y]]|[X [Y|Y]]]; try contradiction; subst;
         rewrite ?listnat_eqb_refl; cbn [andb];
         try (rewrite (proj2 (listnat_eqb_neq _ _)) by congruence; cbn [andb]); try congruence;
         try reflexivity; try (apply Hh; now left)).
    + intros HC. rewrite H2 by (intros [[X Y]|[X Y]]; apply HC; [left|right]; split; auto; now right).
      rewrite !rset_eq.
      destruct (listnat_eqb_spec a j) as [Ea|Ea], (listnat_eqb_spec b i) as [Eb|Eb],
        (listnat_eqb_spec a i) as [Ec|Ec], (listnat_eqb_spec b j) as [Ed|Ed]; cbn [andb]; auto; exfalso; apply HC;
        first [left; split; [exact Ec | left; now symmetry] | right; split; [exact Eb | left; now symmetry]].
Qed.

Lemma densLoop_ok (m : mfun) dims l : forall fuel i res, chain dims i l -> NoDup l -> (length l <= fuel)%nat ->
  (forall a b, In a l -> In b l -> kconj (m a b) = m b a) ->
  exists res', densLoop P fuel dims l m res = Some res' /\
    forall a b, (In a l /\ In b l -> res' a b = m a b) /\ (~ (In a l /\ In b l) -> res' a b = res a b).
Proof.
  induction l as [|y l IH]; intros fuel i res Hc Hnd Hf Hh.
  - exists res. split; auto. intros a b; split; auto. intros [[] _].
  - destruct (chain_cons _ _ _ _ Hc) as [-> Hc']. inversion Hnd as [|? ? Hni Hnd']; subst. cbn [length] in Hf.
    cbn [densLoop]. rewrite (chain_from fuel _ _ _ Hc') by lia.
    assert (Er : cplx P (reP P (m i i)) (t0 P) = m i i).
    { rewrite <- (imP_real P (m i i)) by (apply Hh; now left). apply cplx_parts. }
    rewrite Er.
    set (res1 := densRow l i m (rset res i i (m i i))).
    assert (H1 := densRow_ok m i l (rset res i i (m i i)) Hni Hnd' (fun j Hj => Hh i j (or_introl eq_refl) (or_intror Hj))).
    fold res1 in H1.
    destruct (IH fuel (itNext dims i) res1) as [res' [E' H']]; auto; [lia| |].
    { intros a b Ha Hb. apply Hh; now right. }
    exists res'. split; [exact E'|]. intros a b. destruct (H' a b) as [G1 G2]. destruct (H1 a b) as [G3 G4]. split.
    + intros [Ha Hb].
      destruct (in_dec (list_eq_dec Nat.eq_dec) a l) as [Ia|Ia], (in_dec (list_eq_dec Nat.eq_dec) b l) as [Ib|Ib].
      * apply G1. auto.
      * rewrite G2 by tauto. apply G3. destruct Hb as [<-|Hb]; [|contradiction]. auto.
      * rewrite G2 by tauto. apply G3. destruct Ha as [<-|Ha]; [|contradiction]. auto.
      * destruct Ha as [<-|Ha], Hb as [<-|Hb]; try contradiction.
        rewrite G2 by tauto. rewrite G4 by tauto. rewrite rset_eq, listnat_eqb_refl. reflexivity.
    + intros HC. rewrite G2 by (intros [Ha Hb]; apply HC; split; now right).
      rewrite G4 by (intros [[-> Hb]|[-> Ha]]; apply HC; split; (now left) || (now right)).
      rewrite rset_eq. destruct (listnat_eqb_spec a i), (listnat_eqb_spec b i); cbn [andb]; auto.
      subst. exfalso. apply HC. split; now left.
Qed.

Lemma densityOperatorize_ok (m : mfun) dims fuel : dims <> [] -> (forall n, In n dims -> (0 < n)%nat) ->
  (fold_right Nat.mul 1%nat dims <= fuel)%nat -> hermitian dims m ->
  exists res, densityOperatorize P fuel dims m = Some res /\ mmeq dims res m.
Proof.
  intros Hne Hpos Hf Hh. pose proof (chain_all dims Hne Hpos) as Hc. pose proof (indices_length dims) as HL.
  unfold densityOperatorize. rewrite (chain_from fuel _ _ _ Hc) by lia.
  destruct (densLoop_ok m dims (indices dims) fuel (zeros dims) (fun _ _ => 0)) as [res [E H]]; auto.
  - apply indices_NoDup.
  - lia.
  - intros a b Ha Hb. apply in_indices in Ha, Hb. apply (Hh b a); auto.
  - exists res. split; auto. intros i j Hi Hj. apply (proj1 (H i j)). rewrite !in_indices. auto.
Qed.
End D.
