(** Lists of positions. *)
From Coq Require Import List Arith Lia Bool Sorted Permutation.
From Verif Require Import Star Arr CReal SliceSpec SliceProofs EmbedProofs FourierModel PyModel PySpec.
Import ListNotations.
Local Open Scope nat_scope.

Lemma member_In p l : member p l = true <-> In p l.
Proof.
  unfold member. rewrite existsb_exists. split; [intros (x & H & E); apply Nat.eqb_eq in E; now subst|]. intros H. exists p. split; auto. apply Nat.eqb_refl.
Qed.
Lemma member_nIn p l : member p l = false <-> ~ In p l.
Proof. rewrite <- member_In. destruct (member p l); split; intros; congruence. Qed.

Lemma sorted_unique : forall l l', StronglySorted lt l -> StronglySorted lt l' -> (forall x, In x l <-> In x l') -> l = l'.
Proof.
  induction l as [|a l IH]; intros [|b l'] S1 S2 E; auto.
  - destruct (proj2 (E b)); left; auto.
  - destruct (proj1 (E a)); left; auto.
  - inversion S1 as [|? ? S1' F1]; subst. inversion S2 as [|? ? S2' F2]; subst. rewrite Forall_forall in F1, F2.
    assert (a = b).
    { destruct (proj1 (E a) (or_introl eq_refl)) as [->|H1]; auto. destruct (proj2 (E b) (or_introl eq_refl)) as [->|H2]; auto.
      apply F2 in H1. apply F1 in H2. lia. }
    subst b. f_equal. apply IH; auto. intros x. split; intros H.
    + destruct (proj1 (E x) (or_intror H)) as [<-|]; auto. apply F1 in H. lia.
    + destruct (proj2 (E x) (or_intror H)) as [<-|]; auto. apply F2 in H. lia.
Qed.
Lemma sorted_seq a n : StronglySorted lt (seq a n).
Proof.
  revert a; induction n as [|n IH]; intros a; cbn; constructor; auto. apply Forall_forall. intros x H. apply in_seq in H. lia.
Qed.
Lemma sorted_filter f l : StronglySorted lt l -> StronglySorted lt (filter f l).
Proof.
  induction 1 as [|a l S IH F]; cbn; [constructor|]. destruct (f a); auto. constructor; auto. rewrite Forall_forall in *. intros x H. apply filter_In in H. apply F, H.
Qed.
Lemma sorted_NoDup l : StronglySorted lt l -> NoDup l.
Proof.
  induction 1 as [|a l S IH F]; constructor; auto. intros H. rewrite Forall_forall in F. apply F in H. lia.
Qed.
Lemma insertSorted_In a l x : In x (insertSorted a l) <-> a = x \/ In x l.
Proof.
  induction l as [|b l IH]; cbn; [tauto|]. destruct (a <=? b); cbn; rewrite ?IH; tauto.
Qed.
Lemma insertSorted_sorted a l : ~ In a l -> StronglySorted lt l -> StronglySorted lt (insertSorted a l).
Proof.
  induction l as [|b l IH]; cbn; intros N S; [constructor; [constructor|constructor]|]. inversion S as [|? ? S' F]; subst. rewrite Forall_forall in F.
  destruct (Nat.leb_spec a b) as [L|L].
  - constructor; auto. apply Forall_forall. intros x [<-|H]; [|apply F in H]; destruct (Nat.eq_dec a b); [subst; tauto|lia|subst; tauto|lia].
  - constructor; [apply IH; tauto|]. apply Forall_forall. intros x H. apply insertSorted_In in H. destruct H as [<-|H]; auto.
Qed.
Lemma sort_In l x : In x (fold_right insertSorted [] l) <-> In x l.
Proof. induction l as [|a l IH]; cbn; [tauto|]. rewrite insertSorted_In, IH. tauto. Qed.
Lemma sort_sorted l : NoDup l -> StronglySorted lt (fold_right insertSorted [] l).
Proof. induction 1; cbn; [constructor|]. apply insertSorted_sorted; auto. now rewrite sort_In. Qed.
Lemma sorted_sort l : StronglySorted lt l -> fold_right insertSorted [] l = l.
Proof. intros S. apply sorted_unique; auto; [apply sort_sorted; now apply sorted_NoDup|]. intros x. apply sort_In. Qed.
Lemma sortedReverse_sorted l : StronglySorted lt l -> sortedReverse l = rev l.
Proof. intros S. unfold sortedReverse. now rewrite sorted_sort. Qed.
Lemma sortedReverse_seq n l : NoDup l -> (forall x, In x l -> x < n) -> sortedReverse l = rev (filter (fun p => member p l) (seq 0 n)).
Proof.
  intros N B. unfold sortedReverse. f_equal. apply sorted_unique.
  - now apply sort_sorted.
  - apply sorted_filter, sorted_seq.
  - intros x. rewrite sort_In, filter_In, in_seq, member_In. split; [intros H; split; auto; specialize (B x H); lia | tauto].
Qed.

Lemma unlisted_sorted n l : StronglySorted lt (unlisted n l).
Proof. apply sorted_filter, sorted_seq. Qed.
Lemma unlisted_In n l x : In x (unlisted n l) <-> x < n /\ ~ In x l.
Proof. unfold unlisted. rewrite filter_In, in_seq, negb_true_iff, member_nIn. intuition lia. Qed.
(** the rest of the rest *)
Lemma unlisted_unlisted n V : increasing V -> (forall v, In v V -> v < n) -> unlisted n (unlisted n V) = V.
Proof.
  intros S B. apply sorted_unique; auto; [apply unlisted_sorted|]. intros x. rewrite !unlisted_In. split; [|intros H; split; auto; tauto].
  intros [H1 H2]. destruct (in_dec Nat.eq_dec x V); auto. tauto.
Qed.
Lemma unlisted_rev n V : unlisted n (rev V) = unlisted n V.
Proof. apply sorted_unique; try apply unlisted_sorted. intros x. rewrite !unlisted_In, <- in_rev. tauto. Qed.
Lemma unlisted_perm n V W : Permutation V W -> unlisted n V = unlisted n W.
Proof.
  intros P. apply sorted_unique; try apply unlisted_sorted. intros x. rewrite !unlisted_In. split; intros [H1 H2]; split; auto; intros H; apply H2.
  - eapply Permutation_in; [symmetry|]; eauto.
  - eapply Permutation_in; eauto.
Qed.
Lemma unlisted_neg n V : unlisted n V = filter (fun o => if in_dec Nat.eq_dec o V then false else true) (seq 0 n).
Proof.
  unfold unlisted. apply filter_ext. intros o. destruct (in_dec Nat.eq_dec o V) as [H|H]; [apply member_In in H | apply member_nIn in H]; now rewrite H.
Qed.

Lemma place_nth l : NoDup l -> forall i, i < length l -> place (nth i l 0) l = i.
Proof.
  induction 1 as [|a l Ni N IH]; intros i Hi; cbn in *; [lia|]. destruct i as [|i]; [now rewrite Nat.eqb_refl|].
  destruct (Nat.eqb_spec (nth i l 0) a) as [E|E]; [exfalso; apply Ni; rewrite <- E; apply nth_In; lia|]. f_equal. apply IH. lia.
Qed.
Lemma place_lt p l : In p l -> place p l < length l.
Proof. induction l as [|a l IH]; cbn; [tauto|]. destruct (Nat.eqb_spec p a); [lia|]. intros [->|H]; [tauto|]. apply IH in H. lia. Qed.
Lemma nth_place p l d : In p l -> nth (place p l) l d = p.
Proof. induction l as [|a l IH]; cbn; [tauto|]. destruct (Nat.eqb_spec p a) as [->|]; auto. intros [->|H]; [tauto|]. auto. Qed.
Lemma map_place l s : NoDup l -> length s = length l -> map (fun p => nth (place p l) s 0) l = s.
Proof.
  intros N L. apply (nth_ext _ _ 0 0); [now rewrite map_length|]. intros i Hi. rewrite map_length in Hi.
  set (h := fun p => nth (place p l) s 0). rewrite (nth_indep _ 0 (h 0)) by now rewrite map_length. rewrite map_nth. unfold h. now rewrite place_nth.
Qed.
Lemma nth_map_seq (f : nat -> nat) n o : o < n -> nth o (map f (seq 0 n)) 0 = f o.
Proof.
  intros H. rewrite (nth_indep _ 0 (f 0)) by (rewrite map_length, seq_length; lia). rewrite map_nth, seq_nth; auto.
Qed.

Lemma increasing_good n V : increasing V -> (forall v, In v V -> v < n) -> good_positions n V.
Proof. intros S B. split; auto. now apply sorted_NoDup. Qed.

(** the index assembled by tensordot is that of the slice *)
Lemma assemble_addr n V d s : increasing V -> (forall v, In v V -> v < n) -> length s = length V -> length d = n - length V ->
  assemble n (rev (unlisted n V)) (rev d) s = addr n V d s.
Proof.
  intros S B Ls Ld. pose proof (increasing_good n V S B) as HV. apply (element_unique n V d s); [|now apply addr_element].
  assert (Nd : NoDup (rev (unlisted n V))) by (apply NoDup_rev; apply sorted_NoDup, unlisted_sorted).
  assert (Lu : length (unlisted n V) = n - length V).
  { pose proof (negated_length n V HV) as H. rewrite negated_spec, <- unlisted_neg in H. lia. }
  split; [unfold assemble; now rewrite map_length, seq_length|]. unfold assemble. split.
  - transitivity (map (fun v => nth (place v V) s 0) V); [|apply map_place; auto; now apply sorted_NoDup].
    apply map_ext_in. intros v Hv. rewrite nth_map_seq by auto. assert (Hm : member v (rev (unlisted n V)) = false).
    { apply member_nIn. rewrite <- in_rev, unlisted_In. tauto. } rewrite Hm. rewrite unlisted_rev, unlisted_unlisted; auto.
  - rewrite <- unlisted_neg. transitivity (rev (map (fun p => nth (place p (rev (unlisted n V))) (rev d) 0) (rev (unlisted n V)))).
    2:{ rewrite map_place, rev_involutive; auto. now rewrite !rev_length, Lu. }
    rewrite <- map_rev, rev_involutive. apply map_ext_in. intros o Ho. rewrite nth_map_seq by (apply unlisted_In in Ho; tauto).
    assert (Hm : member o (rev (unlisted n V)) = true) by (apply member_In; rewrite <- in_rev; auto). now rewrite Hm.
Qed.
Lemma unlisted_length n V : good_positions n V -> length (unlisted n V) = n - length V.
Proof. intros HV. pose proof (negated_length n V HV) as H. rewrite negated_spec, <- unlisted_neg in H. lia. Qed.

(** sums over reversed indices *)
Lemma isum_rev (sh : list nat) : forall f : list nat -> CR, isum (rev sh) f = isum sh (fun x => f (rev x)).
Proof.
  induction sh as [|a sh IH]; intros f; [now rewrite !isum_nil|]. cbn [rev]. rewrite isum_app, IH, isum_cons.
  rewrite (isum_ext _ _ (fun x => ksum (fun i => f (rev x ++ [i])) (seq 0 a))).
  2:{ intros x _. rewrite isum_cons. apply ksum_ext. intros i _. now rewrite isum_nil. }
  unfold isum at 1. rewrite ksum_swap. apply ksum_ext. intros i _. reflexivity.
Qed.
