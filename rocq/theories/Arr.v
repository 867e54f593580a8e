(** Multi-dimensional arrays: multi-indices of a shape, and sums over them.
    Stands for blitz::Array (CPPQEDutils/BlitzArray.h): a shape is the list of extents, an array of
    scalars is a function of the multi-index, meaningful only for multi-indices in range. *)
From Coq Require Import List Arith Lia PeanoNat Bool Permutation.
From Verif Require Import Star.
Import ListNotations.

(** in range *)
Definition inr (shape x : list nat) : Prop := Forall2 lt x shape.

(** all multi-indices of a shape, last index fastest (storage order of a C-style blitz array) *)
Fixpoint indices (shape : list nat) : list (list nat) :=
  match shape with
  | [] => [[]]
  | n :: sh => flat_map (fun i => map (cons i) (indices sh)) (seq 0 n)
  end.

Fixpoint listnat_eqb (a b : list nat) : bool :=
  match a, b with
  | [], [] => true
  | x :: a', y :: b' => Nat.eqb x y && listnat_eqb a' b'
  | _, _ => false
  end.

Lemma listnat_eqb_eq a b : listnat_eqb a b = true <-> a = b.
Proof.
  revert b; induction a as [|x a IH]; intros [|y b]; cbn; split; try easy.
  - rewrite andb_true_iff, Nat.eqb_eq, IH. intros [-> ->]; reflexivity.
  - intros E; inversion E; subst. now rewrite andb_true_iff, Nat.eqb_eq, IH.
Qed.
Lemma listnat_eqb_refl a : listnat_eqb a a = true.
Proof. now apply listnat_eqb_eq. Qed.
Lemma listnat_eqb_neq a b : listnat_eqb a b = false <-> a <> b.
Proof.
  split.
  - intros H E. apply listnat_eqb_eq in E. congruence.
  - intros H. destruct (listnat_eqb a b) eqn:E; auto. apply listnat_eqb_eq in E. contradiction.
Qed.
Lemma listnat_eqb_spec a b : reflect (a = b) (listnat_eqb a b).
Proof. destruct (listnat_eqb a b) eqn:E; constructor; [now apply listnat_eqb_eq | now apply listnat_eqb_neq]. Qed.

Lemma inr_length sh x : inr sh x -> length x = length sh.
Proof. unfold inr. induction 1; cbn; congruence. Qed.

Lemma in_indices sh x : In x (indices sh) <-> inr sh x.
Proof.
  unfold inr. revert x; induction sh as [|n sh IH]; intros x; cbn.
  - split; [intros [<-|[]]; constructor | intros H; inversion H; auto].
  - rewrite in_flat_map. split.
    + intros [i [Hi Hx]]. apply in_map_iff in Hx. destruct Hx as [y [<- Hy]].
      apply in_seq in Hi. constructor; [lia | now apply IH].
    + intros H; inversion H as [|i ? y ? Hi Hy]; subst.
      exists i. split; [apply in_seq; lia|]. apply in_map. now apply IH.
Qed.

Lemma NoDup_map_inj {A B} (f : A -> B) l :
  (forall a b, In a l -> In b l -> f a = f b -> a = b) -> NoDup l -> NoDup (map f l).
Proof.
  induction l as [|a l IH]; cbn; intros Hi Hn; constructor; inversion Hn as [|? ? Hni Hn']; subst.
  - rewrite in_map_iff. intros [b [E Hb]]. assert (b = a) by auto. subst; contradiction.
  - apply IH; auto.
Qed.

Lemma NoDup_app' {A} (l1 l2 : list A) :
  NoDup l1 -> NoDup l2 -> (forall a, In a l1 -> In a l2 -> False) -> NoDup (l1 ++ l2).
Proof.
  induction l1 as [|a l1 IH]; cbn; intros H1 H2 Hd; auto.
  inversion H1; subst. constructor.
  - rewrite in_app_iff. intros [?|?]; [contradiction|]. eapply Hd; eauto.
  - apply IH; auto. intros b Hb1 Hb2. eapply Hd; eauto.
Qed.

Lemma NoDup_flat_map {A B} (f : A -> list B) l :
  NoDup l -> (forall a, In a l -> NoDup (f a)) ->
  (forall a b c, In a l -> In b l -> In c (f a) -> In c (f b) -> a = b) -> NoDup (flat_map f l).
Proof.
  induction l as [|a l IH]; cbn; intros Hn Hf Hd; [constructor|].
  inversion Hn as [|? ? Hni Hn']; subst.
  apply NoDup_app'; auto.
  - apply IH; auto. intros; eapply Hd; eauto.
  - intros c Hc1 Hc2. apply in_flat_map in Hc2. destruct Hc2 as [b [Hb Hc2]].
    assert (a = b) by (eapply Hd; cbn; eauto). subst; contradiction.
Qed.

Lemma indices_NoDup sh : NoDup (indices sh).
Proof.
  induction sh as [|n sh IH]; cbn.
  - constructor; [easy|constructor].
  - apply NoDup_flat_map.
    + apply seq_NoDup.
    + intros i _. apply NoDup_map_inj; auto. intros a b _ _ E; congruence.
    + intros i j c _ _ Hi Hj. apply in_map_iff in Hi, Hj.
      destruct Hi as [y [<- _]], Hj as [z [E _]]. congruence.
Qed.

Lemma indices_length sh : length (indices sh) = fold_right Nat.mul 1 sh.
Proof.
  induction sh as [|n sh IH]; cbn; auto.
  assert (H : forall l, length (flat_map (fun i : nat => map (cons i) (indices sh)) l) = length l * length (indices sh)).
  { induction l as [|a l IHl]; cbn; auto. rewrite app_length, map_length, IHl. reflexivity. }
  rewrite H, seq_length, IH. reflexivity.
Qed.

Lemma inr_app s1 s2 x1 x2 : length x1 = length s1 -> (inr (s1 ++ s2) (x1 ++ x2) <-> inr s1 x1 /\ inr s2 x2).
Proof.
  unfold inr. revert s1; induction x1 as [|a x1 IH]; intros [|n s1] H; cbn in *; try discriminate.
  - split; [intros H2; split; auto; constructor | intros [_ H2]; exact H2].
  - injection H as H. split.
    + intros H2; inversion H2 as [|? ? ? ? Han H3]; subst. apply (IH s1 H) in H3. destruct H3; split; auto.
    + intros [H1 H2]. inversion H1; subst. constructor; auto. apply IH; auto.
Qed.

Section Sums.
Context {S : StarRing}.
Add Ring S_ring : (k_ring S).
Local Open Scope K_scope.

(** sum over all multi-indices of a shape *)
Definition isum (sh : list nat) (f : list nat -> S) : S := ksum f (indices sh).

Lemma isum_ext sh f g : (forall x, inr sh x -> f x = g x) -> isum sh f = isum sh g.
Proof. intros H. apply ksum_ext. intros x Hx. apply H. now apply in_indices. Qed.

Lemma isum_cons n sh f : isum (n :: sh) f = ksum (fun i => isum sh (fun x => f (i :: x))) (seq 0 n).
Proof.
  unfold isum. cbn. rewrite ksum_flat_map. apply ksum_ext. intros i _. now rewrite ksum_map.
Qed.

Lemma isum_nil f : isum [] f = f [].
Proof. unfold isum. cbn. ring. Qed.

Lemma isum_app s1 s2 f : isum (s1 ++ s2) f = isum s1 (fun x => isum s2 (fun y => f (x ++ y))).
Proof.
  revert f; induction s1 as [|n s1 IH]; intros f.
  - cbn [app]. now rewrite isum_nil.
  - cbn [app]. rewrite !isum_cons. apply ksum_ext. intros i _. rewrite IH. reflexivity.
Qed.

Lemma isum_single sh f a : inr sh a -> (forall b, inr sh b -> b <> a -> f b = 0) -> isum sh f = f a.
Proof.
  intros Ha Hz. apply ksum_single.
  - apply indices_NoDup.
  - now apply in_indices.
  - intros b Hb. apply Hz. now apply in_indices.
Qed.

Lemma isum_zero sh f : (forall b, inr sh b -> f b = 0) -> isum sh f = 0.
Proof. intros H. apply ksum_zero. intros b Hb. apply H. now apply in_indices. Qed.

Lemma isum_add sh f g : isum sh (fun x => f x + g x) = isum sh f + isum sh g.
Proof. apply ksum_add. Qed.
Lemma isum_scal_l sh c f : isum sh (fun x => c * f x) = c * isum sh f.
Proof. apply ksum_scal_l. Qed.
Lemma isum_scal_r sh c f : isum sh (fun x => f x * c) = isum sh f * c.
Proof. apply ksum_scal_r. Qed.
Lemma isum_conj sh f : kconj (isum sh f) = isum sh (fun x => kconj (f x)).
Proof. apply ksum_conj. Qed.
Lemma isum_swap sh1 sh2 f : isum sh1 (fun x => isum sh2 (f x)) = isum sh2 (fun y => isum sh1 (fun x => f x y)).
Proof. apply ksum_swap. Qed.
End Sums.
