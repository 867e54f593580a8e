From Coq Require Import List Arith Lia Sorting.Sorted PeanoNat.
From Verif Require Import MultiIndexModel MultiIndexSpec.
Import ListNotations.

Lemma idx_eqb_eq a b : idx_eqb a b = true <-> a = b.
Proof.
  revert b; induction a as [|x a IH]; intros [|y b]; cbn; split; try easy.
  - rewrite Bool.andb_true_iff, Nat.eqb_eq, IH. intros [-> ->]; reflexivity.
  - intros E; inversion E; subst. now rewrite Bool.andb_true_iff, Nat.eqb_eq, IH.
Qed.

(** Reversed representation: validity (lower digits in range, top digit only bounded below) and value. *)
Inductive vld : list nat -> list nat -> list nat -> Prop :=
| vld1 l u i : l <= i -> vld [l] [u] [i]
| vldS l u i lb ub idx : l <= i -> i <= u -> vld lb ub idx -> vld (l :: lb) (u :: ub) (i :: idx).

Fixpoint val (lb ub idx : list nat) : nat :=
  match lb, ub, idx with
  | l :: lb', u :: ub', i :: idx' => (i - l) + (u + 1 - l) * val lb' ub' idx'
  | _, _, _ => 0
  end.

Lemma vld_nonnil lb ub idx : vld lb ub idx -> idx <> [] /\ lb <> [] /\ ub <> [].
Proof. induction 1; repeat split; congruence. Qed.

Lemma doIt_step lb ub idx : vld lb ub idx -> Forall2 le lb ub ->
  vld lb ub (doIt lb ub idx) /\ val lb ub (doIt lb ub idx) = S (val lb ub idx).
Proof.
  induction 1 as [l u i H|l u i lb ub idx H1 H2 Hv IH]; intros Hb; cbn [val doIt].
  - split; [constructor; lia | nia].
  - inversion Hb as [|? ? ? ? Hlu Hb']; subst.
    destruct (vld_nonnil _ _ _ Hv) as [Hn _].
    destruct idx as [|j idx]; [congruence|].
    destruct (IH Hb') as [IHv IHval].
    destruct (Nat.eqb_spec i u) as [->|Hne].
    + split; [constructor; auto|]. cbn [val]. rewrite IHval. nia.
    + split; [constructor; auto; lia|]. cbn [val]. nia.
Qed.

Lemma val_inj lb ub x y : vld lb ub x -> vld lb ub y -> val lb ub x = val lb ub y -> x = y.
Proof.
  intros Hx; revert y; induction Hx as [l u i H|l u i lb ub idx H1 H2 Hv IH]; intros y Hy E.
  - inversion Hy as [? ? j Hj|? ? ? ? ? ? ? ? Hbad]; subst.
    + cbn in E. f_equal. nia.
    + inversion Hbad.
  - inversion Hy as [? ? j Hj Hnil|? ? j ? ? idy Hj1 Hj2 Hvy]; subst.
    + inversion Hv.
    + cbn in E.
      assert (Hd : i - l < u + 1 - l) by lia. assert (Hd' : j - l < u + 1 - l) by lia.
      assert (val lb ub idx = val lb ub idy) by nia.
      assert (i = j) by nia. subst. f_equal. auto.
Qed.

(** Order: value order is lexicographic order on the un-reversed lists. *)
Lemma lex_app_r a b c : length a = length b -> lex_lt a b -> forall d, length c = length d -> lex_lt (a ++ c) (b ++ d).
Proof.
  intros Hl H; induction H as [x y a b Hxy Hab|x a b H IH]; intros d Hd; cbn.
  - apply lex_here; auto. rewrite !app_length. congruence.
  - apply lex_next. apply IH; auto.
Qed.

Lemma lex_app_l c a b : lex_lt a b -> lex_lt (c ++ a) (c ++ b).
Proof. induction c as [|x c IH]; cbn; auto. intros H. apply lex_next; auto. Qed.

Lemma vld_length lb ub x : vld lb ub x -> length x = length lb.
Proof. induction 1; cbn; auto. Qed.

Lemma val_lex lb ub x y : vld lb ub x -> vld lb ub y -> val lb ub x < val lb ub y -> lex_lt (rev x) (rev y).
Proof.
  intros Hx; revert y; induction Hx as [l u i H|l u i lb ub idx H1 H2 Hv IH]; intros y Hy E.
  - inversion Hy as [? ? j Hj|? ? ? ? ? ? ? ? Hbad]; subst.
    + cbn in E |- *. apply lex_here; auto. nia.
    + inversion Hbad.
  - inversion Hy as [? ? j Hj Hnil|? ? j ? ? idy Hj1 Hj2 Hvy]; subst.
    + inversion Hv.
    + cbn in E |- *.
      assert (HL : length (rev idx) = length (rev idy)).
      { rewrite !rev_length, (vld_length _ _ _ Hv), (vld_length _ _ _ Hvy). reflexivity. }
      destruct (Nat.lt_trichotomy (val lb ub idx) (val lb ub idy)) as [Hlt|[Heq|Hgt]].
      * apply lex_app_r; auto.
      * rewrite (val_inj _ _ _ _ Hv Hvy Heq). apply lex_app_l. apply lex_here; auto. nia.
      * exfalso. nia.
Qed.

(** In-range indices *)
Lemma between_vld lb ub x : lb <> [] -> between lb ub x -> vld lb ub x.
Proof.
  intros Hn [H1 H2]. revert ub H2. induction H1 as [|l i lb idx Hli H1 IH]; intros ub H2; [congruence|].
  inversion H2 as [|? u ? ub' Hiu H2']; subst.
  destruct lb as [|l' lb].
  - inversion H1; subst. inversion H2'; subst. constructor; auto.
  - constructor; auto. apply IH; auto. congruence.
Qed.

Lemma val_lt_between lb ub x : Forall2 le lb ub -> vld lb ub x -> val lb ub x < box_size lb ub -> between lb ub x.
Proof.
  intros Hb Hv; revert Hb; induction Hv as [l u i H|l u i lb ub idx H1 H2 Hv IH]; intros Hb Hlt.
  - cbn in Hlt. inversion Hb; subst. split; repeat constructor; nia.
  - inversion Hb as [|? ? ? ? Hlu Hb']; subst. cbn in Hlt.
    destruct (IH Hb') as [B1 B2]; [nia|]. split; constructor; auto.
Qed.

Lemma between_val_lt lb ub x : lb <> [] -> between lb ub x -> val lb ub x < box_size lb ub.
Proof.
  intros Hn [H1 H2]. clear Hn. revert ub H2. induction H1 as [|l i lb idx Hli H1 IH]; intros ub H2.
  - inversion H2; subst. cbn. lia.
  - inversion H2 as [|? u ? ub' Hiu H2']; subst. cbn. specialize (IH _ H2').
    assert (i - l < u + 1 - l) by lia. nia.
Qed.

Lemma val_lb lb ub : length lb = length ub -> val lb ub lb = 0.
Proof.
  revert ub; induction lb as [|l lb IH]; intros [|u ub] H; cbn in *; try easy.
  rewrite IH by lia. lia.
Qed.

Lemma val_ub lb ub : Forall2 le lb ub -> S (val lb ub ub) = box_size lb ub.
Proof.
  induction 1 as [|l u lb ub H Hb IH]; cbn; [reflexivity|]. nia.
Qed.

Lemma box_size_app a b c d : length a = length c -> box_size (a ++ b) (c ++ d) = box_size a c * box_size b d.
Proof.
  revert c; induction a as [|x a IH]; intros [|y c] H; cbn in *; try easy; try lia.
  rewrite IH by lia. lia.
Qed.

Lemma Forall2_rev' {A B} (P : A -> B -> Prop) l1 l2 : Forall2 P l1 l2 -> Forall2 P (rev l1) (rev l2).
Proof. induction 1; cbn; [constructor|]. apply Forall2_app; auto. Qed.

Lemma box_size_rev lb ub : length lb = length ub -> box_size (rev lb) (rev ub) = box_size lb ub.
Proof.
  revert ub; induction lb as [|l lb IH]; intros [|u ub] H; cbn in *; try easy.
  rewrite box_size_app by (rewrite !rev_length; lia).
  rewrite IH by lia. cbn. lia.
Qed.

Lemma between_rev lb ub x : between lb ub x <-> between (rev lb) (rev ub) (rev x).
Proof.
  split; intros [H1 H2].
  - split; apply Forall2_rev'; auto.
  - apply Forall2_rev' in H1, H2. rewrite !rev_involutive in *. split; auto.
Qed.

Lemma Forall2_len {A B} (P : A -> B -> Prop) l1 l2 : Forall2 P l1 l2 -> length l1 = length l2.
Proof. induction 1; cbn; congruence. Qed.

Section Loop.
Variables lb ub : list nat.
Hypothesis Hne : lb <> [].
Hypothesis Hb : Forall2 le lb ub.

Let lr := rev lb.
Let ur := rev ub.

Lemma len_lu : length lb = length ub.
Proof. exact (Forall2_len _ _ _ Hb). Qed.

Lemma lr_ne : lr <> [].
Proof. unfold lr. intros E. apply Hne. rewrite <- (rev_involutive lb), E. reflexivity. Qed.

Lemma Hbr : Forall2 le lr ur.
Proof. apply Forall2_rev'; auto. Qed.

Definition V (x : list nat) := vld lr ur (rev x).
Definition w (x : list nat) := val lr ur (rev x).

Lemma V_lb : V lb.
Proof.
  apply between_vld; [apply lr_ne|]. split; [|apply Hbr].
  unfold lr. clear. induction (rev lb); constructor; auto.
Qed.

Lemma V_ub : V ub.
Proof.
  apply between_vld; [apply lr_ne|]. split; [apply Hbr|].
  unfold ur. clear. induction (rev ub); constructor; auto.
Qed.

Lemma w_lb : w lb = 0.
Proof. unfold w. apply val_lb. unfold lr, ur. rewrite !rev_length. apply len_lu. Qed.

Lemma incr_step x : V x -> V (mii_incr lb ub x) /\ w (mii_incr lb ub x) = S (w x).
Proof.
  intros H. unfold V, w, mii_incr. rewrite rev_involutive. apply doIt_step; auto. apply Hbr.
Qed.

Lemma w_end : V (mii_end lb ub) /\ w (mii_end lb ub) = box_size lb ub.
Proof.
  destruct (incr_step ub V_ub) as [H1 H2]. split; auto.
  unfold mii_end. rewrite H2. unfold w. fold ur.
  rewrite (val_ub lr ur Hbr). apply box_size_rev, len_lu.
Qed.

Lemma w_inj x y : V x -> V y -> w x = w y -> x = y.
Proof.
  intros Hx Hy E. rewrite <- (rev_involutive x), <- (rev_involutive y). f_equal.
  eapply val_inj; eauto.
Qed.

Lemma loop_ok n : forall x fuel, V x -> w x + n = box_size lb ub -> n <= fuel ->
  exists l, mii_loop fuel lb ub x = Some l /\ length l = n
    /\ (forall y, In y l -> V y /\ w x <= w y < box_size lb ub)
    /\ (forall v, w x <= v < box_size lb ub -> exists y, In y l /\ w y = v)
    /\ StronglySorted lex_lt l /\ NoDup l.
Proof.
  induction n as [|n IH]; intros x fuel Hx Hw Hf.
  - assert (x = mii_end lb ub) as ->.
    { destruct w_end as [H1 H2]. apply w_inj; auto. lia. }
    exists [].
    assert (E : idx_eqb (mii_end lb ub) (mii_end lb ub) = true) by (now apply idx_eqb_eq).
    destruct fuel; cbn [mii_loop]; rewrite E;
      (split; [reflexivity|]; split; [reflexivity|]; split; [easy|]; split; [intros v Hv; lia|]; split; constructor).
  - destruct fuel as [|fuel]; [lia|].
    assert (Hneq : idx_eqb x (mii_end lb ub) = false).
    { destruct (idx_eqb x (mii_end lb ub)) eqn:E; auto. apply idx_eqb_eq in E. subst.
      destruct w_end as [_ H2]. lia. }
    destruct (incr_step x Hx) as [Hx' Hw'].
    destruct (IH (mii_incr lb ub x) fuel Hx') as [l (El & Hlen & H1 & H2 & H3 & H4)]; [lia|lia|].
    exists (x :: l). cbn [mii_loop]. rewrite Hneq, El.
    split; [reflexivity|]. split; [cbn; lia|]. split; [|split; [|split]].
    + intros y [<-|Hy]; [split; auto; lia|]. destruct (H1 y Hy). split; auto. lia.
    + intros v Hv. destruct (Nat.eq_dec v (w x)) as [->|Hvne].
      * exists x; cbn; auto.
      * destruct (H2 v) as [y [Hy1 Hy2]]; [lia|]. exists y; cbn; auto.
    + constructor; auto. apply Forall_forall. intros y Hy. destruct (H1 y Hy) as [Vy Wy].
      rewrite <- (rev_involutive x), <- (rev_involutive y).
      apply (val_lex lr ur); auto. unfold w in *. lia.
    + constructor; auto. intros Hin. destruct (H1 x Hin). lia.
Qed.

Lemma visit_ok fuel : box_size lb ub <= fuel ->
  exists l, mii_visit fuel lb ub = Some l
    /\ (forall y, In y l <-> between lb ub y)
    /\ NoDup l /\ StronglySorted lex_lt l.
Proof.
  intros Hf. destruct (loop_ok (box_size lb ub) lb fuel V_lb) as [l (El & Hlen & H1 & H2 & H3 & H4)]; auto.
  { rewrite w_lb; lia. }
  exists l. split; [exact El|]. split; [|split; auto]. intros y; split.
  - intros Hy. destruct (H1 y Hy) as [Vy Wy].
    apply (proj2 (between_rev lb ub y)). apply val_lt_between; auto; [apply Hbr|].
    rewrite box_size_rev by apply len_lu. unfold w, lr, ur in Wy. lia.
  - intros Hy.
    assert (Hy' : between lr ur (rev y)) by exact (proj1 (between_rev lb ub y) Hy).
    assert (Vy : V y) by (apply between_vld; auto; apply lr_ne).
    assert (Wy : w y < box_size lb ub).
    { unfold w. rewrite <- (box_size_rev lb ub) by apply len_lu. apply between_val_lt; auto. apply lr_ne. }
    destruct (H2 (w y)) as [z [Hz1 Hz2]]; [rewrite w_lb; lia|].
    rewrite <- (w_inj z y); auto. apply (H1 z Hz1).
Qed.
End Loop.

(** Uniqueness of a strictly lexicographically sorted enumeration is not needed; a computed example: *)
Example visit_example :
  mii_visit 20 [0;1;0] [1;2;2] =
  Some [[0;1;0];[0;1;1];[0;1;2];[0;2;0];[0;2;1];[0;2;2];[1;1;0];[1;1;1];[1;1;2];[1;2;0];[1;2;1];[1;2;2]].
Proof. vm_compute. reflexivity. Qed.
