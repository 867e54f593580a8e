(** StateVector.expvalue and diagexpvalue. *)
From Coq Require Import List Arith Reals Lra Lia Bool Sorted Permutation.
From Verif Require Import Star Arr CReal MultiIndexModel SliceModel SliceSpec SliceProofs EmbedProofs FourierModel FourierSpec PyModel PySpec PyLists.
Import ListNotations.
Local Open Scope nat_scope.
Add Ring KPY : (k_ring CR).

Lemma interleave_length r c : length r = length c -> length (interleave r c) = 2 * length r.
Proof. revert c; induction r as [|a r IH]; intros [|b c] L; cbn in *; try lia. rewrite IH; lia. Qed.
Lemma interleave_nth r : forall c i, length r = length c -> nth (2 * i) (interleave r c) 0 = nth i r 0 /\ nth (2 * i + 1) (interleave r c) 0 = nth i c 0.
Proof.
  induction r as [|a r IH]; intros [|b c] i L; cbn [interleave] in *; try (cbn in L; lia).
  - destruct (2 * i), (2 * i + 1), i; auto.
  - destruct i as [|i]; [split; reflexivity|]. replace (2 * S i) with (S (S (2 * i))) by lia. replace (S (S (2 * i)) + 1) with (S (S (2 * i + 1))) by lia.
    cbn [nth]. apply IH. cbn in L. lia.
Qed.
Lemma evenOdd_double m : evenOdd (2 * m) = map (fun i => 2 * i) (seq 0 m) ++ map (fun i => 2 * i + 1) (seq 0 m).
Proof.
  unfold evenOdd. rewrite Nat.mul_comm. rewrite Nat.div_mul by lia. replace ((m * 2 + 1) / 2) with m; auto.
  apply (Nat.div_unique (m * 2 + 1) 2 m 1); lia.
Qed.
Lemma evenOdd_nth m i : i < m -> nth i (evenOdd (2 * m)) 0 = 2 * i /\ nth (m + i) (evenOdd (2 * m)) 0 = 2 * i + 1.
Proof.
  intros H. rewrite evenOdd_double. split.
  - rewrite app_nth1 by (rewrite map_length, seq_length; lia). now rewrite (nth_map_seq (fun i => 2 * i)).
  - rewrite app_nth2 by (rewrite map_length, seq_length; lia). rewrite map_length, seq_length. replace (m + i - m) with i by lia. now rewrite (nth_map_seq (fun i => 2 * i + 1)).
Qed.
Lemma evenOdd_length m : length (evenOdd (2 * m)) = 2 * m.
Proof. rewrite evenOdd_double, app_length, !map_length, seq_length. lia. Qed.
Lemma evenOdd_NoDup m : NoDup (evenOdd (2 * m)).
Proof.
  rewrite evenOdd_double. apply NoDup_app'.
  - apply NoDup_map_inj; [intros; lia | apply seq_NoDup].
  - apply NoDup_map_inj; [intros; lia | apply seq_NoDup].
  - intros x H1 H2. apply in_map_iff in H1, H2. destruct H1 as (i & <- & _), H2 as (j & E & _). lia.
Qed.
Lemma evenOdd_place m i : i < m -> place (2 * i) (evenOdd (2 * m)) = i /\ place (2 * i + 1) (evenOdd (2 * m)) = m + i.
Proof.
  intros H. destruct (evenOdd_nth m i H) as [E1 E2]. rewrite <- E1 at 1. rewrite <- E2. split; apply place_nth; try apply evenOdd_NoDup; rewrite evenOdd_length; lia.
Qed.
Lemma parity p : exists i, p = 2 * i \/ p = 2 * i + 1.
Proof. exists (p / 2). pose proof (Nat.div_mod p 2). pose proof (Nat.mod_upper_bound p 2). lia. Qed.
Lemma transposed_index k k' : length k = length k' ->
  map (fun p => nth (place p (evenOdd (2 * length k))) (k ++ k') 0) (seq 0 (2 * length k)) = interleave k k'.
Proof.
  intros L. apply (nth_ext _ _ 0 0); [rewrite map_length, seq_length, interleave_length; auto|].
  intros p Hp. rewrite map_length, seq_length in Hp. rewrite (nth_map_seq (fun p => nth (place p (evenOdd (2 * length k))) (k ++ k') 0)) by auto.
  destruct (parity p) as (i & [-> | ->]); destruct (interleave_nth k k' i L) as [E1 E2]; rewrite ?E1, ?E2; destruct (evenOdd_place (length k) i) as [P1 P2]; try lia; rewrite ?P1, ?P2.
  - now rewrite app_nth1 by lia.
  - rewrite app_nth2 by lia. f_equal. lia.
Qed.
Lemma transposed_shape D : map (fun p => nth p (interleave D D) 0) (evenOdd (2 * length D)) = D ++ D.
Proof.
  rewrite evenOdd_double, map_app, !map_map. f_equal.
  - apply (nth_ext _ _ 0 0); [now rewrite map_length, seq_length|]. intros i Hi. rewrite map_length, seq_length in Hi.
    rewrite (nth_map_seq (fun i => nth (2 * i) (interleave D D) 0)) by auto. now apply interleave_nth.
  - apply (nth_ext _ _ 0 0); [now rewrite map_length, seq_length|]. intros i Hi. rewrite map_length, seq_length in Hi.
    rewrite (nth_map_seq (fun i => nth (2 * i + 1) (interleave D D) 0)) by auto. now apply interleave_nth.
Qed.

(** the sum of a product with the transposed operator *)
Lemma traced a op D (M : list nat -> list nat -> CR) : shape a = D ++ D -> shape op = interleave D D -> (forall r c, inr D r -> inr D c -> elem op (interleave r c) = M r c) ->
  option_map total (times a (transpose op (evenOdd (ndim a)))) = Some (isum D (fun k => isum D (fun k' => kmul (elem a (k ++ k')) (M k k')))).
Proof.
  intros Sa So Eo. unfold times, transpose, ndim. cbn [shape elem]. rewrite Sa, So, app_length. replace (length D + length D) with (2 * length D) by lia.
  rewrite transposed_shape, listnat_eqb_refl. cbn [option_map]. f_equal. unfold total. cbn [shape elem]. rewrite isum_app.
  apply isum_ext. intros k Hk. apply isum_ext. intros k' Hk'. f_equal. rewrite <- Eo by auto. f_equal.
  pose proof (inr_length _ _ Hk) as L1. pose proof (inr_length _ _ Hk') as L2. rewrite interleave_length by auto. rewrite <- L1. apply transposed_index. congruence.
Qed.

(** expectation values by slices *)
Lemma expectation_slices (M : list nat -> list nat -> CR) V sh psi : good_positions (length sh) V ->
  expectation M V sh psi = isum (shD (length sh) V sh) (fun d => isum (dimensions V sh) (fun s => isum (dimensions V sh) (fun s' =>
    kmul (kconj (psi (addr (length sh) V d s))) (kmul (M s s') (psi (addr (length sh) V d s')))))).
Proof.
  intros HV. unfold expectation. rewrite (isum_split sh V HV). apply isum_ext. intros d Hd. apply isum_ext. intros s Hs.
  pose proof (sD_len sh V HV d Hd) as Ld. pose proof (sV_len sh V s Hs) as Ls.
  destruct (of_addr (length sh) V HV d s Ls Ld) as (E1 & E2 & E3).
  unfold lifted_action. rewrite <- isum_scal_l. apply isum_ext. intros s' Hs'. fold (sOf V (addr (length sh) V d s)). rewrite E2. do 2 f_equal.
  rewrite <- (addr_replace (length sh)); auto; [now rewrite E1|]. apply (sV_len sh V s' Hs').
Qed.

Lemma good_perm n V W : Permutation V W -> good_positions n V -> good_positions n W.
Proof. intros P [H1 H2]. split; [eapply Permutation_NoDup; eauto|]. intros v Hv. apply H2. eapply Permutation_in; [symmetry|]; eauto. Qed.

Lemma square_element sv V k k' : let n := ndim sv in increasing V -> (forall v, In v V -> v < n) -> inr (dimensions V (shape sv)) k -> inr (dimensions V (shape sv)) k' ->
  shape (reducesquare sv (unlisted n V)) = dimensions V (shape sv) ++ dimensions V (shape sv) /\
  elem (reducesquare sv (unlisted n V)) (k ++ k') = isum (shD n V (shape sv)) (fun d => kmul (elem sv (addr n V d k)) (kconj (elem sv (addr n V d k')))).
Proof.
  intros n S B Hk Hk'. assert (HV : good_positions n V) by now apply increasing_good.
  unfold reducesquare. rewrite (sortedReverse_sorted (unlisted n V)) by apply unlisted_sorted. unfold tensordot. cbn [shape elem conjugate].
  replace (ndim (conjugate sv)) with n by reflexivity. fold n. rewrite unlisted_rev, unlisted_unlisted by auto. split; [reflexivity|].
  rewrite map_rev, isum_rev. replace (map (fun p => nth p (shape sv) 0) (unlisted n V)) with (shD n V (shape sv)) by (unfold shD; now rewrite negated_spec, unlisted_neg).
  pose proof (sV_len (shape sv) V k Hk) as L1. pose proof (sV_len (shape sv) V k' Hk') as L2.
  apply isum_ext. intros d Hd. pose proof (sD_len (shape sv) V HV d Hd) as Ld. rewrite <- L1, firstn_app, Nat.sub_diag, firstn_all, firstn_O, app_nil_r, skipn_app, Nat.sub_diag, skipn_all.
  cbn [skipn app]. rewrite !assemble_addr; auto.
Qed.

Lemma expvalue_spec sv op l V M : good_positions (ndim sv) l -> increasing V -> Permutation l V -> represents op V (shape sv) M ->
  expvalue sv op (Some l) = Some (expectation (transposed M) V (shape sv) (elem sv)).
Proof.
  intros Hl S P [R1 R2]. set (n := ndim sv). assert (HV : good_positions n V) by (eapply good_perm; eauto). destruct HV as [HV1 HV2].
  assert (HV : good_positions n V) by (split; auto).
  unfold expvalue, conjugateIndices. replace (forallb (fun i => i <? ndim sv) l) with true.
  2:{ symmetry. apply forallb_forall. intros x Hx. apply Nat.ltb_lt. now apply Hl. }
  cbn [option_map]. fold n. rewrite (unlisted_perm n l V P).
  set (D := dimensions V (shape sv)) in *.
  assert (Sh : shape (reducesquare sv (unlisted n V)) = D ++ D).
  { unfold reducesquare. rewrite (sortedReverse_sorted (unlisted n V)) by apply unlisted_sorted. unfold tensordot. cbn [shape conjugate].
    replace (ndim (conjugate sv)) with n by reflexivity. fold n. now rewrite unlisted_rev, unlisted_unlisted by auto. }
  rewrite (traced _ op D M Sh R1 R2). f_equal. rewrite expectation_slices by exact HV. fold D.
  transitivity (isum D (fun k => isum D (fun k' => isum (shD n V (shape sv)) (fun d => kmul (kconj (elem sv (addr n V d k'))) (kmul (M k k') (elem sv (addr n V d k))))))).
  - apply isum_ext. intros k Hk. apply isum_ext. intros k' Hk'. destruct (square_element sv V k k' S HV2 Hk Hk') as [_ E]. fold n in E. rewrite E, <- isum_scal_r.
    apply isum_ext. intros d _. ring.
  - symmetry. rewrite (isum_ext _ _ (fun d => isum D (fun k => isum D (fun k' => kmul (kconj (elem sv (addr n V d k'))) (kmul (M k k') (elem sv (addr n V d k))))))).
    2:{ intros d _. rewrite isum_swap. reflexivity. }
    rewrite isum_swap. apply isum_ext. intros k _. now rewrite isum_swap.
Qed.

(** the whole system *)
Lemma replace_all n s y : length y = n -> length s = n -> replace_at (seq 0 n) s y = s.
Proof.
  intros Ly Ls. assert (HV : good_positions n (seq 0 n)) by (apply increasing_good; [apply sorted_seq|intros v H; apply in_seq in H; lia]).
  apply (nth_ext _ _ 0 0); [rewrite replace_at_length; congruence|]. intros o Ho. rewrite replace_at_length, Ly in Ho.
  pose proof (replace_coords (seq 0 n) s y (seq_NoDup n 0)) as H.
  assert (E : map (fun v => nth v (replace_at (seq 0 n) s y) 0) (seq 0 n) = s).
  { apply H; [|now rewrite seq_length]. intros v Hv. apply in_seq in Hv. lia. }
  rewrite <- E at 2. now rewrite (nth_map_seq (fun v => nth v (replace_at (seq 0 n) s y) 0)).
Qed.
Lemma map_nth_all (l : list nat) : map (fun v => nth v l 0) (seq 0 (length l)) = l.
Proof. apply (nth_ext _ _ 0 0); [now rewrite map_length, seq_length|]. intros i Hi. rewrite map_length, seq_length in Hi. now rewrite (nth_map_seq (fun v => nth v l 0)). Qed.
Lemma expectation_all M sh psi : expectation M (seq 0 (length sh)) sh psi = isum sh (fun y => isum sh (fun z => kmul (kconj (psi y)) (kmul (M y z) (psi z)))).
Proof.
  unfold expectation. apply isum_ext. intros y Hy. unfold lifted_action. rewrite map_nth_all, <- isum_scal_l. apply isum_ext. intros z Hz.
  pose proof (inr_length _ _ Hy) as Ly. pose proof (inr_length _ _ Hz) as Lz. rewrite replace_all by auto. rewrite <- Ly, map_nth_all. reflexivity.
Qed.
Lemma expvalue_whole sv op M : represents op (seq 0 (ndim sv)) (shape sv) M ->
  expvalue sv op None = Some (expectation (transposed M) (seq 0 (ndim sv)) (shape sv) (elem sv)).
Proof.
  intros [R1 R2]. unfold expvalue. unfold ndim in R1, R2. unfold dimensions in *. rewrite map_nth_all in *.
  rewrite (traced _ op (shape sv) M) by (auto; reflexivity). f_equal. unfold ndim. rewrite expectation_all. rewrite isum_swap.
  apply isum_ext. intros k' Hk'. apply isum_ext. intros k Hk. unfold outer. cbn [elem conjugate]. unfold ndim. pose proof (inr_length _ _ Hk) as L.
  rewrite <- L, firstn_app, Nat.sub_diag, firstn_all, firstn_O, app_nil_r, skipn_app, Nat.sub_diag, skipn_all. cbn [skipn app]. unfold transposed. ring.
Qed.
Lemma expectation_ext M M' V sh psi : good_positions (length sh) V -> (forall r c, inr (dimensions V sh) r -> inr (dimensions V sh) c -> M r c = M' r c) -> expectation M V sh psi = expectation M' V sh psi.
Proof.
  intros HV E. rewrite !expectation_slices by auto. apply isum_ext. intros d _. apply isum_ext. intros s Hs. apply isum_ext. intros s' Hs'. now rewrite E.
Qed.
(** real amplitudes *)
Lemma expectation_real M V sh psi : good_positions (length sh) V -> (forall y, inr sh y -> kconj (psi y) = psi y) -> expectation (transposed M) V sh psi = expectation M V sh psi.
Proof.
  intros HV E. rewrite !expectation_slices by auto. apply isum_ext. intros d Hd. rewrite isum_swap. apply isum_ext. intros s Hs. apply isum_ext. intros s' Hs'.
  unfold transposed. rewrite !E by (apply addr_inr; auto). ring.
Qed.
Lemma increasing_seq n : increasing (seq 0 n) /\ (forall v, In v (seq 0 n) -> v < n).
Proof. split; [apply sorted_seq|]. intros v H. apply in_seq in H. lia. Qed.

Lemma expvalue_right sv op l V M : good_positions (ndim sv) l -> increasing V -> Permutation l V -> represents op V (shape sv) M ->
  (forall r c, inr (dimensions V (shape sv)) r -> inr (dimensions V (shape sv)) c -> M r c = M c r) \/ (forall y, inr (shape sv) y -> kconj (elem sv y) = elem sv y) ->
  expvalue sv op (Some l) = Some (expectation M V (shape sv) (elem sv)).
Proof.
  intros Hl S P R H. rewrite (expvalue_spec sv op l V M) by auto. f_equal. assert (HV : good_positions (ndim sv) V) by (eapply good_perm; eauto).
  destruct H as [H|H]; [apply expectation_ext; auto; intros; symmetry; now apply H | now apply expectation_real].
Qed.
