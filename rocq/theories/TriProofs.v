From Coq Require Import List Arith Lia PeanoNat Bool.
From Verif Require Import Star Arr TriModel TriSpec.
Import ListNotations.

(** ** digits *)
Lemma inr_rep3 r dg : inr (repeat 3 r) dg <-> length dg = r /\ Forall (fun d => d < 3) dg.
Proof.
  unfold inr. revert dg; induction r as [|r IH]; intros [|d dg]; cbn.
  - split; [intros _; split; auto | constructor].
  - split; [intros H; inversion H | intros [H _]; discriminate].
  - split; [intros H; inversion H | intros [H _]; discriminate].
  - split.
    + intros H; inversion H; subst. destruct (proj1 (IH dg)) as [L F]; auto.
    + intros [L F]. inversion F; subst. constructor; auto. apply IH. auto.
Qed.

Lemma pow3_pos r : 0 < 3 ^ r.
Proof. induction r; cbn; lia. Qed.

Lemma code_lt dg : Forall (fun d => d < 3) dg -> code dg < 3 ^ length dg.
Proof.
  induction 1 as [|d dg Hd Hf IH]; cbn [code length]; [cbn; lia|].
  rewrite Nat.pow_succ_r'. pose proof (pow3_pos (length dg)). nia.
Qed.

Lemma code_app d1 d2 : code (d1 ++ d2) = code d1 * 3 ^ length d2 + code d2.
Proof.
  induction d1 as [|d d1 IH]; cbn [code app]; [lia|].
  rewrite IH, app_length, Nat.pow_add_r. ring.
Qed.

(** every index below 3^r is the code of a digit list *)
Lemma code_surj r i : i < 3 ^ r -> exists dg, inr (repeat 3 r) dg /\ code dg = i.
Proof.
  revert i; induction r as [|r IH]; intros i Hi.
  - exists []. cbn in *. split; [constructor|lia].
  - rewrite Nat.pow_succ_r' in Hi. pose proof (pow3_pos r) as Hp.
    destruct (IH (i mod 3 ^ r)) as [dg [H1 H2]]; [apply Nat.mod_upper_bound; lia|].
    exists (i / 3 ^ r :: dg). split.
    + constructor; auto. apply Nat.div_lt_upper_bound; lia.
    + cbn [code]. apply inr_rep3 in H1. destruct H1 as [L _]. rewrite L, H2.
      rewrite (Nat.div_mod i (3 ^ r)) at 3 by lia. lia.
Qed.

Lemma code_inj dg dg' : length dg = length dg' -> Forall (fun d => d < 3) dg -> Forall (fun d => d < 3) dg' ->
  code dg = code dg' -> dg = dg'.
Proof.
  revert dg'; induction dg as [|d dg IH]; intros [|d' dg'] L F F' E; cbn in *; try easy.
  inversion F as [|? ? Hd Fd]; inversion F' as [|? ? Hd' Fd']; subst. injection L as L.
  pose proof (code_lt dg Fd) as H1. pose proof (code_lt dg' Fd') as H2. rewrite L in *.
  assert (d = d') by nia. subst. f_equal. apply IH; auto. lia.
Qed.

Definition flipd (d : nat) : nat := match d with 1 => 2 | 2 => 1 | _ => d end.
Lemma flipd_invol d : flipd (flipd d) = d.
Proof. destruct d as [|[|[|d]]]; reflexivity. Qed.
Lemma flipd_lt d : d < 3 -> flipd d < 3.
Proof. destruct d as [|[|[|d]]]; cbn; lia. Qed.
Lemma flip_invol dg : map flipd (map flipd dg) = dg.
Proof. rewrite map_map. rewrite <- (map_id dg) at 2. apply map_ext. apply flipd_invol. Qed.
Lemma flip_F dg : Forall (fun d => d < 3) dg -> Forall (fun d => d < 3) (map flipd dg).
Proof. induction 1; cbn; constructor; auto using flipd_lt. Qed.

Lemma transposeIndex_code dg : Forall (fun d => d < 3) dg ->
  transposeIndex (length dg) (code dg) = code (map flipd dg).
Proof.
  induction 1 as [|d dg Hd Hf IH]; cbn [code length transposeIndex map]; auto.
  pose proof (code_lt dg Hf) as Hlt. pose proof (pow3_pos (length dg)) as Hp.
  assert (Eq : (d * 3 ^ length dg + code dg) / 3 ^ length dg = d).
  { rewrite Nat.div_add_l by lia. rewrite Nat.div_small by lia. lia. }
  rewrite Eq. replace (d * 3 ^ length dg + code dg - d * 3 ^ length dg) with (code dg) by lia.
  rewrite IH, map_length. f_equal. f_equal.
  destruct d as [|[|[|d]]]; try reflexivity; lia.
Qed.

Section P.
Context {K : StarRing} {T : Type}.
Add Ring KR : (k_ring K).
Implicit Type t : tri K T.
Local Open Scope K_scope.

Lemma isum_flip r (f : list nat -> K) :
  isum (repeat 3%nat r) f = isum (repeat 3%nat r) (fun dg => f (map flipd dg)).
Proof.
  revert f; induction r as [|r IH]; intros f; cbn [repeat].
  - now rewrite !isum_nil.
  - rewrite !isum_cons. cbn [seq ksum map flipd].
    rewrite (IH (fun x => f (0%nat :: x))), (IH (fun x => f (1%nat :: x))), (IH (fun x => f (2%nat :: x))).
    cbn. ring.
Qed.

(** ** apply *)
Definition fd (d : nat) : nat := match d with 1 => 2 | 2 => 1 | _ => 0 end.
Definition fa (d : nat) : nat := match d with 1 => 1 | 2 => 1 | _ => 0 end.
Definition fp (d : nat) : nat := match d with 1 => 1 | 2 => 2 | _ => 0 end.

Definition leafval t (dg : list nat) (psi : list nat -> K) (y : list nat) : K :=
  if nonempty (diags t (code dg))
  then if inRanges (dims t) (diffs t) (map fd dg) y
       then av (diags t (code dg)) (moveIdx (dims t) (diffs t) (map fd dg) (map fa dg) y)
            * psi (moveIdx (dims t) (diffs t) (map fd dg) (map fp dg) y)
       else 0
  else 0.

Lemma doApply_sum t psi : forall rem pre dpsidt y,
  doApply t rem (code pre * 3 ^ rem)%nat (map fd pre) (map fa pre) (map fp pre) psi dpsidt y
  = dpsidt y + isum (repeat 3%nat rem) (fun dg => leafval t (pre ++ dg) psi y).
Proof.
  induction rem as [|rem IH]; intros pre dpsidt y; cbn [doApply repeat].
  - rewrite isum_nil, app_nil_r. unfold applyLeaf, leafval. rewrite Nat.pow_0_r, Nat.mul_1_r.
    destruct (nonempty (diags t (code pre))); [|ring].
    destruct (inRanges _ _ _ _); [reflexivity|ring].
  - rewrite isum_cons. cbn [seq ksum].
    assert (E : forall d, (code pre * 3 ^ S rem + d * 3 ^ rem)%nat = (code (pre ++ [d]) * 3 ^ rem)%nat).
    { intros d. rewrite code_app. cbn [length code]. rewrite !Nat.pow_succ_r', !Nat.pow_0_r. ring. }
    rewrite !E.
    replace (map fd pre ++ [1%nat]) with (map fd (pre ++ [2%nat])) by now rewrite map_app.
    replace (map fa pre ++ [1%nat]) with (map fa (pre ++ [2%nat])) by now rewrite map_app.
    replace (map fp pre ++ [2%nat]) with (map fp (pre ++ [2%nat])) by now rewrite map_app.
    rewrite IH.
    replace (map fd pre ++ [2%nat]) with (map fd (pre ++ [1%nat])) by now rewrite map_app.
    replace (map fa (pre ++ [2%nat])) with (map fa (pre ++ [1%nat])) by now rewrite !map_app.
    replace (map fp pre ++ [1%nat]) with (map fp (pre ++ [1%nat])) by now rewrite map_app.
    rewrite IH.
    replace (map fd pre ++ [0%nat]) with (map fd (pre ++ [0%nat])) by now rewrite map_app.
    replace (map fa pre ++ [0%nat]) with (map fa (pre ++ [0%nat])) by now rewrite map_app.
    replace (map fp pre ++ [0%nat]) with (map fp (pre ++ [0%nat])) by now rewrite map_app.
    rewrite IH.
    rewrite (isum_ext (repeat 3%nat rem) (fun x => leafval t (pre ++ 0%nat :: x) psi y)
                      (fun dg => leafval t ((pre ++ [0%nat]) ++ dg) psi y)) by (intros; now rewrite <- app_assoc).
    rewrite (isum_ext (repeat 3%nat rem) (fun x => leafval t (pre ++ 1%nat :: x) psi y)
                      (fun dg => leafval t ((pre ++ [1%nat]) ++ dg) psi y)) by (intros; now rewrite <- app_assoc).
    rewrite (isum_ext (repeat 3%nat rem) (fun x => leafval t (pre ++ 2%nat :: x) psi y)
                      (fun dg => leafval t ((pre ++ [2%nat]) ++ dg) psi y)) by (intros; now rewrite <- app_assoc).
    ring.
Qed.

Lemma inRanges_inr ds ks v y : inRanges ds ks v y = true -> inr ds y.
Proof.
  unfold inr. revert ks v y; induction ds as [|d ds IH]; intros [|k ks] [|r v] [|i y]; cbn; try easy.
  rewrite !andb_true_iff. intros [[H1 H2] H3]. constructor; [|eapply IH; eauto].
  apply Nat.ltb_lt in H2. destruct r as [|[|r]]; cbn in *; lia.
Qed.

Lemma place_in ds ks dg y : length ks = length ds -> length dg = length ds -> Forall (fun d => (d < 3)%nat) dg ->
  inRanges ds ks (map fd dg) y = true ->
  inr ds (moveIdx ds ks (map fd dg) (map fp dg) y) /\
  place ks dg y (moveIdx ds ks (map fd dg) (map fp dg) y) = Some (moveIdx ds ks (map fd dg) (map fa dg) y) /\
  forall x n, place ks dg y x = Some n -> x = moveIdx ds ks (map fd dg) (map fp dg) y.
Proof.
  unfold inr. revert ks dg y; induction ds as [|d ds IH]; intros [|k ks] [|g dg] [|i y] L1 L2 F H; cbn in *; try easy.
  - repeat split; auto. intros x n. destruct x; congruence.
  - inversion F as [|? ? Hg Fg]; subst. rewrite !andb_true_iff in H. destruct H as [[H1 H2] H3].
    apply Nat.leb_le in H1. apply Nat.ltb_lt in H2.
    destruct (IH ks dg y) as (A1 & A2 & A3); auto.
    rewrite A2. repeat split.
    + constructor; auto. destruct g as [|[|[|g]]]; cbn in *; lia.
    + destruct g as [|[|[|g]]]; cbn in *; try lia.
      * rewrite Nat.sub_0_r, Nat.add_0_r, Nat.eqb_refl. reflexivity.
      * replace (i =? i - k + 0 + k) with true by (symmetry; apply Nat.eqb_eq; lia). reflexivity.
      * rewrite Nat.sub_0_r, Nat.eqb_refl. f_equal. f_equal. lia.
    + intros x n. destruct x as [|j x]; [easy|].
      destruct (place ks dg y x) as [n'|] eqn:E; [|easy]. apply A3 in E. subst x.
      destruct g as [|[|[|g]]]; cbn in *; try lia.
      * destruct (Nat.eqb_spec i j); [|easy]. intros _. f_equal. lia.
      * destruct (Nat.eqb_spec i (j + k)); [|easy]. intros _. f_equal. lia.
      * destruct (Nat.eqb_spec j (i + k)); [|easy]. intros _. f_equal. lia.
Qed.

Lemma place_out ds ks dg y x n : length ks = length ds -> length dg = length ds -> Forall (fun d => (d < 3)%nat) dg ->
  inr ds y -> inr ds x -> place ks dg y x = Some n -> inRanges ds ks (map fd dg) y = true.
Proof.
  unfold inr. revert ks dg y x n; induction ds as [|d ds IH]; intros [|k ks] [|g dg] y x n L1 L2 F Hy Hx H;
    inversion Hy as [|i ? y' ? Hi Hy']; inversion Hx as [|j ? x' ? Hj Hx']; subst; cbn in *; try easy.
  inversion F as [|? ? Hg Fg]; subst.
  destruct (place ks dg y' x') as [n'|] eqn:E; [|easy].
  rewrite (IH ks dg y' x' n') by (auto; lia). rewrite andb_true_r.
  apply andb_true_iff.
  destruct g as [|[|[|g]]]; cbn [fd range fst snd] in *; try lia;
    (split; [apply Nat.leb_le | match goal with |- _ = true => change ((i <? d) = true) || change ((i <? d - k) = true) end; apply Nat.ltb_lt]); try lia.
  all: destruct (Nat.eqb_spec i (j + k)), (Nat.eqb_spec j (i + k)); try easy; lia.
Qed.

Lemma leaf_matrix t dg psi y : length (diffs t) = rankOf t -> inr (repeat 3%nat (rankOf t)) dg ->
  inr (dims t) y ->
  leafval t dg psi y =
  isum (dims t) (fun x => (match place (diffs t) dg y x with
                           | Some n => if nonempty (diags t (code dg)) then av (diags t (code dg)) n else 0
                           | None => 0 end) * psi x).
Proof.
  intros L Hdg Hy. apply inr_rep3 in Hdg. destruct Hdg as [Ld F]. unfold rankOf in *. unfold leafval.
  destruct (nonempty (diags t (code dg))).
  2:{ symmetry. apply isum_zero. intros b _. destruct (place _ _ _ _); ring. }
  destruct (inRanges (dims t) (diffs t) (map fd dg) y) eqn:E.
  - destruct (place_in _ _ _ _ L Ld F E) as (A1 & A2 & A3).
    symmetry. rewrite (isum_single _ _ _ A1).
    + now rewrite A2.
    + intros b Hb Hne. destruct (place (diffs t) dg y b) as [n|] eqn:E2; [|ring].
      exfalso. apply Hne. eapply A3; eauto.
  - symmetry. apply isum_zero. intros b Hb.
    destruct (place (diffs t) dg y b) as [n|] eqn:E2; [|ring].
    rewrite (place_out _ _ _ _ _ _ L Ld F Hy Hb E2) in E. discriminate.
Qed.

Lemma apply_matrix t psi dpsidt y : length (diffs t) = rankOf t -> inr (dims t) y ->
  apply t psi dpsidt y = dpsidt y + isum (dims t) (fun x => tmat t y x * psi x).
Proof.
  intros L Hy. unfold apply. pose proof (doApply_sum t psi (rankOf t) [] dpsidt y) as H.
  cbn [code map app] in H. rewrite Nat.mul_0_l in H. rewrite H. f_equal.
  rewrite (isum_ext _ _ _ (fun dg Hdg => leaf_matrix t dg psi y L Hdg Hy)).
  rewrite isum_swap. apply isum_ext. intros x _. unfold tmat. now rewrite <- isum_scal_r.
Qed.

Lemma apply_outside t psi dpsidt y : ~ inr (dims t) y -> apply t psi dpsidt y = dpsidt y.
Proof.
  intros Hy. unfold apply. pose proof (doApply_sum t psi (rankOf t) [] dpsidt y) as H.
  cbn [code map app] in H. rewrite Nat.mul_0_l in H. rewrite H.
  rewrite isum_zero; [ring|]. intros dg _. unfold leafval.
  destruct (nonempty _); auto. destruct (inRanges _ _ _ _) eqn:E; auto.
  apply inRanges_inr in E. contradiction.
Qed.

(** no element of a diagonal is read out of its bounds *)
Lemma apply_reads t dg y : wf t -> inr (repeat 3%nat (rankOf t)) dg -> nonempty (diags t (code dg)) = true ->
  inRanges (dims t) (diffs t) (map fd dg) y = true ->
  inr (ash (diags t (code dg))) (moveIdx (dims t) (diffs t) (map fd dg) (map fa dg) y) /\
  inr (dims t) (moveIdx (dims t) (diffs t) (map fd dg) (map fp dg) y).
Proof.
  intros (_ & L & W) Hdg Hne Hin. destruct (W dg Hdg Hne) as [E _]. rewrite E.
  apply inr_rep3 in Hdg. destruct Hdg as [Ld F]. unfold rankOf in *.
  split; [|now apply place_in].
  clear - L Ld F Hin. unfold inr. revert L Ld F Hin. generalize (diffs t) as ks. generalize y. generalize dg. generalize (dims t) as ds. clear.
  induction ds as [|d ds IH]; intros [|g dg] [|i y] [|k ks] L Ld F H; cbn in *; try easy; try constructor.
  - inversion F as [|? ? Hg Fg]; subst. rewrite !andb_true_iff in H. destruct H as [[H1 H2] H3].
    apply Nat.leb_le in H1. apply Nat.ltb_lt in H2. destruct g as [|[|[|g]]]; cbn in *; lia.
  - inversion F as [|? ? Hg Fg]; subst. rewrite !andb_true_iff in H. apply IH; auto. tauto.
Qed.

(** ** dagger *)
Lemma fold_write {A} (g : nat -> nat) (h : nat -> A) l r0 i :
  NoDup l -> (forall a b, In a l -> In b l -> g a = g b -> a = b) -> In i l ->
  fold_left (fun res ind => fun j => if Nat.eqb j (g ind) then h ind else res j) l r0 (g i) = h i.
Proof.
  revert r0; induction l as [|a l IH]; intros r0 Hn Hi Hin; [easy|].
  inversion Hn as [|? ? Hni Hn']; subst. cbn [fold_left].
  destruct Hin as [->|Hin].
  - assert (Hnot : forall l' r1, (forall b, In b l' -> g b <> g i) ->
        fold_left (fun res ind => fun j => if Nat.eqb j (g ind) then h ind else res j) l' r1 (g i) = r1 (g i)).
    { induction l' as [|b l' IH']; intros r1 Hb; cbn [fold_left]; auto.
      rewrite IH' by (intros; apply Hb; cbn; auto). 
      destruct (Nat.eqb_spec (g i) (g b)) as [E|E]; auto. exfalso. apply (Hb b); cbn; auto. }
    rewrite Hnot. { now rewrite Nat.eqb_refl. }
    intros b Hb E. assert (b = i) by (apply Hi; cbn; auto). subst; contradiction.
  - apply IH; auto. intros; apply Hi; cbn; auto.
Qed.

Lemma dagger_diags t dg : inr (repeat 3%nat (rankOf t)) dg ->
  diags (dagger t) (code dg) = amap kconj (diags t (code (map flipd dg))).
Proof.
  intros Hdg. apply inr_rep3 in Hdg. destruct Hdg as [Ld F]. cbn [dagger diags].
  assert (E : code dg = transposeIndex (rankOf t) (code (map flipd dg))).
  { rewrite <- Ld. rewrite <- (map_length flipd dg). rewrite transposeIndex_code by now apply flip_F.
    now rewrite flip_invol. }
  rewrite E at 1.
  rewrite (fold_write (transposeIndex (rankOf t)) (fun ind => amap kconj (diags t ind))).
  - reflexivity.
  - apply seq_NoDup.
  - intros a b Ha Hb Eab. apply in_seq in Ha. apply in_seq in Hb.
    destruct (code_surj (rankOf t) a) as [da [H1 <-]]; [lia|].
    destruct (code_surj (rankOf t) b) as [db [H2 <-]]; [lia|].
    apply inr_rep3 in H1. apply inr_rep3 in H2. destruct H1 as [L1 F1], H2 as [L2 F2].
    rewrite <- L1 in Eab at 1. rewrite <- L2 in Eab. rewrite !transposeIndex_code in Eab by auto.
    apply code_inj in Eab; rewrite ?map_length; auto using flip_F; [|congruence].
    apply (f_equal (map flipd)) in Eab. rewrite !flip_invol in Eab. now subst.
  - apply in_seq. split; [lia|]. cbn [plus]. rewrite <- Ld, <- (map_length flipd dg). apply code_lt. now apply flip_F.
Qed.

Lemma place_flip ks dg y x : Forall (fun d => (d < 3)%nat) dg -> place ks (map flipd dg) y x = place ks dg x y.
Proof.
  revert dg y x; induction ks as [|k ks IH]; intros [|g dg] [|i y] [|j x] F; cbn; auto.
  inversion F as [|? ? Hg Fg]; subst. rewrite IH by auto. destruct (place ks dg x y); auto.
  destruct g as [|[|[|g]]]; cbn; auto; try lia.
  destruct (Nat.eqb_spec i j), (Nat.eqb_spec j i); subst; auto; congruence.
Qed.

Lemma nonempty_amap f (a : arr K) : nonempty (amap f a) = nonempty a.
Proof. reflexivity. Qed.

Lemma rank_dagger t : rankOf (dagger t) = rankOf t. Proof. reflexivity. Qed.

Lemma dagger_matrix t y x : tmat (dagger t) y x = kconj (tmat t x y).
Proof.
  unfold tmat. rewrite isum_conj. rewrite rank_dagger. rewrite isum_flip.
  apply isum_ext. intros dg Hdg. 
  assert (Hf : inr (repeat 3%nat (rankOf t)) (map flipd dg)).
  { apply inr_rep3. apply inr_rep3 in Hdg. rewrite map_length. destruct Hdg; split; auto using flip_F. }
  rewrite dagger_diags by auto. rewrite flip_invol. rewrite nonempty_amap.
  change (diffs (dagger t)) with (diffs t). rewrite place_flip by (apply inr_rep3 in Hdg; tauto).
  destruct (place (diffs t) dg x y); [|now rewrite kconj_0].
  destruct (nonempty _); [reflexivity|now rewrite kconj_0].
Qed.

Lemma dshape_flip ds ks dg : Forall (fun d => (d < 3)%nat) dg -> dshape ds ks (map flipd dg) = dshape ds ks dg.
Proof.
  revert ks dg; induction ds as [|d ds IH]; intros [|k ks] [|g dg] F; cbn; auto. inversion F; subst.
  rewrite IH by auto. destruct g as [|[|[|g]]]; cbn; auto; lia.
Qed.
Lemma offok_flip ks dg : Forall (fun d => (d < 3)%nat) dg -> offok ks (map flipd dg) <-> offok ks dg.
Proof.
  revert dg; induction ks as [|k ks IH]; intros [|g dg] F; cbn; try tauto. inversion F; subst.
  rewrite IH by auto. destruct g as [|[|[|g]]]; cbn [flipd]; try lia; (split; intros [A B]; split; auto; intros; apply A; lia).
Qed.

Lemma wf_dagger t : wf t -> wf (dagger t).
Proof.
  intros (H0 & H1 & H2). split; [exact H0|]. split; [exact H1|].
  intros dg Hdg. rewrite rank_dagger in Hdg. rewrite dagger_diags by auto. rewrite nonempty_amap. intros Hne.
  pose proof Hdg as Hdg'. apply inr_rep3 in Hdg'. destruct Hdg' as [Ld F].
  destruct (H2 (map flipd dg)) as [A B]; auto.
  - apply inr_rep3. rewrite map_length. auto using flip_F.
  - cbn [ash amap]. change (diffs (dagger t)) with (diffs t). change (dims (dagger t)) with (dims t).
    rewrite A. rewrite dshape_flip by auto. split; auto. exact (proj1 (offok_flip _ _ F) B).
Qed.

Lemma dagger_twice t : 
  dims (dagger (dagger t)) = dims t /\ diffs (dagger (dagger t)) = diffs t /\ time (dagger (dagger t)) = time t /\
  freqs (dagger (dagger t)) = freqs t /\
  forall i, (i < 3 ^ rankOf t)%nat -> same_arr (diags (dagger (dagger t)) i) (diags t i).
Proof.
  repeat (split; [reflexivity|]). intros i Hi.
  destruct (code_surj _ _ Hi) as [dg [Hdg <-]].
  assert (Hf : inr (repeat 3%nat (rankOf t)) (map flipd dg)).
  { apply inr_rep3. apply inr_rep3 in Hdg. rewrite map_length. destruct Hdg; split; auto using flip_F. }
  rewrite dagger_diags by auto. rewrite dagger_diags by auto. rewrite flip_invol.
  split; [reflexivity|]. intros _. split; [reflexivity|]. intros n _. cbn. apply kconj_invol.
Qed.

(** ** direct product *)
Lemma place_app k1 k2 d1 d2 y1 y2 x1 x2 :
  length d1 = length k1 -> length y1 = length k1 -> length x1 = length k1 ->
  place (k1 ++ k2) (d1 ++ d2) (y1 ++ y2) (x1 ++ x2) =
  match place k1 d1 y1 x1, place k2 d2 y2 x2 with Some n1, Some n2 => Some (n1 ++ n2) | _, _ => None end.
Proof.
  revert d1 y1 x1; induction k1 as [|k k1 IH]; intros [|g d1] [|i y1] [|j x1] L1 L2 L3; cbn in *; try easy.
  - destruct (place k2 d2 y2 x2); reflexivity.
  - rewrite IH by lia. destruct (place k1 d1 y1 x1) as [n1|]; cbn; [|reflexivity].
    destruct (place k2 d2 y2 x2) as [n2|]; cbn.
    + destruct g as [|[|g]]; destruct (_ =? _); reflexivity.
    + destruct g as [|[|g]]; destruct (_ =? _); reflexivity.
Qed.

Lemma place_length ks dg y x n : place ks dg y x = Some n -> length n = length ks.
Proof.
  revert dg y x n; induction ks as [|k ks IH]; intros [|g dg] [|i y] [|j x] n; cbn; try easy.
  - intros E; injection E as <-; reflexivity.
  - destruct (place ks dg y x) as [m|] eqn:E; [|easy]. apply IH in E.
    destruct g as [|[|g]]; destruct (_ =? _); intros H; inversion H; cbn; congruence.
Qed.

Lemma prod_app l1 l2 : fold_right Nat.mul 1%nat (l1 ++ l2) = (fold_right Nat.mul 1 l1 * fold_right Nat.mul 1 l2)%nat.
Proof. induction l1; cbn; [lia|]. rewrite IHl1. lia. Qed.

Lemma nonempty_direct op (a1 a2 : arr K) : nonempty (doDirect op a1 a2) = nonempty a1 && nonempty a2.
Proof.
  unfold nonempty, asize, doDirect. cbn [ash]. rewrite prod_app.
  destruct (Nat.eqb_spec (fold_right Nat.mul 1%nat (ash a1)) 0), (Nat.eqb_spec (fold_right Nat.mul 1%nat (ash a2)) 0);
    cbn; destruct (Nat.eqb_spec (fold_right Nat.mul 1%nat (ash a1) * fold_right Nat.mul 1%nat (ash a2)) 0); cbn; auto; nia.
Qed.

Lemma directDiagonals_code op r1 r2 (ds1 ds2 : nat -> arr K) d1 d2 :
  inr (repeat 3%nat r1) d1 -> inr (repeat 3%nat r2) d2 ->
  directDiagonals op r2 ds1 ds2 (code (d1 ++ d2)) = doDirect op (ds1 (code d1)) (ds2 (code d2)).
Proof.
  intros H1 H2. apply inr_rep3 in H2. destruct H2 as [L2 F2]. unfold directDiagonals.
  rewrite code_app, L2. pose proof (code_lt d2 F2) as Hlt. rewrite L2 in Hlt. pose proof (pow3_pos r2).
  rewrite Nat.div_add_l by lia. rewrite Nat.div_small by lia. rewrite Nat.add_0_r.
  rewrite Nat.add_comm, Nat.mod_add by lia. rewrite Nat.mod_small by lia. reflexivity.
Qed.

Lemma rep_app {A} (a : A) n m : repeat a (n + m) = repeat a n ++ repeat a m.
Proof. induction n; cbn; congruence. Qed.

Lemma direct_matrix teq t1 t2 t y1 y2 x1 x2 : wf t1 -> wf t2 -> direct teq t1 t2 = Ok t ->
  length y1 = rankOf t1 -> length x1 = rankOf t1 ->
  tmat t (y1 ++ y2) (x1 ++ x2) = tmat t1 y1 x1 * tmat t2 y2 x2.
Proof.
  intros (N1 & L1 & W1) (N2 & L2 & W2) E Ly Lx. unfold direct in E. destruct (teq _ _); [|discriminate]. injection E as <-.
  unfold tmat at 1. unfold rankOf at 1. cbn [dims diffs diags]. rewrite app_length, rep_app, isum_app.
  fold (rankOf t1). fold (rankOf t2).
  unfold tmat. rewrite <- isum_scal_r. apply isum_ext. intros d1 Hd1. rewrite <- isum_scal_l. apply isum_ext. intros d2 Hd2.
  pose proof (inr_length _ _ Hd1) as Ld1. rewrite repeat_length in Ld1.
  rewrite place_app by congruence.
  rewrite (directDiagonals_code kmul (rankOf t1) (rankOf t2)) by auto. rewrite nonempty_direct.
  destruct (place (diffs t1) d1 y1 x1) as [n1|] eqn:E1; [|ring].
  destruct (place (diffs t2) d2 y2 x2) as [n2|]; [|ring].
  destruct (nonempty (diags t1 (code d1))) eqn:Hne1; [|cbn; ring].
  destruct (nonempty (diags t2 (code d2))); [|cbn; ring].
  cbn [andb doDirect av]. 
  assert (Ll : length (ash (diags t1 (code d1))) = length n1).
  { destruct (W1 d1 Hd1 Hne1) as [Es _]. rewrite Es. rewrite (place_length _ _ _ _ _ E1).
    clear - L1 Ld1. unfold rankOf in *. revert L1 Ld1. generalize (diffs t1) as ks. generalize (dims t1) as ds. revert d1.
    induction d1 as [|g d1 IH]; intros [|d ds] [|k ks]; cbn; try easy. intros. f_equal. apply IH; lia. }
  rewrite Ll, firstn_app, Nat.sub_diag, firstn_all, firstn_O, app_nil_r.
  rewrite skipn_app, Nat.sub_diag, skipn_all, skipn_O. reflexivity.
Qed.

Lemma wf_direct teq t1 t2 t : wf t1 -> wf t2 -> direct teq t1 t2 = Ok t -> wf t.
Proof.
  intros (N1 & L1 & W1) (N2 & L2 & W2) E. unfold direct in E. destruct (teq _ _); [|discriminate]. injection E as <-.
  split; [cbn; destruct (dims t1); [congruence|discriminate]|].
  split; [unfold rankOf in *; cbn; rewrite !app_length; congruence|].
  unfold rankOf at 1. cbn [dims diffs diags]. rewrite app_length, rep_app. intros dg Hdg.
  assert (Ldg : length dg = (rankOf t1 + rankOf t2)%nat) by (rewrite (inr_length _ _ Hdg), app_length, !repeat_length; reflexivity).
  rewrite <- (firstn_skipn (rankOf t1) dg) in Hdg |- *.
  assert (Lf : length (firstn (rankOf t1) dg) = rankOf t1) by (rewrite firstn_length; lia).
  set (d1 := firstn (rankOf t1) dg) in *. set (d2 := skipn (rankOf t1) dg) in *.
  apply inr_app in Hdg; [|rewrite repeat_length; exact Lf]. destruct Hdg as [Hd1 Hd2].
  rewrite (directDiagonals_code kmul (rankOf t1) (rankOf t2)) by auto. rewrite nonempty_direct, andb_true_iff.
  intros [Hne1 Hne2]. destruct (W1 _ Hd1 Hne1) as [A1 B1]. destruct (W2 _ Hd2 Hne2) as [A2 B2].
  cbn [doDirect ash]. rewrite A1, A2. split.
  - clear - Lf L1. unfold rankOf in *. revert Lf L1. generalize d1. generalize (diffs t1) as ks. generalize (dims t1) as ds.
    induction ds as [|d ds IH]; intros [|k ks] [|g dd] H1 H2; cbn in *; try easy. f_equal. apply IH; congruence.
  - clear - B1 B2 Lf L1. unfold rankOf in *. assert (Hl : length d1 = length (diffs t1)) by congruence. clear Lf L1.
    revert B1 Hl. generalize d1. generalize (diffs t1) as ks.
    induction ks as [|k ks IH]; intros [|g dd] H1 H2; cbn in *; try easy. destruct H1. split; auto.
Qed.

(** ** vector space *)
Lemma scale_matrix c t y x : tmat (scale c t) y x = c * tmat t y x.
Proof.
  unfold tmat. rewrite <- isum_scal_l. apply isum_ext. intros dg _. cbn [scale diffs diags].
  rewrite nonempty_amap. destruct (place _ _ _ _); [|ring]. destruct (nonempty _); cbn; ring.
Qed.
Lemma neg_matrix t y x : tmat (neg t) y x = - tmat t y x.
Proof.
  unfold tmat. replace (- isum _ _) with ((-(1)) * isum (repeat 3%nat (rankOf t)) (fun dg => match place (diffs t) dg y x with
    | Some n => if nonempty (diags t (code dg)) then av (diags t (code dg)) n else 0 | None => 0 end)) by ring.
  rewrite <- isum_scal_l. apply isum_ext. intros dg _. cbn [neg diffs diags].
  rewrite nonempty_amap. destruct (place _ _ _ _); [|ring]. destruct (nonempty _); cbn; ring.
Qed.
Lemma wf_scale c t : wf t -> wf (scale c t).
Proof. intros (A & B & C). split; [exact A|split; [exact B|]]. exact C. Qed.
Lemma wf_neg t : wf t -> wf (neg t).
Proof. intros (A & B & C). split; [exact A|split; [exact B|]]. exact C. Qed.

(** merging of offsets *)
Lemma mergeDiffs_spec from to ks : length from = length to -> mergeDiffs from to = Some ks ->
  length ks = length to /\
  forall i, (i < length to)%nat ->
     (nth i from 0%nat <> 0%nat -> nth i ks 0%nat = nth i from 0%nat) /\ (nth i to 0%nat <> 0%nat -> nth i ks 0%nat = nth i to 0%nat).
Proof.
  revert to ks; induction from as [|f from IH]; intros [|t to] ks L E; cbn in *; try discriminate L.
  - injection E as <-. split; [reflexivity|]. intros; lia.
  - assert (Hm : exists k' ks', mergeDiffs from to = Some ks' /\ ks = k' :: ks' /\ (f <> 0%nat -> k' = f) /\ (t <> 0%nat -> k' = t)).
    { destruct (Nat.eqb_spec t 0).
      - destruct (mergeDiffs from to) as [ks'|]; [|discriminate]. injection E as <-. exists f, ks'. repeat split; auto; congruence.
      - destruct (Nat.eqb_spec f 0), (Nat.eqb_spec t f); cbn in E; try discriminate;
          (destruct (mergeDiffs from to) as [ks'|]; [|discriminate]); injection E as <-; exists t, ks'; repeat split; auto; congruence. }
    destruct Hm as (k' & ks' & E' & -> & Hf & Ht). destruct (IH to ks') as [L' H']; auto.
    split; [cbn; congruence|]. intros [|i] Hi; cbn; auto. apply H'. lia.
Qed.
Lemma mergeDiffs_none from to : length from = length to ->
  (mergeDiffs from to = None <-> exists i, (i < length to)%nat /\ nth i from 0%nat <> 0%nat /\ nth i to 0%nat <> 0%nat /\ nth i from 0%nat <> nth i to 0%nat).
Proof.
  revert to; induction from as [|f from IH]; intros [|t to] L; cbn in *; try discriminate L.
  - split; [discriminate|]. intros [i [Hi _]]. lia.
  - assert (IH' : mergeDiffs from to = None <-> exists i, (i < length to)%nat /\ nth i from 0%nat <> 0%nat /\ nth i to 0%nat <> 0%nat /\ nth i from 0%nat <> nth i to 0%nat) by (apply IH; lia).
    assert (Hopt : forall (A B : Type) (g : A -> B) o, option_map g o = None <-> o = None) by (intros A B g [a|]; cbn; split; congruence).
    split.
    + intros H. destruct (Nat.eqb_spec t 0).
      * apply Hopt, IH' in H. destruct H as [i Hi]. exists (S i). cbn. split; [lia|apply Hi].
      * destruct (Nat.eqb_spec f 0), (Nat.eqb_spec t f); cbn in H;
          try (apply Hopt, IH' in H; destruct H as [i Hi]; exists (S i); cbn; split; [lia|apply Hi]).
        exists 0%nat. cbn. repeat split; auto; lia.
    + intros [[|i] (Hi & H1 & H2 & H3)]; cbn in *.
      * destruct (Nat.eqb_spec t 0); [congruence|]. destruct (Nat.eqb_spec f 0), (Nat.eqb_spec t f); cbn; congruence.
      * assert (E : mergeDiffs from to = None) by (apply IH'; exists i; repeat split; auto; lia). rewrite E.
        destruct (Nat.eqb t 0); auto. destruct (negb _ && negb _); auto.
Qed.

(** place/dshape depend on an offset only where the digit is nonzero *)
Lemma place_offs ks ks' dg y x : length ks = length ks' -> length dg = length ks ->
  (forall i, (i < length ks)%nat -> nth i dg 0%nat <> 0%nat -> nth i ks 0%nat = nth i ks' 0%nat) ->
  place ks dg y x = place ks' dg y x.
Proof.
  revert ks' dg y x; induction ks as [|k ks IH]; intros [|k' ks'] [|g dg] [|i y] [|j x] L Ld H; cbn in *; try easy.
  rewrite (IH ks') by (try lia; intros n Hn; apply (H (S n)); lia).
  destruct (place ks' dg y x); auto.
  destruct g as [|[|g]]; auto.
  - rewrite (H 0%nat) by (cbn; lia). reflexivity.
  - rewrite (H 0%nat) by (cbn; lia). reflexivity.
Qed.
Lemma dshape_offs ds ks ks' dg : length ks = length ks' -> length dg = length ks ->
  (forall i, (i < length ks)%nat -> nth i dg 0%nat <> 0%nat -> nth i ks 0%nat = nth i ks' 0%nat) ->
  dshape ds ks dg = dshape ds ks' dg.
Proof.
  revert ds ks' dg; induction ks as [|k ks IH]; intros [|d ds] [|k' ks'] [|g dg] L Ld H; cbn in *; try easy.
  rewrite (IH ds ks') by (try lia; intros n Hn; apply (H (S n)); lia).
  destruct g as [|g]; auto. rewrite (H 0%nat) by (cbn; lia). reflexivity.
Qed.
Lemma offok_nth ks dg : length dg = length ks ->
  (offok ks dg <-> forall i, (i < length ks)%nat -> nth i dg 0%nat <> 0%nat -> (0 < nth i ks 0)%nat).
Proof.
  revert dg; induction ks as [|k ks IH]; intros [|g dg] L; cbn in *; try discriminate L.
  - split; auto. intros; lia.
  - rewrite IH by lia. split.
    + intros [H1 H2] [|i] Hi Hg; auto. apply H2; auto. lia.
    + intros H. split; [apply (H 0%nat); lia|]. intros i Hi Hg. apply (H (S i)); auto. lia.
Qed.

Lemma digit_diag_shape t t' ks dg : wf t -> length ks = rankOf t -> dims t' = dims t ->
  inr (repeat 3%nat (rankOf t)) dg -> nonempty (diags t (code dg)) = true ->
  (forall i, (i < rankOf t)%nat -> nth i (diffs t) 0%nat <> 0%nat -> nth i ks 0%nat = nth i (diffs t) 0%nat) ->
  (forall y x, place ks dg y x = place (diffs t) dg y x) /\
  dshape (dims t) ks dg = dshape (dims t) (diffs t) dg /\ offok ks dg.
Proof.
  intros (_ & L & W) Lk _ Hdg Hne Hk. destruct (W dg Hdg Hne) as [_ Ho].
  pose proof (inr_length _ _ Hdg) as Ld. rewrite repeat_length in Ld.
  assert (H : forall i, (i < length ks)%nat -> nth i dg 0%nat <> 0%nat -> nth i ks 0%nat = nth i (diffs t) 0%nat).
  { intros i Hi Hg. apply Hk; [lia|]. rewrite offok_nth in Ho by congruence. specialize (Ho i). rewrite L in Ho.
    assert (0 < nth i (diffs t) 0)%nat by (apply Ho; auto; lia). lia. }
  repeat split.
  - intros y x. apply place_offs; congruence || auto.
  - apply dshape_offs; congruence || auto.
  - rewrite offok_nth in * by congruence. intros i Hi Hg. rewrite H by auto. apply Ho; auto. lia.
Qed.

Lemma add_matrix keq (to from t : tri K T) : wf to -> wf from -> dims from = dims to -> add keq to from = Ok t ->
  wf t /\ dims t = dims to /\ forall y x, tmat t y x = tmat to y x + tmat from y x.
Proof.
  intros Wto Wfrom Ed E. unfold add in E.
  destruct (mergeDiffs (diffs from) (diffs to)) as [ks|] eqn:Em; [|discriminate].
  destruct (existsb _ _) eqn:Esh in E; [discriminate|].
  destruct (existsb _ _) eqn:Efr in E; [discriminate|]. injection E as <-.
  assert (Er : rankOf from = rankOf to) by (unfold rankOf; now rewrite Ed).
  pose proof Wto as (Nt & Lt & Wt). pose proof Wfrom as (Nf & Lf & Wf).
  destruct (mergeDiffs_spec _ _ _ (eq_trans Lf (eq_trans Er (eq_sym Lt))) Em) as [Lk Hk]. rewrite Lt in Hk.
  rewrite Lt in Lk.
  assert (Hto : forall i, (i < rankOf to)%nat -> nth i (diffs to) 0%nat <> 0%nat -> nth i ks 0%nat = nth i (diffs to) 0%nat)
    by (intros; now apply Hk).
  assert (Hfrom : forall i, (i < rankOf from)%nat -> nth i (diffs from) 0%nat <> 0%nat -> nth i ks 0%nat = nth i (diffs from) 0%nat)
    by (rewrite Er; intros; now apply Hk).
  (* shapes agree *)
  assert (Hshape : forall dg, inr (repeat 3%nat (rankOf to)) dg -> nonempty (diags from (code dg)) = true ->
             nonempty (diags to (code dg)) = true -> ash (diags from (code dg)) = ash (diags to (code dg))).
  { intros dg Hdg H1 H2. pose proof (inr_length _ _ Hdg) as Ld. rewrite repeat_length in Ld.
    assert (Hdgf : inr (repeat 3%nat (rankOf from)) dg) by now rewrite Er.
    destruct (Wt dg Hdg H2) as [-> _]. destruct (Wf dg Hdgf H1) as [-> _].
    destruct (digit_diag_shape to to ks dg Wto Lk eq_refl Hdg H2 Hto) as (_ & <- & _).
    destruct (digit_diag_shape from from ks dg Wfrom (eq_trans Lk (eq_sym Er)) eq_refl Hdgf H1 Hfrom) as (_ & <- & _).
    now rewrite Ed. }
  assert (Hne : forall a b : arr K, nonempty a = true -> nonempty b = true -> nonempty (addDiag a b) = true).
  { intros a b Ha Hb. unfold addDiag. rewrite Ha, Hb. cbn. exact Hb. }
  split; [|split; [reflexivity|]].
  - split; [exact Nt|]. split; [exact Lk|]. intros dg Hdg. cbn [diags dims diffs rankOf]. unfold rankOf in Hdg at 1. cbn [dims] in Hdg. fold (rankOf to) in Hdg.
    assert (Hdgf : inr (repeat 3%nat (rankOf from)) dg) by now rewrite Er.
    unfold addDiag.
    destruct (nonempty (diags from (code dg))) eqn:E1.
    + destruct (digit_diag_shape from from ks dg Wfrom (eq_trans Lk (eq_sym Er)) eq_refl Hdgf E1 Hfrom) as (_ & A & B).
      destruct (Wf dg Hdgf E1) as [C _].
      destruct (nonempty (diags to (code dg))) eqn:E2; cbn.
      * intros _. split; auto. rewrite <- Hshape by auto. rewrite C, <- A. now rewrite Ed.
      * intros _. split; auto. rewrite C, <- A. now rewrite Ed.
    + intros E2. destruct (digit_diag_shape to to ks dg Wto Lk eq_refl Hdg E2 Hto) as (_ & A & B).
      destruct (Wt dg Hdg E2) as [C _]. split; auto. now rewrite C, <- A.
  - intros y x. unfold tmat. rewrite Er. rewrite <- isum_add. unfold rankOf at 1. cbn [dims]. fold (rankOf to).
    apply isum_ext. intros dg Hdg. cbn [diffs diags].
    assert (Hdgf : inr (repeat 3%nat (rankOf from)) dg) by now rewrite Er.
    unfold addDiag.
    destruct (nonempty (diags from (code dg))) eqn:E1.
    + destruct (digit_diag_shape from from ks dg Wfrom (eq_trans Lk (eq_sym Er)) eq_refl Hdgf E1 Hfrom) as (A & _ & _).
      rewrite A.
      destruct (nonempty (diags to (code dg))) eqn:E2; cbn [negb].
      * destruct (digit_diag_shape to to ks dg Wto Lk eq_refl Hdg E2 Hto) as (A' & _ & _).
        rewrite <- (A' y x), (A y x). unfold nonempty, asize. cbn [ash av].
        unfold nonempty, asize in E2. rewrite E2. destruct (place _ _ _ _); ring.
      * rewrite E1. destruct (place (diffs to) dg y x), (place (diffs from) dg y x); ring.
    + destruct (nonempty (diags to (code dg))) eqn:E2.
      * destruct (digit_diag_shape to to ks dg Wto Lk eq_refl Hdg E2 Hto) as (A' & _ & _). rewrite A'.
        destruct (place (diffs to) dg y x), (place (diffs from) dg y x); ring.
      * destruct (place ks dg y x), (place (diffs to) dg y x), (place (diffs from) dg y x); ring.
Qed.

(** never undefined behaviour for operators of equal dimensions *)
Lemma add_no_ub keq (to from : tri K T) : wf to -> wf from -> dims from = dims to -> add keq to from <> UB.
Proof.
  intros Wto Wfrom Ed E. unfold add in E.
  destruct (mergeDiffs (diffs from) (diffs to)) as [ks|] eqn:Em; [|discriminate].
  destruct (existsb _ _) eqn:Esh in E; [clear E|destruct (existsb _ _) in E; discriminate].
  assert (Er : rankOf from = rankOf to) by (unfold rankOf; now rewrite Ed).
  pose proof Wto as (Nt & Lt & Wt). pose proof Wfrom as (Nf & Lf & Wf).
  destruct (mergeDiffs_spec _ _ _ (eq_trans Lf (eq_trans Er (eq_sym Lt))) Em) as [Lk Hk]. rewrite Lt in Hk.
  rewrite Lt in Lk.
  apply existsb_exists in Esh. destruct Esh as [i [Hi Hc]]. apply in_seq in Hi.
  destruct (code_surj (rankOf to) i) as [dg [Hdg <-]]; [lia|].
  unfold shapesClash in Hc. rewrite !andb_true_iff, negb_true_iff in Hc. destruct Hc as [[H1 H2] H3].
  apply listnat_eqb_neq in H3. apply H3.
  assert (Hdgf : inr (repeat 3%nat (rankOf from)) dg) by now rewrite Er.
  destruct (Wt dg Hdg H2) as [-> _]. destruct (Wf dg Hdgf H1) as [-> _].
  destruct (digit_diag_shape to to ks dg Wto Lk eq_refl Hdg H2) as (_ & <- & _); [intros; now apply Hk|].
  destruct (digit_diag_shape from from ks dg Wfrom (eq_trans Lk (eq_sym Er)) eq_refl Hdgf H1) as (_ & <- & _); [rewrite Er; intros; now apply Hk|].
  now rewrite Ed.
Qed.

Lemma add_refused keq (to from : tri K T) : wf to -> wf from -> dims from = dims to ->
  (add keq to from = StructureMismatch <->
   exists i, (i < rankOf to)%nat /\ nth i (diffs from) 0%nat <> 0%nat /\ nth i (diffs to) 0%nat <> 0%nat /\ nth i (diffs from) 0%nat <> nth i (diffs to) 0%nat).
Proof.
  intros (_ & Lt & _) (_ & Lf & _) Ed.
  assert (Er : rankOf from = rankOf to) by (unfold rankOf; now rewrite Ed).
  rewrite <- Lt. rewrite <- mergeDiffs_none by congruence. unfold add.
  destruct (mergeDiffs (diffs from) (diffs to)); [|tauto].
  split; [|discriminate]. destruct (existsb _ _); [discriminate|]. destruct (existsb _ _); discriminate.
Qed.

(** ** T - T^dagger, T + T^dagger never fail *)
Lemma mergeDiffs_refl ks : mergeDiffs ks ks = Some ks.
Proof. induction ks as [|k ks IH]; cbn; auto. rewrite IH, Nat.eqb_refl. cbn [negb]. rewrite andb_false_r. destruct (Nat.eqb k 0); reflexivity. Qed.

Lemma freqClash_refl keq (f : arr K) : (forall z, keq z z = true) -> freqClash keq f f = false.
Proof.
  intros H. unfold freqClash, allDiffer. destruct (nonempty f) eqn:E; [|reflexivity]. cbn [andb].
  destruct (indices (ash f)) as [|x l] eqn:El; cbn; [|now rewrite H].
  exfalso. apply (f_equal (@length _)) in El. rewrite indices_length in El. unfold nonempty, asize in E.
  cbn in El. rewrite El in E. discriminate.
Qed.

Lemma HC_ok keq t : (forall z, keq z z = true) -> wf t ->
  (exists m, minusHC keq t = Ok m) /\ (exists p, plusHC keq t = Ok p).
Proof.
  intros Hk W.
  assert (H : forall t', wf t' -> dims t' = dims t -> diffs t' = diffs t -> freqs t' = freqs t -> exists m, add keq t t' = Ok m).
  { intros t' W' E1 E2 E3. pose proof (add_no_ub keq t t' W W' E1) as Hub. unfold add in *. rewrite E2, mergeDiffs_refl in *.
    destruct (existsb _ _); [congruence|]. rewrite E3.
    replace (existsb _ _) with false; [eauto|]. symmetry.
    clear - Hk. induction (seq 0 (3 ^ rankOf t)) as [|i l IH]; cbn; auto. now rewrite freqClash_refl. }
  split.
  - unfold minusHC, sub. apply H; auto using wf_neg, wf_dagger.
  - unfold plusHC. apply H; auto using wf_dagger.
Qed.

Lemma minusHC_matrix keq t m y x : wf t -> minusHC keq t = Ok m -> tmat m y x = tmat t y x - kconj (tmat t x y).
Proof.
  intros W E. unfold minusHC, sub in E.
  destruct (add_matrix keq t (neg (dagger t)) m) as (_ & _ & H); auto using wf_neg, wf_dagger.
  rewrite H, neg_matrix, dagger_matrix. ring.
Qed.
Lemma plusHC_matrix keq t m y x : wf t -> plusHC keq t = Ok m -> tmat m y x = tmat t y x + kconj (tmat t x y).
Proof.
  intros W E. unfold plusHC in E.
  destruct (add_matrix keq t (dagger t) m) as (_ & _ & H); auto using wf_dagger.
  rewrite H, dagger_matrix. ring.
Qed.
End P.
