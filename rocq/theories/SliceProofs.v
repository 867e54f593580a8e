From Coq Require Import List Arith Lia PeanoNat Bool Permutation.
From Verif Require Import Star Arr MultiIndexModel MultiIndexSpec MultiIndexProofs SliceModel SliceSpec.
Import ListNotations.

Lemma contains_In V o : contains V o = true <-> In o V.
Proof.
  unfold contains. rewrite existsb_exists. split.
  - intros [x [H E]]. apply Nat.eqb_eq in E. now subst.
  - intros H. exists o. split; auto. apply Nat.eqb_refl.
Qed.
Lemma contains_nIn V o : contains V o = false <-> ~ In o V.
Proof. rewrite <- contains_In. destruct (contains V o); split; congruence. Qed.

Lemma negated_spec n V :
  negated n V = filter (fun o => if in_dec Nat.eq_dec o V then false else true) (seq 0 n).
Proof.
  unfold negated, ordinals. apply filter_ext. intros o.
  destruct (in_dec Nat.eq_dec o V) as [H|H].
  - apply contains_In in H. now rewrite H.
  - apply contains_nIn in H. now rewrite H.
Qed.

Lemma nodupb_NoDup V : nodupb V = true <-> NoDup V.
Proof.
  induction V as [|v V IH]; cbn.
  - split; [constructor|reflexivity].
  - rewrite andb_true_iff, negb_true_iff, contains_nIn, IH. split.
    + intros [H1 H2]; constructor; auto.
    + intros H; inversion H; auto.
Qed.

Lemma NoDup_incl_len (V : list nat) n : NoDup V -> (forall v, In v V -> v < n) -> length V <= n.
Proof.
  intros H1 H2. rewrite <- (seq_length n 0). apply NoDup_incl_length; auto.
  intros v Hv. apply in_seq. specialize (H2 v Hv). lia.
Qed.

(** the compile-time check accepts exactly the lists of distinct in-range positions *)
Lemma consistent_good n V : consistent n V = true <-> good_positions n V.
Proof.
  unfold consistent, good_positions. rewrite !andb_true_iff, nodupb_NoDup, forallb_forall. split.
  - intros [[_ H1] H2]. split; auto. intros v Hv. now apply Nat.ltb_lt, H2.
  - intros [H1 H2]. repeat split; auto.
    + apply Nat.leb_le. apply NoDup_incl_len; auto.
    + intros v Hv. now apply Nat.ltb_lt, H2.
Qed.

Lemma filter_perm_V n V : good_positions n V -> Permutation V (filter (contains V) (seq 0 n)).
Proof.
  intros [H1 H2]. apply NoDup_Permutation; auto.
  - apply NoDup_filter, seq_NoDup.
  - intros v. rewrite filter_In, contains_In, in_seq. split; [|tauto].
    intros Hv. specialize (H2 v Hv). split; auto. lia.
Qed.

Lemma filter_split_length {A} (p : A -> bool) l :
  length (filter p l) + length (filter (fun x => negb (p x)) l) = length l.
Proof. induction l as [|a l IH]; cbn; auto. destruct (p a); cbn; lia. Qed.

Lemma negated_length n V : good_positions n V -> length V + length (negated n V) = n.
Proof.
  intros H. unfold negated, ordinals.
  rewrite (Permutation_length (filter_perm_V n V H)), filter_split_length. apply seq_length.
Qed.

Lemma meta_perm V : forall ords rest d s,
  length rest = length s -> length rest = length (filter (contains V) ords) ->
  length d = length (filter (fun o => negb (contains V o)) ords) ->
  exists r, transposerMeta V ords rest = Some r /\ length r = length ords
    /\ length (fillIdx V ords d s) = length ords
    /\ Permutation r (rest ++ filter (fun o => negb (contains V o)) ords)
    /\ Permutation (combine r (fillIdx V ords d s))
                   (combine rest s ++ combine (filter (fun o => negb (contains V o)) ords) d).
Proof.
  induction ords as [|o ords IH]; intros rest d s Hrs Hr Hd; cbn in *.
  - exists []. destruct rest; [|discriminate]. destruct d; [|discriminate]. cbn. repeat split; constructor.
  - destruct (contains V o) eqn:E; cbn in *.
    + destruct rest as [|v rest]; [discriminate|]. destruct s as [|x s]; [discriminate|].
      destruct (IH rest d s) as [r (Er & L1 & L2 & P1 & P2)]; cbn in *; try lia.
      exists (v :: r). rewrite Er. cbn. repeat split; try lia.
      * now apply perm_skip.
      * now apply perm_skip.
    + destruct d as [|x d]; [discriminate|].
      destruct (IH rest d s) as [r (Er & L1 & L2 & P1 & P2)]; cbn in *; try lia.
      exists (o :: r). rewrite Er. cbn. repeat split; try lia.
      * rewrite P1. apply Permutation_middle.
      * rewrite P2. apply Permutation_middle.
Qed.

Lemma lookup_In l c v : NoDup (map fst l) -> In (c, v) l -> lookup c l = v.
Proof.
  induction l as [|[k w] l IH]; cbn; intros Hn Hin; [easy|].
  inversion Hn as [|? ? Hni Hn']; subst.
  destruct Hin as [E|Hin].
  - inversion E; subst. now rewrite Nat.eqb_refl.
  - destruct (Nat.eqb_spec c k) as [->|_]; auto.
    exfalso. apply Hni. apply in_map_iff. exists (k, v). auto.
Qed.

Lemma map_fst_combine {A B} (l : list A) (l' : list B) : length l = length l' -> map fst (combine l l') = l.
Proof. revert l'; induction l as [|a l IH]; intros [|b l']; cbn; try easy. intros H. f_equal. apply IH. lia. Qed.

Lemma map_lookup_combine (g : nat -> nat) V s :
  length V = length s -> (forall k v, In (k, v) (combine V s) -> g k = v) -> map g V = s.
Proof.
  revert s; induction V as [|k V IH]; intros [|x s]; cbn; try easy. intros L H.
  f_equal; [apply H; auto|]. apply IH; [lia|]. auto.
Qed.

Section OneShape.
Variables (n : nat) (V : list nat).
Hypothesis HV : good_positions n V.

Lemma transposer_perm : exists r, transposer n V = Some r /\ Permutation r (seq 0 n).
Proof.
  pose proof (negated_length n V HV) as HL.
  destruct (meta_perm V (seq 0 n) V (map (fun _ => 0) (negated n V)) V) as [r (Er & L1 & L2 & P1 & P2)].
  - reflexivity.
  - exact (Permutation_length (filter_perm_V n V HV)).
  - now rewrite map_length.
  - exists r. split; auto. rewrite P1. rewrite (filter_perm_V n V HV) at 1.
    clear. induction (seq 0 n) as [|a l IH]; cbn; auto.
    destruct (contains V a); cbn.
    + now apply perm_skip.
    + rewrite <- Permutation_middle. now apply perm_skip.
Qed.

Lemma sliceAddr_element d s : length s = length V -> length d = n - length V ->
  exists y, sliceAddr n V d s = Some y /\ is_element n V d s y.
Proof.
  intros Hs Hd.
  pose proof (negated_length n V HV) as HL.
  destruct (meta_perm V (seq 0 n) V d s) as [r (Er & L1 & L2 & P1 & P2)].
  - auto.
  - exact (Permutation_length (filter_perm_V n V HV)).
  - unfold negated, ordinals in HL. lia.
  - unfold sliceAddr, transposer, ordinals. rewrite Er.
    set (x := fillIdx V (seq 0 n) d s) in *.
    exists (transposeIdx r x). split; auto.
    rewrite seq_length in L1, L2.
    assert (Hnd : NoDup (map fst (combine r x))).
    { rewrite map_fst_combine by lia.
      destruct transposer_perm as [r' [Er' Pr']]. unfold transposer, ordinals in Er'.
      assert (r' = r) by congruence. subst r'.
      eapply Permutation_NoDup; [symmetry; exact Pr'|]. apply seq_NoDup. }
    assert (Hnth : forall c, c < n -> nth c (transposeIdx r x) 0 = lookup c (combine r x)).
    { intros c Hc. unfold transposeIdx. rewrite L1.
      rewrite (nth_indep _ 0 (lookup 0 (combine r x))) by (rewrite map_length, seq_length; lia).
      rewrite (map_nth (fun c => lookup c (combine r x))). now rewrite seq_nth. }
    assert (Hlk : forall k v, In (k, v) (combine V s) -> nth k (transposeIdx r x) 0 = v).
    { intros k v Hin. rewrite Hnth by (destruct HV as [_ H2]; apply H2; eapply in_combine_l; eauto).
      apply lookup_In; auto. eapply Permutation_in; [symmetry; exact P2|]. apply in_or_app; auto. }
    assert (Hld : forall k v, In (k, v) (combine (negated n V) d) -> nth k (transposeIdx r x) 0 = v).
    { intros k v Hin.
      assert (Hk : k < n).
      { apply in_combine_l in Hin. unfold negated, ordinals in Hin. apply filter_In in Hin. destruct Hin as [Hin _].
        apply in_seq in Hin. lia. }
      rewrite Hnth by auto. apply lookup_In; auto.
      eapply Permutation_in; [symmetry; exact P2|]. apply in_or_app; auto. }
    split; [|split].
    + unfold transposeIdx. rewrite map_length, seq_length. lia.
    + apply map_lookup_combine; auto.
    + rewrite <- negated_spec. apply map_lookup_combine; auto. lia.
Qed.

Lemma element_unique d s y y' : is_element n V d s y -> is_element n V d s y' -> y = y'.
Proof.
  intros (L & Hs & Hd) (L' & Hs' & Hd').
  apply (nth_ext _ _ 0 0); [lia|]. intros c Hc. rewrite L in Hc.
  assert (Hmap : forall l : list nat, map (fun v => nth v y 0) l = map (fun v => nth v y' 0) l ->
                 forall c, In c l -> nth c y 0 = nth c y' 0).
  { induction l as [|a l IH]; cbn; [easy|]. intros E z [->|Hz]; injection E as E1 E2; auto. }
  destruct (in_dec Nat.eq_dec c V) as [Hi|Hi].
  - apply (Hmap V); auto. congruence.
  - apply (Hmap (filter (fun o => if in_dec Nat.eq_dec o V then false else true) (seq 0 n))).
    + congruence.
    + apply filter_In. split; [apply in_seq; lia|]. destruct (in_dec Nat.eq_dec c V); easy.
Qed.

(** coordinates of an index *)
Definition sOf (y : list nat) := map (fun v => nth v y 0) V.
Definition dOf (y : list nat) := map (fun o => nth o y 0) (negated n V).

Lemma element_self y : length y = n -> is_element n V (dOf y) (sOf y) y.
Proof. intros L. split; [auto|]. split; [reflexivity|]. unfold dOf. now rewrite negated_spec. Qed.

Lemma sOf_length y : length (sOf y) = length V.
Proof. unfold sOf. now rewrite map_length. Qed.
Lemma dOf_length y : length (dOf y) = n - length V.
Proof. unfold dOf. rewrite map_length. pose proof (negated_length n V HV). lia. Qed.

(** the address function (total version, under consistency) *)
Definition addr (d s : list nat) : list nat :=
  match sliceAddr n V d s with Some y => y | None => [] end.

Lemma addr_element d s : length s = length V -> length d = n - length V -> is_element n V d s (addr d s).
Proof.
  intros H1 H2. destruct (sliceAddr_element d s H1 H2) as [y [E H]]. unfold addr. now rewrite E.
Qed.

Lemma addr_of y : length y = n -> addr (dOf y) (sOf y) = y.
Proof.
  intros L. apply (element_unique (dOf y) (sOf y)).
  - apply addr_element; [apply sOf_length | apply dOf_length].
  - now apply element_self.
Qed.

Lemma of_addr d s : length s = length V -> length d = n - length V ->
  dOf (addr d s) = d /\ sOf (addr d s) = s /\ length (addr d s) = n.
Proof.
  intros H1 H2. destruct (addr_element d s H1 H2) as (L & Hs & Hd). rewrite <- negated_spec in Hd.
  unfold dOf, sOf. auto.
Qed.

(** ranges *)
Variable sh : list nat.
Hypothesis Hsh : length sh = n.
Definition shV := map (fun v => nth v sh 0) V.
Definition shD := map (fun o => nth o sh 0) (negated n V).

Lemma inr_nth y : inr sh y <-> length y = n /\ forall c, c < n -> nth c y 0 < nth c sh 0.
Proof.
  unfold inr. rewrite <- Hsh. clear. revert y; induction sh as [|m sh' IH]; intros [|a y]; cbn.
  - split; [intros; split; auto; intros; lia | constructor].
  - split; [intros H; inversion H | intros [H _]; discriminate].
  - split; [intros H; inversion H | intros [H _]; discriminate].
  - split.
    + intros H; inversion H as [|? ? ? ? Ham Hf]; subst. apply IH in Hf. destruct Hf as [L F]. split; [lia|].
      intros [|c] Hc; auto. apply F. lia.
    + intros [L F]. constructor; [apply (F 0); lia|]. apply IH. split; [lia|].
      intros c Hc. apply (F (S c)). lia.
Qed.

Lemma inr_map (l : list nat) y : inr (map (fun o => nth o sh 0) l) (map (fun o => nth o y 0) l) <->
  (forall c, In c l -> nth c y 0 < nth c sh 0).
Proof.
  unfold inr. induction l as [|a l IH]; cbn.
  - split; [easy|constructor].
  - split.
    + intros H; inversion H; subst. intros c [<-|Hc]; auto. apply IH; auto.
    + intros H. constructor; auto. apply IH; auto.
Qed.

Lemma inr_split y : length y = n -> (inr sh y <-> inr shD (dOf y) /\ inr shV (sOf y)).
Proof.
  intros L. rewrite inr_nth. unfold shD, shV, dOf, sOf. rewrite !inr_map. split.
  - intros [_ H]. split; intros c Hc; apply H.
    + unfold negated, ordinals in Hc. apply filter_In in Hc. destruct Hc as [Hc _]. apply in_seq in Hc. lia.
    + destruct HV as [_ H2]. auto.
  - intros [H1 H2]. split; auto. intros c Hc.
    destruct (contains V c) eqn:E.
    + apply H2. now apply contains_In.
    + apply H1. unfold negated, ordinals. apply filter_In. split; [apply in_seq; lia|]. now rewrite E.
Qed.

Lemma shV_length : length shV = length V. Proof. unfold shV. now rewrite map_length. Qed.
Lemma shD_length : length shD = n - length V.
Proof. unfold shD. rewrite map_length. pose proof (negated_length n V HV). lia. Qed.

Lemma addr_inr d s : inr shD d -> inr shV s -> inr sh (addr d s).
Proof.
  intros Hd Hs.
  assert (L1 : length s = length V) by (rewrite (inr_length _ _ Hs); apply shV_length).
  assert (L2 : length d = n - length V) by (rewrite (inr_length _ _ Hd); apply shD_length).
  destruct (of_addr d s L1 L2) as (E1 & E2 & E3).
  apply inr_split; auto. rewrite E1, E2. auto.
Qed.

(** dummies visited are exactly the in-range multi-indices of the other positions, once each *)
Lemma filterOut_map (f : nat -> nat) : length sh = n ->
  filterOut n V (map f sh) = map f shD.
Proof.
  intros L. unfold filterOut, shD. rewrite map_map. apply map_ext_in. intros o Ho.
  unfold negated, ordinals in Ho. apply filter_In in Ho. destruct Ho as [Ho _]. apply in_seq in Ho.
  rewrite (nth_indep _ 0 (f 0)) by (rewrite map_length; lia). apply map_nth.
Qed.

Lemma between_inr (l x : list nat) : (forall m, In m l -> 0 < m) ->
  (between (map (fun _ => 0) l) (map pred l) x <-> inr l x).
Proof.
  unfold between, inr. revert x; induction l as [|m l IH]; intros x Hp; cbn.
  - split; [intros [H _]; inversion H; constructor | intros H; inversion H; split; constructor].
  - assert (Hm : 0 < m) by (apply Hp; cbn; auto).
    assert (Hp' : forall m, In m l -> 0 < m) by (intros; apply Hp; cbn; auto).
    split.
    + intros [H1 H2]. inversion H1 as [|? a ? x' Ha H1']; subst. inversion H2 as [|? ? ? ? Ha2 H2']; subst.
      constructor; [lia|]. apply IH; auto.
    + intros H. inversion H as [|a ? x' ? Ha H']; subst. apply IH in H'; auto. destruct H' as [H1 H2].
      split; constructor; auto; lia.
Qed.

Lemma box_size_map (l : list nat) : (forall m, In m l -> 0 < m) ->
  box_size (map (fun _ => 0) l) (map pred l) = fold_right Nat.mul 1 l.
Proof.
  induction l as [|m l IH]; cbn; intros Hp; auto. rewrite IH by auto.
  assert (0 < m) by auto. f_equal. lia.
Qed.

Lemma dummies_ok fuel : (forall m, In m sh -> 0 < m) -> fold_right Nat.mul 1 shD <= fuel ->
  exists ds, dummies fuel n V sh = Some ds /\ NoDup ds /\ forall d, In d ds <-> inr shD d.
Proof.
  intros Hpos Hf. unfold dummies. destruct (Nat.eqb_spec (length V) n) as [E|E].
  - exists [[]]. split; auto. split; [constructor; [easy|constructor]|].
    assert (HD : shD = []). { apply length_zero_iff_nil. rewrite shD_length. lia. }
    rewrite HD. intros d. unfold inr. cbn. split; [intros [<-|[]]; constructor | intros H; inversion H; auto].
  - rewrite !filterOut_map by auto.
    assert (HposD : forall m, In m shD -> 0 < m).
    { intros m Hm. unfold shD in Hm. apply in_map_iff in Hm. destruct Hm as [o [<- Ho]].
      apply Hpos. apply nth_In. unfold negated, ordinals in Ho. apply filter_In in Ho.
      destruct Ho as [Ho _]. apply in_seq in Ho. lia. }
    assert (Hne : map (fun _ : nat => 0) shD <> []).
    { intros H. apply map_eq_nil in H. apply (f_equal (@length nat)) in H. rewrite shD_length in H. cbn in H.
      destruct HV as [H1 H2]. pose proof (NoDup_incl_len V n H1 H2). lia. }
    assert (Hle : Forall2 le (map (fun _ : nat => 0) shD) (map pred shD)).
    { clear. induction shD; cbn; constructor; auto. lia. }
    destruct (visit_ok _ _ Hne Hle fuel) as [l (El & Hin & Hnd & _)].
    { rewrite box_size_map; auto. }
    exists l. split; auto. split; auto. intros d. rewrite Hin. apply between_inr; auto.
Qed.

(** ** in-place action on all slices *)
Section Act.
Context {A : Type}.
Implicit Type m : @mem A.

Lemma actOnSlice_spec (f : @mem A -> @mem A) (ad : list nat -> list nat) shs m :
  (forall s s', inr shs s -> inr shs s' -> ad s = ad s' -> s = s') ->
  (forall s, inr shs s -> actOnSlice f ad shs m (ad s) = f (fun s' => m (ad s')) s) /\
  (forall y, (forall s, inr shs s -> ad s <> y) -> actOnSlice f ad shs m y = m y).
Proof.
  intros Hinj. unfold actOnSlice.
  set (g := f (fun s' => m (ad s'))).
  assert (Hgen : forall l m0, NoDup l -> (forall s, In s l -> inr shs s) ->
    (forall s, In s l -> fold_left (fun m' s0 => upd m' (ad s0) (g s0)) l m0 (ad s) = g s) /\
    (forall y, (forall s, In s l -> ad s <> y) -> fold_left (fun m' s0 => upd m' (ad s0) (g s0)) l m0 y = m0 y)).
  { induction l as [|s0 l IH]; intros m0 Hnd Hl; cbn [fold_left].
    - split; easy.
    - inversion Hnd as [|? ? Hni Hnd']; subst.
      destruct (IH (upd m0 (ad s0) (g s0)) Hnd') as [IH1 IH2]; [intros; apply Hl; cbn; auto|].
      split.
      + intros s [<-|Hs]; [|auto]. rewrite IH2.
        * unfold upd. now rewrite listnat_eqb_refl.
        * intros s1 Hs1 E. apply Hinj in E; [|apply Hl; cbn; auto ..]. subst; contradiction.
      + intros y Hy. rewrite IH2 by (intros; apply Hy; cbn; auto).
        unfold upd. destruct (listnat_eqb_spec (ad s0) y) as [E|_]; auto.
        exfalso. apply (Hy s0); cbn; auto. }
  destruct (Hgen (indices shs) m (indices_NoDup shs)) as [H1 H2]; [intros; now apply in_indices|].
  split.
  - intros s Hs. apply H1. now apply in_indices.
  - intros y Hy. apply H2. intros s Hs. apply Hy. now apply in_indices.
Qed.

Lemma forEachSlice_spec fuel (f : @mem A -> @mem A) m :
  (forall g g', (forall s, inr shV s -> g s = g' s) -> forall s, inr shV s -> f g s = f g' s) ->
  (forall k, In k sh -> 0 < k) -> fold_right Nat.mul 1 shD <= fuel ->
  exists m', forEachSlice fuel f V sh m = Some m' /\
    forall y, inr sh y -> m' y = f (fun s => m (addr (dOf y) s)) (sOf y).
Proof.
  intros Hfext Hpos Hf. unfold forEachSlice. rewrite Hsh.
  destruct transposer_perm as [r [Er Pr]]. rewrite Er.
  destruct (dummies_ok fuel Hpos Hf) as [ds (Eds & Hnd & Hin)]. rewrite Eds.
  eexists. split; [reflexivity|].
  assert (Ead : forall d s, transposeIdx r (fillIdx V (ordinals n) d s) = addr d s).
  { intros d s. unfold addr, sliceAddr. now rewrite Er. }
  fold shV.
  assert (Hinj : forall d, inr shD d -> forall s s', inr shV s -> inr shV s' -> addr d s = addr d s' -> s = s').
  { intros d Hd s s' Hs Hs' E.
    assert (L2 : length d = n - length V) by (rewrite (inr_length _ _ Hd); apply shD_length).
    assert (L1 : length s = length V) by (rewrite (inr_length _ _ Hs); apply shV_length).
    assert (L1' : length s' = length V) by (rewrite (inr_length _ _ Hs'); apply shV_length).
    destruct (of_addr d s L1 L2) as (_ & E2 & _). destruct (of_addr d s' L1' L2) as (_ & E2' & _). congruence. }
  assert (Hgen : forall l m0, NoDup l -> (forall d, In d l -> inr shD d) ->
     forall y, inr sh y ->
       fold_left (fun m' d => actOnSlice f (fun s => transposeIdx r (fillIdx V (ordinals n) d s)) shV m') l m0 y =
       if existsb (listnat_eqb (dOf y)) l then f (fun s => m0 (addr (dOf y) s)) (sOf y) else m0 y).
  { induction l as [|d l IH]; intros m0 Hndl Hl y Hy; cbn [fold_left existsb]; auto.
    inversion Hndl as [|? ? Hni Hnd']; subst.
    assert (Hd : inr shD d) by (apply Hl; cbn; auto).
    rewrite IH; auto; [|intros; apply Hl; cbn; auto]. clear IH.
    assert (Ly : length y = n) by (rewrite (inr_length _ _ Hy); auto).
    destruct (proj1 (inr_split y Ly) Hy) as [Hyd Hys].
    destruct (actOnSlice_spec f (fun s => transposeIdx r (fillIdx V (ordinals n) d s)) shV m0) as [A1 A2].
    { intros s s' Hs Hs'. rewrite !Ead. apply Hinj; auto. }
    assert (Hother : forall d', inr shD d' -> d' <> d -> forall s, inr shV s ->
        actOnSlice f (fun s => transposeIdx r (fillIdx V (ordinals n) d s)) shV m0 (addr d' s) = m0 (addr d' s)).
    { intros d' Hd' Hne s Hs. apply A2. intros s1 Hs1 E. rewrite Ead in E. apply Hne.
      assert (L2 : length d = n - length V) by (rewrite (inr_length _ _ Hd); apply shD_length).
      assert (L2' : length d' = n - length V) by (rewrite (inr_length _ _ Hd'); apply shD_length).
      assert (L1 : length s = length V) by (rewrite (inr_length _ _ Hs); apply shV_length).
      assert (L1' : length s1 = length V) by (rewrite (inr_length _ _ Hs1); apply shV_length).
      destruct (of_addr d s1 L1' L2) as (E1 & _). destruct (of_addr d' s L1 L2') as (E1' & _). congruence. }
    destruct (listnat_eqb_spec (dOf y) d) as [Edy|Edy]; cbn [orb].
    - assert (Hno : existsb (listnat_eqb (dOf y)) l = false).
      { destruct (existsb (listnat_eqb (dOf y)) l) eqn:E; auto. apply existsb_exists in E.
        destruct E as [d' [Hd' E]]. apply listnat_eqb_eq in E. rewrite Edy in E. rewrite <- E in Hd'. contradiction. }
      rewrite Hno. rewrite <- (addr_of y Ly) at 1. rewrite Edy at 1. rewrite <- Ead. rewrite A1 by auto.
      apply Hfext; auto. intros s Hs. now rewrite Ead, Edy.
    - destruct (existsb (listnat_eqb (dOf y)) l) eqn:E.
      + apply Hfext; auto.
      + rewrite <- (addr_of y Ly) at 1. rewrite Hother; auto. now rewrite addr_of. }
  intros y Hy. rewrite Hgen; auto; [|intros d Hd; now apply Hin].
  assert (Ly : length y = n) by (rewrite (inr_length _ _ Hy); auto).
  replace (existsb (listnat_eqb (dOf y)) ds) with true; auto.
  symmetry. apply existsb_exists. exists (dOf y). split; [|apply listnat_eqb_refl].
  apply Hin. now apply (proj1 (inr_split y Ly) Hy).
Qed.
End Act.
End OneShape.

(** ** the slice address is the index with the coordinates V replaced *)
Lemma find_combine_In (V s : list nat) o : length V = length s -> NoDup V -> In o V ->
  exists x, find (fun p => Nat.eqb (fst p) o) (combine V s) = Some (o, x) /\ In (o, x) (combine V s).
Proof.
  revert s; induction V as [|v V IH]; intros [|a s] L Hn Hi; cbn in *; try easy.
  inversion Hn as [|? ? Hni Hn']; subst.
  destruct (Nat.eqb_spec v o) as [->|E].
  - exists a; auto.
  - destruct Hi as [->|Hi]; [contradiction|]. destruct (IH s) as [x [H1 H2]]; auto.
    exists x; auto.
Qed.
Lemma find_combine_nIn (V s : list nat) o : ~ In o V ->
  find (fun p => Nat.eqb (fst p) o) (combine V s) = None.
Proof.
  revert s; induction V as [|v V IH]; intros [|a s] Hi; cbn in *; try easy.
  destruct (Nat.eqb_spec v o) as [->|E]; [tauto|]. apply IH. tauto.
Qed.

Lemma replace_at_length V s y : length (replace_at V s y) = length y.
Proof. unfold replace_at. now rewrite map_length, seq_length. Qed.

Lemma nth_replace_at V s y o : o < length y ->
  nth o (replace_at V s y) 0 =
  match find (fun p => Nat.eqb (fst p) o) (combine V s) with Some (_, x) => x | None => nth o y 0 end.
Proof.
  intros H. unfold replace_at.
  set (h := fun o => match find (fun p => Nat.eqb (fst p) o) (combine V s) with Some (_, x) => x | None => nth o y 0 end).
  rewrite (nth_indep _ 0 (h 0)) by (rewrite map_length, seq_length; lia).
  rewrite (map_nth h). now rewrite seq_nth.
Qed.
Lemma nth_replace_nIn V s y o : ~ In o V -> nth o (replace_at V s y) 0 = nth o y 0.
Proof.
  intros H. destruct (le_lt_dec (length y) o) as [Hl|Hl].
  - rewrite !nth_overflow; auto. now rewrite replace_at_length.
  - rewrite nth_replace_at by auto. now rewrite find_combine_nIn.
Qed.

Lemma replace_coords V s y : NoDup V -> (forall v, In v V -> v < length y) -> length s = length V ->
  map (fun v => nth v (replace_at V s y) 0) V = s.
Proof.
  intros Hn Hb L. apply map_lookup_combine; auto. intros k v Hin.
  assert (Hk : In k V) by (eapply in_combine_l; eauto).
  rewrite nth_replace_at by auto. destruct (find_combine_In V s k) as [x [E Hx]]; auto. rewrite E.
  assert (Hkeys : NoDup (map fst (combine V s))) by (rewrite map_fst_combine; auto).
  now rewrite <- (lookup_In _ _ _ Hkeys Hx), <- (lookup_In _ _ _ Hkeys Hin).
Qed.

Lemma addr_replace n V s y : good_positions n V -> length y = n -> length s = length V ->
  addr n V (dOf n V y) s = replace_at V s y.
Proof.
  intros HV L Ls. apply (element_unique n V (dOf n V y) s).
  - apply addr_element; auto. now apply dOf_length.
  - destruct HV as [H1 H2]. split; [now rewrite replace_at_length|]. split.
    + apply replace_coords; auto. now rewrite L.
    + unfold dOf. rewrite negated_spec. apply map_ext_in. intros o Ho. apply filter_In in Ho.
      destruct Ho as [Ho Hb]. apply nth_replace_nIn. destruct (in_dec Nat.eq_dec o V); easy.
Qed.

Section Lift.
Context {K : StarRing}.
Local Open Scope K_scope.
Add Ring KR : (k_ring K).
Notation shs V sh := (map (fun v => nth v sh 0%nat) V).

Lemma mat_apply_ext (M : list nat -> list nat -> K) sh g g' : (forall s, inr sh s -> g s = g' s) ->
  forall s, inr sh s -> mat_apply M sh g s = mat_apply M sh g' s.
Proof. intros H s Hs. unfold mat_apply. apply isum_ext. intros x Hx. now rewrite H. Qed.

Lemma forEachSlice_lifted fuel (M : list nat -> list nat -> K) V sh psi :
  good_positions (length sh) V -> (forall k, In k sh -> (0 < k)%nat) -> (fold_right Nat.mul 1 sh <= fuel)%nat ->
  exists psi', forEachSlice fuel (mat_apply M (shs V sh)) V sh psi = Some psi' /\
    forall y, inr sh y -> psi' y = lifted_action M V sh psi y.
Proof.
  intros HV Hpos Hf.
  assert (Hle : (fold_right Nat.mul 1 (shD (length sh) V sh) <= fuel)%nat).
  { (* every slice label occurs as the label of some element, labels are distinct *)
    etransitivity; [|exact Hf]. rewrite <- !indices_length.
    set (zero := map (fun _ => 0%nat) V).
    rewrite <- (map_length (fun d => addr (length sh) V d zero)).
    assert (Hz : inr (shV V sh) zero).
    { unfold zero, inr, shV. destruct HV as [_ H2]. clear - H2 Hpos. induction V as [|v V' IH]; cbn; constructor.
      - apply Hpos, nth_In. apply H2; cbn; auto.
      - apply IH. intros; apply H2; cbn; auto. }
    apply NoDup_incl_length.
    - apply NoDup_map_inj; [|apply indices_NoDup]. intros a b Ha Hb E.
      apply in_indices in Ha. apply in_indices in Hb.
      assert (L1 : length a = (length sh - length V)%nat) by (rewrite (inr_length _ _ Ha); now apply shD_length).
      assert (L2 : length b = (length sh - length V)%nat) by (rewrite (inr_length _ _ Hb); now apply shD_length).
      assert (Lz : length zero = length V) by (unfold zero; now rewrite map_length).
      destruct (of_addr _ V HV a zero Lz L1) as (E1 & _). destruct (of_addr _ V HV b zero Lz L2) as (E2 & _). congruence.
    - intros y Hy. apply in_map_iff in Hy. destruct Hy as [d [<- Hd]]. apply in_indices in Hd. apply in_indices.
      now apply addr_inr. }
  destruct (forEachSlice_spec (length sh) V HV sh eq_refl fuel (mat_apply M (shs V sh)) psi) as [m' [E H]]; auto.
  { intros g g' Hg s Hs. now apply mat_apply_ext. }
  exists m'. split; auto. intros y Hy. rewrite H by auto. unfold mat_apply, lifted_action.
  apply isum_ext. intros s Hs. unfold sOf. f_equal. f_equal.
  apply addr_replace; auto.
  - now rewrite (inr_length _ _ Hy).
  - rewrite (inr_length _ _ Hs). apply map_length.
Qed.

Lemma replace_inr V sh s y : good_positions (length sh) V -> inr sh y -> inr (shs V sh) s -> inr sh (replace_at V s y).
Proof.
  intros HV Hy Hs.
  assert (Ly : length y = length sh) by now rewrite (inr_length _ _ Hy).
  rewrite <- (addr_replace (length sh)); auto.
  - apply addr_inr; auto. now apply (proj1 (inr_split (length sh) V HV sh eq_refl y Ly)).
  - rewrite (inr_length _ _ Hs). apply map_length.
Qed.

Lemma replace_comm V1 V2 s1 s2 y : (forall v, In v V1 -> In v V2 -> False) ->
  replace_at V2 s2 (replace_at V1 s1 y) = replace_at V1 s1 (replace_at V2 s2 y).
Proof.
  intros Hd. apply (nth_ext _ _ 0%nat 0%nat); [now rewrite !replace_at_length|].
  rewrite !replace_at_length. intros o Ho.
  destruct (in_dec Nat.eq_dec o V1) as [H1|H1].
  - assert (H2 : ~ In o V2) by eauto. rewrite (nth_replace_nIn V2) by auto.
    rewrite !nth_replace_at by now rewrite ?replace_at_length.
    destruct (find _ (combine V1 s1)) as [[? ?]|]; auto. now rewrite find_combine_nIn.
  - rewrite (nth_replace_nIn V1) by auto.
    rewrite !nth_replace_at by now rewrite ?replace_at_length.
    destruct (find _ (combine V2 s2)) as [[? ?]|]; auto. now rewrite find_combine_nIn.
Qed.

Lemma lifted_ext (M : list nat -> list nat -> K) V sh p p' : good_positions (length sh) V ->
  (forall y, inr sh y -> p y = p' y) -> forall y, inr sh y -> lifted_action M V sh p y = lifted_action M V sh p' y.
Proof.
  intros HV H y Hy. unfold lifted_action. apply isum_ext. intros s Hs. f_equal. apply H. now apply replace_inr.
Qed.

Lemma lifted_comm (M1 M2 : list nat -> list nat -> K) V1 V2 sh p y :
  (forall v, In v V1 -> In v V2 -> False) ->
  lifted_action M1 V1 sh (lifted_action M2 V2 sh p) y = lifted_action M2 V2 sh (lifted_action M1 V1 sh p) y.
Proof.
  intros Hd. unfold lifted_action.
  rewrite (isum_ext (shs V1 sh) _ (fun s1 => isum (shs V2 sh) (fun s2 =>
     M1 (map (fun v => nth v y 0%nat) V1) s1 * (M2 (map (fun v => nth v y 0%nat) V2) s2 * p (replace_at V2 s2 (replace_at V1 s1 y)))))).
  2:{ intros s1 _. rewrite isum_scal_l. f_equal. apply isum_ext. intros s2 _. f_equal. f_equal.
      apply map_ext_in. intros v Hv. apply nth_replace_nIn. eauto. }
  rewrite isum_swap. apply isum_ext. intros s2 _. rewrite <- isum_scal_l. apply isum_ext. intros s1 _.
  rewrite replace_comm by auto.
  replace (map (fun v => nth v (replace_at V2 s2 y) 0%nat) V1) with (map (fun v => nth v y 0%nat) V1).
  - ring.
  - apply map_ext_in. intros v Hv. symmetry. apply nth_replace_nIn. eauto.
Qed.

Lemma forEachSlice_comm fuel (M1 M2 : list nat -> list nat -> K) V1 V2 sh psi :
  good_positions (length sh) V1 -> good_positions (length sh) V2 -> (forall v, In v V1 -> In v V2 -> False) ->
  (forall k, In k sh -> (0 < k)%nat) -> (fold_right Nat.mul 1 sh <= fuel)%nat ->
  exists p1 p12 p2 p21,
    forEachSlice fuel (mat_apply M1 (shs V1 sh)) V1 sh psi = Some p1 /\
    forEachSlice fuel (mat_apply M2 (shs V2 sh)) V2 sh p1 = Some p12 /\
    forEachSlice fuel (mat_apply M2 (shs V2 sh)) V2 sh psi = Some p2 /\
    forEachSlice fuel (mat_apply M1 (shs V1 sh)) V1 sh p2 = Some p21 /\
    forall y, inr sh y -> p12 y = p21 y.
Proof.
  intros HV1 HV2 Hd Hpos Hf.
  destruct (forEachSlice_lifted fuel M1 V1 sh psi) as [p1 [E1 H1]]; auto.
  destruct (forEachSlice_lifted fuel M2 V2 sh p1) as [p12 [E12 H12]]; auto.
  destruct (forEachSlice_lifted fuel M2 V2 sh psi) as [p2 [E2 H2]]; auto.
  destruct (forEachSlice_lifted fuel M1 V1 sh p2) as [p21 [E21 H21]]; auto.
  exists p1, p12, p2, p21. repeat split; auto. intros y Hy.
  rewrite H12, H21 by auto.
  rewrite (lifted_ext M2 V2 sh p1 (lifted_action M1 V1 sh psi)); auto.
  rewrite (lifted_ext M1 V1 sh p2 (lifted_action M2 V2 sh psi)); auto.
  symmetry. now apply lifted_comm.
Qed.
End Lift.

(** partition *)
Lemma slice_partition n V sh : good_positions n V -> length sh = n ->
  let sV := map (fun v => nth v sh 0) V in
  let sD := map (fun o => nth o sh 0) (filter (fun o => if in_dec Nat.eq_dec o V then false else true) (seq 0 n)) in
  (forall d s, inr sD d -> inr sV s -> exists y, sliceAddr n V d s = Some y /\ is_element n V d s y /\ inr sh y) /\
  (forall y, inr sh y -> exists d s, inr sD d /\ inr sV s /\ sliceAddr n V d s = Some y /\
     forall d' s', inr sD d' -> inr sV s' -> sliceAddr n V d' s' = Some y -> d' = d /\ s' = s).
Proof.
  intros HV Hsh sV sD.
  assert (ED : sD = shD n V sh) by (unfold sD, shD; now rewrite negated_spec). rewrite ED. clear ED sD.
  change sV with (shV V sh). clear sV.
  assert (LS : forall s, inr (shV V sh) s -> length s = length V)
    by (intros s Hs; rewrite (inr_length _ _ Hs); unfold shV; apply map_length).
  assert (LD : forall d, inr (shD n V sh) d -> length d = n - length V)
    by (intros d Hd; rewrite (inr_length _ _ Hd); now apply shD_length).
  split.
  - intros d s Hd Hs. destruct (sliceAddr_element n V HV d s) as [y [E H]]; auto.
    exists y. repeat split; try apply H; auto.
    replace y with (addr n V d s) by (unfold addr; now rewrite E). now apply addr_inr.
  - intros y Hy. assert (Ly : length y = n) by now rewrite (inr_length _ _ Hy).
    destruct (proj1 (inr_split n V HV sh Hsh y Ly) Hy) as [H1 H2].
    exists (dOf n V y), (sOf V y). split; [|split]; auto.
    destruct (sliceAddr_element n V HV (dOf n V y) (sOf V y)) as [y' [E H]]; auto.
    assert (y' = y). { apply (element_unique n V (dOf n V y) (sOf V y)); auto. now apply element_self. } subst y'.
    split; auto. intros d' s' Hd' Hs' E'.
    destruct (sliceAddr_element n V HV d' s') as [y' [E'' (_ & Hs2 & Hd2)]]; auto.
    assert (y' = y) by congruence. subst y'. rewrite <- negated_spec in Hd2. unfold dOf, sOf. auto.
Qed.

Lemma dummies_all n V sh fuel : good_positions n V -> length sh = n ->
  (forall m, In m sh -> 0 < m) -> fold_right Nat.mul 1 sh <= fuel ->
  exists ds, dummies fuel n V sh = Some ds /\ NoDup ds /\
   forall d, In d ds <-> inr (map (fun o => nth o sh 0) (filter (fun o => if in_dec Nat.eq_dec o V then false else true) (seq 0 n))) d.
Proof.
  intros HV Hsh Hpos Hf.
  destruct (dummies_ok n V HV sh Hsh fuel Hpos) as [ds (E & H1 & H2)].
  { etransitivity; [|exact Hf]. unfold shD. pose proof (filter_perm_V n V HV).
    assert (Hp : Permutation sh (map (fun o => nth o sh 0) (V ++ negated n V))).
    { transitivity (map (fun o => nth o sh 0) (seq 0 n)).
      - assert (Es : sh = map (fun o => nth o sh 0) (seq 0 n)); [|rewrite <- Es; reflexivity].
        apply (nth_ext _ _ 0 0); [rewrite map_length, seq_length; lia|].
        intros i Hi. rewrite (nth_indep (map _ _) 0 (nth 0 sh 0)) by (rewrite map_length, seq_length; lia).
        rewrite (map_nth (fun o => nth o sh 0)). now rewrite seq_nth by lia.
      - apply Permutation_map. destruct (transposer_perm n V HV) as [r [Er Pr]].
        destruct (meta_perm V (seq 0 n) V (map (fun _ => 0) (negated n V)) V) as [r' (Er' & _ & _ & P1 & _)]; auto.
        + now apply Permutation_length.
        + now rewrite map_length.
        + unfold transposer, ordinals in Er. assert (r' = r) by congruence. subst r'. now rewrite <- Pr. }
    assert (Hprod : forall l l', Permutation l l' -> fold_right Nat.mul 1 l = fold_right Nat.mul 1 l')
      by (induction 1; cbn; lia).
    rewrite (Hprod _ _ Hp), map_app, fold_right_app.
    assert (Hge : forall l x, (forall m, In m l -> 0 < m) -> x <= fold_right Nat.mul x l).
    { induction l as [|m l IH]; intros x Hl; cbn; auto. assert (0 < m) by (apply Hl; cbn; auto).
      assert (x <= fold_right Nat.mul x l) by (apply IH; intros; apply Hl; cbn; auto). nia. }
    apply Hge. intros m Hm. apply in_map_iff in Hm. destruct Hm as [v [<- Hv]]. apply Hpos, nth_In.
    destruct HV as [_ Hb]. rewrite Hsh. auto. }
  exists ds. repeat split; auto.
  - intros Hd. apply H2 in Hd. unfold shD in Hd. now rewrite negated_spec in Hd.
  - intros Hd. apply H2. unfold shD. now rewrite negated_spec.
Qed.
