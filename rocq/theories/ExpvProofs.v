(** Proofs for ExpvProperties.v *)
From Coq Require Import List Arith Bool Lia.
From Verif Require Import ExpvModel ExpvSpec.
Import ListNotations.

Section Dict.
Context {Key Val : Type}.
Variable keyEq : Key -> Key -> bool.
Hypothesis keyEq_ok : forall a b, keyEq a b = true <-> a = b.
Notation same := (same keyEq).
Lemma keyEq_refl k : keyEq k k = true. Proof. now apply keyEq_ok. Qed.
Lemma keyEq_neq a b : a <> b -> keyEq a b = false. Proof. intros H. destruct (keyEq a b) eqn:E; auto. apply keyEq_ok in E. contradiction. Qed.
Lemma key_cases (a b : Key) : {a = b} + {a <> b}. Proof. destruct (keyEq a b) eqn:E; [left; now apply keyEq_ok|right; intros ->; rewrite keyEq_refl in E; discriminate]. Qed.
Lemma lookup_in (m : list (Key * Val)) k : lookup keyEq m k = None <-> ~ In k (map fst m).
Proof.
  induction m as [|[k' v] m IH]; cbn; [tauto|]. destruct (key_cases k' k) as [->|N]; [rewrite keyEq_refl; split; [discriminate|tauto]|rewrite keyEq_neq by exact N; rewrite IH; tauto].
Qed.
Lemma assign_keys (m : list (Key * Val)) k v : map fst (assign keyEq m k v) = match lookup keyEq m k with Some _ => map fst m | None => map fst m ++ [k] end.
Proof. induction m as [|[k' v'] m IH]; cbn; [reflexivity|]. destruct (keyEq k' k); cbn; [reflexivity|]. rewrite IH. destruct (lookup keyEq m k); reflexivity. Qed.
Lemma assign_lookup (m : list (Key * Val)) k v k' : lookup keyEq (assign keyEq m k v) k' = if keyEq k' k then Some v else lookup keyEq m k'.
Proof.
  induction m as [|[k0 v0] m IH]; cbn.
  - destruct (key_cases k k') as [->|N]; [now rewrite keyEq_refl|]. rewrite keyEq_neq by exact N. now rewrite (keyEq_neq k' k) by congruence.
  - destruct (key_cases k0 k) as [->|N].
    + rewrite keyEq_refl. cbn. destruct (key_cases k k') as [->|N']; [now rewrite keyEq_refl|]. rewrite keyEq_neq by exact N'. now rewrite (keyEq_neq k' k) by congruence.
    + rewrite (keyEq_neq k0 k) by exact N. cbn. rewrite IH. destruct (key_cases k0 k') as [->|N']; [rewrite keyEq_refl; now rewrite keyEq_neq|now rewrite (keyEq_neq k0 k') by exact N'].
Qed.
Lemma erase_lookup (m : list (Key * Val)) k k' : lookup keyEq (erase keyEq m k) k' = if keyEq k' k then None else lookup keyEq m k'.
Proof.
  induction m as [|[k0 v0] m IH]; cbn; [now destruct (keyEq k' k)|]. destruct (key_cases k0 k) as [->|N].
  - rewrite keyEq_refl. cbn. unfold erase in IH. rewrite IH. destruct (key_cases k' k) as [->|N']; [now rewrite keyEq_refl|]. rewrite keyEq_neq by exact N'. now rewrite (keyEq_neq k k') by congruence.
  - rewrite keyEq_neq by exact N. cbn. unfold erase in IH. rewrite IH. destruct (key_cases k0 k') as [->|N']; [rewrite keyEq_refl; now rewrite keyEq_neq|now rewrite (keyEq_neq k0 k')].
Qed.
Lemma erase_keys (m : list (Key * Val)) k : NoDup (map fst m) -> map fst (erase keyEq m k) = removeFirst keyEq k (map fst m).
Proof.
  induction m as [|[k0 v0] m IH]; cbn; [reflexivity|]. intros H. inversion H as [|? ? Hn Hd]; subst. destruct (key_cases k0 k) as [->|N].
  - rewrite keyEq_refl. cbn. clear IH. induction m as [|[k1 v1] m IHm]; cbn; [reflexivity|]. cbn in Hn. rewrite keyEq_neq by (intros ->; tauto). cbn. f_equal. inversion Hd as [|? ? Hn' Hd']; subst. assert (Hk : ~ In k (map fst m)) by (intros Hc; apply Hn; now right). apply IHm; first [assumption | constructor; assumption].
  - rewrite keyEq_neq by exact N. cbn. f_equal. now apply IH.
Qed.
Lemma assign_nodup (m : list (Key * Val)) k v : NoDup (map fst m) -> NoDup (map fst (assign keyEq m k v)).
Proof.
  intros H. rewrite assign_keys. destruct (lookup keyEq m k) eqn:E; [exact H|]. apply lookup_in in E. apply NoDup_rev in H. rewrite <- (rev_involutive (map fst m ++ [k])). apply NoDup_rev. rewrite rev_app_distr. cbn. constructor; [now rewrite <- in_rev|exact H].
Qed.
Lemma erase_nodup (m : list (Key * Val)) k : NoDup (map fst m) -> NoDup (map fst (erase keyEq m k)).
Proof.
  intros H. induction m as [|[k0 v0] m IH]; cbn; [constructor|]. inversion H as [|? ? Hn Hd]; subst. destruct (negb (keyEq k0 k)); cbn; [|now apply IH]. constructor; [|now apply IH].
  intros Hi. apply Hn. apply in_map_iff in Hi as ([a b] & E & Hi). apply filter_In in Hi as [Hi _]. apply in_map_iff. now exists (a, b).
Qed.
Definition refines (d : odict Key Val) (m : list (Key * Val)) : Prop := same d m /\ NoDup (map fst m).
Lemma has_lookup (d : odict Key Val) m k : same d m -> has d k = match lookup keyEq m k with Some _ => true | None => false end.
Proof. intros [_ H]. unfold has. unfold dictGet in H. now rewrite H. Qed.
Lemma step (d : odict Key Val) m a : refines d m -> refines (orSame d (doOn keyEq d a)) (orSame m (actOn keyEq m a)) /\ (doOn keyEq d a = None <-> actOn keyEq m a = None).
Proof.
  intros [S N]. pose proof S as [S1 S2]. destruct a as [k v|k]; cbn [doOn actOn orSame].
  - split; [|split; discriminate]. split; [|now apply assign_nodup]. split.
    + unfold dictSet. cbn [dKeys]. rewrite (has_lookup d m k S), assign_keys, S1. destruct (lookup keyEq m k); reflexivity.
    + intros k'. unfold dictGet, dictSet. cbn [dData]. rewrite assign_lookup. destruct (keyEq k' k); [reflexivity|apply S2].
  - unfold dictDel. rewrite (has_lookup d m k S). destruct (lookup keyEq m k) eqn:E; cbn [orSame]; [|split; [split; assumption|tauto]].
    split; [|split; discriminate]. split; [|now apply erase_nodup]. split.
    + cbn [dKeys]. rewrite S1, erase_keys by exact N. reflexivity.
    + intros k'. unfold dictGet. cbn [dData]. rewrite erase_lookup. destruct (keyEq k' k); [reflexivity|apply S2].
Qed.
Lemma all l : forall d m, refines d m -> refines (doAll keyEq d l) (actAll keyEq m l).
Proof. unfold doAll, actAll. induction l as [|a l IH]; intros d m H; [exact H|]. cbn [fold_left]. apply IH. now apply step. Qed.
Lemma dict_refines (l : list (action Key Val)) a : same (doAll keyEq dictNew l) (actAll keyEq [] l) /\ NoDup (dKeys (doAll keyEq dictNew l)) /\
  (doOn keyEq (doAll keyEq dictNew l) a = None <-> actOn keyEq (actAll keyEq [] l) a = None).
Proof.
  assert (R : refines (doAll keyEq dictNew l) (actAll keyEq [] l)) by (apply all; repeat split; constructor). pose proof R as [S N]. split; [exact S|]. split; [destruct S as [-> _]; exact N|]. now apply step.
Qed.
End Dict.

Section Values.
Context {X T S : Type}.
Variable unknown : S.
Notation evc := (@evc X T S).
Notation evt := (@evt X T S).
Definition titleFor (own given : option S) : S := match orElse given own with Some t => t | None => unknown end.
Lemma combine_trajs (time : option (list T)) : forall (data : list evt) titles, length data <= length titles ->
  map eData (map (fun p => newEvt (fst p) time (snd p)) (combine data titles)) = map eData data /\
  map (shownTitle unknown) (map (fun p => newEvt (fst p) time (snd p)) (combine data titles)) = map (fun p => titleFor (eTitle (fst p)) (snd p)) (combine data titles).
Proof.
  induction data as [|e data IH]; intros [|t titles] H; cbn in H; try lia; [split; reflexivity|split; reflexivity|]. cbn [combine map fst snd]. destruct (IH titles ltac:(lia)) as [A B]. rewrite A, B. split; reflexivity.
Qed.
Lemma collection (data : list evt) own time titles : exists l, titled unknown (newCollection data own time titles) l /\
  cRows (newCollection data own time titles) = map eData data /\ cTime (newCollection data own time titles) = orElse time own /\
  forall i e, nth_error data i = Some e -> nth_error l i = Some (titleFor (eTitle e) (nth i titles None)).
Proof.
  set (ts := titles ++ repeat None (length data - length titles)). assert (L : length data <= length ts) by (unfold ts; rewrite app_length, repeat_length; lia).
  destruct (combine_trajs time data ts L) as [A B]. exists (map (fun p => titleFor (eTitle (fst p)) (snd p)) (combine data ts)). split; [|split; [reflexivity|split; [reflexivity|]]].
  - eexists. split; [reflexivity|]. split; [exact A|]. split; [unfold titlesOf, newCollection; cbn [cTrajs]; fold ts; now rewrite B|]. cbn [newCollection cRows]. rewrite !map_length, combine_length. lia.
  - intros i e Hi. rewrite nth_error_map. assert (N : nth_error ts i = Some (nth i titles None)).
    { assert (Hl : i < length data) by (apply nth_error_Some; congruence). unfold ts. destruct (Nat.lt_ge_cases i (length titles)) as [H|H].
      - rewrite nth_error_app1 by exact H. now apply nth_error_nth'.
      - rewrite nth_error_app2 by exact H. rewrite (nth_overflow titles) by exact H. apply nth_error_repeat. lia. }
    clearbody ts. clear A B L. set (t0 := nth i titles None) in *. clearbody t0. revert ts i Hi N. induction data as [|a data IH]; intros ts i Hi N; [destruct i; discriminate|]. destruct ts as [|t ts]; [destruct i; discriminate|]. destruct i as [|i]; cbn in *; [congruence|]. now apply IH.
Qed.
Lemma collection_times (data : list evt) own time titles trajs : cTrajs (newCollection data own time titles) = Some trajs ->
  length trajs = length data /\ forall i e, nth_error data i = Some e -> exists t, nth_error trajs i = Some t /\ eTime t = match time with Some ts => Some ts | None => eTime e end.
Proof.
  unfold newCollection. cbn [cTrajs]. set (ts := titles ++ repeat None (length data - length titles)). assert (L : length data <= length ts) by (unfold ts; rewrite app_length, repeat_length; lia).
  intros [= <-]. clearbody ts. split; [rewrite map_length, combine_length; lia|]. revert ts L. induction data as [|a data IH]; intros [|t ts] L [|i] e Hi; cbn in *; try discriminate; try lia.
  - injection Hi as ->. eexists. split; [reflexivity|]. destruct time; reflexivity.
  - apply IH; [lia|exact Hi].
Qed.
Lemma slice_length {A} a b (l : list A) : length (slice a b l) = Nat.min (b - a) (length l - a).
Proof. unfold slice. now rewrite firstn_length, skipn_length. Qed.
Lemma firstn_map' {A B} (f : A -> B) n l : firstn n (map f l) = map f (firstn n l). Proof. revert l. induction n; intros [|x l]; cbn; [reflexivity..|]. now rewrite IHn. Qed.
Lemma skipn_map' {A B} (f : A -> B) n l : skipn n (map f l) = map f (skipn n l). Proof. revert l. induction n; intros [|x l]; cbn; [reflexivity..|]. now rewrite IHn. Qed.
Lemma shown_subsystem (time : option (list T)) : forall (data : list evt) (ts : list S), length data = length ts ->
  map (shownTitle unknown) (map (fun p => newEvt (fst p) time (snd p)) (combine data (map Some ts))) = ts.
Proof. induction data as [|e data IH]; intros [|t ts] H; cbn in H; try lia; [reflexivity|]. cbn. f_equal. apply IH. lia. Qed.
Lemma sub_titled (c : evc) ts a b : titled unknown c ts -> exists s, subsystem unknown c a b = Some s /\ titled unknown s (slice a b ts) /\ cRows s = slice a b (cRows c) /\ cTime s = cTime c.
Proof.
  intros (l & E1 & E2 & E3 & E4). unfold subsystem. rewrite E3. eexists. split; [reflexivity|].
  set (data := rowsOf (sliceRows a b c)). assert (R : map eData data = slice a b (cRows c)). { unfold data, rowsOf, sliceRows. cbn [cRows cTime]. rewrite map_map. cbn. apply map_id. }
  assert (L : length data = length (slice a b ts)). { rewrite <- (map_length eData), R, !slice_length. lia. }
  split; [|split; [exact R|unfold newCollection; cbn [cTime]; destruct (cTime c); reflexivity]].
  eexists. split; [reflexivity|]. cbn [newCollection cRows]. rewrite map_length, L, Nat.sub_diag. cbn [repeat]. rewrite app_nil_r. split; [|split].
  - apply combine_trajs. rewrite map_length. lia.
  - unfold titlesOf. cbn [cTrajs newCollection]. rewrite map_length, L, Nat.sub_diag. cbn [repeat]. rewrite app_nil_r. f_equal. apply shown_subsystem. exact L.
  - rewrite map_length. lia.
Qed.
Lemma one_titled (e : evt) time : titled unknown (newFromOne e time) [shownTitle unknown e].
Proof. exists [e]. repeat split; reflexivity. Qed.
Lemma views_untitled (c : evc) f a b : titlesOf unknown (sliceRows a b c) = None /\ titlesOf unknown (sliceTimes a b c) = None /\ titlesOf unknown (mapped f c) = None.
Proof. repeat split. Qed.
Lemma views_untimed (c : evc) ts r a b : timed c -> cTime c = Some ts -> In r (cRows c) -> b - a < length ts -> ~ timed (sliceTimes a b c).
Proof.
  intros H Ht Hr Hb H'. specialize (H' ts (slice a b r) Ht). cbn [sliceTimes cRows] in H'. specialize (H' (in_map _ _ _ Hr)). rewrite slice_length, (H ts r Ht Hr) in H'. lia.
Qed.
Lemma in_place_stale (c : evc) f ts : titled unknown c ts -> map (map f) (cRows c) <> cRows c -> forall l, cTrajs (inPlace f c) = Some l -> map eData l <> cRows (inPlace f c).
Proof. intros (l0 & E1 & E2 & _) Hf l El. unfold inPlace in *. cbn [cTrajs cRows] in *. rewrite E1 in El. injection El as <-. rewrite E2. congruence. Qed.
End Values.
Lemma collection_titles {X T S : Type} (unknown : S) (data : list (@evt X T S)) own time titles : exists l, titled unknown (newCollection data own time titles) l /\
  cRows (newCollection data own time titles) = map eData data /\ cTime (newCollection data own time titles) = orElse time own /\
  forall i e, nth_error data i = Some e -> nth_error l i = Some (match nth i titles None with Some t => t | None => shownTitle unknown e end).
Proof.
  destruct (collection unknown data own time titles) as (l & A & B & C & D). exists l. repeat split; try assumption. intros i e H. rewrite (D i e H). unfold titleFor, shownTitle. destruct (nth i titles None); reflexivity.
Qed.
Lemma views {X T S : Type} (unknown : S) (c : @evc X T S) titles : titled unknown c titles ->
  (forall f a b, titlesOf unknown (sliceRows a b c) = None /\ titlesOf unknown (sliceTimes a b c) = None /\ titlesOf unknown (mapped f c) = None) /\
  (forall ts r a b, timed c -> cTime c = Some ts -> In r (cRows c) -> b - a < length ts -> ~ timed (sliceTimes a b c)) /\
  (forall f, map (map f) (cRows c) <> cRows c -> forall l, cTrajs (inPlace f c) = Some l -> map eData l <> cRows (inPlace f c)).
Proof. intros H. split; [intros f a b; apply views_untitled|]. split; [intros ts r a b; apply views_untimed|]. intros f Hf. now apply (in_place_stale unknown c f titles). Qed.
