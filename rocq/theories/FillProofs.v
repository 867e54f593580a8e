(** Construction of composites, their highest frequency. *)
From Coq Require Import List Arith NArith Reals Lra Lia Bool String.
From Verif Require Import Star CReal Arr CompositeModel CompositeSpec CompositeFacts.
Import ListNotations.
Local Notation len := List.length.
Local Open Scope list_scope.

Definition setAt (idx f : nat) (res : list (option nat)) : list (option nat) := firstn idx res ++ Some f :: skipn (S idx) res.
Lemma setAt_len idx f res : idx < len res -> len (setAt idx f res) = len res.
Proof. intros H. unfold setAt. rewrite app_length, firstn_length. cbn [len]. rewrite skipn_length. lia. Qed.
Lemma setAt_nth idx f res k : idx < len res -> nth k (setAt idx f res) None = if Nat.eqb k idx then Some f else nth k res None.
Proof.
  intros H. unfold setAt. assert (L : len (firstn idx res) = idx) by (rewrite firstn_length; lia).
  destruct (Nat.eqb_spec k idx) as [->|N].
  - rewrite app_nth2 by lia. rewrite L, Nat.sub_diag. reflexivity.
  - destruct (Nat.lt_ge_cases k idx).
    + rewrite app_nth1 by lia. rewrite <- (firstn_skipn idx res) at 2. now rewrite app_nth1 by lia.
    + rewrite app_nth2 by lia. rewrite L. destruct (k - idx) as [|m] eqn:E; [lia|]. cbn [nth].
      rewrite <- (firstn_skipn (S idx) res) at 2. rewrite app_nth2; rewrite firstn_length_le by lia; [f_equal; lia|lia].
Qed.

(** what is known of the table *)
Definition agrees (seen : list (nat * nat)) (res : list (option nat)) : Prop :=
  forall k f, nth k res None = Some f <-> (k < len res /\ In (k, f) seen).
Lemma fillOne_spec act : forall i seen res, agrees seen res -> (forall k f, In (k, f) act -> k < len res) ->
  match fillOne act i res with
  | Filled r => len r = len res /\ agrees (seen ++ act) r /\
      (forall k f f', In (k, f) act -> In (k, f') (seen ++ act) -> f = f')
  | Inconsistent idx j => exists p f f', i <= j /\ nth_error act (j - i) = Some (idx, f) /\ p = firstn (j - i) act /\ In (idx, f') (seen ++ p) /\ f <> f'
  end.
Proof.
  induction act as [|[idx fr] act IH]; intros i seen res A B; cbn [fillOne].
  - split; [reflexivity|]. split; [now rewrite app_nil_r|]. intros k f f' [].
  - assert (Hk : idx < len res) by (apply (B idx fr); now left).
    assert (Next : forall res', agrees (seen ++ [(idx, fr)]) res' -> len res' = len res -> (forall f', In (idx, f') seen -> f' = fr) ->
      match fillOne act (S i) res' with
      | Filled r => len r = len res /\ agrees (seen ++ (idx, fr) :: act) r /\
          (forall k f f', In (k, f) ((idx, fr) :: act) -> In (k, f') (seen ++ (idx, fr) :: act) -> f = f')
      | Inconsistent idx' j => exists p f f', i <= j /\ nth_error ((idx, fr) :: act) (j - i) = Some (idx', f) /\
          p = firstn (j - i) ((idx, fr) :: act) /\ In (idx', f') (seen ++ p) /\ f <> f'
      end).
    { intros res' A' L' U. specialize (IH (S i) _ res' A'). rewrite L' in IH. specialize (IH (fun k f H => B k f (or_intror H))).
      destruct (fillOne act (S i) res') as [idx' j|r].
      - destruct IH as (p & f & f' & H1 & H2 & H3 & H4 & H5). exists ((idx, fr) :: p), f, f'. replace (j - i) with (S (j - S i)) by lia. cbn [nth_error firstn].
        rewrite <- app_assoc in H4. cbn [app] in H4. repeat split; auto; [lia|now rewrite <- H3].
      - destruct IH as (H1 & H2 & H3). rewrite <- app_assoc in H2, H3. cbn [app] in H2, H3. split; [congruence|]. split; [exact H2|].
        intros k f f' [E|Hin] Hin'; [|now apply (H3 k)]. injection E as <- <-.
        apply in_app_or in Hin'. destruct Hin' as [Hs|[E|Ha]]; [symmetry; now apply U|congruence|].
        symmetry. apply (H3 idx); auto. apply in_or_app. right. now left. }
    destruct (nth idx res None) as [f|] eqn:E.
    + apply A in E. destruct E as [_ E]. destruct (Nat.eqb_spec f fr) as [->|N].
      * apply Next; auto.
        -- intros k f. rewrite (A k f). split; intros [H1 H2]; (split; [auto|]); [apply in_or_app; now left|]. apply in_app_or in H2. destruct H2 as [H2|[H2|[]]]; auto. injection H2 as <- <-. auto.
        -- intros f' Hf'. assert (E1 : nth idx res None = Some f') by (apply A; auto). assert (E2 : nth idx res None = Some fr) by (apply A; auto). congruence.
      * exists [], fr, f. rewrite Nat.sub_diag. cbn. rewrite app_nil_r. repeat split; auto.
    + fold (setAt idx fr res). apply Next; [|now apply setAt_len|].
      * intros k f. rewrite setAt_nth by auto. rewrite setAt_len by auto. destruct (Nat.eqb_spec k idx) as [->|N].
        -- split; [intros [= <-]; split; auto; apply in_or_app; right; now left|]. intros [_ H]. apply in_app_or in H. destruct H as [H|[H|[]]]; [|congruence].
           assert (E1 : nth idx res None = Some f) by (apply A; auto). congruence.
        -- rewrite (A k f). split; intros [H1 H2]; (split; [auto|]); [apply in_or_app; now left|]. apply in_app_or in H2. destruct H2 as [H2|[H2|[]]]; auto. congruence.
      * intros f' Hf'. assert (E1 : nth idx res None = Some f') by (apply A; auto). congruence.
Qed.

Lemma fillAll_spec acts : forall seen res, agrees seen res -> (forall a k f, In a acts -> In (k, f) a -> k < len res) ->
  match fillAll acts res with
  | Filled r => len r = len res /\ agrees (seen ++ List.concat acts) r /\
      (forall k f f', In (k, f) (List.concat acts) -> In (k, f') (seen ++ List.concat acts) -> f = f')
  | Inconsistent idx i => exists before a after f f', acts = before ++ a :: after /\ nth_error a i = Some (idx, f) /\
      In (idx, f') (seen ++ List.concat before ++ firstn i a) /\ f <> f'
  end.
Proof.
  induction acts as [|a acts IH]; intros seen res A B; cbn [fillAll List.concat].
  - split; [reflexivity|]. split; [now rewrite app_nil_r|]. intros k f f' [].
  - pose proof (fillOne_spec a 0 seen res A (fun k f H => B a k f (or_introl eq_refl) H)) as F.
    destruct (fillOne a 0 res) as [idx j|r].
    + destruct F as (p & f & f' & _ & H2 & H3 & H4 & H5). rewrite Nat.sub_0_r in *. exists [], a, acts, f, f'. cbn. subst p. auto.
    + destruct F as (L & A' & U). specialize (IH _ r A'). rewrite L in IH. specialize (IH (fun a' k f H1 H2 => B a' k f (or_intror H1) H2)).
      destruct (fillAll acts r) as [idx i|r'].
      * destruct IH as (before & a' & after & f & f' & -> & H2 & H3 & H4). exists (a :: before), a', after, f, f'. cbn [List.concat app].
        rewrite <- app_assoc in H3. rewrite <- app_assoc. auto.
      * destruct IH as (L' & A'' & U'). rewrite <- app_assoc in A'', U'. split; [congruence|]. split; [exact A''|].
        intros k f f' Hin Hin'. apply in_app_or in Hin. destruct Hin as [Hin|Hin]; [|now apply (U' k)].
        rewrite app_assoc in Hin'. apply in_app_or in Hin'. destruct Hin' as [Hin'|Hin']; [now apply (U k)|].
        symmetry. apply (U' k); auto. apply in_or_app. right. apply in_or_app. now left.
Qed.
Lemma list_max_ge l x : In x l -> x <= list_max l.
Proof. intros H. assert (F : Forall (fun k => k <= list_max l) l) by (apply list_max_le; lia). rewrite Forall_forall in F. auto. Qed.
Lemma maxRank_ge acts a k f : In a acts -> In (k, f) a -> k <= maxRank acts.
Proof.
  intros H1 H2. transitivity (list_max (map fst a)); [apply list_max_ge; apply in_map_iff; exists (k, f); auto|].
  unfold maxRank. apply list_max_ge. apply in_map_iff. eauto.
Qed.
Lemma list_max_in l : l <> [] -> In (list_max l) l.
Proof.
  induction l as [|a l IH]; [congruence|]. intros _. cbn [list_max fold_right]. change (fold_right Nat.max 0 l) with (list_max l). destruct l as [|b l].
  - left. cbn. lia.
  - destruct (Nat.max_spec a (list_max (b :: l))) as [[_ ->]|[_ ->]]; [right; apply IH; discriminate|now left].
Qed.

Lemma fill_fact acts :
  match fillFrees acts with
  | Filled l => consistent acts /\ len l = S (maxRank acts) /\ forall idx f, nth idx l None = Some f <-> In (idx, f) (List.concat acts)
  | Inconsistent idx i => ~ consistent acts /\ exists before a after f f', acts = before ++ a :: after /\ nth_error a i = Some (idx, f) /\
      In (idx, f') (List.concat before ++ firstn i a) /\ f <> f'
  end.
Proof.
  assert (A : agrees [] (repeat None (S (maxRank acts)))).
  { intros k f. split; [|intros [_ []]]. intros H. exfalso.
    destruct (Nat.lt_ge_cases k (S (maxRank acts))); [rewrite nth_repeat in H; discriminate|rewrite nth_overflow in H; [discriminate|rewrite repeat_length; auto]]. }
  assert (B : forall a k f, In a acts -> In (k, f) a -> k < len (repeat (@None nat) (S (maxRank acts)))).
  { intros a k f H1 H2. rewrite repeat_length. pose proof (maxRank_ge acts a k f H1 H2). lia. }
  pose proof (fillAll_spec acts [] _ A B) as F. unfold fillFrees. destruct (fillAll acts _) as [idx i|l].
  - destruct F as (before & a & after & f & f' & E & H1 & H2 & H3). cbn [app] in H2. split; [|exists before, a, after, f, f'; auto].
    intros C. apply H3. apply (C idx).
    + rewrite E, concat_app. cbn [List.concat]. apply in_or_app. right. apply in_or_app. left. eapply nth_error_In; eauto.
    + rewrite E, concat_app. cbn [List.concat]. apply in_app_or in H2. apply in_or_app. destruct H2 as [H2|H2]; [now left|right]. apply in_or_app. left.
      rewrite <- (firstn_skipn i a). apply in_or_app. now left.
  - destruct F as (L & A' & U). rewrite repeat_length in L. cbn [app] in A', U. split; [exact U|]. split; [exact L|].
    intros k f. rewrite (A' k f). split; [tauto|]. intros H. split; [|exact H]. apply in_concat in H. destruct H as (a & Ha & H). rewrite L. pose proof (maxRank_ge acts a k f Ha H). lia.
Qed.
Lemma check_fact acts : (exists idx f, In (idx, f) (List.concat acts)) -> (checkMeta acts = true <-> covering acts).
Proof.
  intros (i0 & f0 & H0).
  assert (Top : exists f, In (maxRank acts, f) (List.concat acts)).
  { apply in_concat in H0. destruct H0 as (a0 & Ha0 & H0). unfold maxRank.
    destruct (list_max (map (fun a => list_max (map fst a)) acts)) as [|m] eqn:E.
    - exists f0. pose proof (list_max_ge _ _ (in_map (fun a => list_max (map fst a)) _ _ Ha0)) as L1. rewrite E in L1. cbn beta in L1.
      pose proof (list_max_ge (map fst a0) i0 (in_map fst _ _ H0)) as L2. replace 0 with i0 by lia. apply in_concat. eauto.
    - assert (In (S m) (map (fun a => list_max (map fst a)) acts)) as Hin.
      { rewrite <- E. apply list_max_in. intros C. destruct acts; [destruct Ha0|discriminate]. }
      apply in_map_iff in Hin. destruct Hin as (a & Ea & Ha). assert (Hm : In (S m) (map fst a)).
      { rewrite <- Ea. apply list_max_in. intros C. rewrite C in Ea. discriminate. }
      apply in_map_iff in Hm. destruct Hm as ([k f] & Ek & Hk). cbn in Ek. subst k. exists f. apply in_concat. eauto. }
  unfold checkMeta. rewrite forallb_forall. split.
  - intros H idx (idx' & f' & Hin & Hle). assert (Hi : In idx (seq 0 (S (maxRank acts)))).
    { apply in_seq. apply in_concat in Hin. destruct Hin as (a & Ha & Hin). pose proof (maxRank_ge acts a idx' f' Ha Hin). lia. }
    specialize (H idx Hi). apply existsb_exists in H. destruct H as (a & Ha & H). apply existsb_exists in H. destruct H as (k & Hk & E). apply Nat.eqb_eq in E. subst k.
    apply in_map_iff in Hk. destruct Hk as ([k f] & Ek & Hk). cbn in Ek. subst k. exists f. apply in_concat. eauto.
  - intros C idx Hi. apply in_seq in Hi. destruct Top as [ft Ht]. destruct (C idx) as [f Hf]; [exists (maxRank acts), ft; split; auto; lia|].
    apply in_concat in Hf. destruct Hf as (a & Ha & Hf). apply existsb_exists. exists a. split; auto. apply existsb_exists. exists idx. split; [|apply Nat.eqb_refl].
    apply in_map_iff. exists (idx, f). auto.
Qed.
(** both together *)
Lemma construction_fact acts : (exists idx f, In (idx, f) (List.concat acts)) -> checkMeta acts = true -> consistent acts ->
  exists l, fillFrees acts = Filled (map Some l) /\ forall idx f, nth_error l idx = Some f <-> In (idx, f) (List.concat acts).
Proof.
  intros Ne Ck C. pose proof (fill_fact acts) as F. destruct (fillFrees acts) as [idx i|l]; [destruct F as [F _]; contradiction|].
  destruct F as (_ & L & F). pose proof (proj1 (check_fact acts Ne) Ck) as Cov.
  assert (All : forall k, k < len l -> exists f, nth k l None = Some f).
  { intros k Hk. unfold checkMeta in Ck. rewrite forallb_forall in Ck. specialize (Ck k ltac:(apply in_seq; lia)).
    apply existsb_exists in Ck. destruct Ck as (a & Ha & Ck). apply existsb_exists in Ck. destruct Ck as (k' & Hk' & E). apply Nat.eqb_eq in E. subst k'.
    apply in_map_iff in Hk'. destruct Hk' as ([k' f] & E & Hk'). cbn in E. subst k'. exists f. apply F. apply in_concat. eauto. }
  assert (M : forall l : list (option nat), (forall k, k < len l -> exists f, nth k l None = Some f) -> exists m, l = map Some m).
  { clear. induction l as [|o l IH]; intros H; [exists []; reflexivity|]. destruct (H 0) as [f Hf]; [cbn; lia|]. cbn in Hf. subst o.
    destruct IH as [m ->]; [intros k Hk; apply (H (S k)); cbn; lia|]. exists (f :: m). reflexivity. }
  destruct (M l All) as [m ->]. exists m. split; [reflexivity|]. intros idx f. rewrite <- F. clear. revert idx.
  induction m as [|x m IH]; intros [|idx]; cbn; try easy.
Qed.

(** highest frequency *)
Lemma frequency_fold ps x : let y := fold_left (fun x p => if Rlt_dec x (pFreq p) then pFreq p else x) ps x in
  (x <= y /\ (forall p, In p ps -> pFreq p <= y) /\ (y = x \/ exists p, In p ps /\ y = pFreq p))%R.
Proof.
  revert x. induction ps as [|p ps IH]; intros x; cbn [fold_left]; [cbn; repeat split; [lra|easy|auto]|].
  cbn zeta. destruct (Rlt_dec x (pFreq p)) as [L|L].
  - destruct (IH (pFreq p)) as (H1 & H2 & H3). repeat split; [lra| |].
    + intros q [<-|Hq]; auto.
    + right. destruct H3 as [H3|(q & Hq & H3)]; [exists p; split; auto; now left|exists q; split; auto; now right].
  - destruct (IH x) as (H1 & H2 & H3). repeat split; [lra| |].
    + intros q [<-|Hq]; auto. lra.
    + destruct H3 as [H3|(q & Hq & H3)]; [auto|right; exists q; split; auto; now right].
Qed.
Lemma frequency_fact c x : compositeFrequency c = Some x ->
  (forall p, In p (cFrees c) -> (pFreq p <= x)%R) /\ exists p, In p (cFrees c) /\ x = pFreq p.
Proof.
  unfold compositeFrequency. destruct (cFrees c) as [|p ps]; [discriminate|]. intros [= E]. destruct (frequency_fold ps (pFreq p)) as (H1 & H2 & H3). rewrite E in *. split.
  - intros q [<-|Hq]; auto.
  - destruct H3 as [->|(q & Hq & ->)]; [exists p; split; auto; now left|exists q; split; auto; now right].
Qed.
Lemma bfrequency_fact b : (forall vp, In vp (binaryParts b) -> (pFreq (snd vp) <= binaryFrequency b)%R) /\
  exists vp, In vp (binaryParts b) /\ binaryFrequency b = pFreq (snd vp).
Proof.
  unfold binaryFrequency. split.
  - intros vp [<-|[<-|[<-|[]]]]; cbn [snd].
    + eapply Rle_trans; [|apply Rmax_r]. apply Rmax_l.
    + eapply Rle_trans; [|apply Rmax_r]. apply Rmax_r.
    + apply Rmax_l.
  - unfold Rmax. destruct (Rle_dec (pFreq (bIa b)) _); [destruct (Rle_dec (pFreq (bFree0 b)) (pFreq (bFree1 b)))|].
    + exists ([1], bFree1 b). cbn. auto.
    + exists ([0], bFree0 b). cbn. auto.
    + exists ([0; 1], bIa b). cbn. auto.
Qed.
Lemma characteristics_fact ps : characteristics ps =
  (existsb (fun p => match pEx p with Some _ => true | None => false end) ps,
   existsb (fun p => match pHa p with Some _ => true | None => false end) ps,
   existsb (fun p => match pLi p with Some _ => true | None => false end) ps).
Proof. unfold characteristics. now rewrite characteristics_ex. Qed.
