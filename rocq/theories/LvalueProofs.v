From Coq Require Import List Arith Bool Lia.
From Verif Require Import AliasModel AliasSpec AliasProofs LvalueModel LvalueSpec.
Import ListNotations.

Section P.
  Variables (K : Type) (kz : K) (kadd ksub kmul kdiv : K -> K -> K) (kneg kconj : K -> K).
  Variable norm : list K -> K.
  Variable tr : list K -> K.
  Variable B : nat.
  Notation state := (state K). Notation values := (values K). Notation rel := (rel K).
  Notation exec := (exec K kz kadd ksub kmul kdiv kneg kconj).
  Notation vstep := (AliasSpec.step K kz kadd ksub kmul kdiv kneg kconj).
  Notation one := (one K kz kadd ksub kmul kdiv kneg kconj).
  Notation inOrder := (inOrder K). Notation thenDo := (thenDo K). Notation skip := (skip K).
  Notation inPlace := (inPlace K kz kadd ksub kmul kdiv kneg kconj).
  Notation renorm := (renorm K kz kadd ksub kmul kdiv kneg kconj norm).
  Notation coherent := (coherent K kz kadd ksub kmul kdiv kneg kconj norm).
  Notation ifAny := (ifAny K kz kadd ksub kmul kdiv kneg kconj).
  Notation cache := (cache B). Notation special := (special B). Notation temp := (temp B).
  Notation specialRate := (specialRate K kz kadd ksub kmul kdiv kneg kconj norm B).
  Notation specialRates := (specialRates K kz kadd ksub kmul kdiv kneg kconj norm B).
  Notation performJump := (performJump K kz kadd ksub kmul kdiv kneg kconj B).
  Notation retry := (retry K kz kadd ksub kmul kdiv kneg kconj norm B).
  Notation step := (LvalueModel.step K kz kadd ksub kmul kdiv kneg kconj norm B).
  Notation readState := (readState K kz kadd ksub kmul kdiv kneg kconj B).
  Notation construct := (construct K kz kadd ksub kmul kdiv kneg kconj norm B).
  Notation construct1 := (construct1 K kz kadd ksub kmul kdiv kneg kconj norm B).
  Notation evolveSingle := (evolveSingle K kz kadd ksub kmul kdiv kneg kconj norm B).
  Notation masterStep := (masterStep K kz kadd ksub kmul kdiv kneg kconj tr).
  Notation evolveMasterRho := (evolveMasterRho K kz kadd ksub kmul kdiv kneg kconj B tr).
  Notation evolveMasterPsi := (evolveMasterPsi K kz kadd ksub kmul kdiv kneg kconj B tr).
  Notation evolveEnsemble := (evolveEnsemble K kz kadd ksub kmul kdiv kneg kconj norm B).
  Notation streamed := (streamed K kz kadd ksub kmul kdiv kneg kconj norm B).
  Notation qbitModeMatrix := (qbitModeMatrix K kz kadd ksub kmul kdiv kneg kconj norm B).
  Notation normalised := (normalised K kdiv norm). Notation over := (over K kdiv).
  Notation advanced := (advanced K kdiv norm). Notation stepped := (stepped K kdiv norm). Notation evolved := (evolved K kdiv norm).
  Notation history := (history K kdiv norm).
  Notation put := (put K). Notation look := (look K kz).

  Lemma rel_ext : forall vs vs' s, (forall x, vs x = vs' x) -> rel vs s -> rel vs' s.
  Proof.
    intros vs vs' s E [R1 R2]. split.
    - intros x k d v H. rewrite <- E in H. now apply R1.
    - intros x y a b o o' N H1 H2. rewrite <- E in H1, H2. now apply (R2 x y a b).
  Qed.

  Definition does (p : prog K) (vs vs' : values) : Prop := forall s, rel vs s ->
    exists s', p s = Ok K s' /\ rel vs' s' /\ forall x, x < B -> s_env K s' x = s_env K s x.

  Lemma does_ext : forall p vs vs1 vs', does p vs vs1 -> (forall x, vs1 x = vs' x) -> does p vs vs'.
  Proof. intros p vs vs1 vs' H E s Rl. destruct (H s Rl) as (s' & A & C & D). exists s'. split; [exact A|]. split; [now apply (rel_ext vs1)|exact D]. Qed.

  Lemma does_skip : forall vs, does skip vs vs.
  Proof. intros vs s Rl. exists s. now repeat split; try apply Rl. Qed.

  Lemma does_then : forall p q vs vs1 vs2, does p vs vs1 -> does q vs1 vs2 -> does (thenDo p q) vs vs2.
  Proof.
    intros p q vs vs1 vs2 Hp Hq s Rl. destruct (Hp s Rl) as (s1 & A & C & D). destruct (Hq s1 C) as (s2 & A2 & C2 & D2).
    exists s2. unfold LvalueModel.thenDo. rewrite A. cbn [andThen]. split; [exact A2|]. split; [exact C2|]. intros x Hx. now rewrite D2, D.
  Qed.

  Lemma does_one : forall c vs vs', vstep vs c vs' -> (forall t x y, c <> Swap K t x y) -> (forall x, x < B -> ~ constructs K c x) -> does (one c) vs vs'.
  Proof.
    intros c vs vs' H NS NC s Rl. destruct (exec_step K kz kadd ksub kmul kdiv kneg kconj vs s c vs' Rl H NS) as (s' & E & Rl').
    exists s'. split; [exact E|]. split; [exact Rl'|]. intros x Hx. apply (exec_names K kz kadd ksub kmul kdiv kneg kconj s c s' x E). now apply NC.
  Qed.

  Lemma does_cons : forall p ps vs vs1 vs2, does p vs vs1 -> does (inOrder ps) vs1 vs2 -> does (inOrder (p :: ps)) vs vs2.
  Proof. intros. cbn [LvalueModel.inOrder fold_right]. now apply (does_then _ _ vs vs1). Qed.
  Lemma does_nil : forall vs, does (inOrder []) vs vs.
  Proof. exact does_skip. Qed.
  Lemma does_single : forall p vs vs', does p vs vs' -> does (inOrder [p]) vs vs'.
  Proof. intros. apply (does_cons _ _ _ vs'); [assumption|apply does_nil]. Qed.

  Lemma put_put : forall vs x v w y, put (put vs x v) x w y = put vs x w y.
  Proof. intros. unfold AliasSpec.put. now destruct (y =? x). Qed.

  (** ** in place *)
  Lemma writes : forall x k d new old done vs, vs x = Some (k, d, done ++ old) -> length new = length old ->
    does (inOrder (map (fun i => one (Write K x i (nth i (done ++ new) kz))) (seq (length done) (length old)))) vs (put vs x (Some (k, d, done ++ new))).
  Proof.
    intros x k d. induction new as [|b new IH]; intros [|a old] done vs H L; try discriminate L.
    - cbn. apply (does_ext _ _ vs); [apply does_skip|]. intro y. unfold AliasSpec.put. destruct (y =? x) eqn:E; [|reflexivity].
      apply Nat.eqb_eq in E. now subst.
    - cbn [length seq map]. eapply does_cons.
      + apply does_one; [| discriminate | intros y _ C; exact C].
        rewrite app_nth2, Nat.sub_diag by lia. cbn [nth].
        apply (step_write K kz kadd ksub kmul kdiv kneg kconj vs x k d done old a b). exact H.
      + eapply does_ext.
        * replace (S (length done)) with (length (done ++ [b])) by (rewrite app_length; cbn; lia).
          replace (done ++ b :: new) with ((done ++ [b]) ++ new) by (now rewrite <- app_assoc).
          apply IH; [|cbn in L; lia]. rewrite put_same, <- app_assoc. reflexivity.
        * intro y. rewrite put_put, <- app_assoc. reflexivity.
  Qed.

  Lemma look_of : forall vs s x v, rel vs s -> vs x = Some v -> look s x = Some v.
  Proof. intros. now apply (rel_look K kz vs). Qed.

  Lemma inPlace_does : forall x f k d v vs, vs x = Some (k, d, v) -> keeps K f -> does (inPlace x f) vs (put vs x (Some (k, d, f v))).
  Proof.
    intros x f k d v vs H Kf s Rl. unfold LvalueModel.inPlace. rewrite (look_of vs s x _ Rl H).
    exact (writes x k d (f v) v [] vs H (Kf v) s Rl).
  Qed.

  Lemma renorm_does : forall x k d v vs, vs x = Some (k, d, v) -> does (renorm x) vs (put vs x (Some (k, d, normalised v))).
  Proof.
    intros x k d v vs H s Rl. unfold LvalueModel.renorm. rewrite (look_of vs s x _ Rl H).
    refine (does_one _ _ _ _ _ _ s Rl); [| discriminate | intros y _ C; exact C]. now apply step_div.
  Qed.

  Lemma ifAny_does : forall x f k d v vs, vs x = Some (k, d, v) -> optKeeps K f -> does (ifAny x f) vs (put vs x (Some (k, d, optionally K f v))).
  Proof.
    intros x [f|] k d v vs H Kf; cbn [LvalueModel.ifAny optionally].
    - now apply inPlace_does.
    - apply (does_ext _ _ vs); [apply does_skip|]. intro y. unfold AliasSpec.put. destruct (y =? x) eqn:E; [|reflexivity]. apply Nat.eqb_eq in E. now subst.
  Qed.

  Lemma coherent_does : forall x a k d v vs, vs x = Some (k, d, v) -> attemptOk K a -> does (coherent x a) vs (put vs x (Some (k, d, advanced a v))).
  Proof.
    intros x a k d v vs H [A1 A2]. unfold LvalueModel.coherent.
    eapply does_cons; [exact (ifAny_does x _ k d v vs H A1)|].
    eapply does_cons; [apply (ifAny_does x _ k d _ _ (put_same _ _ _ _) A2)|].
    apply does_single. eapply does_ext; [apply (renorm_does x k d _ _ (put_same _ _ _ _))|].
    intro y. rewrite !put_put. reflexivity.
  Qed.

  (** ** special jumps *)
  Lemma specials_from : forall T k d v, T < B -> forall js a vs, vs T = Some (k, d, v) -> Forall (keeps K) js ->
    exists vs', does (inOrder (map (specialRate T) (combine (seq a (length js)) js))) vs vs' /\
      (forall i j, nth_error js i = Some j -> vs' (special (a + i)) = Some (k, d, normalised (j v))) /\
      (forall x, x < special a -> vs' x = vs x).
  Proof.
    intros T k d v HT. induction js as [|j js IH]; intros a vs H F.
    - exists vs. split; [apply does_nil|]. split; [intros [|i]; discriminate|reflexivity].
    - pose proof (Forall_inv F) as Kj. apply Forall_inv_tail in F.
      set (vs1 := put vs (special a) (Some (k, d, normalised (j v)))).
      assert (D1 : does (specialRate T (a, j)) vs vs1).
      { unfold LvalueModel.specialRate. cbn [fst snd]. eapply does_cons.
        - apply does_one; [apply (step_copy _ _ _ _ _ _ _ _ vs (special a) T _ H) | discriminate |].
          intros x Hx C. cbn in C. subst x. unfold LvalueModel.special in Hx. lia.
        - eapply does_cons; [apply (inPlace_does _ j k d v _ (put_same _ _ _ _) Kj)|]. apply does_single.
          eapply does_ext; [apply (renorm_does _ k d _ _ (put_same _ _ _ _))|]. intro y. rewrite !put_put. reflexivity. }
      assert (N : T <> special a) by (unfold LvalueModel.special; lia).
      destruct (IH (Datatypes.S a) vs1) as (vs2 & D2 & E2 & O2); [unfold vs1; now rewrite put_other|exact F|].
      exists vs2. split; [|split].
      + cbn [length seq combine map]. apply (does_cons _ _ _ vs1); assumption.
      + intros [|i] j' Hj; cbn in Hj.
        * injection Hj as <-. rewrite Nat.add_0_r, O2 by (unfold LvalueModel.special; lia). unfold vs1. apply put_same.
        * replace (a + Datatypes.S i) with (Datatypes.S a + i) by lia. now apply E2.
      + intros x Hx. rewrite O2 by (unfold LvalueModel.special in *; lia). unfold vs1. apply put_other. lia.
  Qed.

  Lemma specials_do : forall T k d v js vs, T < B -> vs T = Some (k, d, v) -> Forall (keeps K) js ->
    exists vs', does (specialRates T js) vs vs' /\
      (forall i j, nth_error js i = Some j -> vs' (special i) = Some (k, d, normalised (j v))) /\ (forall x, x <= cache -> vs' x = vs x).
  Proof.
    intros T k d v js vs HT H F. destruct (specials_from T k d v HT js 0 vs H F) as (vs' & A & C & D).
    exists vs'. split; [exact A|]. split; [exact C|]. intros x Hx. apply D. unfold LvalueModel.special, LvalueModel.cache in *. lia.
  Qed.

  (** ** a step *)
  Lemma last_cons' : forall (A : Type) (l : list A) a b, last (b :: l) a = last l b.
  Proof. intros A l. induction l as [|c l IH]; intros a b; [reflexivity|]. change (last (c :: l) a = last (c :: l) b). now rewrite !IH. Qed.
  Definition ready (T : nat) (k : kind) (d : list nat) (v w : list K) (js : list (list K -> list K)) (vs0 vs : values) : Prop :=
    vs T = Some (k, d, w) /\ vs cache = Some (k, d, v) /\ (forall i j, nth_error js i = Some j -> vs (special i) = Some (k, d, normalised (j w))) /\
    (forall x, x < B -> x <> T -> vs x = vs0 x).

  Lemma retries_do : forall T k d v js vs0, T < B -> Forall (keeps K) js -> forall l a vs, Forall (attemptOk K) l ->
    ready T k d v (advanced a v) js vs0 vs ->
    exists vs', does (inOrder (map (retry T js) l)) vs vs' /\ ready T k d v (advanced (last l a) v) js vs0 vs'.
  Proof.
    intros T k d v js vs0 HT F. induction l as [|b l IH]; intros a vs Fl Rd.
    - exists vs. split; [apply does_nil|exact Rd].
    - destruct Rd as (R1 & R2 & R3 & R4). pose proof (Forall_inv Fl) as Kb. apply Forall_inv_tail in Fl.
      assert (NC : cache <> T) by (unfold LvalueModel.cache; lia).
      set (vs1 := put (put vs T (Some (k, d, v))) T (Some (k, d, advanced b v))).
      destruct (specials_do T k d (advanced b v) js vs1 HT) as (vs2 & D2 & E2 & O2); [apply put_same|exact F|].
      assert (D : does (retry T js b) vs vs2).
      { unfold LvalueModel.retry. eapply does_cons; [apply does_one; [exact (step_assign _ _ _ _ _ _ _ _ vs T cache k d _ _ R1 R2) | discriminate | intros x _ C; exact C]|].
        eapply does_cons; [apply (coherent_does T b k d v _ (put_same _ _ _ _) Kb)|]. apply does_single. exact D2. }
      destruct (IH b vs2 Fl) as (vs3 & D3 & R3').
      { split; [rewrite O2 by (unfold LvalueModel.cache; lia); apply put_same|].
        split; [rewrite O2 by lia; unfold vs1; rewrite !put_other by exact NC; exact R2|]. split; [exact E2|].
        intros x Hx Nx. rewrite O2 by (unfold LvalueModel.cache; lia). unfold vs1. rewrite !put_other by exact Nx. now apply R4. }
      exists vs3. split; [apply (does_cons _ _ _ vs2); assumption|].
      rewrite last_cons'. exact R3'.
  Qed.

  Lemma step_does : forall T k d v c vs, T < B -> vs T = Some (k, d, v) -> stepOk K c ->
    exists vs', does (step T c) vs vs' /\ vs' T = Some (k, d, stepped c v) /\ forall x, x < B -> x <> T -> vs' x = vs x.
  Proof.
    intros T k d v c vs HT H (S1 & S2 & S3 & S4).
    assert (NC : cache <> T) by (unfold LvalueModel.cache; lia).
    set (vs1 := put (put vs cache (Some (k, d, v))) T (Some (k, d, advanced (m_first K c) v))).
    assert (D1 : does (inOrder [one (Copy K cache T); coherent T (m_first K c)]) vs vs1).
    { eapply does_cons.
      - apply does_one; [apply (step_copy _ _ _ _ _ _ _ _ vs cache T _ H) | discriminate |].
        intros x Hx C. cbn in C. subst x. unfold LvalueModel.cache in Hx. lia.
      - apply does_single. apply coherent_does; [|exact S1]. rewrite put_other by auto. exact H. }
    destruct (specials_do T k d (advanced (m_first K c) v) (m_specials K c) vs1 HT (put_same _ _ _ _) S3) as (vs2 & D2 & E2 & O2).
    destruct (retries_do T k d v (m_specials K c) vs HT S3 (m_again K c) (m_first K c) vs2 S2) as (vs3 & D3 & R1 & R2 & R3 & R4).
    { split; [rewrite O2 by (unfold LvalueModel.cache; lia); apply put_same|].
      split; [rewrite O2 by lia; unfold vs1; rewrite put_other by exact NC; apply put_same|]. split; [exact E2|].
      intros x Hx Nx. rewrite O2 by (unfold LvalueModel.cache; lia). unfold vs1. rewrite put_other by exact Nx. apply put_other. unfold LvalueModel.cache. lia. }
    set (w := advanced (last (m_again K c) (m_first K c)) v) in *.
    assert (D4 : exists vs4, does (performJump T (m_jump K c)) vs3 vs4 /\ vs4 T = Some (k, d, stepped c v) /\ forall x, x <> T -> vs4 x = vs3 x).
    { unfold LvalueSpec.stepped. fold w. destruct (m_jump K c) as [|j f|i] eqn:Ej; cbn [LvalueModel.performJump].
      - exists vs3. split; [apply does_skip|]. split; [exact R1|reflexivity].
      - eexists. split; [|split].
        + eapply does_cons; [apply (inPlace_does T j k d w vs3 R1 S4)|]. apply does_single.
          apply does_one; [apply (step_div _ _ _ _ _ _ _ _ _ T f k d (j w)); apply put_same | discriminate | intros x _ C; exact C].
        + apply put_same.
        + intros x Nx. now rewrite !put_other.
      - cbn [jumpOk] in S4. destruct (nth_error (m_specials K c) i) as [j|] eqn:E; [|apply nth_error_None in E; cbn in S4; lia].
        eexists. split; [|split].
        + apply does_one; [exact (step_assign _ _ _ _ _ _ _ _ vs3 T (special i) k d _ _ R1 (R3 i j E)) | discriminate | intros x _ C; exact C].
        + apply put_same.
        + intros x Nx. now rewrite put_other. }
    destruct D4 as (vs4 & D4 & E4 & O4). exists vs4. split; [|split; [exact E4|]].
    - unfold LvalueModel.step.
      assert (Sp : forall p q, does (inOrder [p; q]) vs vs1 -> forall r, does (inOrder r) vs1 vs4 -> does (inOrder (p :: q :: r)) vs vs4).
      { intros p q Hpq r Hr s Rl. destruct (Hpq s Rl) as (s1 & A & C & D). destruct (Hr s1 C) as (s2 & A2 & C2 & G2).
        exists s2. split; [|split; [exact C2|intros x Hx; now rewrite G2, D]].
        revert A. cbn [LvalueModel.inOrder fold_right]. unfold LvalueModel.thenDo, LvalueModel.skip.
        destruct (p s) as [u|]; cbn [andThen]; [|discriminate]. destruct (q u) as [u'|]; cbn [andThen]; [|discriminate].
        intros [= ->]. exact A2. }
      apply Sp; [exact D1|]. eapply does_cons; [exact D2|]. eapply does_cons; [exact D3|]. apply does_single. exact D4.
    - intros x Hx Nx. rewrite O4 by exact Nx. now apply R4.
  Qed.

  Lemma steps_do : forall T k d, T < B -> forall ds v vs, vs T = Some (k, d, v) -> Forall (stepOk K) ds ->
    exists vs', does (inOrder (map (step T) ds)) vs vs' /\ vs' T = Some (k, d, evolved ds v) /\ forall x, x < B -> x <> T -> vs' x = vs x.
  Proof.
    intros T k d HT. induction ds as [|c ds IH]; intros v vs H F.
    - exists vs. split; [apply does_nil|]. split; [exact H|reflexivity].
    - destruct (step_does T k d v c vs HT H (Forall_inv F)) as (vs1 & D1 & E1 & O1).
      destruct (IH _ vs1 E1 (Forall_inv_tail F)) as (vs2 & D2 & E2 & O2).
      exists vs2. split; [apply (does_cons _ _ _ vs1); assumption|]. split; [exact E2|]. intros x Hx Nx. now rewrite O2, O1.
  Qed.

  Lemma masters_do : forall T k d, T < B -> forall fs v vs, vs T = Some (k, d, v) -> Forall (keeps K) fs ->
    exists vs', does (inOrder (map (masterStep T) fs)) vs vs' /\ vs' T = Some (k, d, evolvedMaster K kdiv tr fs v) /\ forall x, x < B -> x <> T -> vs' x = vs x.
  Proof.
    intros T k d HT. induction fs as [|f fs IH]; intros v vs H F.
    - exists vs. split; [apply does_nil|]. split; [exact H|reflexivity].
    - set (vs1 := put (put vs T (Some (k, d, f v))) T (Some (k, d, over (f v) (tr (f v))))).
      assert (D1 : does (masterStep T f) vs vs1).
      { intros s Rl. destruct (inPlace_does T f k d v vs H (Forall_inv F) s Rl) as (s1 & A & C & D).
        unfold LvalueModel.masterStep. rewrite A. cbn [andThen]. rewrite (look_of _ s1 T _ C (put_same _ _ _ _)).
        assert (D2 : does (one (DivBy K T (tr (f v)))) (put vs T (Some (k, d, f v))) vs1).
        { apply does_one; [|discriminate|intros x _ N; exact N]. apply step_div. apply put_same. }
        destruct (D2 s1 C) as (s2 & A2 & C2 & E2). exists s2. split; [exact A2|]. split; [exact C2|]. intros x Hx. now rewrite E2, D. }
      destruct (IH (over (f v) (tr (f v))) vs1 (put_same _ _ _ _) (Forall_inv_tail F)) as (vs2 & D2 & E2 & O2).
      exists vs2. split; [apply (does_cons _ _ _ vs1); assumption|]. split; [exact E2|].
      intros x Hx Nx. rewrite O2 by assumption. unfold vs1. now rewrite !put_other.
  Qed.

  (** ** other names for the same blocks *)
  Lemma rel_rename : forall vs vs' s s' (g : nat -> nat), rel vs s -> s_heap K s' = s_heap K s ->
    (forall x a, vs' x = Some a -> vs (g x) = Some a /\ s_env K s' x = s_env K s (g x)) ->
    (forall x y a b, x <> y -> vs' x = Some a -> vs' y = Some b -> g x <> g y) -> rel vs' s'.
  Proof.
    intros vs vs' s s' g [R1 R2] H E N. split.
    - intros x k d v Hx. destruct (E x _ Hx) as [Ea Ee]. destruct (R1 (g x) k d v Ea) as (b & A & C). exists b. rewrite Ee, H. split; [exact A|exact C].
    - intros x y a b o o' Nxy Hx Hy Ox Oy. destruct (E x _ Hx) as [Ea Ee]. destruct (E y _ Hy) as [Fa Fe].
      rewrite Ee in Ox. rewrite Fe in Oy. exact (R2 (g x) (g y) a b o o' (N x y a b Nxy Hx Hy) Ea Fa Ox Oy).
  Qed.

  Definition sameBlock (s : state) (x y : nat) : Prop :=
    exists o o', s_env K s x = Some o /\ s_env K s y = Some o' /\ o_blk o = o_blk o' /\ o_cells o = o_cells o'.
  Lemma same_seen : forall s x y, sameBlock s x y -> seen K kz s x = seen K kz s y.
  Proof.
    intros s x y (o & o' & H1 & H2 & E1 & E2). unfold LvalueModel.seen, AliasModel.look. rewrite H1, H2. unfold contents. now rewrite E1, E2.
  Qed.
  Lemma same_env : forall s s' x y, sameBlock s x y -> s_env K s' x = s_env K s x -> s_env K s' y = s_env K s y -> sameBlock s' x y.
  Proof. intros s s' x y (o & o' & H1 & H2 & E) A C. exists o, o'. rewrite A, C. auto. Qed.
  Lemma tracked_seen : forall vs s x k d v, rel vs s -> vs x = Some (k, d, v) -> seen K kz s x = v.
  Proof. intros vs s x k d v Rl H. unfold LvalueModel.seen. now rewrite (look_of vs s x _ Rl H). Qed.

  Lemma rel_env : forall vs s x k d v, rel vs s -> vs x = Some (k, d, v) -> exists o, s_env K s x = Some o.
  Proof. intros vs s x k d v [R1 _] H. destruct (R1 x k d v H) as (b & A & _). eauto. Qed.

  (** ** construction *)
  Lemma construct_does : forall T psi js vs s k d v, rel vs s -> vs psi = Some (k, d, v) -> T < B -> psi <> T -> Forall (keeps K) js ->
    exists s' vs', construct T psi js s = Ok K s' /\ rel vs' s' /\ vs' T = Some (k, d, v) /\ s_env K s' T = s_env K s psi /\
      (forall x, x < B -> x <> T -> s_env K s' x = s_env K s x) /\ vs' psi = (if psi <? B then None else vs' psi) /\
      (forall x, x < B -> x <> T -> x <> psi -> vs' x = vs x).
  Proof.
    intros T psi js vs s k d v Rl H HT N F.
    destruct (exec_step K kz kadd ksub kmul kdiv kneg kconj vs s (Move K T psi) _ Rl (step_move _ _ _ _ _ _ _ _ vs T psi _ H)) as (s1 & E1 & Rl1); [discriminate|].
    destruct (specials_do T k d v js (put (put vs psi None) T (Some (k, d, v))) HT (put_same _ _ _ _) F) as (vs2 & D2 & _ & O2).
    destruct (D2 s1 Rl1) as (s2 & E2 & Rl2 & Ev). exists s2, vs2.
    assert (Q1 : s_env K s1 T = s_env K s psi /\ forall x, x <> T -> s_env K s1 x = s_env K s x).
    { revert E1. cbn [AliasModel.exec]. unfold doShare. destruct (rel_env vs s psi k d v Rl H) as [o Ho]. rewrite Ho. intros [= <-]. cbn [share s_env].
      split; [apply bind_same|]. intros x Nx. now apply bind_other. }
    split; [|split; [exact Rl2|split; [|split; [|split; [|split]]]]].
    - unfold LvalueModel.construct. cbn [LvalueModel.inOrder fold_right]. unfold LvalueModel.thenDo at 1. unfold LvalueModel.one at 1. rewrite E1. cbn [andThen].
      unfold LvalueModel.thenDo. rewrite E2. reflexivity.
    - rewrite O2 by (unfold LvalueModel.cache; lia). apply put_same.
    - rewrite Ev by exact HT. apply Q1.
    - intros x Hx Nx. rewrite Ev by exact Hx. now apply Q1.
    - destruct (Nat.ltb_spec psi B) as [L|L]; [|reflexivity]. rewrite O2 by (unfold LvalueModel.cache; lia). rewrite put_other by exact N. apply put_same.
    - intros x Hx Nx Np. rewrite O2 by (unfold LvalueModel.cache; lia). now rewrite !put_other.
  Qed.

  (** ** reading the state: T gets a block of its own, and the old block is left to y *)
  Lemma read_does : forall T y w vs s k d v, rel vs s -> vs T = Some (k, d, v) -> vs y = None -> s_env K s y = s_env K s T -> T < B -> y < B -> y <> T ->
    length w = length v ->
    exists s' vs', readState T (Some w) s = Ok K s' /\ rel vs' s' /\ vs' T = Some (k, d, w) /\ vs' y = Some (k, d, v) /\
      (forall x, x < B -> x <> T -> s_env K s' x = s_env K s x) /\ (forall x, x < B -> x <> T -> x <> y -> vs' x = vs x).
  Proof.
    intros T y w vs s k d v Rl H Hy Ey HT HyB N L.
    assert (Sz : sized K k d w).
    { destruct Rl as [R1 _]. destruct (R1 T k d v H) as (b & _ & _ & Sz). unfold sized in *. congruence. }
    destruct (exec_step K kz kadd ksub kmul kdiv kneg kconj vs s (New K temp k d (Some w)) _ Rl (step_new _ _ _ _ _ _ _ _ vs temp k d w Sz)) as (s1 & E1 & Rl1); [discriminate|].
    assert (Ev : forall x, x < B -> s_env K s1 x = s_env K s x).
    { intros x Hx. apply (exec_names K kz kadd ksub kmul kdiv kneg kconj s _ s1 x E1). cbn [constructs]. unfold LvalueModel.temp. lia. }
    assert (NT : T <> temp) by (unfold LvalueModel.temp; lia). assert (Nt : y <> temp) by (unfold LvalueModel.temp; lia).
    destruct (rel_env _ s1 temp k d w Rl1 (put_same _ _ _ _)) as [o Ho].
    set (s2 := share K s1 T o). set (vs1 := put vs temp (Some (k, d, w))) in *.
    exists s2, (put (put (put vs1 temp None) T (Some (k, d, w))) y (Some (k, d, v))). split; [|split; [|split; [|split; [|split]]]].
    - unfold LvalueModel.readState. rewrite (look_of vs s T _ Rl H). cbn [LvalueModel.inOrder fold_right]. unfold LvalueModel.thenDo at 1. unfold LvalueModel.one at 1.
      rewrite E1. cbn [andThen]. unfold LvalueModel.thenDo, LvalueModel.one, LvalueModel.skip. cbn [AliasModel.exec]. unfold doShare. rewrite Ho. reflexivity.
    - apply (rel_rename vs1 _ s1 s2 (fun x => if x =? T then temp else if x =? y then T else x) Rl1); [reflexivity| |].
      + intros x a Hx. unfold s2. cbn [share s_env]. unfold AliasSpec.put, bindName in *.
        destruct (x =? y) eqn:Exy.
        * apply Nat.eqb_eq in Exy. subst x. apply Nat.eqb_neq in N. rewrite N. injection Hx as <-. split.
          -- unfold vs1, AliasSpec.put. apply Nat.eqb_neq in NT. now rewrite NT.
          -- rewrite !Ev by assumption. exact Ey.
        * destruct (x =? T) eqn:ExT.
          -- injection Hx as <-. split; [unfold vs1; apply put_same|]. now rewrite Ho.
          -- destruct (x =? temp) eqn:Ext; [discriminate|]. split; [exact Hx|reflexivity].
      + intros x z a b Nxz Hx Hz. unfold AliasSpec.put in Hx, Hz.
        destruct (x =? y) eqn:Exy; destruct (z =? y) eqn:Ezy; destruct (x =? T) eqn:ExT; destruct (z =? T) eqn:EzT;
          try destruct (x =? temp) eqn:Ext; try destruct (z =? temp) eqn:Ezt; try discriminate;
          repeat match goal with H : (_ =? _) = true |- _ => apply Nat.eqb_eq in H | H : (_ =? _) = false |- _ => apply Nat.eqb_neq in H end; subst; congruence.
    - rewrite put_other by auto. apply put_same.
    - apply put_same.
    - intros x Hx Nx. unfold s2. cbn [share s_env]. rewrite bind_other by exact Nx. now apply Ev.
    - intros x Hx Nx Ny. unfold vs1. assert (x <> temp) by (unfold LvalueModel.temp; lia). now rewrite !put_other.
  Qed.

  (** ** the properties *)
  Notation steps := (AliasSpec.steps K kz kadd ksub kmul kdiv kneg kconj).
  Notation runP := (AliasModel.run K kz kadd ksub kmul kdiv kneg kconj).

  Lemma order3 : forall (p q r : prog K) s s1 s2 s3, p s = Ok K s1 -> q s1 = Ok K s2 -> r s2 = Ok K s3 -> inOrder [p; q; r] s = Ok K s3.
  Proof. intros. cbn [LvalueModel.inOrder fold_right]. unfold LvalueModel.thenDo. rewrite H. cbn [andThen]. rewrite H0. cbn [andThen]. rewrite H1. reflexivity. Qed.

  Lemma order2 : forall (p q : prog K) s s1 s2, p s = Ok K s1 -> q s1 = Ok K s2 -> inOrder [p; q] s = Ok K s2.
  Proof. intros p q s s1 s2 H H0. cbn [LvalueModel.inOrder fold_right]. unfold LvalueModel.thenDo. rewrite H. cbn [andThen]. rewrite H0. reflexivity. Qed.

  Theorem single_accessible : forall p vs T psi js ds k d v, steps (nothing K) p vs -> noSwap K p -> vs psi = Some (k, d, v) ->
    T < B -> psi < B -> psi <> T -> Forall (keeps K) js -> Forall (stepOk K) ds ->
    exists s0 s, runP (start K) p = Ok K s0 /\ evolveSingle T psi js None ds s0 = Ok K s /\
      look s T = Some (k, d, evolved ds v) /\ look s psi = Some (k, d, evolved ds v) /\
      forall x u, x < B -> x <> T -> x <> psi -> vs x = Some u -> look s x = Some u.
  Proof.
    intros p vs T psi js ds k d v Hp NS H HT Hpsi N F Fd.
    destruct (run_steps K kz kadd ksub kmul kdiv kneg kconj p _ _ _ (rel_start K) Hp NS) as (s0 & E0 & Rl0).
    destruct (construct_does T psi js vs s0 k d v Rl0 H HT N F) as (s1 & vs1 & E1 & Rl1 & V1 & T1 & O1 & P1 & X1).
    destruct (steps_do T k d HT ds v vs1 V1 Fd) as (vs2 & D2 & V2 & X2). destruct (D2 s1 Rl1) as (s2 & E2 & Rl2 & Ev).
    exists s0, s2. split; [exact E0|]. split; [apply (order3 _ _ _ _ s1 s1 s2); [exact E1|reflexivity|exact E2]|].
    assert (LT : look s2 T = Some (k, d, evolved ds v)) by exact (look_of vs2 s2 T _ Rl2 V2).
    split; [exact LT|]. split.
    - rewrite <- LT. unfold AliasModel.look. rewrite !Ev by assumption. rewrite T1, O1 by auto. reflexivity.
    - intros x u Hx Nx Np Hu. apply (look_of vs2 s2 x _ Rl2). now rewrite X2, X1.
  Qed.

  Theorem single_resumed : forall p vs T psi js ds w k d v, steps (nothing K) p vs -> noSwap K p -> vs psi = Some (k, d, v) ->
    T < B -> psi < B -> psi <> T -> Forall (keeps K) js -> Forall (stepOk K) ds -> length w = length v ->
    exists s0 s, runP (start K) p = Ok K s0 /\ evolveSingle T psi js (Some w) ds s0 = Ok K s /\
      look s T = Some (k, d, evolved ds w) /\ look s psi = Some (k, d, v).
  Proof.
    intros p vs T psi js ds w k d v Hp NS H HT Hpsi N F Fd L.
    destruct (run_steps K kz kadd ksub kmul kdiv kneg kconj p _ _ _ (rel_start K) Hp NS) as (s0 & E0 & Rl0).
    destruct (construct_does T psi js vs s0 k d v Rl0 H HT N F) as (s1 & vs1 & E1 & Rl1 & V1 & T1 & O1 & P1 & X1).
    apply Nat.ltb_lt in Hpsi as Hb. rewrite Hb in P1.
    destruct (read_does T psi w vs1 s1 k d v Rl1 V1 P1) as (s2 & vs2 & E2 & Rl2 & V2 & Y2 & O2 & X2); try assumption; [rewrite O1 by auto; now rewrite T1|].
    destruct (steps_do T k d HT ds w vs2 V2 Fd) as (vs3 & D3 & V3 & X3). destruct (D3 s2 Rl2) as (s3 & E3 & Rl3 & Ev).
    exists s0, s3. split; [exact E0|]. split; [now apply (order3 _ _ _ _ s1 s2 s3)|].
    split; [exact (look_of vs3 s3 T _ Rl3 V3)|]. apply (look_of vs3 s3 psi _ Rl3). now rewrite X3.
  Qed.

  (** ** the Master equation *)
  Lemma move_does : forall T x vs s k d v, rel vs s -> vs x = Some (k, d, v) -> x <> T ->
    exists s1, one (Move K T x) s = Ok K s1 /\ rel (put (put vs x None) T (Some (k, d, v))) s1 /\ s_env K s1 T = s_env K s x /\ forall y, y <> T -> s_env K s1 y = s_env K s y.
  Proof.
    intros T x vs s k d v Rl H N.
    destruct (exec_step K kz kadd ksub kmul kdiv kneg kconj vs s (Move K T x) _ Rl (step_move _ _ _ _ _ _ _ _ vs T x _ H)) as (s1 & E1 & Rl1); [discriminate|].
    exists s1. split; [exact E1|]. split; [exact Rl1|]. revert E1. cbn [AliasModel.exec]. unfold doShare.
    destruct (rel_env vs s x k d v Rl H) as [o Ho]. rewrite Ho. intros [= <-]. cbn [share s_env]. split; [apply bind_same|]. intros y Ny. now apply bind_other.
  Qed.

  Theorem master_accessible : forall p vs T rho fs k d v, steps (nothing K) p vs -> noSwap K p -> vs rho = Some (k, d, v) ->
    T < B -> rho < B -> rho <> T -> Forall (keeps K) fs ->
    exists s0 s, runP (start K) p = Ok K s0 /\ evolveMasterRho T rho None fs s0 = Ok K s /\
      look s T = Some (k, d, evolvedMaster K kdiv tr fs v) /\ look s rho = Some (k, d, evolvedMaster K kdiv tr fs v).
  Proof.
    intros p vs T rho fs k d v Hp NS H HT Hr N F.
    destruct (run_steps K kz kadd ksub kmul kdiv kneg kconj p _ _ _ (rel_start K) Hp NS) as (s0 & E0 & Rl0).
    destruct (move_does T rho vs s0 k d v Rl0 H N) as (s1 & E1 & Rl1 & T1 & O1).
    destruct (masters_do T k d HT fs v (put (put vs rho None) T (Some (k, d, v))) (put_same _ _ _ _) F) as (vs2 & D2 & V2 & X2). destruct (D2 s1 Rl1) as (s2 & E2 & Rl2 & Ev).
    exists s0, s2. split; [exact E0|]. split; [apply (order3 _ _ _ _ s1 s1 s2); [exact E1|reflexivity|exact E2]|].
    assert (LT : look s2 T = Some (k, d, evolvedMaster K kdiv tr fs v)) by exact (look_of vs2 s2 T _ Rl2 V2).
    split; [exact LT|]. rewrite <- LT. unfold AliasModel.look. rewrite !Ev by assumption. rewrite T1, O1 by auto. reflexivity.
  Qed.

  Theorem master_resumed : forall p vs T rho fs w k d v, steps (nothing K) p vs -> noSwap K p -> vs rho = Some (k, d, v) ->
    T < B -> rho < B -> rho <> T -> Forall (keeps K) fs -> length w = length v ->
    exists s0 s, runP (start K) p = Ok K s0 /\ evolveMasterRho T rho (Some w) fs s0 = Ok K s /\
      look s T = Some (k, d, evolvedMaster K kdiv tr fs w) /\ look s rho = Some (k, d, v).
  Proof.
    intros p vs T rho fs w k d v Hp NS H HT Hr N F L.
    destruct (run_steps K kz kadd ksub kmul kdiv kneg kconj p _ _ _ (rel_start K) Hp NS) as (s0 & E0 & Rl0).
    destruct (move_does T rho vs s0 k d v Rl0 H N) as (s1 & E1 & Rl1 & T1 & O1).
    destruct (read_does T rho w _ s1 k d v Rl1 (put_same _ _ _ _)) as (s2 & vs2 & E2 & Rl2 & V2 & Y2 & O2 & X2); try assumption;
      [rewrite put_other by exact N; apply put_same|now rewrite T1, O1 by auto|].
    destruct (masters_do T k d HT fs w vs2 V2 F) as (vs3 & D3 & V3 & X3). destruct (D3 s2 Rl2) as (s3 & E3 & Rl3 & Ev).
    exists s0, s3. split; [exact E0|]. split; [now apply (order3 _ _ _ _ s1 s2 s3)|].
    split; [exact (look_of vs3 s3 T _ Rl3 V3)|]. apply (look_of vs3 s3 rho _ Rl3). now rewrite X3.
  Qed.

  Theorem master_from_vector : forall p vs T psi fs d v, steps (nothing K) p vs -> noSwap K p -> vs psi = Some (Psi, d, v) ->
    T < B -> psi < B -> psi <> T -> Forall (keeps K) fs ->
    exists s0 s, runP (start K) p = Ok K s0 /\ evolveMasterPsi T psi None fs s0 = Ok K s /\
      look s T = Some (Rho, d, evolvedMaster K kdiv tr fs (dyadOf K kmul kconj v)) /\ look s psi = Some (Psi, d, v).
  Proof.
    intros p vs T psi fs d v Hp NS H HT Hr N F.
    destruct (run_steps K kz kadd ksub kmul kdiv kneg kconj p _ _ _ (rel_start K) Hp NS) as (s0 & E0 & Rl0).
    destruct (exec_step K kz kadd ksub kmul kdiv kneg kconj vs s0 (Dyad K cache psi) _ Rl0 (step_dyad _ _ _ _ _ _ _ _ vs cache psi d v H)) as (s1 & E1 & Rl1); [discriminate|].
    assert (NC : cache <> T) by (unfold LvalueModel.cache; lia).
    destruct (move_does T cache _ s1 Rho d _ Rl1 (put_same _ _ _ _) NC) as (s2 & E2 & Rl2 & T2 & O2).
    destruct (masters_do T Rho d HT fs (dyadOf K kmul kconj v) _ (put_same K (put (put vs cache (Some (Rho, d, dyadOf K kmul kconj v))) cache None) T _) F) as (vs3 & D3 & V3 & X3). destruct (D3 s2 Rl2) as (s3 & E3 & Rl3 & Ev).
    exists s0, s3. split; [exact E0|]. split.
    - unfold LvalueModel.evolveMasterPsi. cbn [LvalueModel.inOrder fold_right]. unfold LvalueModel.thenDo at 1, LvalueModel.one at 1. rewrite E1. cbn [andThen].
      unfold LvalueModel.thenDo at 1, LvalueModel.evolveMasterRho. rewrite (order3 _ (readState T None) _ s1 s2 s2 s3); [reflexivity|exact E2|reflexivity|exact E3].
    - split; [exact (look_of vs3 s3 T _ Rl3 V3)|]. apply (look_of vs3 s3 psi _ Rl3). rewrite X3 by auto.
      rewrite put_other by exact N. rewrite !put_other by (unfold LvalueModel.cache; lia). exact H.
  Qed.

  (** ** what is streamed *)
  Lemma streamed_own : forall T k d, T < B -> forall dss v vs s x, rel vs s -> vs T = Some (k, d, v) -> sameBlock s x T -> x < B -> Forall (Forall (stepOk K)) dss ->
    exists s', streamed T x dss s = Some (s', history dss v).
  Proof.
    intros T k d HT. induction dss as [|ds dss IH]; intros v vs s x Rl V Sb Hx F; cbn [LvalueModel.streamed LvalueSpec.history].
    - exists s. rewrite (same_seen s x T Sb), (tracked_seen vs s T k d v Rl V). reflexivity.
    - destruct (steps_do T k d HT ds v vs V (Forall_inv F)) as (vs1 & D1 & V1 & X1). destruct (D1 s Rl) as (s1 & E1 & Rl1 & Ev). rewrite E1.
      destruct (IH _ vs1 s1 x Rl1 V1) as [s' E']; [apply (same_env s); [exact Sb|now apply Ev|now apply Ev]|exact Hx|exact (Forall_inv_tail F)|].
      rewrite E'. exists s'. rewrite (same_seen s x T Sb), (tracked_seen vs s T k d v Rl V). reflexivity.
  Qed.
  Lemma streamed_other : forall T k d, T < B -> forall dss v vs s x y k' d' u, rel vs s -> vs T = Some (k, d, v) -> vs y = Some (k', d', u) -> y <> T -> y < B ->
    sameBlock s x y -> x < B -> Forall (Forall (stepOk K)) dss ->
    exists s', streamed T x dss s = Some (s', repeat u (Datatypes.S (length dss))).
  Proof.
    intros T k d HT. induction dss as [|ds dss IH]; intros v vs s x y k' d' u Rl V Y Ny Hy Sb Hx F; cbn [LvalueModel.streamed repeat length].
    - exists s. rewrite (same_seen s x y Sb), (tracked_seen vs s y k' d' u Rl Y). reflexivity.
    - destruct (steps_do T k d HT ds v vs V (Forall_inv F)) as (vs1 & D1 & V1 & X1). destruct (D1 s Rl) as (s1 & E1 & Rl1 & Ev). rewrite E1.
      destruct (IH _ vs1 s1 x y k' d' u Rl1 V1) as [s' E']; [now rewrite X1|exact Ny|exact Hy|apply (same_env s); [exact Sb|now apply Ev|now apply Ev]|exact Hx|exact (Forall_inv_tail F)|].
      rewrite E'. exists s'. rewrite (same_seen s x y Sb), (tracked_seen vs s y k' d' u Rl Y). reflexivity.
  Qed.

  (** ** the script *)
  Lemma seq_nth_map : forall n, map (fun p => nth p (seq 0 n) 0) (seq 0 n) = seq 0 n.
  Proof.
    intro n. transitivity (map (fun p => p) (seq 0 n)); [|apply map_id]. apply map_ext_in. intros p Hp. apply in_seq in Hp. now rewrite seq_nth by lia.
  Qed.
  Lemma view_does : forall x y vs s k d v, rel vs s -> vs y = Some (k, d, v) -> x <> y -> k = Psi ->
    exists s1, one (View K x y [length v] (seq 0 (length v))) s = Ok K s1 /\ rel (put (put vs y None) x (Some (k, [length v], v))) s1 /\
      sameBlock s1 y x /\ forall z, z <> x -> s_env K s1 z = s_env K s z.
  Proof.
    intros x y vs s k d v Rl H N ->. pose proof Rl as [R1 R2]. destruct (R1 y Psi d v H) as (b & Hb & Hn & Hs).
    assert (Q : forallb (fun p => p <? length (o_cells (whole Psi d b (length v)))) (seq 0 (length v)) && (length (seq 0 (length v)) =? sizeOf Psi [length v]) = true).
    { apply andb_true_intro. split.
      - apply forallb_forall. intros p Hp. apply in_seq in Hp. cbn [whole o_cells]. rewrite seq_length. apply Nat.ltb_lt. lia.
      - rewrite seq_length. unfold sizeOf. cbn. apply Nat.eqb_eq. lia. }
    unfold LvalueModel.one. cbn [AliasModel.exec]. unfold doView. rewrite Hb.
    change (o_kind (whole Psi d b (length v))) with Psi. rewrite Q.
    change (o_cells (whole Psi d b (length v))) with (seq 0 (length v)). rewrite seq_nth_map.
    change (o_blk (whole Psi d b (length v))) with b.
    eexists. split; [reflexivity|]. split; [|split].
    - split; cbn [share s_env s_heap].
      + intros z k' d' v' Hz. destruct (Nat.eq_dec z x) as [->|Nz].
        * rewrite put_same in Hz. injection Hz as <- <- <-. exists b. rewrite bind_same. split; [reflexivity|]. split; [exact Hn|]. unfold sized. cbn. lia.
        * rewrite put_other in Hz by exact Nz. destruct (Nat.eq_dec z y) as [->|Ny]; [rewrite put_same in Hz; discriminate|]. rewrite put_other in Hz by exact Ny.
          rewrite bind_other by exact Nz. now apply R1.
      + intros z u a c o o' Nzu Hz Hu Oz Ou.
        assert (G : forall z a, z <> x -> put (put vs y None) x (Some (Psi, [length v], v)) z = Some a -> vs z = Some a /\ z <> y).
        { intros z' a' Nz Hz'. rewrite put_other in Hz' by exact Nz. destruct (Nat.eq_dec z' y) as [->|Ny]; [rewrite put_same in Hz'; discriminate|].
          rewrite put_other in Hz' by exact Ny. now split. }
        destruct (Nat.eq_dec z x) as [->|Nz]; destruct (Nat.eq_dec u x) as [->|Nu]; try congruence.
        * rewrite bind_same in Oz. injection Oz as <-. rewrite bind_other in Ou by exact Nu. destruct (G u c Nu Hu) as [Gu Gy].
          cbn [o_blk]. exact (R2 y u _ _ _ _ (not_eq_sym Gy) H Gu Hb Ou).
        * rewrite bind_same in Ou. injection Ou as <-. rewrite bind_other in Oz by exact Nz. destruct (G z a Nz Hz) as [Gz Gy].
          cbn [o_blk]. exact (R2 z y _ _ _ _ Gy Gz H Oz Hb).
        * rewrite bind_other in Oz by exact Nz. rewrite bind_other in Ou by exact Nu. destruct (G z a Nz Hz) as [Gz _]. destruct (G u c Nu Hu) as [Gu _].
          exact (R2 z u a c o o' Nzu Gz Gu Oz Ou).
    - eexists. eexists. cbn [share s_env]. rewrite bind_same, bind_other by auto. rewrite Hb. split; [reflexivity|]. split; [reflexivity|]. split; reflexivity.
    - intros z Nz. cbn [share s_env]. now apply bind_other.
  Qed.

  Theorem matrix_streams : forall p vs T psi1 psi2 dss d v, steps (nothing K) p vs -> noSwap K p -> vs psi2 = Some (Psi, d, v) ->
    T < B -> psi1 < B -> psi2 < B -> psi1 <> T -> psi2 <> T -> psi1 <> psi2 -> Forall (Forall (stepOk K)) dss ->
    exists s0, runP (start K) p = Ok K s0 /\
      (exists s, qbitModeMatrix T psi1 psi2 (length v) None dss s0 = Some (s, history dss v)) /\
      (forall w, length w = length v -> exists s, qbitModeMatrix T psi1 psi2 (length v) (Some w) dss s0 = Some (s, repeat v (Datatypes.S (length dss)))).
  Proof.
    intros p vs T psi1 psi2 dss d v Hp NS H HT H1 H2 N1 N2 N12 F.
    destruct (run_steps K kz kadd ksub kmul kdiv kneg kconj p _ _ _ (rel_start K) Hp NS) as (s0 & E0 & Rl0).
    destruct (view_does psi1 psi2 vs s0 Psi d v Rl0 H N12 eq_refl) as (s1 & E1 & Rl1 & Sb1 & O1).
    destruct (construct_does T psi1 [] _ s1 Psi [length v] v Rl1 (put_same _ _ _ _) HT N1 (Forall_nil _)) as (s2 & vs2 & E2 & Rl2 & V2 & T2 & O2 & P2 & X2).
    apply Nat.ltb_lt in H1 as Hb. rewrite Hb in P2.
    assert (Sb2 : sameBlock s2 psi2 psi1) by (apply (same_env s1); [exact Sb1|now apply O2|now apply O2]).
    assert (SbT : sameBlock s2 psi2 T).
    { destruct Sb2 as (o & o' & A & C & D). exists o, o'. rewrite T2, <- O2 by auto. auto. }
    exists s0. split; [exact E0|]. unfold LvalueModel.qbitModeMatrix. split.
    - destruct (streamed_own T Psi [length v] HT dss v vs2 s2 psi2 Rl2 V2 SbT H2 F) as [s' E']. exists s'.
      rewrite (order3 _ _ (readState T None) s0 s1 s2 s2 E1 E2 eq_refl). exact E'.
    - intros w L.
      destruct (read_does T psi1 w vs2 s2 Psi [length v] v Rl2 V2 P2) as (s3 & vs3 & E3 & Rl3 & V3 & Y3 & O3 & X3); try assumption; [rewrite O2 by auto; now rewrite T2|].
      assert (Sb3 : sameBlock s3 psi2 psi1) by (apply (same_env s2); [exact Sb2|now apply O3|now apply O3]).
      destruct (streamed_other T Psi [length v] HT dss w vs3 s3 psi2 psi1 Psi [length v] v Rl3 V3 Y3 N1 H1 Sb3 H2 F) as [s' E']. exists s'.
      rewrite (order3 _ _ (readState T (Some w)) s0 s1 s2 s3 E1 E2 E3). exact E'.
  Qed.

  (** ** ensembles *)
  Lemma ens_construct : forall psi js k d v, psi < B -> Forall (keeps K) js -> forall (tds : list (nat * list (mcwfStep K))) vs s,
    rel vs s -> vs psi = Some (k, d, v) -> NoDup (map fst tds) -> Forall (fun T => T < B /\ T <> psi) (map fst tds) ->
    exists s' vs', inOrder (map (fun td => construct1 psi js (fst td)) tds) s = Ok K s' /\ rel vs' s' /\
      (forall T, In T (map fst tds) -> vs' T = Some (k, d, v)) /\ (forall x, x < B -> ~ In x (map fst tds) -> vs' x = vs x).
  Proof.
    intros psi js k d v Hpsi F. induction tds as [|[T ds] tds IH]; intros vs s Rl H ND FT.
    - exists s, vs. split; [reflexivity|]. split; [exact Rl|]. split; [intros T []|reflexivity].
    - cbn [map fst] in *. apply NoDup_cons_iff in ND as [NI ND]. pose proof (Forall_inv FT) as [HT NT]. apply Forall_inv_tail in FT.
      destruct (exec_step K kz kadd ksub kmul kdiv kneg kconj vs s (Copy K temp psi) _ Rl (step_copy _ _ _ _ _ _ _ _ vs temp psi _ H)) as (s1 & E1 & Rl1); [discriminate|].
      assert (Nt : temp <> T) by (unfold LvalueModel.temp; lia).
      destruct (construct_does T temp js _ s1 k d v Rl1 (put_same _ _ _ _) HT Nt F) as (s2 & vs2 & E2 & Rl2 & V2 & _ & _ & _ & X2).
      assert (X2' : forall x, x < B -> x <> T -> vs2 x = vs x).
      { intros x Hx Nx. assert (x <> temp) by (unfold LvalueModel.temp; lia). rewrite X2 by assumption. now rewrite put_other. }
      destruct (IH vs2 s2 Rl2) as (s3 & vs3 & E3 & Rl3 & V3 & X3); [rewrite X2' by auto; exact H|exact ND|exact FT|].
      exists s3, vs3. split; [|split; [exact Rl3|split]].
      + cbn [LvalueModel.inOrder fold_right]. unfold LvalueModel.thenDo at 1. unfold LvalueModel.construct1. cbn [LvalueModel.inOrder fold_right].
        unfold LvalueModel.thenDo at 1, LvalueModel.one at 1. rewrite E1. cbn [andThen]. unfold LvalueModel.thenDo at 1. rewrite E2. cbn [andThen]. exact E3.
      + intros T' [<-|Hin]; [|now apply V3]. rewrite X3 by assumption. exact V2.
      + intros x Hx Ni. rewrite X3 by (auto; intro; apply Ni; now right). apply X2'; [exact Hx|]. intros ->. apply Ni. now left.
  Qed.
  Lemma ens_steps : forall k d v (tds : list (nat * list (mcwfStep K))) vs, (forall T, In T (map fst tds) -> vs T = Some (k, d, v)) ->
    NoDup (map fst tds) -> Forall (fun td => fst td < B /\ Forall (stepOk K) (snd td)) tds ->
    exists vs', does (inOrder (map (fun td => inOrder (map (step (fst td)) (snd td))) tds)) vs vs' /\
      (forall T ds, In (T, ds) tds -> vs' T = Some (k, d, evolved ds v)) /\ (forall x, x < B -> ~ In x (map fst tds) -> vs' x = vs x).
  Proof.
    intros k d v. induction tds as [|[T ds] tds IH]; intros vs H ND F.
    - exists vs. split; [apply does_nil|]. split; [intros T ds []|reflexivity].
    - cbn [map fst snd] in *. apply NoDup_cons_iff in ND as [NI ND]. pose proof (Forall_inv F) as [HT Fd]. cbn [fst snd] in HT, Fd.
      destruct (steps_do T k d HT ds v vs (H T (or_introl eq_refl)) Fd) as (vs1 & D1 & V1 & X1).
      assert (FB : forall T', In T' (map fst tds) -> T' < B).
      { intros T' Hin. apply in_map_iff in Hin as ([T'' ds''] & <- & Hin). exact (proj1 (proj1 (Forall_forall _ _) (Forall_inv_tail F) _ Hin)). }
      destruct (IH vs1) as (vs2 & D2 & V2 & X2); [|exact ND|exact (Forall_inv_tail F)|].
      { intros T' Hin. rewrite X1; [apply H; now right|now apply FB|]. intros ->. contradiction. }
      exists vs2. split; [apply (does_cons _ _ _ vs1); assumption|]. split.
      + intros T' ds' [Heq|Hin]; [|now apply V2]. injection Heq as <- <-. rewrite X2 by assumption. exact V1.
      + intros x Hx Ni. rewrite X2 by (auto; intro; apply Ni; now right). apply X1; [exact Hx|]. intros ->. apply Ni. now left.
  Qed.
  Theorem ensemble_independent : forall p vs psi js tds k d v, steps (nothing K) p vs -> noSwap K p -> vs psi = Some (k, d, v) -> psi < B ->
    Forall (keeps K) js -> NoDup (psi :: map fst tds) -> Forall (fun td => fst td < B /\ Forall (stepOk K) (snd td)) tds ->
    exists s0 s, runP (start K) p = Ok K s0 /\ evolveEnsemble psi js tds s0 = Ok K s /\
      (forall T ds, In (T, ds) tds -> look s T = Some (k, d, evolved ds v)) /\ look s psi = Some (k, d, v).
  Proof.
    intros p vs psi js tds k d v Hp NS H Hpsi F ND Fd. apply NoDup_cons_iff in ND as [NI ND].
    destruct (run_steps K kz kadd ksub kmul kdiv kneg kconj p _ _ _ (rel_start K) Hp NS) as (s0 & E0 & Rl0).
    destruct (ens_construct psi js k d v Hpsi F tds vs s0 Rl0 H ND) as (s1 & vs1 & E1 & Rl1 & V1 & X1).
    { apply Forall_forall. intros T Hin. split; [|intros ->; contradiction]. apply in_map_iff in Hin as ([T' ds'] & <- & Hin).
      exact (proj1 (proj1 (Forall_forall _ _) Fd _ Hin)). }
    destruct (ens_steps k d v tds vs1 V1 ND Fd) as (vs2 & D2 & V2 & X2). destruct (D2 s1 Rl1) as (s2 & E2 & Rl2 & _).
    exists s0, s2. split; [exact E0|]. split; [|split].
    - exact (order2 _ _ s0 s1 s2 E1 E2).
    - intros T ds Hin. exact (look_of vs2 s2 T _ Rl2 (V2 T ds Hin)).
    - apply (look_of vs2 s2 psi _ Rl2). now rewrite X2, X1.
  Qed.
End P.
