From Coq Require Import String Ascii List Arith Bool Lia.
From Verif Require Import StateFileModel ParsModel ParsSpec.
Import ListNotations.

Lemma textEq_spec : forall a b, textEq a b = true <-> a = b.
Proof.
  induction a as [|x a IH]; intros [|y b]; cbn; split; try discriminate; auto.
  - intros H. apply andb_prop in H. destruct H as [H1 H2]. apply Ascii.eqb_eq in H1. apply IH in H2. congruence.
  - intros H. injection H as <- <-. rewrite Ascii.eqb_refl. cbn. now apply IH.
Qed.
Lemma textEq_refl a : textEq a a = true.
Proof. now apply textEq_spec. Qed.
Lemma textEq_neq a b : a <> b -> textEq a b = false.
Proof. intros H. destruct (textEq a b) eqn:E; auto. apply textEq_spec in E. contradiction. Qed.

Section P.
Context {V : Type}.
Variable prefix : text.
Variable val : text -> text -> option V.
Notation table := (@table V).
Notation item := (@item V).
Notation commands := (commands prefix val).
Notation loop := (@loop V prefix).

Definition apply1 (t : table) (i : item) : table :=
  match i with SetTo n v => setPlain t n v | On n => setSwitch t n true | Off n => setSwitch t n false end.
Definition applyAll (t : table) (is : list item) : table := fold_left apply1 is t.

Lemma applyAll_decl : forall is t, decl (applyAll t is) = decl t.
Proof. induction is as [|i is IH]; intros t; cbn; auto. fold (applyAll (apply1 t i) is). rewrite IH. now destruct i. Qed.
Lemma plain_keep : forall is t n, (forall v, ~ In (SetTo n v) is) -> plainVal (applyAll t is) n = plainVal t n.
Proof.
  induction is as [|i is IH]; intros t n H; [reflexivity|]. cbn. fold (applyAll (apply1 t i) is). rewrite IH by (intros v I; apply (H v); now right).
  destruct i as [n' v| |]; cbn; auto. unfold set. destruct (textEq n n') eqn:E; auto. apply textEq_spec in E. subst. exfalso. apply (H v). now left.
Qed.
Lemma switch_keep : forall is t n, ~ In (On n) is -> ~ In (Off n) is -> switchVal (applyAll t is) n = switchVal t n.
Proof.
  induction is as [|i is IH]; intros t n H H'; [reflexivity|]. cbn. fold (applyAll (apply1 t i) is).
  rewrite IH; [|intros I; apply H; now right|intros I; apply H'; now right].
  destruct i as [|n'|n']; cbn; auto; unfold set; destruct (textEq n n') eqn:E; auto; apply textEq_spec in E; subst; exfalso; [apply H|apply H']; now left.
Qed.
Lemma switch_only : forall is t n b, switchVal t n = b -> ~ In (if b then Off n else On n) is -> switchVal (applyAll t is) n = b.
Proof.
  induction is as [|i is IH]; intros t n b H N; [exact H|]. cbn. fold (applyAll (apply1 t i) is). apply IH; [|intros I; apply N; now right].
  destruct i as [|n'|n']; cbn; auto; unfold set; destruct (textEq n n') eqn:E; auto; apply textEq_spec in E; subst n'; destruct b; auto; exfalso; apply N; now left.
Qed.
Lemma applyAll_last t is : lastWins t (applyAll t is) is.
Proof.
  assert (A : forall a b, applyAll t (a ++ b) = applyAll (applyAll t a) b) by (intros; apply fold_left_app).
  repeat split.
  - apply applyAll_decl.
  - intros n is1 v is2 -> H. rewrite A. change (applyAll ?x (?i :: ?l)) with (applyAll (apply1 x i) l). rewrite plain_keep by auto. cbn. unfold set. now rewrite textEq_refl.
  - intros n H. now apply plain_keep.
  - intros n is1 is2 -> H. rewrite A. change (applyAll ?x (?i :: ?l)) with (applyAll (apply1 x i) l). apply (switch_only is2 (apply1 (applyAll t is1) (On n)) n true); auto. cbn. unfold set. now rewrite textEq_refl.
  - intros n is1 is2 -> H. rewrite A. change (applyAll ?x (?i :: ?l)) with (applyAll (apply1 x i) l). apply (switch_only is2 (apply1 (applyAll t is1) (Off n)) n false); auto. cbn. unfold set. now rewrite textEq_refl.
  - intros n H1 H2. now apply switch_keep.
Qed.

(** the stream *)
Definition line (ws : list text) : text := flat_map (fun w => " "%char :: w) ws.
Lemma line_end ws : wordEnd (line ws).
Proof. destruct ws; cbn; auto. Qed.
Lemma span_word : forall w l, (forall c, In c w -> isSpace c = false) -> wordEnd l -> span (w ++ l) = (w, l).
Proof.
  induction w as [|c w IH]; intros l H E; cbn.
  - destruct l as [|c l]; cbn; auto. cbn in E. now rewrite E.
  - rewrite (H c) by now left. rewrite IH; auto. intros x I. apply H. now right.
Qed.
Lemma skip_word w l : isWord w -> skipSpace (w ++ l) = w ++ l.
Proof. intros [N H]. destruct w as [|c w]; [contradiction|]. cbn. now rewrite (H c) by now left. Qed.
Lemma extract_word w l : isWord w -> wordEnd l -> extractWord (" "%char :: w ++ l) = Some (w, l).
Proof.
  intros H E. unfold extractWord. change (skipSpace (" "%char :: w ++ l)) with (skipSpace (w ++ l)). rewrite skip_word by auto.
  destruct H as [N H]. destruct w as [|c w]; [contradiction|]. cbn [app]. f_equal. exact (span_word (c :: w) l H E).
Qed.
(** the same without the leading space: what is left of a word *)
Lemma extract_rest w l : isWord w -> wordEnd l -> extractWord (w ++ l) = Some (w, l).
Proof.
  intros H E. unfold extractWord. rewrite skip_word by auto.
  destruct H as [N H]. destruct w as [|c w]; [contradiction|]. cbn [app]. f_equal. exact (span_word (c :: w) l H E).
Qed.

Definition startsWith (w : text) : Prop := firstn (length prefix) w = prefix.
Lemma prefix_name w : startsWith w -> w = prefix ++ skipn (length prefix) w.
Proof. unfold startsWith. intros H. rewrite <- (firstn_skipn (length prefix) w) at 1. now rewrite H. Qed.
Lemma starts_prefix n : startsWith (prefix ++ n).
Proof. unfold startsWith. rewrite firstn_app, Nat.sub_diag, firstn_all. cbn. apply app_nil_r. Qed.
Lemma skip_prefix n : skipn (length prefix) (prefix ++ n) = n.
Proof. rewrite skipn_app, skipn_all, Nat.sub_diag. reflexivity. Qed.
Lemma prefix_inj n m : prefix ++ n = prefix ++ m -> n = m.
Proof. apply app_inv_head. Qed.

Section D.
Variable d : list (text * @kind V).
Hypothesis Hread : forall n e, find d n = Some (Plain e) -> readsWords e (val n).

(** one turn of the loop *)
Lemma loop_word f t w l : isWord w -> wordEnd l -> decl t = d ->
  forall lead, lead = [] \/ lead = [" "%char] ->
  loop (S f) t (lead ++ w ++ l) =
    (if negb (textEq (firstn (length prefix) w) prefix) then Aborted
     else let name := skipn (length prefix) w in
     if textEq name (str "help") then Exited else if textEq name (str "version") then Exited
     else match find d name with
       | None => Aborted | Some Title => Aborted
       | Some (Plain extract) => match extract l with None => Aborted | Some (v, line') => loop f (setPlain t name v) line' end
       | Some Switch => loop f (setSwitch t name true) l
       | Some (Negated s) => loop f (setSwitch t s false) l
       end).
Proof.
  intros Hw Hl <- lead Hlead. cbn [ParsModel.loop].
  assert (E : extractWord (lead ++ w ++ l) = Some (w, l)) by (destruct Hlead as [->| ->]; [exact (extract_rest w l Hw Hl)|exact (extract_word w l Hw Hl)]).
  rewrite E. reflexivity.
Qed.
Lemma loop_nil f t : loop f t [] = Updated t.
Proof. now destruct f. Qed.

Lemma accept : forall ws is, commands d ws is -> (forall w, In w ws -> isWord w) ->
  forall f t, length (line ws) <= f -> decl t = d -> loop f t (line ws) = Updated (applyAll t is).
Proof.
  intros ws is H. induction H as [|n e w v ws is N1 N2 F Hv H IH|n ws is N1 N2 F H IH|n s ws is N1 N2 F H IH]; intros W f t Hf Hd.
  - apply loop_nil.
  - cbn [line flat_map] in *. fold (line ws) in *. assert (W1 : isWord (prefix ++ n)) by (apply W; now left).
    assert (W2 : isWord w) by (apply W; right; now left). cbn [app length] in Hf. rewrite !app_length in Hf. cbn [length] in Hf. rewrite app_length in Hf.
    destruct f as [|f]; [lia|]. change (" "%char :: (prefix ++ n)) with ([" "%char] ++ (prefix ++ n)).
    rewrite <- app_assoc. rewrite loop_word; auto; [|reflexivity]. pose proof (starts_prefix n) as SP. unfold startsWith in SP. rewrite SP, textEq_refl. cbn [negb]. cbv zeta.
    rewrite skip_prefix, !textEq_neq, F by auto. destruct (Hread n e F) as [_ R]. specialize (R w (line ws) W2 (line_end ws)). rewrite Hv in R. cbn [app].
    rewrite R. apply IH; auto; [intros x I; apply W; right; now right|lia].
  - cbn [line flat_map] in *. fold (line ws) in *. assert (W1 : isWord (prefix ++ n)) by (apply W; now left).
    cbn [app length] in Hf. rewrite !app_length in Hf.
    destruct f as [|f]; [lia|]. change (" "%char :: (prefix ++ n)) with ([" "%char] ++ (prefix ++ n)).
    rewrite <- app_assoc. rewrite loop_word; auto; [|apply line_end]. pose proof (starts_prefix n) as SP. unfold startsWith in SP. rewrite SP, textEq_refl. cbn [negb]. cbv zeta.
    rewrite skip_prefix, !textEq_neq, F by auto. apply IH; auto; [intros x I; apply W; now right|lia].
  - cbn [line flat_map] in *. fold (line ws) in *. assert (W1 : isWord (prefix ++ n)) by (apply W; now left).
    cbn [app length] in Hf. rewrite !app_length in Hf.
    destruct f as [|f]; [lia|]. change (" "%char :: (prefix ++ n)) with ([" "%char] ++ (prefix ++ n)).
    rewrite <- app_assoc. rewrite loop_word; auto; [|apply line_end]. pose proof (starts_prefix n) as SP. unfold startsWith in SP. rewrite SP, textEq_refl. cbn [negb]. cbv zeta.
    rewrite skip_prefix, !textEq_neq, F by auto. apply IH; auto; [intros x I; apply W; now right|lia].
Qed.


Notation noGlue := (noPrefixInside prefix val d).
Notation asksForHelp := (asksForHelp prefix val d).
Lemma noGlue_tail w ws : noGlue (w :: ws) -> noGlue ws.
Proof. intros H n e w1 w2 F I. apply (H n e w1 w2 F). now right. Qed.
Lemma wordEnd_nil l : wordEnd l -> isWord l -> l = [].
Proof. destruct l as [|c l]; auto. intros E [_ H]. cbn in E. rewrite (H c) in E by now left. discriminate. Qed.

Lemma cmd_head w ws is : commands d (w :: ws) is -> exists n, w = prefix ++ n /\ n <> str "help" /\ n <> str "version" /\
  ((exists e w' v ws' is', find d n = Some (Plain e) /\ ws = w' :: ws' /\ val n w' = Some v /\ commands d ws' is' /\ is = SetTo n v :: is') \/
   (exists is', find d n = Some Switch /\ commands d ws is' /\ is = On n :: is') \/
   (exists s is', find d n = Some (Negated s) /\ commands d ws is' /\ is = Off s :: is')).
Proof.
  intros H. inversion H as [|n e w' v ws' is' N1 N2 F Hv Hc|n ws' is' N1 N2 F Hc|n s ws' is' N1 N2 F Hc]; subst; exists n; repeat split; auto.
  - left. now exists e, w', v, ws', is'.
  - right. left. now exists is'.
  - right. right. now exists s, is'.
Qed.

Definition verdict (ws : list text) (t : table) (o : outcome) : Prop :=
  match o with
  | Updated t' => exists is, commands d ws is /\ t' = applyAll t is
  | Exited => asksForHelp ws
  | Aborted => (~ exists is, commands d ws is) /\ ~ asksForHelp ws
  | Stuck => False
  end.

Lemma verdict_loop : forall m ws f t, length ws <= m -> (forall w, In w ws -> isWord w) -> noGlue ws -> length (line ws) <= f -> decl t = d ->
  verdict ws t (loop f t (line ws)).
Proof.
  induction m as [|m IH]; intros ws f t Hm W G Hf Hd.
  - destruct ws; [|cbn in Hm; lia]. rewrite loop_nil. exists []. split; [constructor|reflexivity].
  - destruct ws as [|w ws]; [rewrite loop_nil; exists []; split; [constructor|reflexivity]|].
    cbn [length] in Hm. cbn [line flat_map] in *. fold (line ws) in *.
    assert (Ww : isWord w) by (apply W; now left). assert (Wt : forall x, In x ws -> isWord x) by (intros x I; apply W; now right).
    cbn [app length] in Hf. rewrite app_length in Hf. destruct f as [|f]; [lia|].
    change (" "%char :: w) with ([" "%char] ++ w). rewrite <- app_assoc. rewrite loop_word; auto; [|apply line_end].
    destruct (textEq (firstn (length prefix) w) prefix) eqn:EP; cbn [negb].
    2: { split.
         - intros [is H]. apply cmd_head in H. destruct H as [n [-> _]]. pose proof (starts_prefix n) as SP. unfold startsWith in SP. rewrite SP, textEq_refl in EP. discriminate.
         - intros (ws1 & ws2 & is & h & E & Hh & C). destruct ws1 as [|x ws1].
           + cbn in E. injection E as -> _. pose proof (starts_prefix h) as SP. unfold startsWith in SP. rewrite SP, textEq_refl in EP. discriminate.
           + cbn in E. injection E as <- _. apply cmd_head in C. destruct C as [n [-> _]]. pose proof (starts_prefix n) as SP. unfold startsWith in SP. rewrite SP, textEq_refl in EP. discriminate. }
    apply textEq_spec in EP. pose proof (prefix_name w EP) as Ew. set (n := skipn (length prefix) w) in *. clearbody n. subst w. cbv zeta. clear EP.
    destruct (textEq n (str "help")) eqn:E1.
    { apply textEq_spec in E1. exists [], ws, [], n. repeat split; auto. constructor. }
    destruct (textEq n (str "version")) eqn:E2.
    { apply textEq_spec in E2. exists [], ws, [], n. repeat split; auto. constructor. }
    assert (N1 : n <> str "help") by (intros ->; rewrite textEq_refl in E1; discriminate).
    assert (N2 : n <> str "version") by (intros ->; rewrite textEq_refl in E2; discriminate).
    (* the help word does not come first *)
    assert (HH : asksForHelp ((prefix ++ n) :: ws) -> exists ws1 ws2 is h, ws = ws1 ++ (prefix ++ h) :: ws2 /\ (h = str "help" \/ h = str "version") /\ commands d ((prefix ++ n) :: ws1) is).
    { intros (ws1 & ws2 & is & h & E & Hh & C). destruct ws1 as [|x ws1].
      - cbn in E. injection E as E _. apply prefix_inj in E. subst h. destruct Hh; contradiction.
      - cbn in E. injection E as <- E. exists ws1, ws2, is, h. auto. }
    assert (CH : forall ws' is, commands d ((prefix ++ n) :: ws') is -> 
       ((exists e w' v ws'' is', find d n = Some (Plain e) /\ ws' = w' :: ws'' /\ val n w' = Some v /\ commands d ws'' is' /\ is = SetTo n v :: is') \/
        (exists is', find d n = Some Switch /\ commands d ws' is' /\ is = On n :: is') \/
        (exists s is', find d n = Some (Negated s) /\ commands d ws' is' /\ is = Off s :: is'))).
    { intros ws' is C. apply cmd_head in C. destruct C as [n' [E [_ [_ C]]]]. apply prefix_inj in E. subst n'. exact C. }
    destruct (find d n) as [k|] eqn:F.
    2: { split.
         - intros [is H]. apply CH in H. destruct H as [(?&?&?&?&?&A&_)|[(?&A&_)|(?&?&A&_)]]; discriminate A.
         - intros H. apply HH in H. destruct H as (?&?&is&?&_&_&H). apply CH in H. destruct H as [(?&?&?&?&?&A&_)|[(?&A&_)|(?&?&A&_)]]; discriminate A. }
    destruct k as [e| |s|].
    + (* plain *)
      destruct (Hread n e F) as [R0 R]. destruct ws as [|w2 ws].
      * cbn [line flat_map]. rewrite R0. split.
        -- intros [is H]. apply CH in H. destruct H as [(?&?&?&?&?&_&A&_)|[(?&A&_)|(?&?&A&_)]]; discriminate A.
        -- intros H. apply HH in H. destruct H as (ws1&?&?&?&A&_). destruct ws1; discriminate A.
      * cbn [line flat_map]. fold (line ws). assert (Ww2 : isWord w2) by (apply Wt; now left).
        specialize (R w2 (line ws) Ww2 (line_end ws)). cbn [app].
        cbn [line flat_map] in Hf. fold (line ws) in Hf. cbn [app length] in Hf. rewrite !app_length in Hf. cbn [length] in Hf. try rewrite !app_length in Hf.
        destruct (val n w2) as [v|] eqn:Hv.
        -- rewrite R. specialize (IH ws f (setPlain t n v) ltac:(cbn [length] in Hm; lia) (fun x I => Wt x (or_intror I)) (noGlue_tail _ _ (noGlue_tail _ _ G)) ltac:(lia) Hd).
           destruct (loop f (setPlain t n v) (line ws)) as [t'| | |]; cbn [verdict] in *; auto.
           ++ destruct IH as [is [C ->]]. exists (SetTo n v :: is). split; [econstructor; eauto|reflexivity].
           ++ destruct IH as [I1 I2]. split.
              ** intros [is H]. apply CH in H. destruct H as [(?&?&?&?&is'&_&A&B&C&_)|[(?&A&_)|(?&?&A&_)]]; try discriminate A.
                 injection A as <- <-. apply I1. now exists is'.
              ** intros H. apply HH in H. destruct H as (ws1&ws2&is&h&A&B&C). apply CH in C. destruct C as [(?&w'&?&ws''&is'&_&A'&Hv'&C&_)|[(?&A'&_)|(?&?&A'&_)]]; try discriminate A'.
                 subst ws1. cbn in A. injection A as <- A. apply I2. exists ws'', ws2, is', h. auto.
           ++ destruct IH as (ws1&ws2&is&h&A&B&C). exists ((prefix ++ n) :: w2 :: ws1), ws2, (SetTo n v :: is), h. split; [now rewrite A|]. split; [exact B|]. econstructor; eauto.
        -- assert (NC : (~ exists is, commands d ((prefix ++ n) :: w2 :: ws) is) /\ ~ asksForHelp ((prefix ++ n) :: w2 :: ws)).
           { split.
             - intros [is H]. apply CH in H. destruct H as [(?&?&?&?&is'&_&A&B&C&_)|[(?&A&_)|(?&?&A&_)]]; try discriminate A. injection A as <- <-. congruence.
             - intros H. apply HH in H. destruct H as (ws1&ws2&is&h&A&B&C). apply CH in C. destruct C as [(?&w'&?&ws''&is'&_&A'&Hv'&C&_)|[(?&A'&_)|(?&?&A'&_)]]; try discriminate A'.
               subst ws1. cbn in A. injection A as <- A. congruence. }
           destruct R as [R|(v & u1 & u2 & Eu & Nu1 & Nu & R)]; rewrite R; [exact NC|].
           assert (Wu : isWord u2) by (split; auto; intros c I; apply Ww2; rewrite Eu; apply in_or_app; now right).
           destruct f as [|f]; [rewrite Eu, app_length in Hf; destruct u1; [contradiction|cbn in Hf; lia]|].
           pose proof (loop_word f (setPlain t n v) u2 (line ws) Wu (line_end ws) Hd [] (or_introl eq_refl)) as LW. cbn [app] in LW. rewrite LW.
           assert (G2 : firstn (length prefix) u2 <> prefix) by (apply (G n e u1 u2 F); [rewrite <- Eu; right; now left|now rewrite <- Eu|auto]).
           rewrite (textEq_neq _ _ G2). exact NC.
    + specialize (IH ws f (setSwitch t n true) ltac:(lia) Wt (noGlue_tail _ _ G) ltac:(lia) Hd).
      destruct (loop f (setSwitch t n true) (line ws)) as [t'| | |]; cbn [verdict] in *; auto.
      * destruct IH as [is [C ->]]. exists (On n :: is). split; [econstructor; eauto|reflexivity].
      * destruct IH as [I1 I2]. split.
        -- intros [is H]. apply CH in H. destruct H as [(?&?&?&?&?&A&_)|[(is'&_&C&_)|(?&?&A&_)]]; try discriminate A. apply I1. now exists is'.
        -- intros H. apply HH in H. destruct H as (ws1&ws2&is&h&A&B&C). apply CH in C. destruct C as [(?&?&?&?&?&A'&_)|[(is'&_&C&_)|(?&?&A'&_)]]; try discriminate A'.
           apply I2. exists ws1, ws2, is', h. auto.
      * destruct IH as (ws1&ws2&is&h&A&B&C). exists ((prefix ++ n) :: ws1), ws2, (On n :: is), h. split; [now rewrite A|]. split; [exact B|]. econstructor; eauto.
    + specialize (IH ws f (setSwitch t s false) ltac:(lia) Wt (noGlue_tail _ _ G) ltac:(lia) Hd).
      destruct (loop f (setSwitch t s false) (line ws)) as [t'| | |]; cbn [verdict] in *; auto.
      * destruct IH as [is [C ->]]. exists (Off s :: is). split; [econstructor; eauto|reflexivity].
      * destruct IH as [I1 I2]. split.
        -- intros [is H]. apply CH in H. destruct H as [(?&?&?&?&?&A&_)|[(?&A&_)|(s'&is'&A&C&_)]]; try discriminate A. apply I1. now exists is'.
        -- intros H. apply HH in H. destruct H as (ws1&ws2&is&h&A&B&C). apply CH in C. destruct C as [(?&?&?&?&?&A'&_)|[(?&A'&_)|(?&is'&A'&C&_)]]; try discriminate A'.
           apply I2. exists ws1, ws2, is', h. auto.
      * destruct IH as (ws1&ws2&is&h&A&B&C). exists ((prefix ++ n) :: ws1), ws2, (Off s :: is), h. split; [now rewrite A|]. split; [exact B|]. econstructor; eauto.
    + split.
      * intros [is H]. apply CH in H. destruct H as [(?&?&?&?&?&A&_)|[(?&A&_)|(?&?&A&_)]]; discriminate A.
      * intros H. apply HH in H. destruct H as (?&?&is&?&_&_&H). apply CH in H. destruct H as [(?&?&?&?&?&A&_)|[(?&A&_)|(?&?&A&_)]]; discriminate A.
Qed.
End D.

Lemma update_accepts (t : table) ws is : (forall n e, find (decl t) n = Some (Plain e) -> readsWords e (val n)) -> (forall w, In w ws -> isWord w) ->
  commands (decl t) ws is -> exists t', update prefix t ws = Updated t' /\ lastWins t t' is.
Proof.
  intros R W C. exists (applyAll t is). split; [|apply applyAll_last]. unfold update. fold (line ws).
  apply (accept (decl t) R ws is C W); auto.
Qed.
Lemma update_refuses (t : table) ws : (forall n e, find (decl t) n = Some (Plain e) -> readsWords e (val n)) -> (forall w, In w ws -> isWord w) ->
  noPrefixInside prefix val (decl t) ws -> (~ exists is, commands (decl t) ws is) ->
  (update prefix t ws = Exited /\ asksForHelp prefix val (decl t) ws) \/ (update prefix t ws = Aborted /\ ~ asksForHelp prefix val (decl t) ws).
Proof.
  intros R W G N. pose proof (verdict_loop (decl t) R (length ws) ws (length (line ws)) t (le_n _) W G (le_n _) eq_refl) as H.
  unfold update. fold (line ws). destruct (loop _ _ _) as [t'| | |]; cbn [verdict] in H.
  - exfalso. apply N. destruct H as [is [H _]]. now exists is.
  - right. split; [reflexivity|apply H].
  - left. auto.
  - contradiction.
Qed.

(** tables *)
Lemma find_app d1 d2 s : find (d1 ++ d2) s = match @find V d1 s with Some k => Some k | None => find d2 s end.
Proof. induction d1 as [|[s' k] d1 IH]; cbn; auto. destruct (textEq s' s); auto. Qed.
Lemma find_none d s : @find V d s = None <-> ~ In s (map fst d).
Proof.
  induction d as [|[s' k] d IH]; cbn; [tauto|]. destruct (textEq s' s) eqn:E.
  - apply textEq_spec in E. split; [discriminate|]. intros H. exfalso. apply H. now left.
  - rewrite IH. split; [|tauto]. intros H [->|I]; [rewrite textEq_refl in E; discriminate|contradiction].
Qed.
Definition wf (t : table) : Prop := NoDup (map fst (decl t)) /\ forall n s, find (decl t) n = Some (Negated s) -> n = str "no_" ++ s /\ find (decl t) s = Some Switch.
Lemma wf_push t s k : wf t -> find (decl t) s = None -> (forall s', k = Negated s' -> s = str "no_" ++ s' /\ find (decl t) s' = Some Switch) -> wf (push t s k).
Proof.
  intros [N H] F K. unfold wf, push. cbn [decl]. split.
  - rewrite map_app. cbn. apply find_none in F. clear - N F. induction (map fst (decl t)) as [|x l IH]; cbn; [constructor; auto; constructor|].
    inversion N; subst. constructor; [|apply IH; auto; intros I; apply F; now right].
    rewrite in_app_iff. cbn. intros [I|[->|[]]]; [contradiction|]. apply F. now left.
  - intros n s' Hn. rewrite !find_app in *. destruct (find (decl t) n) as [k'|] eqn:E.
    + injection Hn as ->. destruct (H n s' E) as [A B]. rewrite B. auto.
    + cbn in Hn. destruct (textEq s n) eqn:T; [|discriminate]. apply textEq_spec in T. subst n. injection Hn as ->.
      destruct (K s' eq_refl) as [A B]. rewrite B. auto.
Qed.
Lemma built_wf t : built t -> wf t.
Proof.
  intros H. induction H as [pv sv|t s e v H IH|t s b H IH|t s H IH].
  - split; [constructor|discriminate].
  - unfold add. destruct (find (decl t) s) eqn:E; cbn [fst]; auto. apply (wf_push t s (Plain e) IH E). discriminate.
  - unfold addSwitch. destruct (find (decl t) s) eqn:E; cbn [fst]; auto.
    assert (W1 : wf (setSwitch (push t s Switch) s b)) by (apply (wf_push t s Switch IH E); discriminate).
    destruct (find (decl (setSwitch (push t s Switch) s b)) (str "no_" ++ s)) eqn:E2; cbn [fst]; auto.
    apply wf_push; auto. intros s' K. injection K as <-. split; auto. cbn [decl setSwitch push]. rewrite find_app, E. cbn. now rewrite textEq_refl.
  - unfold addTitle. destruct (find (decl t) s) eqn:E; cbn [fst]; auto. apply wf_push; auto. discriminate.
Qed.
Lemma opposite (t : table) n s : built t -> find (decl t) n = Some (Negated s) -> exists b, readSwitch t s = Some b /\ readSwitch t n = Some (negb b).
Proof. intros B H. destruct (built_wf t B) as [_ W]. destruct (W n s H) as [_ E]. exists (switchVal t s). unfold readSwitch. now rewrite H, E. Qed.
Lemma add_switch_ok (t : table) s b : find (decl t) s = None -> find (decl t) (str "no_" ++ s) = None ->
  exists t', addSwitch t s b = (t', false) /\ readSwitch t' s = Some b /\ readSwitch t' (str "no_" ++ s) = Some (negb b).
Proof.
  intros F1 F2. unfold addSwitch. rewrite F1.
  assert (NE : textEq s (str "no_" ++ s) = false).
  { apply textEq_neq. intros E. apply (f_equal (@length ascii)) in E. rewrite app_length in E. cbn in E. lia. }
  assert (F3 : find (decl (setSwitch (push t s Switch) s b)) (str "no_" ++ s) = None).
  { cbn [decl setSwitch push]. rewrite find_app, F2. cbn [find]. now rewrite NE. }
  rewrite F3. eexists. split; [reflexivity|]. unfold readSwitch. cbn [decl push setSwitch switchVal].
  rewrite !find_app, F1, F2. cbn [find]. rewrite NE, !textEq_refl. unfold set. now rewrite textEq_refl.
Qed.
Lemma recreation (t : table) s k : find (decl t) s = Some k -> forall e v b, add t s e v = (t, true) /\ addSwitch t s b = (t, true) /\ addTitle t s = (t, true).
Proof. intros H e v b. unfold add, addSwitch, addTitle. now rewrite H. Qed.
Lemma find_last d s k n : @find V d s = None -> find (d ++ [(s, k)]) n = if textEq s n then Some k else find d n.
Proof.
  intros F. rewrite find_app. cbn [find]. destruct (textEq s n) eqn:E.
  - apply textEq_spec in E. subst n. now rewrite F.
  - destruct (find d n); reflexivity.
Qed.
Lemma add_new (t : table) s e v : find (decl t) s = None ->
  exists t', add t s e v = (t', false) /\ find (decl t') s = Some (Plain e) /\ plainVal t' s = v /\ sameBut [s] t t'.
Proof.
  intros F. unfold add. rewrite F. eexists. split; [reflexivity|]. cbn [decl setPlain push plainVal].
  rewrite find_last by exact F. rewrite textEq_refl. split; [reflexivity|]. unfold set. rewrite textEq_refl. split; [reflexivity|].
  intros n N. cbn [decl setPlain push plainVal switchVal]. rewrite find_last by exact F. unfold set.
  assert (E : textEq s n = false) by (apply textEq_neq; intros ->; apply N; now left).
  assert (E2 : textEq n s = false) by (apply textEq_neq; intros ->; apply N; now left).
  rewrite E, E2. auto.
Qed.
Lemma add_switch_new (t : table) s b : find (decl t) s = None -> find (decl t) (str "no_" ++ s) = None ->
  exists t', addSwitch t s b = (t', false) /\ readSwitch t' s = Some b /\ readSwitch t' (str "no_" ++ s) = Some (negb b) /\ sameBut [s; str "no_" ++ s] t t'.
Proof.
  intros F1 F2. destruct (add_switch_ok t s b F1 F2) as (t' & E & R1 & R2). exists t'. repeat split; auto; revert E; unfold addSwitch; rewrite F1;
  destruct (find (decl (setSwitch (push t s Switch) s b)) (str "no_" ++ s)) eqn:F3; intros E; try discriminate E; injection E as <-; cbn [decl setSwitch push plainVal switchVal] in *.
  - assert (A : textEq s n = false) by (apply textEq_neq; intros ->; apply H; now left).
    assert (B : textEq (str "no_" ++ s) n = false) by (apply textEq_neq; intros <-; apply H; right; now left).
    rewrite (find_last _ _ _ n F3), B, (find_last _ _ _ n F1), A. reflexivity.
  - reflexivity.
  - unfold set. assert (A : textEq n s = false) by (apply textEq_neq; intros ->; apply H; now left). now rewrite A.
Qed.
Lemma add_title_new (t : table) s : find (decl t) s = None -> exists t', addTitle t s = (t', false) /\ find (decl t') s = Some Title /\ sameBut [s] t t'.
Proof.
  intros F. unfold addTitle. rewrite F. eexists. split; [reflexivity|]. cbn [decl push]. rewrite find_last by exact F. rewrite textEq_refl. split; [reflexivity|].
  intros n N. cbn [decl push plainVal switchVal]. rewrite find_last by exact F.
  assert (E : textEq s n = false) by (apply textEq_neq; intros ->; apply N; now left). rewrite E. auto.
Qed.
End P.
