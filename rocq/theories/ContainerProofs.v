(** Proofs about reading and writing containers. *)
From Coq Require Import String Ascii List Arith Bool Lia.
From Verif Require Import StateFileModel ParsModel OutputSpec ContainerModel ContainerSpec.
Import ListNotations.
Local Open Scope nat_scope.

(** ** Trimming *)
Lemma ltrim_blanks b x : blanks b -> ltrim (b ++ x) = ltrim x.
Proof. induction b as [|c b IH]; intros H; [reflexivity|]. cbn. rewrite (H c) by now left. apply IH. intros e I. apply H. now right. Qed.
Lemma ltrim_head core x : match core with [] => False | c :: _ => isSpace c = false end -> ltrim (core ++ x) = core ++ x.
Proof. destruct core as [|c core]; [tauto|]. intros H. cbn. now rewrite H. Qed.
Lemma blanks_rev b : blanks b -> blanks (rev b).
Proof. intros H c I. apply H. now apply in_rev. Qed.
Lemma trim_core b core e : blanks b -> blanks e -> unpadded core -> trim (b ++ core ++ e) = core.
Proof.
  intros B E [U1 U2]. unfold trim, rtrim. rewrite app_assoc, rev_app_distr, ltrim_blanks by now apply blanks_rev. rewrite rev_app_distr, ltrim_head by exact U2.
  rewrite <- rev_app_distr, rev_involutive, ltrim_blanks by exact B. rewrite <- (app_nil_r core) at 1. rewrite ltrim_head by exact U1. apply app_nil_r.
Qed.
Lemma ltrim_split l : exists b, l = b ++ ltrim l /\ blanks b /\ match ltrim l with [] => True | c :: _ => isSpace c = false end.
Proof.
  induction l as [|c l IH]; [exists []; split; [reflexivity|split; [intros x []|exact I]]|]. cbn. destruct (isSpace c) eqn:E.
  - destruct IH as (b & E1 & B & H). exists (c :: b). split; [cbn; now rewrite <- E1|]. split; [|exact H]. intros x [<-|I]; auto.
  - exists []. split; [reflexivity|]. split; [intros x []|exact E].
Qed.
Lemma trim_visible d : (exists c, In c d /\ isSpace c = false) -> exists b e, d = b ++ trim d ++ e /\ blanks b /\ blanks e /\ unpadded (trim d).
Proof.
  intros (c & I & Hc). destruct (ltrim_split (rev d)) as (e & E1 & Be & He). destruct (ltrim_split (rtrim d)) as (b & E2 & Bb & Hb). fold (trim d) in E2, Hb.
  assert (Ed : d = b ++ trim d ++ rev e). { rewrite app_assoc, <- E2. unfold rtrim. rewrite <- rev_app_distr, <- E1. now rewrite rev_involutive. }
  assert (Bre : blanks (rev e)) by now apply blanks_rev. exists b, (rev e). split; [exact Ed|]. split; [exact Bb|]. split; [exact Bre|].
  assert (T : trim d <> []). { intros F. rewrite F in Ed. cbn in Ed. rewrite Ed in I. apply in_app_or in I as [I|I]; [apply Bb in I|apply Bre in I]; congruence. }
  split.
  - destruct (trim d); [contradiction|exact Hb].
  - assert (R : rtrim d <> []) by (intros F; rewrite F in E2; symmetry in E2; apply app_eq_nil in E2; tauto).
    assert (H : match rev (rtrim d) with [] => False | x :: _ => isSpace x = false end). { unfold rtrim in *. rewrite rev_involutive. destruct (ltrim (rev d)); [now apply R|exact He]. }
    rewrite E2, rev_app_distr in H. destruct (rev (trim d)) as [|x y] eqn:F; [|exact H]. apply T. rewrite <- (rev_involutive (trim d)), F. reflexivity.
Qed.
(** ** Delimiters *)
Lemma not_good_expect d : forall s, failBit s = true -> failBit (expect d s) = true.
Proof.
  induction d as [|c d IH]; intros s H; [exact H|]. cbn [expect]. unfold getc. assert (G : good s = false) by (unfold good; rewrite H; apply andb_false_r). rewrite G. now apply IH.
Qed.
Lemma expect_ok core : forall r, expect core (mkIos (core ++ r) false false) = mkIos r false false.
Proof. induction core as [|c core IH]; intros r; [reflexivity|]. cbn [app expect]. unfold getc, good. cbn [eofBit failBit rest negb andb]. rewrite Ascii.eqb_refl. apply IH. Qed.
Lemma expect_only core : forall s, core <> [] -> failBit (expect core s) = false -> good s = true /\ rest s = core ++ rest (expect core s) /\ eofBit (expect core s) = false.
Proof.
  induction core as [|c core IH]; intros s N H; [contradiction|]. cbn [expect] in *. unfold getc in *. destruct (good s) eqn:G; [|now rewrite not_good_expect in H]. destruct (rest s) as [|x l] eqn:R; [now rewrite not_good_expect in H|].
  destruct (Ascii.eqb_spec x c) as [->|X]; [|now rewrite not_good_expect in H]. split; [reflexivity|]. destruct core as [|c' core]; [cbn; split; reflexivity|]. destruct (IH (mkIos l false false)) as (_ & E1 & E2); [discriminate|exact H|]. cbn [rest] in E1. split; [cbn [app]; f_equal; exact E1|exact E2].
Qed.
Lemma drop_good l : forall fuel, length l < fuel -> dropSpaces fuel (mkIos l false false) = match ltrim l with [] => mkIos [] true false | x => mkIos x false false end.
Proof.
  induction l as [|c l IH]; intros fuel H; (destruct fuel as [|f]; [cbn in H; lia|]); [reflexivity|]. cbn [dropSpaces]. unfold peek, good. cbn [eofBit failBit rest negb andb ltrim]. destruct (isSpace c); [|reflexivity].
  cbn [getc good eofBit failBit negb andb rest snd]. apply IH. cbn in H. lia.
Qed.
Lemma drop_bad fuel s : good s = false -> 0 < fuel -> failBit (dropSpaces fuel s) = true.
Proof. intros G H. destruct fuel as [|f]; [lia|]. cbn [dropSpaces]. unfold peek. rewrite G. reflexivity. Qed.
Lemma good_is s : good s = true -> s = mkIos (rest s) false false.
Proof. destruct s as [l [|] [|]]; intros H; try discriminate; reflexivity. Qed.
Lemma handle_ok d l r : begins_with d l r -> handleDelimiter d (mkIos l false false) = mkIos r false false.
Proof.
  intros (w & b & core & e & -> & W & -> & B & E & U). unfold handleDelimiter. cbn [rest]. rewrite drop_good by lia. rewrite ltrim_blanks, ltrim_head by (apply U || auto). rewrite trim_core by auto.
  destruct core as [|c core]; [destruct U; contradiction|]. cbn [app]. apply (expect_ok (c :: core)).
Qed.
Lemma handle_only d s : (exists c, In c d /\ isSpace c = false) -> failBit (handleDelimiter d s) = false -> good s = true /\ begins_with d (rest s) (rest (handleDelimiter d s)) /\ good (handleDelimiter d s) = true.
Proof.
  intros V H. destruct (trim_visible d V) as (b & e & Ed & B & E & U). assert (T : trim d <> []) by (intros F; rewrite F in U; destruct U; contradiction).
  unfold handleDelimiter in *. destruct (expect_only (trim d) _ T H) as (G & R & F). assert (Gs : good s = true). { destruct (good s) eqn:Gs; [reflexivity|]. apply (drop_bad (S (length (rest s)))) in Gs; [|lia]. unfold good in G. rewrite Gs, andb_false_r in G. discriminate. }
  split; [exact Gs|]. split.
  - assert (Ds : dropSpaces (S (length (rest s))) s = match ltrim (rest s) with [] => mkIos [] true false | x => mkIos x false false end) by (destruct s as [l [|] [|]]; try discriminate; cbn [rest]; apply drop_good; lia).
    rewrite Ds in R at 1. destruct (ltrim_split (rest s)) as (w & Ew & W & _). exists w, b, (trim d), e. split; [|tauto].
    rewrite Ew at 1. f_equal. destruct (ltrim (rest s)) as [|x y]; cbn [rest] in R; exact R.
  - unfold good. rewrite F, H. reflexivity.
Qed.
(** ** Containers *)
Section Elements.
Context {A : Type}.
Variable put : A -> text.
Variable get : text -> option (A * text).
Notation read := (read get).
Notation spells := (spells get).
Notation spells_list := (spells_list get).
Definition readBody (d : delimiters) : list (tree A) -> ios -> list (tree A) * ios :=
  fix body l s := match l with
  | [] => ([], s)
  | [x] => let (x', s') := read x s in ([x'], s')
  | x :: l' => let (x', s1) := read x s in let (l'', s2) := body l' (handleDelimiter (delimiter d) s1) in (x' :: l'', s2)
  end.
Lemma read_container d l s : read (Container d l) s = let (l', s') := readBody d l (handleDelimiter (prefix d) s) in (Container d l', handleDelimiter (postfix d) s').
Proof. reflexivity. Qed.
Definition writeBody (d : delimiters) : list (tree A) -> text := fix body l := match l with [] => [] | [x] => write put x | x :: l' => write put x ++ delimiter d ++ body l' end.
Lemma write_container d l : write put (Container d l) = prefix d ++ writeBody d l ++ postfix d.
Proof. reflexivity. Qed.
Section Induction.
Variable P : tree A -> Prop.
Hypothesis HE : forall a, P (Element a).
Hypothesis HC : forall d l, Forall P l -> P (Container d l).
Fixpoint tree_induction (v : tree A) : P v :=
  match v with Element a => HE a | Container d l => HC d l ((fix go (l : list (tree A)) : Forall P l := match l with [] => Forall_nil P | x :: l' => Forall_cons x (tree_induction x) (go l') end) l) end.
End Induction.
Lemma begins_nonempty d r : begins_with d [] r -> False.
Proof. intros (w & b & core & e & E & _ & _ & _ & _ & U). destruct w; [|discriminate]. destruct core; [destruct U; contradiction|discriminate]. Qed.
(** spellings are read *)
Lemma read_spelled old : forall v l r, all_delims visible old -> alike old v -> spells v l r -> exists e, read old (mkIos l false false) = (v, mkIos r e false) /\ (e = true -> r = []).
Proof.
  induction old as [a|d os IH] using tree_induction; intros v l r Hv Ha Hs.
  - inversion Ha; subst. inversion Hs as [? ? ? G|]; subst. exists (match r with [] => true | _ => false end). split; [|destruct r; [reflexivity|discriminate]]. cbn [ContainerModel.read]. unfold readElement. cbn [good eofBit failBit negb andb rest]. rewrite G. reflexivity.
  - inversion Ha as [|? ? ws F]; subst. inversion Hv as [|? ? Vd Vl]; subst. inversion Hs as [|? ? ? l1 l2 ? B1 BL B2]; subst. exists false. split; [|discriminate]. rewrite read_container, (handle_ok _ _ _ B1).
    enough (K : exists e, readBody d os (mkIos l1 false false) = (ws, mkIos l2 e false) /\ (e = true -> l2 = [])).
    { destruct K as (e & -> & K). destruct e; [rewrite K in B2 by reflexivity; now apply begins_nonempty in B2|]. now rewrite (handle_ok _ _ _ B2). }
    clear B1 B2 Hv Ha Hs. revert ws l1 l2 F BL. induction os as [|o os IHo]; intros ws l1 l2 F BL.
    + inversion F; subst. inversion BL; subst. exists false. split; [reflexivity|discriminate].
    + inversion F as [|? w ? ws' Fw Fs]; subst. inversion IH as [|? ? I1 I2]; subst. inversion Vl as [|? ? V1 V2]; subst. destruct os as [|o2 os].
      * inversion Fs; subst. inversion BL as [|? ? ? ? S|]; subst. destruct (I1 w l1 l2 V1 Fw S) as (e & E & K). exists e. split; [cbn [readBody]; now rewrite E|exact K].
      * inversion Fs as [|? w2 ? ws2 Fw2 Fs2]; subst. inversion BL as [| |? ? ? ? ? m1 m2 ? S1 S2 S3]; subst. destruct (I1 w l1 m1 V1 Fw S1) as (e & E & K). destruct e; [rewrite K in S2 by reflexivity; now apply begins_nonempty in S2|].
        destruct (IHo I2 V2 (w2 :: ws2) m2 l2 Fs S3) as (e' & E' & K'). exists e'. split; [|exact K']. change (readBody d (o :: o2 :: os) ?s) with (let (x', s1) := read o s in let (l'', s2) := readBody d (o2 :: os) (handleDelimiter (delimiter d) s1) in (x' :: l'', s2)).
        rewrite E, (handle_ok _ _ _ S2), E'. reflexivity.
Qed.
(** nothing else is *)
Lemma only_spelled old : forall v s s', all_delims visible old -> read old s = (v, s') -> failBit s' = false -> good s = true /\ alike old v /\ spells v (rest s) (rest s').
Proof.
  induction old as [a|d os IH] using tree_induction; intros v s s' Hv E H.
  - cbn [ContainerModel.read] in E. unfold readElement in E. destruct (good s) eqn:G; [|injection E as <- <-; discriminate]. destruct (get (rest s)) as [[a' r]|] eqn:Eg; [|injection E as <- <-; discriminate].
    injection E as <- <-. split; [reflexivity|]. split; [constructor|now constructor].
  - inversion Hv as [|? ? Vd Vl]; subst. rewrite read_container in E. destruct (readBody d os (handleDelimiter (prefix d) s)) as [l' s1] eqn:EB. injection E as <- <-.
    destruct (handle_only (postfix d) s1) as (G1 & B1 & _); [apply Vd; cbn; tauto|exact H|].
    assert (F1 : failBit s1 = false) by (unfold good in G1; destruct (failBit s1); [rewrite andb_false_r in G1; discriminate|reflexivity]).
    enough (K : forall s0, readBody d os s0 = (l', s1) -> failBit s0 = false /\ Forall2 alike os l' /\ spells_list d l' (rest s0) (rest s1)).
    { destruct (K _ EB) as (F0 & Fa & Sl). destruct (handle_only (prefix d) s) as (G0 & B0 & _); [apply Vd; cbn; tauto|exact F0|]. split; [exact G0|]. split; [now constructor|]. econstructor; eauto. }
    clear EB B1 H G1 Hv. revert l' IH Vl. induction os as [|o os IHo]; intros l' IH Vl s0 EB.
    + cbn in EB. injection EB as <- <-. split; [exact F1|]. split; constructor.
    + inversion IH as [|? ? I1 I2]; subst. inversion Vl as [|? ? V1 V2]; subst. destruct os as [|o2 os].
      * cbn [readBody] in EB. destruct (read o s0) as [x' s2] eqn:Er. injection EB as <- <-. destruct (I1 x' s0 s2 V1 Er F1) as (G & Al & Sp). split; [unfold good in G; destruct (failBit s0); [rewrite andb_false_r in G; discriminate|reflexivity]|]. split; [repeat constructor; exact Al|now constructor].
      * change (readBody d (o :: o2 :: os) s0) with (let (x', s1) := read o s0 in let (l'', s2) := readBody d (o2 :: os) (handleDelimiter (delimiter d) s1) in (x' :: l'', s2)) in EB.
        destruct (read o s0) as [x' s2] eqn:Er. destruct (readBody d (o2 :: os) (handleDelimiter (delimiter d) s2)) as [l2 s3] eqn:Eb. injection EB as <- ->.
        destruct (IHo l2 I2 V2 _ Eb) as (F2 & Al2 & Sl2). destruct (handle_only (delimiter d) s2) as (G2 & B2 & _); [apply Vd; cbn; tauto|exact F2|].
        assert (F3 : failBit s2 = false) by (unfold good in G2; destruct (failBit s2); [rewrite andb_false_r in G2; discriminate|reflexivity]). destruct (I1 x' s0 s2 V1 Er F3) as (G & Al & Sp).
        split; [unfold good in G; destruct (failBit s0); [rewrite andb_false_r in G; discriminate|reflexivity]|]. split; [now constructor|]. inversion Al2; subst. econstructor; eauto.
Qed.
(** what is written is a spelling *)
Definition follows (r : text) : Prop := match r with c :: _ => isSpace c = true \/ In c (str "[],{}()") | [] => False end.
Lemma single_begins c w r : isSpace c = false -> blanks w -> begins_with [c] (w ++ [c] ++ r) r.
Proof. intros H W. exists w, [], [c], []. split; [reflexivity|]. split; [exact W|]. split; [reflexivity|]. split; [intros x []|]. split; [intros x []|]. now split. Qed.
Lemma comma_begins w r : blanks w -> begins_with (str ", ") (w ++ str ", " ++ r) (str " " ++ r).
Proof. intros W. exists w, [], (str ","), (str " "). split; [reflexivity|]. split; [exact W|]. split; [reflexivity|]. split; [intros x []|]. split; [intros x [<-|[]]; reflexivity|]. split; reflexivity. Qed.
Lemma standard_visible d : standard d -> visible d.
Proof. intros [<-|[<-|[<-|[]]]] t [<-|[<-|[<-|[]]]]; eexists; (split; [left; reflexivity|reflexivity]). Qed.
Lemma blank_one : blanks (str " ").
Proof. intros x [<-|[]]. reflexivity. Qed.
Lemma blank_none : blanks [].
Proof. intros x []. Qed.
Lemma written_spelled v : forall w r, blanks w -> all_delims standard v -> all_elements (reads_back put get) v -> match v with Element _ => follows r | _ => True end -> spells v (w ++ write put v ++ r) r.
Proof.
  induction v as [a|d vs IH] using tree_induction; intros w r W Hd He Hr.
  - inversion He; subst. constructor. cbn [write]. auto.
  - inversion Hd as [|? ? Sd Sl]; subst. inversion He as [|? ? Hl]; subst. rewrite write_container.
    assert (D : exists o c, prefix d = [o] /\ delimiter d = str ", " /\ postfix d = [c] /\ isSpace o = false /\ isSpace c = false /\ In c (str "[],{}()")) by (destruct Sd as [<-|[<-|[<-|[]]]]; eexists _, _; repeat split; cbn; tauto).
    destruct D as (o & c & Eo & Ed & Ec & So & Sc & Ic). rewrite <- !app_assoc. 
    apply spells_container with (l1 := writeBody d vs ++ postfix d ++ r) (l2 := postfix d ++ r).
    + rewrite Eo. now apply single_begins.
    + assert (Hf : follows (postfix d ++ r)) by (rewrite Ec; right; exact Ic). generalize dependent (postfix d ++ r). intros R Hf. clear Hr Hd He.
      enough (K : forall w, blanks w -> vs <> [] -> spells_list d vs (w ++ writeBody d vs ++ R) R).
      { destruct vs as [|v vs]; [constructor|]. apply (K []); [exact blank_none|discriminate]. }
      clear W w. induction vs as [|v vs IHv]; intros w W N; [contradiction|]. inversion IH as [|? ? I1 I2]; subst. inversion Sl as [|? ? S1 S2]; subst. inversion Hl as [|? ? E1 E2]; subst. destruct vs as [|v2 vs].
      * cbn [writeBody]. constructor. apply I1; auto. destruct v; auto.
      * change (writeBody d (v :: v2 :: vs)) with (write put v ++ delimiter d ++ writeBody d (v2 :: vs)). rewrite Ed, <- !app_assoc. apply spells_more with (l1 := str ", " ++ writeBody d (v2 :: vs) ++ R) (l2 := str " " ++ writeBody d (v2 :: vs) ++ R).
        { apply I1; auto. destruct v; [|exact I]. right. cbn. tauto. }
        { rewrite Ed. apply (comma_begins [] _ blank_none). }
        { apply IHv; auto using blank_one. discriminate. }
    + rewrite Ec. apply (single_begins c [] r Sc blank_none).
Qed.
Lemma written_read old v r : alike old v -> all_delims standard old -> all_delims standard v -> all_elements (reads_back put get) v -> (exists d vs, v = Container d vs) ->
  read old (mkIos (write put v ++ r) false false) = (v, mkIos r false false).
Proof.
  intros Ha Ho Hd He (d & vs & ->). assert (V : all_delims visible old).
  { clear - Ho. induction old as [a|d os IH] using tree_induction; [constructor|]. inversion Ho as [|? ? S F]; subst. constructor; [now apply standard_visible|]. clear Ho S. induction IH as [|o os I1 _ IHo]; [constructor|]. inversion F; subst. constructor; auto. }
  pose proof (written_spelled (Container d vs) [] r blank_none Hd He I) as Sp. cbn [app] in Sp. destruct (read_spelled old _ _ _ V Ha Sp) as (e & E & _). rewrite E. f_equal.
  inversion Ha as [|? os ? F]; subst. rewrite read_container in E. destruct (readBody d os _) as [l' s1]. injection E as _ E. assert (G : good (handleDelimiter (postfix d) s1) = true).
  { inversion V as [|? ? Vd _]; subst. apply handle_only; [apply Vd; cbn; tauto|now rewrite E]. }
  rewrite E in G. destruct e; [discriminate|reflexivity].
Qed.
End Elements.

(** ** The elements *)
Lemma digit_back n : n < 10 -> reads_back modePut modeGet (Number n).
Proof.
  intros H w r W Hr. unfold modeGet, modePut. rewrite ltrim_blanks by exact W. assert (D : isDigit (digit n) = true /\ isSpace (digit n) = false /\ nat_of_ascii (digit n) - 48 = n) by (do 10 (destruct n as [|n]; [repeat split|]); lia).
  destruct D as (D1 & D2 & D3). cbn [app ltrim]. rewrite D2, D1. cbn [span]. rewrite D1. destruct r as [|c r]; [contradiction|]. assert (C : isDigit c = false).
  { destruct Hr as [Hr|Hr]; [|cbn in Hr; repeat (destruct Hr as [<-|Hr]; [reflexivity|]); contradiction]. destruct (isDigit c) eqn:E; [|reflexivity]. exfalso. clear - Hr E.
    destruct c as [[|] [|] [|] [|] [|] [|] [|] [|]]; vm_compute in Hr; try discriminate; vm_compute in E; discriminate. }
  cbn [span]. rewrite C. cbn [fold_left]. rewrite D3. reflexivity.
Qed.
Section Reading.
Context {A : Type}.
Variable get : text -> option (A * text).
Lemma read_iff d os v l r : all_delims visible (Container d os) ->
  (read get (Container d os) (mkIos l false false) = (v, mkIos r false false) <-> alike (Container d os) v /\ spells get v l r).
Proof.
  intros V. split.
  - intros E. destruct (only_spelled get _ _ _ _ V E eq_refl) as (_ & Al & Sp). tauto.
  - intros [Al Sp]. destruct (read_spelled get _ _ _ _ V Al Sp) as (e & E & _). rewrite E. f_equal. rewrite read_container in E. destruct (readBody get d os _) as [l' s1]. injection E as _ E.
    assert (G : good (handleDelimiter (postfix d) s1) = true). { inversion V as [|? ? Vd _]; subst. apply handle_only; [apply Vd; cbn; tauto|now rewrite E]. }
    rewrite E in G. destruct e; [discriminate|reflexivity].
Qed.
Lemma read_fails d os l : all_delims visible (Container d os) -> (forall v r, alike (Container d os) v -> ~ spells get v l r) -> failBit (snd (read get (Container d os) (mkIos l false false))) = true.
Proof.
  intros V N. destruct (read get (Container d os) (mkIos l false false)) as [v s'] eqn:E. cbn [snd]. destruct (failBit s') eqn:F; [reflexivity|]. destruct (only_spelled get _ _ _ _ V E F) as (_ & Al & Sp). exfalso. exact (N _ _ Al Sp).
Qed.
End Reading.
Lemma mode_function_lost a n : failBit (snd (read modeGet (Container tupleDelims [Element a; Element (Number n)]) (mkIos (str "(Sin, 3)") false false))) = true.
Proof. reflexivity. Qed.
(** an example: [(1, 2), (3, 4)] *)
Definition pairOf (m n : nat) : tree modeElement := Container tupleDelims [Element (Number m); Element (Number n)].
Definition exampleTree (a b c d : nat) : tree modeElement := Container sequenceDelims [pairOf a b; pairOf c d].
Lemma example_alike a b c d a' b' c' d' : alike (exampleTree a b c d) (exampleTree a' b' c' d').
Proof. repeat constructor. Qed.
Lemma example_standard a b c d : all_delims standard (exampleTree a b c d).
Proof. repeat (constructor; try (cbn; tauto)). Qed.
Lemma example_back a b c d : a < 10 -> b < 10 -> c < 10 -> d < 10 -> all_elements (reads_back modePut modeGet) (exampleTree a b c d).
Proof. intros. repeat constructor; now apply digit_back. Qed.
