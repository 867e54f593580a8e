(** Proofs for VecParProperties.v *)
From Coq Require Import String Ascii List Arith Bool Lia.
From Verif Require Import StateFileModel StateFileProofs ParsModel ParsSpec ParsProofs VecParModel VecParSpec.
Import ListNotations.

Lemma skip_spaces s l : spaces s -> skipSpace (s ++ l) = skipSpace l.
Proof. intros H. induction H as [|c s Hc _ IH]; [reflexivity|]. cbn. now rewrite Hc. Qed.
Lemma char_spaces s c l : spaces s -> isSpace c = false -> extractChar (s ++ c :: l) = Some (c, l).
Proof. intros Hs Hc. unfold extractChar. rewrite skip_spaces by exact Hs. cbn. now rewrite Hc. Qed.

Section Reads.
Context {V : Type}.
Variable print : V -> text.
Variable extract : text -> option (V * text).
Hypothesis RN : readsNumbers print extract.
Notation separator := separator.

Lemma number_sep s x (d : separator) l : spaces s -> sensibleSep print extract d -> extract (s ++ print x ++ before d ++ character d :: l) = Some (x, before d ++ character d :: l).
Proof.
  destruct RN as (R1 & _ & _ & R4 & _). intros Hs (B & _ & _ & E). rewrite R1 by exact Hs. destruct (before d) as [|c b] eqn:Eb.
  - exact (E eq_refl x l).
  - cbn [app]. apply R4. now inversion B.
Qed.
Definition rightB (v : list (separator * V)) (c : ascii) : bool := forallb (fun p => Ascii.eqb (character (fst p)) ",") v && Ascii.eqb c "]".
Lemma rest_read debug b c rest : sensibleSep print extract (mkSep b c []) -> forall v x acc, Forall (fun p => sensibleSep print extract (fst p)) v ->
  exists l, extract (print x ++ flat_map (fun p => before (fst p) ++ character (fst p) :: after (fst p) ++ print (snd p)) v ++ b ++ c :: rest) = Some (x, l) /\
    inputRest extract debug (length v) acc l = if negb debug || rightB v c then Got (acc ++ map snd v) rest else Assertion.
Proof.
  intros Hc. assert (S0 : spaces []) by constructor. induction v as [|[d y] v IH]; intros x acc Hv.
  - cbn [flat_map app length map rightB forallb andb]. exists (b ++ c :: rest). split; [apply (number_sep [] x (mkSep b c []) rest S0 Hc)|].
    cbn [inputRest]. destruct Hc as (B & _ & C & _). cbn [before character] in B, C. rewrite char_spaces by assumption. unfold check, tupleClose, rightB. cbn [forallb andb]. rewrite app_nil_r. reflexivity.
  - inversion Hv as [|? ? Hd Hv']; subst. cbn [fst] in Hd. destruct (IH y (acc ++ [y]) Hv') as (l & E1 & E2). pose proof Hd as (B & A & C & _).
    set (tl := flat_map _ v ++ b ++ c :: rest) in *.
    exists (before d ++ character d :: after d ++ print y ++ tl). split.
    + cbn [flat_map fst snd]. rewrite <- !app_assoc. cbn [app]. rewrite <- !app_assoc. fold tl. exact (number_sep [] x d _ S0 Hd).
    + cbn [length inputRest]. rewrite char_spaces by assumption. unfold check at 1. unfold tupleDelimiter, rightB in *. cbn [forallb fst map snd].
      destruct RN as (R1 & _). rewrite (R1 (after d)) by exact A. rewrite E1, E2. rewrite <- app_assoc. cbn [app].
      destruct debug, (Ascii.eqb (character d) ","); cbn [negb orb andb]; reflexivity.
Qed.
Lemma vector_read debug o s x v b c sp rest : spaces sp -> sensible print extract o s v b c ->
  inputTinyVector extract debug (S (length v)) (sp ++ written print o s x v b c ++ rest) = (if negb debug || (Ascii.eqb o "[" && rightB v c) then Got (x :: map snd v) rest else Assertion).
Proof.
  intros Hsp (Ho & Hs & Hv & Hc). unfold inputTinyVector, written. cbn [app]. rewrite char_spaces by assumption. unfold check, tupleOpen.
  rewrite <- !app_assoc. cbn [app]. destruct RN as (R1 & _). destruct (rest_read debug b c rest Hc v x [x] Hv) as (l & E1 & E2). rewrite (R1 s) by exact Hs. rewrite E1.
  replace (S (length v) - 1) with (length v) by lia. rewrite E2. destruct debug, (Ascii.eqb o "["); cbn [negb orb andb app]; reflexivity.
Qed.
Lemma right_iff o v c : Ascii.eqb o "[" && rightB v c = true <-> wellFormed o v c.
Proof.
  unfold rightB, wellFormed. rewrite !andb_true_iff, !Ascii.eqb_eq, forallb_forall, Forall_forall. split.
  - intros (A & B & C). repeat split; auto. intros p Hp. now apply Ascii.eqb_eq, B.
  - intros (A & B & C). repeat split; auto. intros p Hp. now apply Ascii.eqb_eq, B.
Qed.
(** well-formed vectors are read in all builds *)
Lemma well_formed_read debug o s x v b c sp rest : spaces sp -> sensible print extract o s v b c -> wellFormed o v c ->
  inputTinyVector extract debug (S (length v)) (sp ++ written print o s x v b c ++ rest) = Got (x :: map snd v) rest.
Proof. intros Hsp H W. rewrite vector_read by assumption. apply right_iff in W. rewrite W. now rewrite orb_true_r. Qed.
(** others are refused in debug builds and taken in others *)
Lemma ill_formed_read o s x v b c sp rest : spaces sp -> sensible print extract o s v b c -> ~ wellFormed o v c ->
  inputTinyVector extract true (S (length v)) (sp ++ written print o s x v b c ++ rest) = Assertion /\
  inputTinyVector extract false (S (length v)) (sp ++ written print o s x v b c ++ rest) = Got (x :: map snd v) rest.
Proof.
  intros Hsp H W. split; rewrite vector_read by assumption; [|reflexivity]. destruct (Ascii.eqb o "[" && rightB v c) eqn:E; [|reflexivity]. apply right_iff in E. contradiction.
Qed.

(** ** On the command line *)
Variable prefix : text.
Lemma word_of w : (forall c, In c w -> isSpace c = false) -> w <> [] -> isWord w.
Proof. intros; split; assumption. Qed.
Lemma loop_vector debug n nl (t : @table (list V)) l v f : isWord (prefix ++ n) -> n <> str "help" -> n <> str "version" -> find (decl t) n = Some (Plain (vectorExtract extract debug nl)) ->
  wordEnd l -> inputTinyVector extract debug nl l = Got v [] -> loop prefix (S (S f)) t (" "%char :: (prefix ++ n) ++ l) = Updated (setPlain t n v).
Proof.
  intros W H1 H2 F L G. remember (S f) as f'. cbn [loop]. rewrite extract_word by assumption.
  assert (E1 : textEq (firstn (length prefix) (prefix ++ n)) prefix = true) by (rewrite firstn_app, firstn_all, Nat.sub_diag; cbn; rewrite app_nil_r; apply textEq_refl).
  assert (E2 : skipn (length prefix) (prefix ++ n) = n) by (rewrite skipn_app, skipn_all, Nat.sub_diag; reflexivity).
  rewrite E1, E2. cbn [negb]. rewrite (textEq_neq _ _ H1), (textEq_neq _ _ H2), F. unfold vectorExtract. rewrite G. subst f'. reflexivity.
Qed.
Lemma update_vector debug n nl (t : @table (list V)) (words : list text) v : isWord (prefix ++ n) -> n <> str "help" -> n <> str "version" -> find (decl t) n = Some (Plain (vectorExtract extract debug nl)) ->
  (exists w ws, words = w :: ws) -> inputTinyVector extract debug nl (flat_map (fun w => " "%char :: w) words) = Got v [] ->
  update prefix t ((prefix ++ n) :: words) = Updated (setPlain t n v).
Proof.
  intros W H1 H2 F (w & ws & ->) G. unfold update. set (l := flat_map (fun w => " "%char :: w) (w :: ws)) in *.
  change (flat_map (fun w => " "%char :: w) ((prefix ++ n) :: w :: ws)) with (" "%char :: (prefix ++ n) ++ l).
  assert (Hl : exists k, length (" "%char :: (prefix ++ n) ++ l) = S (S k)). { cbn [length]. rewrite app_length. unfold l. cbn [flat_map length app]. eexists. rewrite Nat.add_succ_r. reflexivity. }
  destruct Hl as [k ->]. apply (loop_vector debug n nl t l v k); auto. unfold l. reflexivity.
Qed.
(** a word, or words, written as a vector *)
Lemma update_reads debug n (t : @table (list V)) words o s x v b c : isWord (prefix ++ n) -> n <> str "help" -> n <> str "version" ->
  find (decl t) n = Some (Plain (vectorExtract extract debug (S (length v)))) -> sensible print extract o s v b c -> wellFormed o v c ->
  flat_map (fun w => " "%char :: w) words = " "%char :: written print o s x v b c -> update prefix t ((prefix ++ n) :: words) = Updated (setPlain t n (x :: map snd v)).
Proof.
  intros W H1 H2 F S WF E. apply (update_vector debug n (Datatypes.S (length v))); auto.
  - destruct words; [discriminate E|eauto].
  - rewrite E. pose proof (well_formed_read debug o s x v b c [" "%char] [] ltac:(repeat constructor) S WF) as R. rewrite app_nil_r in R. exact R.
Qed.
(** a minus sign after a blank is taken for the separator *)
Lemma minus_lost n (t : @table (list V)) x y : isWord (prefix ++ n) -> n <> str "help" -> n <> str "version" -> find (decl t) n = Some (Plain (vectorExtract extract false 2)) ->
  update prefix t [prefix ++ n; "["%char :: print x; "-"%char :: print y ++ ["]"%char]] = Updated (setPlain t n [x; y]).
Proof.
  intros W H1 H2 F. apply (update_vector false n 2); eauto.
  pose proof RN as (_ & _ & R3 & R4 & _).
  pose proof (vector_read false "[" [] x [(mkSep [" "%char] "-" [], y)] [] "]" [" "%char] [] ltac:(repeat constructor)) as R.
  cbn [length map snd negb orb] in R. rewrite <- R.
  - cbn [flat_map app]. unfold written. cbn [app flat_map fst snd before character after]. rewrite <- !app_assoc. cbn [app]. rewrite <- ?app_assoc. reflexivity.
  - split; [reflexivity|]. split; [constructor|]. split; [|repeat split; try constructor; cbn; auto].
    constructor; [|constructor]. cbn [fst]. repeat split; try (repeat constructor). cbn. discriminate.
Qed.
End Reads.
Lemma output_written {V} (print : V -> text) x v : outputTinyVector print (x :: v) = written print "[" [] x (map (fun y => (mkSep [] "," [], y)) v) [] "]".
Proof.
  unfold outputTinyVector, written. cbn [app]. f_equal. f_equal. f_equal. induction v as [|y v IH]; [reflexivity|]. cbn [map flat_map fst snd before character after app]. now rewrite IH.
Qed.
Lemma output_sensible {V} (print : V -> text) extract (v : list V) : readsNumbers print extract ->
  sensible print extract "[" [] (map (fun y => (mkSep [] "," [], y)) v) [] "]" /\ wellFormed "[" (map (fun y => (mkSep [] "," [], y)) v) "]".
Proof.
  intros (_ & R2 & R3 & _). split.
  - split; [reflexivity|]. split; [constructor|]. split; [|repeat split; try constructor; cbn; auto]. induction v; constructor; auto. cbn. repeat split; try constructor; auto.
  - repeat split. induction v; constructor; auto.
Qed.
Lemma round_trip {V} (print : V -> text) extract debug x v rest : readsNumbers print extract ->
  inputTinyVector extract debug (S (length v)) (outputTinyVector print (x :: v) ++ rest) = Got (x :: v) rest.
Proof.
  intros RN. rewrite output_written. destruct (output_sensible print extract v RN) as [A B].
  pose proof (well_formed_read print extract RN debug "[" [] x _ [] "]" [] rest ltac:(constructor) A B) as R. rewrite map_length, map_map in R. cbn [snd app] in R. rewrite map_id in R. exact R.
Qed.

(** ** Natural numbers *)
Lemma nat_reads : readsNat.
Proof.
  assert (E : forall c, isDigit c = false -> ends dec readNumber c) by (intros c Hc x l; apply readNumber_dec; exact Hc).
  split; [|split; [|split; [|split]]].
  - intros s l Hs. unfold readNumber. now rewrite skip_spaces.
  - now apply E.
  - now apply E.
  - intros c Hc. apply E. unfold isSpace in Hc. unfold isDigit. destruct (nat_of_ascii c) as [|n] eqn:En; [reflexivity|]. apply orb_true_iff in Hc as [Hc|Hc].
    + apply Nat.eqb_eq in Hc. rewrite Hc. reflexivity.
    + apply andb_true_iff in Hc as [_ Hc]. apply Nat.leb_le in Hc. apply andb_false_iff. left. apply Nat.leb_gt. lia.
  - intros x. split; [apply dec_nonempty|]. unfold dec. assert (G : forall fuel n acc, (forall c, In c acc -> isSpace c = false) -> forall c, In c (decAux fuel n acc) -> isSpace c = false).
    { induction fuel as [|fuel IH]; intros n acc Ha c; [apply Ha|]. cbn [decAux]. destruct (Nat.ltb_spec n 10) as [Hn|Hn].
      - intros [<-|Hc]; [now apply digit_ok|auto].
      - apply IH. intros c' [<-|Hc]; [apply digit_ok; apply Nat.mod_upper_bound; lia|auto]. }
    apply G. intros c [].
Qed.
