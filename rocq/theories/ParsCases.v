From Coq Require Import String Ascii List Arith Bool Lia.
From Verif Require Import StateFileModel ParsModel ParsSpec ParsProofs.
Import ListNotations.

(** non-negative integers: operator>> for unsigned, without overflow *)
Definition extractNumber (l : text) : option (nat * text) := readNumber l.
Definition numberVal (w : text) : option nat := if forallb isDigit w then Some (fst (readDigits 0 w)) else None.
Lemma digit_not_space c : isDigit c = true -> isSpace c = false.
Proof.
  unfold isDigit, isSpace. intros H. apply andb_prop in H. destruct H as [H1 H2]. apply Nat.leb_le in H1, H2.
  destruct (Nat.eqb_spec (nat_of_ascii c) 32), (Nat.leb_spec 9 (nat_of_ascii c)), (Nat.leb_spec (nat_of_ascii c) 13); cbn; auto; lia.
Qed.
Lemma readDigits_word : forall w l a, (forall c, In c w -> isSpace c = false) -> wordEnd l ->
  exists w1 w2, w = w1 ++ w2 /\ forallb isDigit w1 = true /\ (w2 = [] \/ forallb isDigit w = false) /\ readDigits a (w ++ l) = (fst (readDigits a w1), w2 ++ l).
Proof.
  induction w as [|c w IH]; intros l a H E.
  - exists [], []. repeat split; auto. cbn. destruct l as [|c l]; auto. cbn in *. destruct (isDigit c) eqn:D; auto. apply digit_not_space in D. congruence.
  - cbn [app readDigits]. destruct (isDigit c) eqn:D.
    + destruct (IH l (10 * a + digitVal c) (fun x I => H x (or_intror I)) E) as (w1 & w2 & -> & A & B & C).
      exists (c :: w1), w2. split; [reflexivity|]. cbn [forallb readDigits]. rewrite D. cbn [andb]. auto.
    + exists [], (c :: w). repeat split; auto. right. cbn. now rewrite D.
Qed.
Lemma readDigits_shrinks : forall l a, length (snd (readDigits a l)) <= length l.
Proof. induction l as [|x l IH]; intros a; cbn; auto. destruct (isDigit x); cbn; auto. Qed.
Lemma number_reads : readsWords extractNumber numberVal.
Proof.
  split; [reflexivity|]. intros w l [N W] E. unfold extractNumber, readNumber.
  change (skipSpace (" "%char :: w ++ l)) with (skipSpace (w ++ l)). rewrite (skip_word w l (conj N W)).
  destruct w as [|c w]; [contradiction|]. cbn [app].
  destruct (readDigits_word (c :: w) l 0 W E) as (w1 & w2 & Ew & A & B & C). unfold numberVal. cbn [app] in C.
  destruct (isDigit c) eqn:D.
  - rewrite C. destruct B as [->|B].
    + rewrite app_nil_r in Ew. subst w1. rewrite A. reflexivity.
    + rewrite B. right. exists (fst (readDigits 0 w1)), w1, w2. repeat split; auto.
      * intros ->. cbn in Ew. subst w2. cbn [readDigits] in C. rewrite D in C. apply (f_equal snd) in C. cbn [snd app] in C.
        pose proof (readDigits_shrinks (w ++ l) (10 * 0 + digitVal c)) as L1. rewrite C in L1. cbn [length] in L1. lia.
      * intros ->. rewrite app_nil_r in Ew. subst w1. congruence.
  - cbn [forallb]. rewrite D. cbn [andb]. now left.
Qed.

(** a table with the numbers n and m and the switch s *)
Definition t0 : @table nat := mkTable [] (fun _ => 0) (fun _ => false).
Definition exTable : @table nat := fst (addTitle (fst (addSwitch (fst (add (fst (add t0 (str "n") extractNumber 1)) (str "m") extractNumber 2)) (str "s") true)) (str "My title")).
Lemma exTable_reads n e : find (decl exTable) n = Some (Plain e) -> readsWords e numberVal.
Proof.
  change (decl exTable) with [(str "n", Plain extractNumber); (str "m", Plain extractNumber); (str "s", Switch); (str "no_s", Negated (str "s")); (str "My title", Title)].
  cbn [find]. repeat match goal with |- context [textEq ?a n] => destruct (textEq a n) end; intros H; try discriminate H; injection H as <-; exact number_reads.
Qed.
Definition exWords : list text := map str ["--n"; "5"; "--no_s"; "--s"; "--n"; "7"; "--no_s"]%string.
Definition exItems : list (@item nat) := [SetTo (str "n") 5; Off (str "s"); On (str "s"); SetTo (str "n") 7; Off (str "s")].
Lemma exWords_ok w : In w exWords -> isWord w.
Proof. intros H. cbn in H. repeat destruct H as [<-|H]; try contradiction; (split; [discriminate|]; intros c I; cbn in I; repeat destruct I as [<-|I]; try contradiction; reflexivity). Qed.
Lemma exCommands : commands (str "--") (fun _ => numberVal) (decl exTable) exWords exItems.
Proof.
  unfold exWords, exItems. cbn [map].
  apply (c_plain (str "--") (fun _ => numberVal) (decl exTable) (str "n") extractNumber (str "5")); try discriminate; try reflexivity.
  apply (c_off (str "--") (fun _ => numberVal) (decl exTable) (str "no_s") (str "s")); try discriminate; try reflexivity.
  apply (c_on (str "--") (fun _ => numberVal) (decl exTable) (str "s")); try discriminate; try reflexivity.
  apply (c_plain (str "--") (fun _ => numberVal) (decl exTable) (str "n") extractNumber (str "7")); try discriminate; try reflexivity.
  apply (c_off (str "--") (fun _ => numberVal) (decl exTable) (str "no_s") (str "s")); try discriminate; try reflexivity.
  constructor.
Qed.
Definition observe (o : @outcome nat) : option (nat * nat * option bool * option bool) :=
  match o with Updated t => Some (plainVal t (str "n"), plainVal t (str "m"), readSwitch t (str "s"), readSwitch t (str "no_s")) | _ => None end.
Lemma exResult : observe (update (str "--") exTable exWords) = Some (7, 2, Some false, Some true).
Proof. reflexivity. Qed.
Definition tag (o : @outcome nat) : nat := match o with Updated _ => 0 | Aborted => 1 | Exited => 2 | Stuck => 3 end.
Lemma exAbort : map (fun ws => tag (update (str "--") exTable (map str ws)))
   [["--k"; "1"]; ["--n"]; ["--n"; "x"]; ["--n"; "1.5"]; ["n"; "1"]; ["--My"]; ["--s"; "true"]; ["--n"; "1"; "--help"; "--k"]; ["-n"; "1"]]%string = [1; 1; 1; 1; 1; 1; 1; 2; 1].
Proof. reflexivity. Qed.

(** the value word 5--m is no number, but the command line is accepted and sets two parameters *)
Lemma exGlued : exists ws, (forall w, In w ws -> isWord w) /\ (~ exists is, commands (str "--") (fun _ => numberVal) (decl exTable) ws is) /\
  observe (update (str "--") exTable ws) = Some (5, 7, Some true, Some false).
Proof.
  exists (map str ["--n"; "5--m"; "7"]%string). split; [|split; [|reflexivity]].
  - intros w H. cbn in H. repeat destruct H as [<-|H]; try contradiction; (split; [discriminate|]; intros c I; cbn in I; repeat destruct I as [<-|I]; try contradiction; reflexivity).
  - intros [is H]. apply cmd_head in H. destruct H as (n & E & _ & _ & H). change (str "--n") with (str "--" ++ str "n") in E.
    apply app_inv_head in E. subst n. destruct H as [(e & w' & v & ws' & is' & _ & E & Hv & _)|[(is' & F & _)|(s & is' & F & _)]]; try discriminate F.
    injection E as <- _. discriminate Hv.
Qed.

(** a switch the negated form of which is taken: refused, but declared nonetheless, without a negated form *)
Lemma half_switch : exists (t t' : @table nat) s b, built t /\ addSwitch t s b = (t', true) /\ find (decl t) s = None /\ find (decl t') s <> None.
Proof.
  exists (fst (add t0 (str "no_x") extractNumber 3)). eexists. exists (str "x"), true. split; [apply b_add; apply b_empty|]. split; [reflexivity|]. split; [reflexivity|discriminate].
Qed.
Lemma exAdd : addSwitch exTable (str "n") true = (exTable, true) /\ add exTable (str "no_s") extractNumber 3 = (exTable, true) /\
  exists t', add exTable (str "k") extractNumber 3 = (t', false) /\ plainVal t' (str "k") = 3 /\ plainVal t' (str "n") = 1 /\ find (decl t') (str "n") = find (decl exTable) (str "n").
Proof. split; [reflexivity|]. split; [reflexivity|]. eexists. split; [reflexivity|]. repeat split; reflexivity. Qed.
