(** C24: command line: last occurrence wins, unknown is refused. *)
From Coq Require Import String Ascii List Arith Bool.
From Verif Require Import StateFileModel ParsModel ParsSpec ParsProofs ParsCases.
Import ListNotations.

(** A command line made of assignments to declared parameters is accepted, and the last assignment of each parameter counts; [val] tells which words are values *)
Theorem C24_last_occurrence_wins : forall (V : Type) prefix val (t : @table V) ws is,
  (forall n e, find (decl t) n = Some (Plain e) -> readsWords e (val n)) -> (forall w, In w ws -> isWord w) ->
  commands prefix val (decl t) ws is -> exists t', update prefix t ws = Updated t' /\ lastWins t t' is.
Proof. exact @update_accepts. Qed.
Print Assumptions C24_last_occurrence_wins.

(** As stated - every other command line is refused - this does not hold: what is left of an unparsable value may be taken for the next parameter. *)
Theorem C24_unparsable_aborts_refuted : exists ws, (forall w, In w ws -> isWord w) /\
  (~ exists is, commands (str "--") (fun _ => numberVal) (decl exTable) ws is) /\
  observe (update (str "--") exTable ws) = Some (5, 7, Some true, Some false).
Proof. exact exGlued. Qed.
Print Assumptions C24_unparsable_aborts_refuted.
(** If no such word has the prefix inside, then everything else aborts, unless help or version is asked for after correct assignments, when it exits.
    Missing for the full statement: command lines with the prefix inside of an unparsable word. *)
Theorem C24_refused_partial : forall (V : Type) prefix val (t : @table V) ws,
  (forall n e, find (decl t) n = Some (Plain e) -> readsWords e (val n)) -> (forall w, In w ws -> isWord w) ->
  noPrefixInside prefix val (decl t) ws -> (~ exists is, commands prefix val (decl t) ws is) ->
  (update prefix t ws = Exited /\ asksForHelp prefix val (decl t) ws) \/ (update prefix t ws = Aborted /\ ~ asksForHelp prefix val (decl t) ws).
Proof. exact @update_refuses. Qed.
Print Assumptions C24_refused_partial.

(** The two forms of a switch never disagree, in any table that can come about (refused additions included). *)
Theorem C24_switch_forms_agree : forall (V : Type) (t : @table V) n s, built t -> find (decl t) n = Some (Negated s) ->
  exists b, readSwitch t s = Some b /\ readSwitch t n = Some (negb b).
Proof. exact (fun V => opposite [] (fun _ _ => @None V)). Qed.
Print Assumptions C24_switch_forms_agree.
Theorem C24_switch_has_both_forms : forall (V : Type) (t : @table V) s b, find (decl t) s = None -> find (decl t) (str "no_" ++ s) = None ->
  exists t', addSwitch t s b = (t', false) /\ readSwitch t' s = Some b /\ readSwitch t' (str "no_" ++ s) = Some (negb b).
Proof. exact (fun V => add_switch_ok). Qed.
Print Assumptions C24_switch_has_both_forms.

(** --n 5 --no_s --s --n 7 --no_s *)
Example C24_case : (forall n e, find (decl exTable) n = Some (Plain e) -> readsWords e numberVal) /\ (forall w, In w exWords -> isWord w) /\
  commands (str "--") (fun _ => numberVal) (decl exTable) exWords exItems /\ observe (update (str "--") exTable exWords) = Some (7, 2, Some false, Some true).
Proof. exact (conj exTable_reads (conj exWords_ok (conj exCommands exResult))). Qed.
Example C24_case_refused : map (fun ws => tag (update (str "--") exTable (map str ws)))
   [["--k"; "1"]; ["--n"]; ["--n"; "x"]; ["--n"; "1.5"]; ["n"; "1"]; ["--My"]; ["--s"; "true"]; ["--n"; "1"; "--help"; "--k"]; ["-n"; "1"]]%string = [1; 1; 1; 1; 1; 1; 1; 2; 1].
Proof. exact exAbort. Qed.

(** C70: parameters are declared once. *)
(** Declaring under a name already taken, in any way, is refused and changes nothing. *)
Theorem C70_recreation_refused : forall (V : Type) (t : @table V) s k, find (decl t) s = Some k ->
  forall e v b, add t s e v = (t, true) /\ addSwitch t s b = (t, true) /\ addTitle t s = (t, true).
Proof. exact @recreation. Qed.
Print Assumptions C70_recreation_refused.
(** Declaring under a new name succeeds, gives the parameter its default value, and leaves everything else as it was. *)
Theorem C70_new_parameter : forall (V : Type) (t : @table V) s e v, find (decl t) s = None ->
  exists t', add t s e v = (t', false) /\ find (decl t') s = Some (Plain e) /\ plainVal t' s = v /\ sameBut [s] t t'.
Proof. exact @add_new. Qed.
Print Assumptions C70_new_parameter.
Theorem C70_new_title : forall (V : Type) (t : @table V) s, find (decl t) s = None ->
  exists t', addTitle t s = (t', false) /\ find (decl t') s = Some Title /\ sameBut [s] t t'.
Proof. exact @add_title_new. Qed.
Print Assumptions C70_new_title.
(** As stated it does not hold for switches: with only the name of the negated form taken, the declaration is refused, but the switch stays declared. *)
Theorem C70_refused_switch_refuted : exists (t t' : @table nat) s b, built t /\ addSwitch t s b = (t', true) /\ find (decl t) s = None /\ find (decl t') s <> None.
Proof. exact half_switch. Qed.
Print Assumptions C70_refused_switch_refuted.
(** Missing for the full statement: the case of the name of the negated form being taken. *)
Theorem C70_new_switch_partial : forall (V : Type) (t : @table V) s b, find (decl t) s = None -> find (decl t) (str "no_" ++ s) = None ->
  exists t', addSwitch t s b = (t', false) /\ readSwitch t' s = Some b /\ readSwitch t' (str "no_" ++ s) = Some (negb b) /\ sameBut [s; str "no_" ++ s] t t'.
Proof. exact @add_switch_new. Qed.
Print Assumptions C70_new_switch_partial.
Example C70_case : addSwitch exTable (str "n") true = (exTable, true) /\ add exTable (str "no_s") extractNumber 3 = (exTable, true) /\
  exists t', add exTable (str "k") extractNumber 3 = (t', false) /\ plainVal t' (str "k") = 3 /\ plainVal t' (str "n") = 1 /\ find (decl t') (str "n") = find (decl exTable) (str "n").
Proof. exact exAdd. Qed.
