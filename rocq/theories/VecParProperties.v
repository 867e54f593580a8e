(** C138: vectors as parameters. *)
From Coq Require Import String Ascii List Arith Bool.
From Verif Require Import StateFileModel ParsModel ParsSpec VecParModel VecParSpec VecParProofs.
Import ListNotations.

(** Vectors written by the framework are read back, whatever follows and in all builds *)
Theorem C138_round_trip : forall (V : Type) (print : V -> text) extract debug x v rest, readsNumbers print extract ->
  inputTinyVector extract debug (S (length v)) (outputTinyVector print (x :: v) ++ rest) = Got (x :: v) rest.
Proof. exact @round_trip. Qed.
Print Assumptions C138_round_trip.
(** A vector of the right syntax, with whitespace around its numbers and in any number of words, is assigned to the parameter, and nothing else changes *)
Theorem C138_assigned : forall (V : Type) (print : V -> text) extract, readsNumbers print extract ->
  forall prefix debug n (t : @table (list V)) words o s x v b c, isWord (prefix ++ n) -> n <> str "help" -> n <> str "version" ->
  find (decl t) n = Some (Plain (vectorExtract extract debug (S (length v)))) -> sensible print extract o s v b c -> wellFormed o v c ->
  flat_map (fun w => " "%char :: w) words = " "%char :: written print o s x v b c -> update prefix t ((prefix ++ n) :: words) = Updated (setPlain t n (x :: map snd v)).
Proof. exact @update_reads. Qed.
Print Assumptions C138_assigned.
(** Vectors with other characters as brackets or delimiters are refused in debug builds, but are read in others. Missing: the latter *)
Theorem C138_refused_partial : forall (V : Type) (print : V -> text) extract, readsNumbers print extract ->
  forall o s x v b c sp rest, spaces sp -> sensible print extract o s v b c -> ~ wellFormed o v c ->
  inputTinyVector extract true (S (length v)) (sp ++ written print o s x v b c ++ rest) = Assertion /\
  inputTinyVector extract false (S (length v)) (sp ++ written print o s x v b c ++ rest) = Got (x :: map snd v) rest.
Proof. exact @ill_formed_read. Qed.
Print Assumptions C138_refused_partial.
(** so that with a forgotten delimiter the sign of the number after it is lost *)
Theorem C138_refused_refuted : forall (V : Type) (print : V -> text) extract, readsNumbers print extract ->
  forall prefix n (t : @table (list V)) x y, isWord (prefix ++ n) -> n <> str "help" -> n <> str "version" -> find (decl t) n = Some (Plain (vectorExtract extract false 2)) ->
  update prefix t [prefix ++ n; "["%char :: print x; "-"%char :: print y ++ ["]"%char]] = Updated (setPlain t n [x; y]).
Proof. exact @minus_lost. Qed.
Print Assumptions C138_refused_refuted.
(** natural numbers *)
Example C138_case : readsNat /\ outputTinyVector dec [0; 12; 5] = str "[0,12,5]" /\ inputTinyVector readNumber true 3 (str " [ 0 ,12, 5 ] --u 1") = Got [0; 12; 5] (str " --u 1") /\
  inputTinyVector readNumber false 2 (str "[0 -1]") = Got [0; 1] [] /\ inputTinyVector readNumber true 2 (str "[0 -1]") = Assertion /\ inputTinyVector readNumber false 3 (str "[0,1]") = Failed.
Proof. split; [exact nat_reads|]. repeat split; reflexivity. Qed.
