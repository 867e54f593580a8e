(** Specification of command lines: a sequence of assignments *)
From Coq Require Import String Ascii List Bool.
From Verif Require Import StateFileModel ParsModel.
Import ListNotations.

(** a word of the command line *)
Definition isWord (w : text) : Prop := w <> [] /\ forall c, In c w -> isSpace c = false.
Definition wordEnd (l : text) : Prop := match l with [] => True | c :: _ => isSpace c = true end.

Section Spec.
Context {V : Type}.
(** extraction reads values given by [val]: a word which is a value is taken as a whole; of any other word either nothing can be read or something is left *)
Definition readsWords (extract : text -> option (V * text)) (val : text -> option V) : Prop :=
  extract [] = None /\
  forall w l, isWord w -> wordEnd l ->
    match val w with
    | Some v => extract (" "%char :: w ++ l) = Some (v, l)
    | None => extract (" "%char :: w ++ l) = None \/ exists v w1 w2, w = w1 ++ w2 /\ w1 <> [] /\ w2 <> [] /\ extract (" "%char :: w ++ l) = Some (v, w2 ++ l)
    end.

Variable prefix : text.
Variable val : text -> text -> option V. (* values of the parameter named *)
Notation table := (@table V).

Inductive item := SetTo (n : text) (v : V) | On (n : text) | Off (n : text).
(** a command line being a sequence of assignments for the parameters declared *)
Inductive commands (d : list (text * @kind V)) : list text -> list item -> Prop :=
| c_nil : commands d [] []
| c_plain n e w v ws is : n <> str "help" -> n <> str "version" -> find d n = Some (Plain e) -> val n w = Some v ->
    commands d ws is -> commands d ((prefix ++ n) :: w :: ws) (SetTo n v :: is)
| c_on n ws is : n <> str "help" -> n <> str "version" -> find d n = Some Switch ->
    commands d ws is -> commands d ((prefix ++ n) :: ws) (On n :: is)
| c_off n s ws is : n <> str "help" -> n <> str "version" -> find d n = Some (Negated s) ->
    commands d ws is -> commands d ((prefix ++ n) :: ws) (Off s :: is).

(** the last assignment of each parameter counts, parameters not assigned and the declarations do not change *)
Definition lastWins (t t' : table) (is : list item) : Prop :=
  decl t' = decl t /\
  (forall n is1 v is2, is = is1 ++ SetTo n v :: is2 -> (forall v', ~ In (SetTo n v') is2) -> plainVal t' n = v) /\
  (forall n, (forall v, ~ In (SetTo n v) is) -> plainVal t' n = plainVal t n) /\
  (forall n is1 is2, is = is1 ++ On n :: is2 -> ~ In (Off n) is2 -> switchVal t' n = true) /\
  (forall n is1 is2, is = is1 ++ Off n :: is2 -> ~ In (On n) is2 -> switchVal t' n = false) /\
  (forall n, ~ In (On n) is -> ~ In (Off n) is -> switchVal t' n = switchVal t n).

(** a word asking for help or the version after a correct command line *)
Definition asksForHelp (d : list (text * @kind V)) (ws : list text) : Prop :=
  exists ws1 ws2 is h, ws = ws1 ++ (prefix ++ h) :: ws2 /\ (h = str "help" \/ h = str "version") /\ commands d ws1 is.

(** no word which is no value of some parameter has the prefix inside *)
Definition noPrefixInside (d : list (text * @kind V)) (ws : list text) : Prop :=
  forall n e w1 w2, find d n = Some (Plain e) -> In (w1 ++ w2) ws -> val n (w1 ++ w2) = None -> w1 <> [] -> firstn (length prefix) w2 <> prefix.

(** every parameter except for those named is as before *)
Definition sameBut (ns : list text) (t t' : table) : Prop :=
  forall n, ~ In n ns -> find (decl t') n = find (decl t) n /\ plainVal t' n = plainVal t n /\ switchVal t' n = switchVal t n.

(** tables which can come about *)
Inductive built : table -> Prop :=
| b_empty pv sv : built (mkTable [] pv sv)
| b_add t s e v : built t -> built (fst (add t s e v))
| b_addSwitch t s b : built t -> built (fst (addSwitch t s b))
| b_addTitle t s : built t -> built (fst (addTitle t s)).
End Spec.
