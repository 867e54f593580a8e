(** What texts should be read as containers. *)
From Coq Require Import String Ascii List Arith Bool.
From Verif Require Import StateFileModel ParsModel OutputSpec ContainerModel.
Import ListNotations.
Local Open Scope nat_scope.

(** a delimiter, without the blanks around it, possibly with blanks before; what follows is r *)
Definition blanks (l : text) : Prop := forall c, In c l -> isSpace c = true.
Definition unpadded (core : text) : Prop := match core with [] => False | c :: _ => isSpace c = false end /\ match rev core with [] => False | c :: _ => isSpace c = false end.
Definition begins_with (d : text) (l r : text) : Prop := exists w b core e, l = w ++ core ++ r /\ blanks w /\ d = b ++ core ++ e /\ blanks b /\ blanks e /\ unpadded core.
Section Elements.
Context {A : Type}.
Variable get : text -> option (A * text).
(** the text l begins with a spelling of a container, r follows *)
Inductive spells : tree A -> text -> text -> Prop :=
| spells_element a l r : get l = Some (a, r) -> spells (Element a) l r
| spells_container d vs l l1 l2 r : begins_with (prefix d) l l1 -> spells_list d vs l1 l2 -> begins_with (postfix d) l2 r -> spells (Container d vs) l r
with spells_list : delimiters -> list (tree A) -> text -> text -> Prop :=
| spells_none d l : spells_list d [] l l
| spells_one d v l r : spells v l r -> spells_list d [v] l r
| spells_more d v w vs l l1 l2 r : spells v l l1 -> begins_with (delimiter d) l1 l2 -> spells_list d (w :: vs) l2 r -> spells_list d (v :: w :: vs) l r.
(** containers of the same form *)
Inductive alike : tree A -> tree A -> Prop :=
| alike_element a b : alike (Element a) (Element b)
| alike_container d vs ws : Forall2 alike vs ws -> alike (Container d vs) (Container d ws).
End Elements.
(** there is something to be seen in all of the delimiters *)
Definition visible (d : delimiters) : Prop := forall t, In t [prefix d; delimiter d; postfix d] -> exists c, In c t /\ isSpace c = false.
Inductive all_delims {A} (P : delimiters -> Prop) : tree A -> Prop :=
| all_element a : all_delims P (Element a)
| all_container d vs : P d -> Forall (all_delims P) vs -> all_delims P (Container d vs).
Inductive all_elements {A} (P : A -> Prop) : tree A -> Prop :=
| elements_element a : P a -> all_elements P (Element a)
| elements_container d vs : Forall (all_elements P) vs -> all_elements P (Container d vs).
(** an element is read back, before any of the characters of the delimiters, and after blanks *)
Definition reads_back {A} (put : A -> text) (get : text -> option (A * text)) (a : A) : Prop :=
  forall w r, blanks w -> match r with c :: _ => isSpace c = true \/ In c (str "[],{}()") | [] => False end -> get (w ++ put a ++ r) = Some (a, r).
(** the delimiters of the library *)
Definition standard (d : delimiters) : Prop := In d [sequenceDelims; setDelims; tupleDelims].
