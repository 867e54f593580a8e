(** Vectors written by users *)
From Coq Require Import String Ascii List Arith Bool.
From Verif Require Import StateFileModel ParsModel VecParModel.
Import ListNotations.

Definition spaces (s : text) : Prop := Forall (fun c => isSpace c = true) s.
Section Spec.
Context {V : Type}.
Variable print : V -> text.
Variable extract : text -> option (V * text).
(** the number ends before this character *)
Definition ends (c : ascii) : Prop := forall x l, extract (print x ++ c :: l) = Some (x, c :: l).
(** numbers are read as they were written: leading whitespace is skipped, the delimiters and whitespace end a number *)
Definition readsNumbers : Prop :=
  (forall s l, spaces s -> extract (s ++ l) = extract l) /\ ends ","%char /\ ends "]"%char /\ (forall c, isSpace c = true -> ends c) /\
  forall x, print x <> [] /\ forall c, In c (print x) -> isSpace c = false.

(** a separator with whitespace around; it is to be told from the number before it *)
Record separator := mkSep { before : text; character : ascii; after : text }.
Definition sensibleSep (d : separator) : Prop := spaces (before d) /\ spaces (after d) /\ isSpace (character d) = false /\ (before d = [] -> ends (character d)).
(** a vector with any separators: the first number, the others each after its separator, the closing character *)
Definition written (o : ascii) (s : text) (x : V) (v : list (separator * V)) (b : text) (c : ascii) : text :=
  o :: s ++ print x ++ flat_map (fun p => before (fst p) ++ character (fst p) :: after (fst p) ++ print (snd p)) v ++ b ++ [c].
Definition sensible (o : ascii) (s : text) (v : list (separator * V)) (b : text) (c : ascii) : Prop :=
  isSpace o = false /\ spaces s /\ Forall (fun p => sensibleSep (fst p)) v /\ sensibleSep (mkSep b c []).
(** the syntax *)
Definition wellFormed (o : ascii) (v : list (separator * V)) (c : ascii) : Prop := o = "["%char /\ Forall (fun p => character (fst p) = ","%char) v /\ c = "]"%char.
End Spec.

(** vectors of natural numbers: those of StateFileModel *)
Definition readsNat := readsNumbers dec readNumber.
