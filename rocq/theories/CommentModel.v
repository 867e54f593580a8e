(** Model of CommentingStream, CPPQEDutils/CommentingStream.h:385-430 *)
From Coq Require Import String Ascii List Bool.
Import ListNotations.

Definition EOL : ascii := "010"%char.
Definition commentChar : ascii := "#"%char.
Definition blank : ascii := " "%char.

(** states, lines 392-393 *)
Inductive state := lineBegin | withinLine.

(** transition_table, lines 404-409: new state and characters pushed *)
Definition transition (s : state) (c : ascii) : state * list ascii :=
  match s with
  | lineBegin => if Ascii.eqb c EOL then (lineBegin, [c]) else (withinLine, [commentChar; blank; c])
  | withinLine => if Ascii.eqb c EOL then (lineBegin, [c]) else (withinLine, [c])
  end.

(** finite_state_filter::put, lines 337-348: what is pushed goes on to the destination at once *)
Record stream := mkStream { st : state; dest : list ascii }.
Definition put (f : stream) (c : ascii) : stream :=
  let (s', out) := transition (st f) c in mkStream s' (dest f ++ out).
(** one insertion into the stream *)
Definition write (f : stream) (text : list ascii) : stream := fold_left put text f.
(** constructor, line 422, on an ostream already holding [d]; set, line 424, starts again with a fresh filter *)
Definition newStream (d : list ascii) : stream := mkStream lineBegin d.
Definition writes (f : stream) (texts : list (list ascii)) : stream := fold_left write texts f.
