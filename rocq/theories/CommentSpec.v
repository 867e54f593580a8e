(** Specification: lines of a text, each non-empty one marked *)
From Coq Require Import Ascii List.
From Verif Require Import CommentModel.
Import ListNotations.

(** A text is its lines joined by end-of-line characters (the last line may be unfinished, possibly empty). *)
Fixpoint join (lines : list (list ascii)) : list ascii :=
  match lines with [] => [] | [l] => l | l :: ls => l ++ EOL :: join ls end.
Definition isLine (l : list ascii) : Prop := ~ In EOL l.
Definition mark (l : list ascii) : list ascii := match l with [] => [] | _ => commentChar :: blank :: l end.
(** what a reader does to get the text back *)
Definition unmark (l : list ascii) : list ascii := match l with _ :: _ :: l' => l' | _ => [] end.
