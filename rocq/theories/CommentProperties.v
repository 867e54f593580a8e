(** C25: comment lines are marked and nothing is lost. *)
From Coq Require Import String Ascii List.
From Verif Require Import CommentModel CommentSpec CommentProofs.
Import ListNotations.

(** Every text consists of lines, and however it is split into writes, what arrives behind the text [d] already in the file is the same lines with "# "
    in front of the non-empty ones. *)
Theorem C25_every_text_has_lines : forall t, exists lines, lines <> [] /\ (forall l, In l lines -> isLine l) /\ t = join lines.
Proof. exact text_lines. Qed.
Print Assumptions C25_every_text_has_lines.
Theorem C25_lines_marked : forall texts lines d, (forall l, In l lines -> isLine l) -> concat texts = join lines ->
  dest (writes (newStream d) texts) = d ++ join (map mark lines).
Proof. exact marked. Qed.
Print Assumptions C25_lines_marked.
(** The text can be recovered: line by line, and as a whole. *)
Theorem C25_line_recovered : forall l, unmark (mark l) = l.
Proof. exact unmark_mark. Qed.
Print Assumptions C25_line_recovered.
Theorem C25_text_recovered : forall t t' d, dest (write (newStream d) t) = dest (write (newStream d) t') -> t = t'.
Proof. exact recovered. Qed.
Print Assumptions C25_text_recovered.

(** "ab", "c\n\n", "#d" as three writes *)
Example C25_case : dest (writes (newStream []) [["a"; "b"]; ["c"; EOL; EOL]; ["#"; "d"]]%char) = ["#"; " "; "a"; "b"; "c"; EOL; EOL; "#"; " "; "#"; "d"]%char.
Proof. reflexivity. Qed.
