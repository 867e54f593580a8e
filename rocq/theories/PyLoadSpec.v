(** What the functions reading trajectory files should find there. *)
From Coq Require Import String Ascii List Arith Bool.
From Verif Require Import StateFileModel ParsModel OutputSpec CommentModel CommentSpec PyLoadModel.
Import ListNotations.
Local Open Scope nat_scope.

(** the commentary consists of complete lines; a line of numbers is one line, with no sign of commentary in it *)
Definition complete (t : text) : Prop := t = [] \/ exists t', t = t' ++ [EOL].
Definition proper (p : piece) : Prop :=
  match p with Commentary texts => complete (concat texts) | Shown l => exists l', l = l' ++ [EOL] /\ isLine l' /\ ~ In commentChar l' end.
(** the lines of numbers of a file *)
Definition shown (ps : list piece) : list text := flat_map (fun p => match p with Shown l => [l] | _ => [] end) ps.
(** their numbers *)
Definition reads {A} (number : text -> option A) (l : text) (r : list A) : Prop := map number (words l) = map Some r.
(** the j-th of the columns is that of the j-th numbers *)
Definition columns {A} (rows : list (list A)) (n : nat) (cols : list (list A)) : Prop :=
  length cols = n /\ forall j, j < n -> exists c, nth_error cols j = Some c /\ length c = length rows /\ forall i r, nth_error rows i = Some r -> nth_error c i = nth_error r j.
(** a word, which can be read as a number *)
Definition word (w : text) : Prop := w <> [] /\ forall c, In c w -> isSpace c = false.
Definition plainWord (w : text) : Prop := word w /\ ~ In commentChar w.
Definition plainLog (g : mcwfLog) : Prop :=
  (forall w, In w [lgSteps g; lgOvershot g; lgMaxOvershoot g; lgTolerance g; lgMaxTolerance g; lgNorm g] -> plainWord w) /\
  forall j, In j (lgJumps g) -> plainWord (fst j) /\ plainWord (snd j).
(** the title is not in what is written before *)
Definition untitled (ps : list piece) : Prop := forall l, In l (pyLines (written ps)) -> occursIn (str "# MCWF Trajectory:") l = false.
