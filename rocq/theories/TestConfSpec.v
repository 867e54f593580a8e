(** What configuration files of the test driver mean. *)
From Coq Require Import List Bool String Ascii.
From Verif Require Import TestConfModel.
Import ListNotations.
Local Open Scope string_scope.

(** what is written in the file under a key of a section *)
Definition written (c : config) (section key : string) : option string :=
  match find (fun e => String.eqb section (fst e)) c with
  | Some (_, keys) => match find (fun e => String.eqb key (fst e)) keys with Some (_, v) => Some v | None => None end
  | None => None
  end.
Definition isSection (c : config) (section : string) : Prop := In section (map fst c).
(** the sections reached from one by following the keys "import", all of which are there *)
Inductive chain (c : config) : string -> list string -> Prop :=
| last s : written c s "import" = None -> chain c s [s]
| next s s' l : written c s "import" = Some s' -> isSection c s' -> chain c s' l -> chain c s (s :: l).
(** the value in the nearest of the sections where the key is *)
Fixpoint nearest (c : config) (sections : list string) (key : string) : option string :=
  match sections with [] => None | s :: l => match written c s key with Some v => Some v | None => nearest c l key end end.
Definition isLocal (key : string) : Prop := exists name, key = name ++ "_local".
(** keys ending in _local count in the first section only *)
Definition means (c : config) (sections : list string) (key : string) (v : option string) : Prop :=
  (isLocal key -> v = nearest c (firstn 1 sections) key) /\ (~ isLocal key -> v = nearest c sections key).

(** the pieces of a text with commas between them *)
Definition commaFree (s : string) : Prop := forall n, String.get n s <> Some ","%char.
Definition pieces (s : string) (l : list string) : Prop := l <> [] /\ Forall commaFree l /\ String.concat "," l = s.
(** the run modes of a section: those of the nearest section with the key "runmodes", or "generic"; if the section itself has a key for the kind of test, those which are there too *)
Definition runmodesMean (c : config) (section : string) (sections : list string) (test : string) (modes : list string) : Prop :=
  exists all, pieces (match nearest c sections "runmodes" with Some v => v | None => "generic" end) all /\
  match written c section ("runmodes_" ++ test ++ "_local") with
  | None => modes = all
  | Some v => exists own keep, pieces v own /\ (forall m, keep m = true <-> In m own) /\ modes = filter keep all
  end.
Definition dotFree (s : string) : Prop := forall n, String.get n s <> Some "."%char.
