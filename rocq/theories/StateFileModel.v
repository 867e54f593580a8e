(** Model of the state file: CPPQEDutils/Trajectory.h:135-159, 364-424, 486-507. A file is a list of bytes.
    Not modelled: compression (the bzip2 filter of Trajectory.cc:41-74 is taken to be transparent), numbers of bytes beyond
    the range of streamsize. *)
From Coq Require Import String Ascii List Arith Bool.
Import ListNotations.

Notation byte := ascii (only parsing).
Definition isDigit (b : byte) : bool := let n := nat_of_ascii b in (48 <=? n) && (n <=? 57).
Definition isSpace (b : byte) : bool := let n := nat_of_ascii b in (n =? 32) || ((9 <=? n) && (n <=? 13)).
Definition digit (d : nat) : byte := ascii_of_nat (48 + d).
Definition digitVal (b : byte) : nat := nat_of_ascii b - 48.

(** decimal output of a size, [*ofs<<buffer.size()], line 420 *)
Fixpoint decAux (fuel n : nat) (acc : list byte) : list byte :=
  match fuel with
  | O => acc
  | S f => if n <? 10 then digit n :: acc else decAux f (n / 10) (digit (n mod 10) :: acc)
  end.
Definition dec (n : nat) : list byte := decAux (S n) n [].
(** writeViaSStream, lines 410-424: size and contents of the archive *)
Definition writeRecord (payload : list byte) : list byte := dec (length payload) ++ payload.

(** formatted input of an integer, [*ifs>>n], line 401: skips whitespace, takes the longest sequence of digits; [None] (stream
    failure) if there is none *)
Fixpoint skipSpace (l : list byte) : list byte :=
  match l with b :: l' => if isSpace b then skipSpace l' else l | [] => [] end.
Fixpoint readDigits (acc : nat) (l : list byte) : nat * list byte :=
  match l with b :: l' => if isDigit b then readDigits (10 * acc + digitVal b) l' else (acc, l) | [] => (acc, []) end.
Definition readNumber (l : list byte) : option (nat * list byte) :=
  match skipSpace l with
  | b :: l' => if isDigit b then Some (readDigits 0 (b :: l')) else None
  | [] => None
  end.
(** readViaSStream, lines 394-404: the buffer, initially of [n] zeros, is filled with what is there *)
Definition fill (n : nat) (l : list byte) : list byte := firstn n l ++ repeat zero (n - length l).
Definition readRecord (l : list byte) : option (list byte * list byte) :=
  match readNumber l with Some (n, l') => Some (fill n l', skipn n l') | None => None end.

(** SerializationMetadata, lines 135-159 *)
Record metadata := mkMeta { protocolVersion : nat; rank : nat; typeID : string; trajectoryID : string }.
Definition metaEq (a b : metadata) : bool :=
  (rank a =? rank b) && (String.eqb (typeID a) (typeID b) && String.eqb (trajectoryID a) (trajectoryID b)).
Definition ARRAY_ONLY : string := "ArrayOnly"%string.

Inductive status := Ok | Mismatch | ArchiveError.

Section Archive.
Context {Traj : Type}.
(** iarchive constructed from the buffer and [iar & sm]: the metadata and what follows; [None]: archive exception *)
Variable readMeta : list byte -> option (metadata * list byte).
(** traj.stateIO(iar) and traj.readFromArrayOnlyArchive(iar): the trajectory (partially modified if the archive throws) *)
Variable stateIn arrayIn : list byte -> Traj -> Traj * bool.
(** metadata of the running trajectory, MakeSerializationMetadata *)
Variable own : metadata.

(** ReadState, lines 364-380 *)
Definition readState (payload : list byte) (x : Traj) : Traj * status :=
  match readMeta payload with
  | None => (x, ArchiveError)
  | Some (sm, rest) =>
      if String.eqb (trajectoryID sm) ARRAY_ONLY
      then let (y, ok) := arrayIn rest x in (y, if ok then Ok else ArchiveError)
      else if negb (metaEq sm own) then (x, Mismatch)
      else let (y, ok) := stateIn rest x in (y, if ok then Ok else ArchiveError)
  end.

(** reading loop of run, lines 494-496, 502-505: until the end of the file *)
Fixpoint readFile (fuel : nat) (l : list byte) (x : Traj) : Traj * status :=
  match l with
  | [] => (x, Ok)
  | _ => match fuel with
         | O => (x, ArchiveError)
         | S f => match readRecord l with
                  | None => (x, ArchiveError) (* the archive constructor throws on an empty buffer *)
                  | Some (p, l') => match readState p x with (y, Ok) => readFile f l' y | r => r end
                  end
         end
  end.

(** WriteState, lines 383-391 *)
Variable writeMeta : metadata -> list byte.
Variable stateOut : Traj -> list byte.
Definition writeState (x : Traj) : list byte := writeRecord (writeMeta own ++ stateOut x).
End Archive.
