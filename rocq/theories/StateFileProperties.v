(** C11, C12: state files *)
From Coq Require Import String Ascii List Arith Bool Lia.
From Verif Require Import StateFileModel StateFileProofs StateFileCases.
Import ListNotations.

(** ** C11 *)
(** Whatever the contents of the states saved, every record of the file is read back, in order. The only thing required of an
    archive is that it does not begin with a digit. *)
Theorem C11_records_recovered {Traj : Type} (readMeta : list byte -> option (metadata * list byte))
    (stateIn arrayIn : list byte -> Traj -> Traj * bool) (own : metadata) (ps : list (list byte)) fuel x :
  length ps <= fuel -> (forall p, In p ps -> exists b p', p = b :: p' /\ isDigit b = false) ->
  readFile readMeta stateIn arrayIn own fuel (flat_map writeRecord ps) x =
  fold_left (fun r p => match r with (y, Ok) => readState readMeta stateIn arrayIn own p y | _ => r end) ps (x, Ok).
Proof. exact (records_recovered readMeta stateIn arrayIn own ps fuel x). Qed.
Print Assumptions C11_records_recovered.

(** The file of the states xs, x written one after the other, read into any trajectory y, gives the state of x.
    [same x z]: z has the state of x; serialisation round-trips by hypothesis. *)
Theorem C11_last_record_wins {Traj : Type} (readMeta : list byte -> option (metadata * list byte))
    (stateIn arrayIn : list byte -> Traj -> Traj * bool) (own : metadata)
    (writeMeta : metadata -> list byte) (stateOut : Traj -> list byte) (same : Traj -> Traj -> Prop) :
  (forall m l, readMeta (writeMeta m ++ l) = Some (m, l)) ->
  (forall x y, exists z, stateIn (stateOut x) y = (z, true) /\ same x z) ->
  trajectoryID own <> ARRAY_ONLY ->
  forall xs x y, (forall w, writeMeta own ++ stateOut w <> [] /\ noDigit (writeMeta own ++ stateOut w)) ->
  exists z, readFile readMeta stateIn arrayIn own (S (length xs)) (flat_map (writeState own writeMeta stateOut) (xs ++ [x])) y = (z, Ok) /\ same x z.
Proof. exact (last_record_wins readMeta stateIn arrayIn own writeMeta stateOut same). Qed.
Print Assumptions C11_last_record_wins.

(** states made of bytes, metadata as in a Boost binary archive, whose first byte is the length 22 of its signature *)
Example C11_case : forall xs x y,
  readFile exReadMeta exStateIn exStateIn exOwn (S (length xs)) (flat_map (writeState exOwn exWriteMeta (fun s => s)) (xs ++ [x])) y = (x, Ok).
Proof. exact ex_last. Qed.
(** the requirement is needed: an archive in text format begins with a digit, and is not read back *)
Theorem C11_text_archive_not_recovered : exists p,
  p = list_ascii_of_string "22 serialization::archive" /\ readRecord (writeRecord p) <> Some (p, []).
Proof. exact text_not_recovered. Qed.
Print Assumptions C11_text_archive_not_recovered.

(** ** C12 *)
(** A record whose stored rank, type or kind differs is refused, whatever the bytes after the metadata, leaving the trajectory as it is *)
Theorem C12_mismatch_refused {Traj : Type} (readMeta : list byte -> option (metadata * list byte))
    (stateIn arrayIn : list byte -> Traj -> Traj * bool) (own : metadata) p sm rest x :
  readMeta p = Some (sm, rest) -> trajectoryID sm <> ARRAY_ONLY ->
  rank sm <> rank own \/ typeID sm <> typeID own \/ trajectoryID sm <> trajectoryID own ->
  readState readMeta stateIn arrayIn own p x = (x, Mismatch).
Proof. exact (mismatch_refused readMeta stateIn arrayIn own p sm rest x). Qed.
Print Assumptions C12_mismatch_refused.
(** and only then: with equal metadata the state is read *)
Theorem C12_match_accepted {Traj : Type} (readMeta : list byte -> option (metadata * list byte))
    (stateIn arrayIn : list byte -> Traj -> Traj * bool) (own : metadata) p sm rest x :
  readMeta p = Some (sm, rest) -> trajectoryID sm <> ARRAY_ONLY ->
  rank sm = rank own -> typeID sm = typeID own -> trajectoryID sm = trajectoryID own ->
  readState readMeta stateIn arrayIn own p x = (fst (stateIn rest x), if snd (stateIn rest x) then Ok else ArchiveError).
Proof. exact (match_accepted readMeta stateIn arrayIn own p sm rest x). Qed.
Print Assumptions C12_match_accepted.
(** array-only archives are read as arrays *)
Theorem C12_array_only {Traj : Type} (readMeta : list byte -> option (metadata * list byte))
    (stateIn arrayIn : list byte -> Traj -> Traj * bool) (own : metadata) p sm rest x :
  readMeta p = Some (sm, rest) -> trajectoryID sm = ARRAY_ONLY ->
  readState readMeta stateIn arrayIn own p x = (fst (arrayIn rest x), if snd (arrayIn rest x) then Ok else ArchiveError).
Proof. exact (array_only readMeta stateIn arrayIn own p sm rest x). Qed.
Print Assumptions C12_array_only.
(** in a file the records before are read, those after are not *)
Theorem C12_mismatch_in_file {Traj : Type} (readMeta : list byte -> option (metadata * list byte))
    (stateIn arrayIn : list byte -> Traj -> Traj * bool) (own : metadata) ps p sm rest ps' fuel x :
  (forall q, In q (ps ++ p :: ps') -> exists b q', q = b :: q' /\ isDigit b = false) -> length (ps ++ p :: ps') <= fuel ->
  readMeta p = Some (sm, rest) -> trajectoryID sm <> ARRAY_ONLY ->
  rank sm <> rank own \/ typeID sm <> typeID own \/ trajectoryID sm <> trajectoryID own ->
  snd (readFile readMeta stateIn arrayIn own fuel (flat_map writeRecord ps) x) = Ok ->
  readFile readMeta stateIn arrayIn own fuel (flat_map writeRecord (ps ++ p :: ps')) x =
  (fst (readFile readMeta stateIn arrayIn own fuel (flat_map writeRecord ps) x), Mismatch).
Proof. exact (mismatch_in_file readMeta stateIn arrayIn own ps p sm rest ps' fuel x). Qed.
Print Assumptions C12_mismatch_in_file.
(** the second record is of another kind of trajectory *)
Example C12_case : readFile exReadMeta exStateIn exStateIn exOwn 3
    (writeState exOwn exWriteMeta (fun s => s) exState ++ writeState exOther exWriteMeta (fun s => s) [] ++ writeState exOwn exWriteMeta (fun s => s) []) []
  = (exState, Mismatch).
Proof. exact ex_mismatch. Qed.
