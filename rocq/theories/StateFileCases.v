From Coq Require Import String Ascii List Arith Bool Lia.
From Verif Require Import StateFileModel StateFileProofs.
Import ListNotations.

Lemma fold_readAll {Traj} (readMeta : list byte -> option (metadata * list byte))
    (stateIn arrayIn : list byte -> Traj -> Traj * bool) (own : metadata) ps : forall x,
  readAll readMeta stateIn arrayIn own ps x =
  fold_left (fun r p => match r with (y, Ok) => readState readMeta stateIn arrayIn own p y | _ => r end) ps (x, Ok).
Proof.
  induction ps as [|p ps IH]; intros x; [reflexivity|]. cbn [readAll fold_left].
  destruct (readState readMeta stateIn arrayIn own p x) as [y [| |]]; [apply IH| |];
  clear IH; induction ps as [|q ps IH]; cbn; auto.
Qed.
Lemma head_ok (p : list byte) : (exists b p', p = b :: p' /\ isDigit b = false) -> p <> [] /\ noDigit p.
Proof. intros (b & p' & -> & H). split; [discriminate|exact H]. Qed.
Lemma records_recovered {Traj} (readMeta : list byte -> option (metadata * list byte))
    (stateIn arrayIn : list byte -> Traj -> Traj * bool) (own : metadata) ps fuel x :
  length ps <= fuel -> (forall p, In p ps -> exists b p', p = b :: p' /\ isDigit b = false) ->
  readFile readMeta stateIn arrayIn own fuel (flat_map writeRecord ps) x =
  fold_left (fun r p => match r with (y, Ok) => readState readMeta stateIn arrayIn own p y | _ => r end) ps (x, Ok).
Proof. intros H1 H2. rewrite readFile_all; auto using fold_readAll, head_ok. Qed.
Lemma mismatch_in_file {Traj} (readMeta : list byte -> option (metadata * list byte))
    (stateIn arrayIn : list byte -> Traj -> Traj * bool) (own : metadata) ps p sm rest ps' fuel x :
  (forall q, In q (ps ++ p :: ps') -> exists b q', q = b :: q' /\ isDigit b = false) -> length (ps ++ p :: ps') <= fuel ->
  readMeta p = Some (sm, rest) -> trajectoryID sm <> ARRAY_ONLY ->
  rank sm <> rank own \/ typeID sm <> typeID own \/ trajectoryID sm <> trajectoryID own ->
  snd (readFile readMeta stateIn arrayIn own fuel (flat_map writeRecord ps) x) = Ok ->
  readFile readMeta stateIn arrayIn own fuel (flat_map writeRecord (ps ++ p :: ps')) x =
  (fst (readFile readMeta stateIn arrayIn own fuel (flat_map writeRecord ps) x), Mismatch).
Proof.
  intros H1 H2 H3 H4 H5. assert (H6 : length ps <= fuel) by (rewrite app_length in H2; lia).
  rewrite !readFile_all; auto using head_ok.
  - apply (mismatch_stops readMeta stateIn arrayIn own ps p sm rest ps' x); auto.
  - intros q Hq. apply head_ok, H1, in_app_iff. now left.
Qed.
Lemma text_not_recovered : exists p,
  p = list_ascii_of_string "22 serialization::archive" /\ readRecord (writeRecord p) <> Some (p, []).
Proof. destruct digit_ambiguous as [p [H1 H2]]. eauto. Qed.

(** An archive format: the signature of a Boost binary archive (length as eight bytes, then the text), one byte for the metadata *)
Definition boostHeader : list byte :=
  ascii_of_nat 22 :: repeat zero 7 ++ list_ascii_of_string "serialization::archive".
Definition exOwn : metadata := mkMeta 0 2 "CArray" "Master".
Definition exOther : metadata := mkMeta 0 1 "CArray" "MCWF_Trajectory".
Definition exWriteMeta (m : metadata) : list byte :=
  boostHeader ++ map ascii_of_nat [protocolVersion m; rank m] ++
  map ascii_of_nat [String.length (typeID m)] ++ list_ascii_of_string (typeID m) ++
  map ascii_of_nat [String.length (trajectoryID m)] ++ list_ascii_of_string (trajectoryID m).
Definition exReadMeta (l : list byte) : option (metadata * list byte) :=
  match skipn 30 l with
  | v :: r :: n :: l1 =>
      let ty := firstn (nat_of_ascii n) l1 in
      match skipn (nat_of_ascii n) l1 with
      | k :: l2 => Some (mkMeta (nat_of_ascii v) (nat_of_ascii r) (string_of_list_ascii ty) (string_of_list_ascii (firstn (nat_of_ascii k) l2)),
                         skipn (nat_of_ascii k) l2)
      | [] => None
      end
  | _ => None
  end.
Definition exStateIn (l : list byte) (y : list byte) : list byte * bool := (l, true).
Definition exState : list byte := list_ascii_of_string "0123 456".

Lemma ex_last : forall xs x y,
  readFile exReadMeta exStateIn exStateIn exOwn (S (length xs)) (flat_map (writeState exOwn exWriteMeta (fun s => s)) (xs ++ [x])) y = (x, Ok).
Proof.
  intros xs x y.
  assert (E : flat_map (writeState exOwn exWriteMeta (fun s => s)) (xs ++ [x]) = flat_map writeRecord (map (fun w => exWriteMeta exOwn ++ w) (xs ++ [x]))).
  { induction (xs ++ [x]) as [|a l IH]; [reflexivity|]. cbn [flat_map map]. now rewrite IH. }
  rewrite E, readFile_all; [|rewrite map_length, app_length; cbn; lia|].
  - rewrite map_app, readAll_app.
    assert (Q : forall w y', readState exReadMeta exStateIn exStateIn exOwn (exWriteMeta exOwn ++ w) y' = (w, Ok)) by reflexivity.
    assert (Q' : forall ws y', exists z, readAll exReadMeta exStateIn exStateIn exOwn (map (fun w => exWriteMeta exOwn ++ w) ws) y' = (z, Ok)).
    { induction ws as [|w ws IH]; intros y'; cbn [map readAll]; [eauto|]. rewrite Q. apply IH. }
    destruct (Q' xs y) as [y' ->]. cbn [map readAll]. now rewrite Q.
  - intros p Hp. apply in_map_iff in Hp. destruct Hp as [w [<- _]]. split; [discriminate|reflexivity].
Qed.
Lemma ex_mismatch : readFile exReadMeta exStateIn exStateIn exOwn 3
    (writeState exOwn exWriteMeta (fun s => s) exState ++ writeState exOther exWriteMeta (fun s => s) [] ++ writeState exOwn exWriteMeta (fun s => s) []) []
  = (exState, Mismatch).
Proof. vm_compute. reflexivity. Qed.
