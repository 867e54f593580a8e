(** Proofs about state files in Python. *)
From Coq Require Import String Ascii List Arith ZArith Bool Lia.
From Verif Require Import Arr StateFileModel StateFileProofs PyStateModel PyStateSpec.
Import ListNotations.
Local Open Scope nat_scope.

(** ** Consecutive places *)
Lemma place_cons s st i x : place (s :: st) (i :: x) = (Z.of_nat i * s + place st x)%Z.
Proof. reflexivity. Qed.
Lemma size_indices sh : length (indices sh) = size sh.
Proof. apply indices_length. Qed.
Lemma seq_blocks m : forall n a, flat_map (fun i => seq (i * m) m) (seq a n) = seq (a * m) (n * m).
Proof.
  induction n as [|n IH]; intros a; [reflexivity|]. cbn [seq flat_map Nat.mul]. rewrite IH. rewrite seq_app. do 2 f_equal. cbn. lia.
Qed.
Lemma seq_shift_by k m : forall b, map (Nat.add k) (seq b m) = seq (k + b) m.
Proof. induction m as [|m IH]; intros b; [reflexivity|]. cbn [seq map]. rewrite IH. f_equal. f_equal. lia. Qed.
Lemma places sh : map (place (rowMajor sh)) (indices sh) = map Z.of_nat (seq 0 (size sh)).
Proof.
  induction sh as [|n sh IH]; [reflexivity|]. cbn [indices rowMajor]. change (size (n :: sh)) with (n * size sh).
  change (seq 0 (n * size sh)) with (seq (0 * size sh) (n * size sh)). rewrite <- seq_blocks. rewrite !flat_map_concat_map, !concat_map, !map_map. f_equal. apply map_ext. intros i.
  rewrite map_map. rewrite (map_ext _ (fun x => (Z.of_nat i * Z.of_nat (size sh) + place (rowMajor sh) x)%Z)) by reflexivity.
  rewrite <- (map_map (place (rowMajor sh)) (fun z => (Z.of_nat i * Z.of_nat (size sh) + z)%Z)), IH, map_map.
  rewrite <- (Nat.add_0_r (i * size sh)), <- seq_shift_by, map_map. apply map_ext. intros j. lia.
Qed.
Section IO.
Context {D : Type}.
Variable c : codec D.
Variable fits : nat -> Prop.
Hypothesis L : lawful c fits.

Lemma taken_contiguous (a : npArray (D := D)) : contiguous a -> numpyToArray a = contents a.
Proof.
  intros H. unfold numpyToArray, contents, element. f_equal. rewrite H. rewrite !flat_map_concat_map. f_equal.
  rewrite <- (map_map (place (rowMajor (npShape a))) (npMemory a)), places, map_map. reflexivity.
Qed.
Lemma stored_taken (a : npArray (D := D)) k : elements_of a k -> fits (size (npShape a)) -> (forall n, In n (npShape a) -> fits n) -> well_stored fits k (length (npShape a)) (numpyToArray a).
Proof.
  intros H F1 F2. repeat split; auto. cbn [numbers numpyToArray extents]. clear F1 F2. generalize (size (npShape a)) as s. intros s. generalize 0 as b. induction s as [|m IH]; intros b; [reflexivity|]. cbn [seq flat_map Nat.mul]. rewrite app_length, IH, H. reflexivity.
Qed.
(** ** Reading back *)
Lemma many_back {B} (dec : list byte -> option (B * list byte)) (enc : B -> list byte) xs r : (forall x r, In x xs -> dec (enc x ++ r) = Some (x, r)) -> decMany dec (length xs) (flat_map enc xs ++ r) = Some (xs, r).
Proof.
  induction xs as [|x xs IH]; intros H; [reflexivity|]. cbn [length flat_map decMany]. rewrite <- app_assoc, H by now left. rewrite IH; [reflexivity|]. intros y s I. apply H. now right.
Qed.
Lemma array_back k rank a r : well_stored fits k rank a -> decArray c k rank (encArray c a ++ r) = Some (a, r).
Proof.
  intros (H1 & H2 & H3 & H4). unfold decArray, encArray. rewrite <- !app_assoc, (nat_back c fits L) by auto. rewrite <- H2, many_back by (intros; apply (number_back c fits L)).
  rewrite <- H1, many_back by (intros; apply (nat_back c fits L); auto). destruct a; reflexivity.
Qed.
Lemma archive_back k rank m a t r : well_stored fits k rank a -> readArrayTime c k rank (encMeta c m ++ encArray c a ++ encD c t ++ r) = Some (a, t).
Proof. intros H. unfold readArrayTime. rewrite (meta_back c fits L), (array_back k rank a) by auto. now rewrite (number_back c fits L). Qed.
Lemma archive_record m r l : readRecord (writeRecord (encMeta c m ++ r) ++ l) = Some (encMeta c m ++ r, l).
Proof. destruct (meta_begins c fits L m) as (b & x & E & Hb). apply readRecord_write; rewrite E; [discriminate|exact Hb]. Qed.
Lemma written_nonempty p l : exists b r, writeRecord p ++ l = b :: r.
Proof. unfold writeRecord. destruct (dec (length p)) as [|b x] eqn:E; [now destruct (dec_nonempty (length p))|]. cbn. eauto. Qed.
Definition archive (m : metadata) (e : stored * D * list byte) : list byte := writeRecord (encMeta c m ++ encArray c (fst (fst e)) ++ encD c (snd (fst e)) ++ snd e).
Lemma archives_read m k rank es : (forall e, In e es -> well_stored fits k rank (fst (fst e))) -> forall fuel, length es <= fuel -> doRead c fuel k rank (flat_map (archive m) es) = Some (map fst es).
Proof.
  induction es as [|e es IH]; intros H fuel Hf; [destruct fuel; reflexivity|]. cbn [flat_map map]. destruct fuel as [|f]; [cbn in Hf; lia|]. unfold archive at 1.
  destruct (written_nonempty (encMeta c m ++ encArray c (fst (fst e)) ++ encD c (snd (fst e)) ++ snd e) (flat_map (archive m) es)) as (b & r & E). rewrite E. cbn [doRead]. rewrite <- E, archive_record.
  rewrite archive_back by (apply H; now left). rewrite IH; [destruct e as [[? ?] ?]; reflexivity| |cbn in Hf; lia]. intros e' I. apply H. now right.
Qed.
Lemma archives_length m es : length es <= length (flat_map (archive m) es).
Proof. induction es as [|e es IH]; [auto|]. cbn [flat_map length]. rewrite app_length. unfold archive at 1. destruct (written_nonempty (encMeta c m ++ encArray c (fst (fst e)) ++ encD c (snd (fst e)) ++ snd e) []) as (b & r & E). rewrite app_nil_r in E. rewrite E. cbn. lia. Qed.
Definition kindOf (type : string) : option kind := if String.eqb type "CArray" then Some Complex else if String.eqb type "DArray" then Some Real else None.
Lemma file_read maxRank m k es : kindOf (typeID m) = Some k -> 0 < rank m <= maxRank -> es <> [] -> (forall e, In e es -> well_stored fits k (rank m) (fst (fst e))) ->
  pyRead c maxRank (flat_map (archive m) es) = ReadOk m (map fst es).
Proof.
  intros Hk Hr Hn H. unfold pyRead. destruct es as [|e es]; [contradiction|]. 
  assert (E : readRecord (flat_map (archive m) (e :: es)) = Some (encMeta c m ++ encArray c (fst (fst e)) ++ encD c (snd (fst e)) ++ snd e, flat_map (archive m) es)) by (cbn [flat_map]; unfold archive at 1; apply archive_record).
  rewrite E, (meta_back c fits L).
  replace (maxRank <? rank m) with false by (symmetry; apply Nat.ltb_ge; lia). replace (rank m =? 0) with false by (symmetry; apply Nat.eqb_neq; lia).
  unfold kindOf in Hk. destruct (String.eqb (typeID m) "CArray").
  - injection Hk as <-. rewrite archives_read; auto using archives_length.
  - destruct (String.eqb (typeID m) "DArray"); [|discriminate]. injection Hk as <-. rewrite archives_read; auto using archives_length.
Qed.
(** ** Complex arrays *)
Lemma complex_back maxRank a t : npType a = Complex128 -> elements_of a Complex -> contiguous a -> 0 < length (npShape a) <= maxRank -> fits (size (npShape a)) -> (forall n, In n (npShape a) -> fits n) ->
  pyRead c maxRank (fst (pyWrite c maxRank a t)) = ReadOk (arrayMeta (length (npShape a))) [(contents a, t)] /\ snd (pyWrite c maxRank a t) = false.
Proof.
  intros T E C R F1 F2. unfold pyWrite. replace (maxRank <? length (npShape a)) with false by (symmetry; apply Nat.ltb_ge; lia). replace (length (npShape a) =? 0) with false by (symmetry; apply Nat.eqb_neq; lia).
  rewrite T. cbn [fst snd]. split; [|reflexivity]. rewrite <- taken_contiguous by auto.
  replace (writeArrayTime c (numpyToArray a) t) with (flat_map (archive (arrayMeta (length (npShape a)))) [(numpyToArray a, t, [])]).
  - rewrite (file_read maxRank _ Complex); auto; [discriminate|]. intros e [<-|[]]. now apply stored_taken.
  - cbn [flat_map]. unfold archive, writeArrayTime. cbn [fst snd]. rewrite !app_nil_r. reflexivity.
Qed.
(** ** Real arrays *)
Lemma many_takes {B} (dec : list byte -> option (B * list byte)) n : (forall l x r, dec l = Some (x, r) -> length l = 8 + length r) -> forall l xs r, decMany dec n l = Some (xs, r) -> length l = 8 * n + length r.
Proof.
  intros H. induction n as [|n IH]; intros l xs r E; cbn in E; [injection E as _ <-; reflexivity|]. destruct (dec l) as [[x l1]|] eqn:E1; [|discriminate]. destruct (decMany dec n l1) as [[ys l2]|] eqn:E2; [|discriminate].
  injection E as _ <-. apply H in E1. apply IH in E2. lia.
Qed.
Lemma encoded_length {B} (enc : B -> list byte) xs : (forall x, length (enc x) = 8) -> length (flat_map enc xs) = 8 * length xs.
Proof. intros H. induction xs as [|x xs IH]; [reflexivity|]. cbn [flat_map length]. rewrite app_length, H, IH. lia. Qed.
Lemma real_raises maxRank a t : npType a = Float64 -> elements_of a Real -> 0 < length (npShape a) <= maxRank -> 0 < size (npShape a) -> fits (size (npShape a)) ->
  pyRead c maxRank (fst (pyWrite c maxRank a t)) = Raised.
Proof.
  intros T E R S F. unfold pyWrite. replace (maxRank <? length (npShape a)) with false by (symmetry; apply Nat.ltb_ge; lia). replace (length (npShape a) =? 0) with false by (symmetry; apply Nat.eqb_neq; lia).
  rewrite T. cbn [fst snd]. unfold writeArrayTime. cbn [extents numpyToArray]. set (m := arrayMeta (length (npShape a))). set (s := numpyToArray a).
  unfold pyRead. rewrite <- (app_nil_r (writeRecord _)). rewrite archive_record, (meta_back c fits L). change (rank m) with (length (npShape a)).
  replace (maxRank <? length (npShape a)) with false by (symmetry; apply Nat.ltb_ge; lia). replace (length (npShape a) =? 0) with false by (symmetry; apply Nat.eqb_neq; lia). cbn [typeID m arrayMeta].
  change (String.eqb "CArray" "CArray") with true. cbv iota.
  destruct (written_nonempty (encMeta c m ++ encArray c s ++ encD c t) []) as (b & r & Ew). cbn [extents s numpyToArray] in *.
  set (file := writeRecord (encMeta c m ++ encArray c s ++ encD c t) ++ []) in *.
  assert (X : doRead c (length file) Complex (length (npShape a)) file = None); [|now rewrite X].
  rewrite Ew at 1 2. cbn [length doRead]. rewrite <- Ew. unfold file at 1. rewrite archive_record.
  assert (Y : readArrayTime c Complex (length (npShape a)) (encMeta c m ++ encArray c s ++ encD c t) = None); [|now rewrite Y].
  unfold readArrayTime. rewrite (meta_back c fits L). unfold decArray, encArray. rewrite <- !app_assoc. change (size (extents s)) with (size (npShape a)). rewrite (nat_back c fits L) by auto. 
  destruct (decMany (decD c) (size (npShape a) * width Complex) _) as [[xs l2]|] eqn:E2; [|reflexivity]. destruct (decMany (decNat c) (length (npShape a)) l2) as [[ns l3]|] eqn:E3; [|reflexivity]. destruct (decD c l3) as [[d l4]|] eqn:E4; [|reflexivity]. exfalso.
  apply (many_takes (decD c)) in E2; [|apply (number_takes c fits L)]. apply (many_takes (decNat c)) in E3; [|apply (nat_takes c fits L)]. apply (number_takes c fits L) in E4.
  rewrite !app_length, (encoded_length (encD c)), (encoded_length (encNat c)), (number_size c fits L) in E2 by (apply (number_size c fits L) || apply (nat_size c fits L)).
  assert (length (numbers s) = size (npShape a)). { assert (W := E). clear - W. unfold s. cbn [numbers numpyToArray]. unfold elements_of in W. generalize (size (npShape a)) as n. intros n. generalize 0 as b. induction n as [|n IH]; intros b; [reflexivity|]. cbn [seq flat_map]. rewrite app_length, IH, W. reflexivity. }
  cbn [width] in *. change (extents s) with (npShape a) in *. lia.
Qed.
(** ** Trajectories *)
Lemma trajectory_read {Traj} maxRank m k (arr : Traj -> stored) (time : Traj -> D) (more : Traj -> list byte) xs : kindOf (typeID m) = Some k -> 0 < rank m <= maxRank -> xs <> [] -> (forall x, In x xs -> well_stored fits k (rank m) (arr x)) ->
  pyRead c maxRank (flat_map (writeState m (encMeta c) (fun x => encArray c (arr x) ++ encD c (time x) ++ more x)) xs) = ReadOk m (map (fun x => (arr x, time x)) xs).
Proof.
  intros Hk Hr Hn H. replace (flat_map _ xs) with (flat_map (archive m) (map (fun x => (arr x, time x, more x)) xs)).
  - rewrite (file_read maxRank m k); auto; [now rewrite map_map|destruct xs; [contradiction|discriminate]|]. intros e I. apply in_map_iff in I as (x & <- & I). now apply H.
  - rewrite !flat_map_concat_map, map_map. reflexivity.
Qed.
Lemma started_from {Traj} maxRank k own (setArray : stored -> Traj -> Traj) stateIn a t x fuel : npType a = Complex128 -> k = Complex -> elements_of a k -> contiguous a -> 0 < length (npShape a) <= maxRank -> fits (size (npShape a)) -> (forall n, In n (npShape a) -> fits n) -> 0 < fuel ->
  readFile (decMeta c) stateIn (fun l y => match decArray c k (length (npShape a)) l with Some (b, _) => (setArray b y, true) | None => (y, false) end) own fuel (fst (pyWrite c maxRank a t)) x = (setArray (contents a) x, Ok).
Proof.
  intros T -> E C R F1 F2 Hf. unfold pyWrite. replace (maxRank <? length (npShape a)) with false by (symmetry; apply Nat.ltb_ge; lia). replace (length (npShape a) =? 0) with false by (symmetry; apply Nat.eqb_neq; lia).
  rewrite T. cbn [fst]. unfold writeArrayTime. destruct (meta_begins c fits L (arrayMeta (length (npShape a)))) as (b & l & Eb & Hb).
  rewrite <- (app_nil_r (writeRecord _)). change (writeRecord ?p ++ []) with (flat_map writeRecord [p]).
  rewrite readFile_all; [|cbn; lia|intros p [<-|[]]; cbn [extents numpyToArray]; rewrite Eb; split; [discriminate|exact Hb]].
  cbn [readAll]. unfold readState. rewrite (meta_back c fits L). cbn [trajectoryID arrayMeta]. change (String.eqb ARRAY_ONLY ARRAY_ONLY) with true. cbv iota.
  rewrite (array_back Complex (length (npShape a))) by now apply stored_taken. now rewrite taken_contiguous.
Qed.
(** ** Everything else *)
Lemma transposed_wrong maxRank (f : Z -> list D) t : 2 <= maxRank -> (forall z, length (f z) = 2) -> fits 2 -> fits 4 -> f 1%Z <> f 2%Z -> let a := mkNp Complex128 [2; 2] [1%Z; 2%Z] f in
  exists s, pyRead c maxRank (fst (pyWrite c maxRank a t)) = ReadOk (arrayMeta 2) [(s, t)] /\ numbers s = f 0%Z ++ f 1%Z ++ f 2%Z ++ f 3%Z /\ numbers (contents a) = f 0%Z ++ f 2%Z ++ f 1%Z ++ f 3%Z /\ s <> contents a.
Proof.
  intros R H F2 F4 N a. exists (mkStored [2; 2] (f 0%Z ++ f 1%Z ++ f 2%Z ++ f 3%Z)). repeat split.
  - set (b := mkNp Complex128 [2; 2] [2%Z; 1%Z] f). change (pyWrite c maxRank a t) with (pyWrite c maxRank b t).
    destruct (complex_back maxRank b t) as [E _]; auto; [reflexivity|cbn; lia|intros n [<-|[<-|[]]]; exact F2|]. rewrite E. cbn [length npShape b]. do 3 f_equal. unfold contents, element, b. cbn. rewrite app_nil_r. reflexivity.
  - cbn. now rewrite app_nil_r.
  - intros E. apply (f_equal numbers) in E. cbn in E. rewrite app_nil_r in E. apply app_inv_head in E. apply N. assert (H1 := H 1%Z). assert (H2 := H 2%Z).
    destruct (f 1%Z) as [|x1 [|x2 [|x3 x]]]; try discriminate H1. destruct (f 2%Z) as [|y1 [|y2 [|y3 y]]]; try discriminate H2. cbn in E. injection E as -> -> _. reflexivity.
Qed.
Lemma others_vanish maxRank a t : npType a = OtherType -> length (npShape a) <= maxRank -> pyWrite c maxRank a t = ([], false) /\ pyRead c maxRank [] = Raised.
Proof.
  intros T R. unfold pyWrite. replace (maxRank <? length (npShape a)) with false by (symmetry; apply Nat.ltb_ge; lia). rewrite T. split; [now destruct (length (npShape a) =? 0)|reflexivity].
Qed.
End IO.

(** ** An archive: numbers below 256, floating-point numbers being such *)
Definition eightBytes (n : nat) : list byte := ascii_of_nat n :: repeat zero 7.
Definition firstByte (l : list byte) : option (nat * list byte) := match l with b :: _ :: _ :: _ :: _ :: _ :: _ :: _ :: r => Some (nat_of_ascii b, r) | _ => None end.
Fixpoint strokes (n : nat) : list byte := match n with O => ["."%char] | S m => "|"%char :: strokes m end.
Fixpoint countStrokes (l : list byte) : option (nat * list byte) :=
  match l with [] => None | b :: r => if Ascii.eqb b "." then Some (0, r) else match countStrokes r with Some (n, s) => Some (S n, s) | None => None end end.
Definition textBytes (s : string) : list byte := strokes (String.length s) ++ list_ascii_of_string s.
Definition bytesText (l : list byte) : option (string * list byte) := match countStrokes l with Some (n, r) => Some (string_of_list_ascii (firstn n r), skipn n r) | None => None end.
Definition metaBytes (m : metadata) : list byte := strokes (protocolVersion m) ++ strokes (rank m) ++ textBytes (typeID m) ++ textBytes (trajectoryID m).
Definition bytesMeta (l : list byte) : option (metadata * list byte) :=
  match countStrokes l with
  | Some (v, l1) => match countStrokes l1 with
                    | Some (r, l2) => match bytesText l2 with
                                      | Some (s, l3) => match bytesText l3 with Some (s', l4) => Some (mkMeta v r s s', l4) | None => None end
                                      | None => None end
                    | None => None end
  | None => None end.
Lemma strokes_back n r : countStrokes (strokes n ++ r) = Some (n, r).
Proof. induction n as [|n IH]; [reflexivity|]. cbn [strokes app countStrokes]. rewrite IH. reflexivity. Qed.
Lemma text_back s r : bytesText (textBytes s ++ r) = Some (s, r).
Proof.
  unfold bytesText, textBytes. rewrite <- app_assoc, strokes_back. assert (E : String.length s = length (list_ascii_of_string s)) by (induction s as [|a s IH]; [reflexivity|]; cbn; now rewrite IH).
  rewrite E, firstn_app, firstn_all, Nat.sub_diag, skipn_app, skipn_all, Nat.sub_diag. cbn [firstn skipn]. rewrite app_nil_r, string_of_list_ascii_of_string. reflexivity.
Qed.
Definition someCodec : codec ascii :=
  mkCodec ascii metaBytes bytesMeta eightBytes firstByte (fun b => b :: repeat zero 7) (fun l => match l with b :: _ :: _ :: _ :: _ :: _ :: _ :: _ :: r => Some (b, r) | _ => None end).
Lemma some_lawful : lawful someCodec (fun n => n < 256).
Proof.
  split.
  - intros [v r s s'] l. cbn [decMeta encMeta someCodec]. unfold metaBytes, bytesMeta. cbn [protocolVersion rank typeID trajectoryID]. rewrite <- !app_assoc, strokes_back, strokes_back, text_back, text_back. reflexivity.
  - intros [[|v] r s s']; cbn; eexists _, _; split; reflexivity.
  - intros n r H. cbn [decNat encNat someCodec]. unfold eightBytes. cbn [repeat app firstByte]. now rewrite nat_ascii_embedding.
  - reflexivity.
  - intros l n r E. cbn in E. do 8 (destruct l as [|? l]; [discriminate|]). cbn in E. injection E as _ <-. reflexivity.
  - reflexivity.
  - reflexivity.
  - intros l n r E. cbn in E. do 8 (destruct l as [|? l]; [discriminate|]). injection E as _ <-. reflexivity.
Qed.
Definition someArray : npArray (D := ascii) := mkNp Complex128 [2; 3] [3%Z; 1%Z] (fun z => [ascii_of_nat (Z.to_nat z); zero]).
Lemma some_case : elements_of someArray Complex /\ contiguous someArray /\ size (npShape someArray) = 6 /\
  pyRead someCodec 11 (fst (pyWrite someCodec 11 someArray zero)) = ReadOk (arrayMeta 2) [(mkStored [2; 3] (flat_map (fun n => [ascii_of_nat n; zero]) (seq 0 6)), zero)].
Proof. split; [intros z; reflexivity|]. split; [reflexivity|]. split; [reflexivity|]. vm_compute. reflexivity. Qed.
