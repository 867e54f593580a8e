From Coq Require Import String Ascii List Arith Bool Lia.
From Verif Require Import StateFileModel.
Import ListNotations.

Lemma digit_ok d : d < 10 -> isDigit (digit d) = true /\ digitVal (digit d) = d /\ isSpace (digit d) = false.
Proof. intros H. do 10 (destruct d as [|d]; [repeat split; reflexivity|]). lia. Qed.

Definition noDigit (l : list byte) : Prop := match l with b :: _ => isDigit b = false | [] => True end.

Lemma readDigits_dec fuel : forall n acc, n < fuel -> readDigits 0 (decAux fuel n acc) = readDigits n acc.
Proof.
  induction fuel as [|f IH]; intros n acc Hn; [lia|]. cbn [decAux]. destruct (Nat.ltb_spec n 10) as [H|H].
  - destruct (digit_ok n H) as (A & B & _). cbn [readDigits]. rewrite A, B. reflexivity.
  - assert (Hd : n / 10 < f). { assert (n / 10 < n) by (apply Nat.div_lt; lia). lia. }
    rewrite (IH _ _ Hd). destruct (digit_ok (n mod 10)) as (A & B & _); [apply Nat.mod_upper_bound; lia|].
    cbn [readDigits]. rewrite A, B. f_equal. symmetry. apply Nat.div_mod_eq.
Qed.
Lemma decAux_app fuel : forall n acc l, decAux fuel n acc ++ l = decAux fuel n (acc ++ l).
Proof. induction fuel as [|f IH]; intros n acc l; cbn [decAux]; auto. destruct (n <? 10); [reflexivity|]. now rewrite IH. Qed.
Lemma decAux_head fuel : forall n acc, 0 < fuel -> (fuel <= n -> match acc with b :: _ => isDigit b = true | [] => False end) ->
  exists d l, d < 10 /\ decAux fuel n acc = digit d :: l.
Proof.
  induction fuel as [|f IH]; intros n acc Hf H; [lia|]. cbn [decAux]. destruct (Nat.ltb_spec n 10) as [Hn|Hn].
  - exists n, acc. auto.
  - destruct f as [|f].
    + cbn. exists (n mod 10), acc. split; [apply Nat.mod_upper_bound; lia|reflexivity].
    + apply IH; [lia|]. intros _. apply digit_ok, Nat.mod_upper_bound. lia.
Qed.
Lemma readDigits_stop n l : noDigit l -> readDigits n l = (n, l).
Proof. destruct l as [|b l]; cbn; [reflexivity|]. now intros ->. Qed.

Lemma readNumber_dec n l : noDigit l -> readNumber (dec n ++ l) = Some (n, l).
Proof.
  intros Hl. unfold dec. rewrite decAux_app. cbn [app].
  destruct (decAux_head (S n) n l) as (d & l' & Hd & E); [lia|lia|].
  assert (R : readDigits 0 (decAux (S n) n l) = (n, l)) by (rewrite readDigits_dec by lia; now apply readDigits_stop).
  rewrite E in *. destruct (digit_ok d Hd) as (A & B & C). unfold readNumber. cbn [skipSpace]. rewrite C, A, R. reflexivity.
Qed.

Lemma dec_nonempty n : dec n <> [].
Proof. unfold dec. destruct (decAux_head (S n) n []) as (d & l & _ & E); [lia|lia|]. rewrite E. discriminate. Qed.

Lemma readRecord_write p l : p <> [] -> noDigit p -> readRecord (writeRecord p ++ l) = Some (p, l).
Proof.
  intros Hp Hd. unfold readRecord, writeRecord. rewrite <- app_assoc, readNumber_dec.
  - unfold fill. rewrite firstn_app, firstn_all, Nat.sub_diag, app_length. cbn [firstn].
    replace (length p - (length p + length l)) with 0 by lia. cbn [repeat]. rewrite !app_nil_r.
    now rewrite skipn_app, skipn_all, Nat.sub_diag.
  - destruct p; [congruence|exact Hd].
Qed.

Section File.
Context {Traj : Type}.
Variable readMeta : list byte -> option (metadata * list byte).
Variable stateIn arrayIn : list byte -> Traj -> Traj * bool.
Variable own : metadata.
Notation readState := (readState readMeta stateIn arrayIn own).
Notation readFile := (readFile readMeta stateIn arrayIn own).

(** reading the file is reading the records one after the other *)
Fixpoint readAll (ps : list (list byte)) (x : Traj) : Traj * status :=
  match ps with [] => (x, Ok) | p :: ps' => match readState p x with (y, Ok) => readAll ps' y | r => r end end.
Lemma readFile_all ps : forall fuel x, length ps <= fuel -> (forall p, In p ps -> p <> [] /\ noDigit p) ->
  readFile fuel (flat_map writeRecord ps) x = readAll ps x.
Proof.
  induction ps as [|p ps IH]; intros fuel x Hf H; [destruct fuel; reflexivity|].
  cbn [flat_map length readAll] in *. destruct fuel as [|f]; [lia|]. destruct (H p (or_introl eq_refl)) as [H1 H2].
  destruct (writeRecord p ++ flat_map writeRecord ps) as [|b l] eqn:E.
  - apply app_eq_nil in E. destruct E as [E _]. unfold writeRecord in E. apply app_eq_nil in E. now destruct (dec_nonempty _ (proj1 E)).
  - cbn [StateFileModel.readFile]. rewrite <- E, readRecord_write by auto.
    destruct (readState p x) as [y [| |]]; try reflexivity. apply IH; [lia|]. intros; apply H; now right.
Qed.

Lemma readAll_app a : forall b x, readAll (a ++ b) x = match readAll a x with (y, Ok) => readAll b y | r => r end.
Proof. induction a as [|p a IH]; intros b x; cbn; [reflexivity|]. destruct (readState p x) as [y [| |]]; auto. Qed.

Variable writeMeta : metadata -> list byte.
Variable stateOut : Traj -> list byte.
Variable same : Traj -> Traj -> Prop.
Hypothesis Hmeta : forall m l, readMeta (writeMeta m ++ l) = Some (m, l).
Hypothesis Hstate : forall x y, exists z, stateIn (stateOut x) y = (z, true) /\ same x z.
Hypothesis Hown : trajectoryID own <> ARRAY_ONLY.
Notation writeState := (writeState own writeMeta stateOut).

Lemma metaEq_refl m : metaEq m m = true.
Proof. unfold metaEq. now rewrite Nat.eqb_refl, !String.eqb_refl. Qed.
Lemma read_own x y : exists z, readState (writeMeta own ++ stateOut x) y = (z, Ok) /\ same x z.
Proof.
  destruct (Hstate x y) as [z [H1 H2]]. exists z. unfold StateFileModel.readState. rewrite Hmeta.
  destruct (String.eqb_spec (trajectoryID own) ARRAY_ONLY); [contradiction|]. rewrite metaEq_refl. cbn [negb]. rewrite H1. auto.
Qed.

Lemma last_record_wins xs x y : (forall w, writeMeta own ++ stateOut w <> [] /\ noDigit (writeMeta own ++ stateOut w)) ->
  exists z, readFile (S (length xs)) (flat_map writeState (xs ++ [x])) y = (z, Ok) /\ same x z.
Proof.
  intros H.
  assert (E : flat_map writeState (xs ++ [x]) = flat_map writeRecord (map (fun w => writeMeta own ++ stateOut w) (xs ++ [x]))).
  { induction (xs ++ [x]) as [|a l IH]; [reflexivity|]. cbn [flat_map map]. now rewrite IH. }
  rewrite E, readFile_all; [|rewrite map_length, app_length; cbn; lia|].
  - rewrite map_app, readAll_app.
    assert (Q : forall ws y, exists z, readAll (map (fun w => writeMeta own ++ stateOut w) ws) y = (z, Ok)).
    { induction ws as [|w ws IH]; intros y'; cbn; [eauto|]. destruct (read_own w y') as [z [-> _]]. apply IH. }
    destruct (Q xs y) as [y' ->]. cbn [map readAll]. destruct (read_own x y') as [z [-> Hz]]. eauto.
  - intros p Hp. apply in_map_iff in Hp. destruct Hp as [w [<- _]]. apply H.
Qed.

Lemma mismatch_refused p sm rest x : readMeta p = Some (sm, rest) -> trajectoryID sm <> ARRAY_ONLY ->
  (rank sm <> rank own \/ typeID sm <> typeID own \/ trajectoryID sm <> trajectoryID own) -> readState p x = (x, Mismatch).
Proof.
  intros Hp Ha Hd. unfold StateFileModel.readState. rewrite Hp.
  destruct (String.eqb_spec (trajectoryID sm) ARRAY_ONLY); [contradiction|].
  assert (E : metaEq sm own = false).
  { unfold metaEq. destruct (Nat.eqb_spec (rank sm) (rank own)), (String.eqb_spec (typeID sm) (typeID own)), (String.eqb_spec (trajectoryID sm) (trajectoryID own)); cbn; auto; tauto. }
  rewrite E. reflexivity.
Qed.
Lemma match_accepted p sm rest x : readMeta p = Some (sm, rest) -> trajectoryID sm <> ARRAY_ONLY ->
  rank sm = rank own -> typeID sm = typeID own -> trajectoryID sm = trajectoryID own ->
  readState p x = (fst (stateIn rest x), if snd (stateIn rest x) then Ok else ArchiveError).
Proof.
  intros Hp Ha H1 H2 H3. unfold StateFileModel.readState. rewrite Hp.
  destruct (String.eqb_spec (trajectoryID sm) ARRAY_ONLY); [contradiction|].
  unfold metaEq. rewrite H1, H2, H3, Nat.eqb_refl, !String.eqb_refl. cbn. destruct (stateIn rest x). reflexivity.
Qed.
Lemma array_only p sm rest x : readMeta p = Some (sm, rest) -> trajectoryID sm = ARRAY_ONLY ->
  readState p x = (fst (arrayIn rest x), if snd (arrayIn rest x) then Ok else ArchiveError).
Proof.
  intros Hp Ha. unfold StateFileModel.readState. rewrite Hp, Ha, String.eqb_refl. destruct (arrayIn rest x). reflexivity.
Qed.
Lemma mismatch_stops ps p sm rest ps' x : readMeta p = Some (sm, rest) -> trajectoryID sm <> ARRAY_ONLY ->
  (rank sm <> rank own \/ typeID sm <> typeID own \/ trajectoryID sm <> trajectoryID own) ->
  snd (readAll ps x) = Ok -> readAll (ps ++ p :: ps') x = (fst (readAll ps x), Mismatch).
Proof.
  intros H1 H2 H3 H4. rewrite readAll_app. destruct (readAll ps x) as [y s]. cbn in H4. subst s. cbn.
  now rewrite (mismatch_refused p sm rest y H1 H2 H3).
Qed.
End File.

(** a payload beginning with a digit is not read back *)
Lemma digit_ambiguous : exists p, readRecord (writeRecord p) <> Some (p, []) /\ p = list_ascii_of_string "22 serialization::archive".
Proof. eexists. split; [|reflexivity]. vm_compute. discriminate. Qed.
