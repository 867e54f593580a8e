(** C139: expectation values in Python. *)
From Coq Require Import List Arith Bool Lia.
From Verif Require Import ExpvModel ExpvSpec ExpvProofs.
Import ListNotations.

(** Whatever is assigned and deleted, an ordered dictionary is an ordered map: its keys come once each in the order of their first assignment, and errors come where keys are missing *)
Theorem C139_dictionary : forall (Key Val : Type) keyEq, (forall a b : Key, keyEq a b = true <-> a = b) -> forall (l : list (action Key Val)) a,
  same keyEq (doAll keyEq dictNew l) (actAll keyEq [] l) /\ NoDup (dKeys (doAll keyEq dictNew l)) /\
  (doOn keyEq (doAll keyEq dictNew l) a = None <-> actOn keyEq (actAll keyEq [] l) a = None).
Proof. exact @dict_refines. Qed.
Print Assumptions C139_dictionary.
(** but it cannot be copied *)
Theorem C139_copy_refuted : forall (Key Val : Type) (d : odict Key Val), dictCopy d = None.
Proof. reflexivity. Qed.
Print Assumptions C139_copy_refuted.
(** A new collection has a trajectory for each row, with its data and the title given, else its own title, else a question mark; titles too many are left out *)
Theorem C139_collection : forall (X T S : Type) (unknown : S) (data : list (@evt X T S)) own time titles, exists l, titled unknown (newCollection data own time titles) l /\
  cRows (newCollection data own time titles) = map eData data /\ cTime (newCollection data own time titles) = orElse time own /\
  forall i e, nth_error data i = Some e -> nth_error l i = Some (match nth i titles None with Some t => t | None => shownTitle unknown e end).
Proof. exact @collection_titles. Qed.
Print Assumptions C139_collection.
(** its trajectories have the time given, else their own *)
Theorem C139_times : forall (X T S : Type) (data : list (@evt X T S)) own time titles trajs, cTrajs (newCollection data own time titles) = Some trajs ->
  length trajs = length data /\ forall i e, nth_error data i = Some e -> exists t, nth_error trajs i = Some t /\ eTime t = match time with Some ts => Some ts | None => eTime e end.
Proof. exact @collection_times. Qed.
Print Assumptions C139_times.
(** The subsystems of a collection have its rows, their titles and the time *)
Theorem C139_subsystem : forall (X T S : Type) (unknown : S) (c : @evc X T S) ts a b, titled unknown c ts ->
  exists s, subsystem unknown c a b = Some s /\ titled unknown s (slice a b ts) /\ cRows s = slice a b (cRows c) /\ cTime s = cTime c.
Proof. exact @sub_titled. Qed.
Print Assumptions C139_subsystem.
(** Parts of collections and results of arithmetic have no titles; parts with fewer times have all of the times; after arithmetic in place the trajectories keep the old values *)
Theorem C139_views_refuted : forall (X T S : Type) (unknown : S) (c : @evc X T S) titles, titled unknown c titles ->
  (forall f a b, titlesOf unknown (sliceRows a b c) = None /\ titlesOf unknown (sliceTimes a b c) = None /\ titlesOf unknown (mapped f c) = None) /\
  (forall ts r a b, timed c -> cTime c = Some ts -> In r (cRows c) -> b - a < length ts -> ~ timed (sliceTimes a b c)) /\
  (forall f, map (map f) (cRows c) <> cRows c -> forall l, cTrajs (inPlace f c) = Some l -> map eData l <> cRows (inPlace f c)).
Proof. exact @views. Qed.
Print Assumptions C139_views_refuted.

(** An order with deletions; two rows at three times, one of them titled, and what becomes of them *)
Example C139_case :
  dKeys (doAll Nat.eqb dictNew [Set_ 5 1; Set_ 3 2; Set_ 5 7; Del 9; Set_ 4 0; Del 3; Set_ 3 8]) = [5; 4; 3] /\
  dictGet (doAll Nat.eqb dictNew [Set_ 5 1; Set_ 3 2; Set_ 5 7; Del 9; Set_ 4 0; Del 3; Set_ 3 8]) 5 = Some 7 /\
  let c := newCollection [mkEvt [1; 2; 3] None None; mkEvt [4; 5; 6] None (Some 8); mkEvt [7; 8; 9] None None] None (Some [10; 20; 30]) [Some 1] in
  titlesOf 0 c = Some [1; 8; 0] /\ titled 0 c [1; 8; 0] /\ timed c /\ ~ timed (sliceTimes 0 2 c) /\
  match subsystem 0 c 1 3 with Some s => titlesOf 0 s = Some [8; 0] /\ cRows s = [[4; 5; 6]; [7; 8; 9]] | None => False end.
Proof.
  split; [reflexivity|]. split; [reflexivity|]. split; [reflexivity|]. split; [eexists; repeat split|]. split; [|split; [|split; reflexivity]].
  - intros ts r [= <-] H. cbn in H. intuition (subst; reflexivity).
  - intros H. specialize (H [10; 20; 30] [1; 2] eq_refl (or_introl eq_refl)). discriminate H.
Qed.
