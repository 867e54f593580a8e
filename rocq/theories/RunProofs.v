From Coq Require Import List Arith Bool Reals Lra Lia.
From Verif Require Import RunModel RunSpec.
Import ListNotations.

Section P.
Context {Traj Line Saved AH : Type}.
Variable getTime : Traj -> R.
Variable advanceBy tstep : Traj -> R -> Traj.
Variable lineOf : Traj -> Line.
Variable save : Traj -> Saved.
Variable ahStep : AH -> Line -> option AH.
Notation orbit := (orbit getTime advanceBy tstep).
Notation stepEvents := (stepEvents (Line := Line) (Saved := Saved) getTime advanceBy tstep lineOf save).
Notation body := (body getTime advanceBy tstep lineOf save ahStep).
Notation loop := (loop getTime advanceBy tstep lineOf save ahStep).
Notation cond := (cond getTime).
Notation lst := (@lst Traj Line Saved AH).
Variable m : mode.
Variable sdf : nat.
Variables fss cont : bool.
Variable x : Traj.

Definition linesTo (N : nat) : list Line :=
  map (fun j => lineOf (orbit m x j)) (filter (lineDue m cont) (seq 0 N)).

Definition Inv (k : nat) (s : lst) : Prop :=
  count s = k /\ tr s = orbit m x (k - 1) /\ stateCount s = dueCount m k /\
  evs s = flat_map (stepEvents m sdf fss cont x) (seq 0 k) /\ res s = linesTo k /\
  (k <> 0%nat -> stateSaved s = saveDue m sdf fss cont (k - 1) /\ arrayStreamed s = lineDue m cont (k - 1)) /\
  (k = 0%nat -> stateSaved s = false /\ arrayStreamed s = false).

(** state after the body of iteration k *)
Definition After (k : nat) (s : lst) : Prop :=
  count s = k /\ tr s = orbit m x k /\ stateCount s = dueCount m (S k) /\
  evs s = flat_map (stepEvents m sdf fss cont x) (seq 0 (S k)) /\ res s = linesTo (S k) /\
  stateSaved s = saveDue m sdf fss cont k /\ arrayStreamed s = lineDue m cont k.

Lemma dueCount_S k : dueCount m (S k) = if due m k then S (dueCount m k) else dueCount m k.
Proof.
  unfold dueCount. rewrite seq_S, filter_app, app_length. cbn. destruct (due m k); cbn; lia.
Qed.
Lemma linesTo_S k : linesTo (S k) = linesTo k ++ (if lineDue m cont k then [lineOf (orbit m x k)] else []).
Proof.
  unfold linesTo. rewrite seq_S, filter_app, map_app. cbn. destruct (lineDue m cont k); reflexivity.
Qed.
Lemma flat_S k : flat_map (stepEvents m sdf fss cont x) (seq 0 (S k)) =
  flat_map (stepEvents m sdf fss cont x) (seq 0 k) ++ stepEvents m sdf fss cont x k.
Proof. rewrite seq_S, flat_map_app. cbn. now rewrite app_nil_r. Qed.

Notation evTo k := (flat_map (stepEvents m sdf fss cont x) (seq 0 k)).
Lemma advancePart_spec k (s : lst) : Inv k s ->
  let s1 := advancePart getTime advanceBy tstep m s in
  count s1 = k /\ tr s1 = orbit m x k /\ stateCount s1 = dueCount m k /\
  evs s1 = evTo k ++ (if k =? 0 then [] else [EAdvance (orbit m x k)]) /\ res s1 = linesTo k /\
  stateSaved s1 = false /\ arrayStreamed s1 = false /\ ah s1 = ah s.
Proof.
  intros (E1 & E2 & E3 & E4 & E5 & E6 & E7). unfold advancePart. rewrite E1. destruct k as [|j]; cbn [Nat.eqb].
  - destruct (E7 eq_refl) as [E8 E9]. cbv zeta. rewrite E4, app_nil_r. auto 10.
  - cbv zeta. cbn [count tr stateCount evs res stateSaved arrayStreamed ah].
    assert (Ex : adv getTime advanceBy tstep m (tr s) = orbit m x (S j)).
    { rewrite E2. cbn [RunSpec.orbit]. now replace (S j - 1) with j by lia. }
    rewrite Ex, E4. auto 10.
Qed.
Lemma savePart_spec (s : lst) : saves sdf fss cont (stateCount s) = true /\
    savePart save sdf fss cont s = mkLst (tr s) (count s) (stateCount s) true (arrayStreamed s) (ah s) (evs s ++ [ESave (save (tr s))]) (res s) \/
  saves sdf fss cont (stateCount s) = false /\ savePart save sdf fss cont s = s.
Proof. unfold savePart. destruct (saves sdf fss cont (stateCount s)); auto. Qed.
Lemma saveDue_saves k : saveDue m sdf fss cont k = due m k && saves sdf fss cont (dueCount m k).
Proof. reflexivity. Qed.
Lemma streamPart_spec k (s : lst) : count s = k ->
  let r := streamPart lineOf ahStep cont s in
  count (fst r) = k /\ tr (fst r) = tr s /\ stateCount (fst r) = stateCount s /\
  evs (fst r) = evs s ++ (if negb (k =? 0) || negb cont then [ELine (lineOf (tr s))] else []) /\
  res (fst r) = res s ++ (if negb (k =? 0) || negb cont then [lineOf (tr s)] else []) /\
  stateSaved (fst r) = stateSaved s /\ arrayStreamed (fst r) = (if negb (k =? 0) || negb cont then true else arrayStreamed s) /\
  (snd r = true -> negb (k =? 0) || negb cont = true /\ ahStep (ah s) (lineOf (tr s)) = None).
Proof.
  intros <-. unfold streamPart. destruct (negb (count s =? 0) || negb cont); cbv zeta.
  - destruct (ahStep (ah s) (lineOf (tr s))); cbn; auto 10. repeat split; auto; discriminate.
  - cbn [fst snd]. rewrite !app_nil_r. repeat split; auto; discriminate.
Qed.

Lemma body_spec k s : Inv k s -> After k (fst (body m sdf fss cont s)) /\
  (snd (body m sdf fss cont s) = true -> lineDue m cont k = true /\ ahStep (ah s) (lineOf (orbit m x k)) = None).
Proof.
  intros HI. destruct (advancePart_spec k s HI) as (A1 & A2 & A3 & A4 & A5 & A6 & A7 & A8).
  unfold RunModel.body. set (s1 := advancePart getTime advanceBy tstep m s) in *. clearbody s1. cbv zeta. rewrite A1.
  unfold After. rewrite flat_S, dueCount_S, linesTo_S. unfold RunSpec.stepEvents. rewrite saveDue_saves. unfold lineDue.
  destruct (due m k); cbn [andb].
  - rewrite <- A3.
    assert (B : let s2 := bumpPart (savePart save sdf fss cont s1) in
      count s2 = k /\ tr s2 = orbit m x k /\ stateCount s2 = S (stateCount s1) /\
      evs s2 = evTo k ++ (if k =? 0 then [] else [EAdvance (orbit m x k)]) ++ (if saves sdf fss cont (stateCount s1) then [ESave (save (orbit m x k))] else []) /\
      res s2 = linesTo k /\ stateSaved s2 = saves sdf fss cont (stateCount s1) /\ arrayStreamed s2 = false /\ ah s2 = ah s).
    { destruct (savePart_spec s1) as [[-> ->]|[-> ->]]; cbv zeta; cbn [bumpPart count tr stateCount evs res stateSaved arrayStreamed ah];
      rewrite A2, A4, <- ?app_assoc, ?app_nil_r; auto 10. }
    set (s2 := bumpPart (savePart save sdf fss cont s1)) in *. clearbody s2. cbv zeta in B. destruct B as (B1 & B2 & B3 & B4 & B5 & B6 & B7 & B8).
    destruct (streamPart_spec k s2 B1) as (C1 & C2 & C3 & C4 & C5 & C6 & C7 & C8).
    set (r := streamPart lineOf ahStep cont s2) in *. clearbody r.
    rewrite C1, C2, C3, C4, C5, C6, C7, B2, B3, B4, B5, B6, B7, <- !app_assoc.
    split.
    + repeat split; auto. destruct (negb (k =? 0) || negb cont); reflexivity.
    + intros H. rewrite B2, B8 in C8. exact (C8 H).
  - cbn [fst snd]. rewrite A1, A2, A3, A4, A5, A6, A7, !app_nil_r. repeat split; auto; discriminate.
Qed.

Lemma loop_trace fuel : forall k s s' stopped, Inv k s -> loop fuel m sdf fss cont s = Some (s', stopped) ->
  exists N, (k <= N)%nat /\ (forall i, (k <= i < N)%nat -> cond m i (orbit m x (i - 1)) = true) /\
    ((stopped = false /\ cond m N (orbit m x (N - 1)) = false /\ Inv N s') \/
     (stopped = true /\ (k < N)%nat /\ After (N - 1) s' /\ lineDue m cont (N - 1) = true /\
        exists h, ahStep h (lineOf (orbit m x (N - 1))) = None)).
Proof.
  induction fuel as [|f IH]; intros k s s' stopped HI; cbn [RunModel.loop]; pose proof HI as (E1 & E2 & _); rewrite E1, E2;
  destruct (cond m k (orbit m x (k - 1))) eqn:C; try discriminate.
  - intros H; injection H as <- <-. exists k. split; [lia|]. split; [intros; lia|]. left. auto.
  - destruct (body_spec k s HI) as [HA HT]. destruct (body m sdf fss cont s) as [s1 b]. cbn [fst snd] in *.
    destruct b.
    + intros H; injection H as <- <-. exists (S k). split; [lia|]. split; [intros i Hi; now replace i with k by lia|].
      right. replace (S k - 1) with k by lia. destruct (HT eq_refl) as [H1 H2]. split; [reflexivity|]. split; [lia|]. split; [exact HA|]. split; [exact H1|]. eauto.
    + destruct HA as (A1 & A2 & A3 & A4 & A5 & A6 & A7). intros H.
      match type of H with RunModel.loop _ _ _ _ _ _ _ _ _ _ _ ?s2 = _ =>
        assert (HI2 : Inv (S k) s2) by
         (unfold Inv; cbn [tr count stateCount stateSaved arrayStreamed ah evs res]; rewrite A1;
          replace (S k - 1) with k by lia; repeat split; auto; discriminate) end.
      destruct (IH (S k) _ _ _ HI2 H) as (N & HN & HC & HR).
      exists N. split; [lia|]. split.
      * intros i Hi. destruct (Nat.eq_dec i k) as [->|]; auto. apply HC. lia.
      * destruct HR as [HR|(R1 & R2 & R3)]; [left; auto|right]. split; [auto|]. split; [lia|auto].
  - intros H; injection H as <- <-. exists k. split; [lia|]. split; [intros; lia|]. left. auto.
Qed.

Lemma Inv0 h : Inv 0 (mkLst x 0 0 false false h [] []).
Proof. unfold Inv. cbn. repeat split; auto; congruence. Qed.

(** complete description of a run *)
Lemma run_trace fuel streamInfo h x' es r :
  timeToReach getTime m x <> 0%R -> (getTime x < timeToReach getTime m x)%R ->
  runFrom getTime advanceBy tstep lineOf save ahStep fuel m sdf streamInfo fss cont h x = Some (x', es, r) ->
  exists N stopped, (0 < N)%nat /\ x' = orbit m x (N - 1) /\ r = linesTo N /\
    (forall i, (i < N)%nat -> cond m i (orbit m x (i - 1)) = true) /\
    (stopped = false -> cond m N (orbit m x (N - 1)) = false) /\
    (stopped = true -> lineDue m cont (N - 1) = true /\ exists h', ahStep h' (lineOf (orbit m x (N - 1))) = None) /\
    es = (if streamInfo then [if cont then EContinuing else EHeader] else []) ++
         flat_map (stepEvents m sdf fss cont x) (seq 0 N) ++
         (if stopped then [EStopped] else []) ++
         (if lineDue m cont (N - 1) then [] else [ELine (lineOf (orbit m x (N - 1)))]) ++ [ELog] ++
         (if saveDue m sdf fss cont (N - 1) then [] else [ESave (save (orbit m x (N - 1)))]).
Proof.
  intros Ht Hlt. unfold runFrom. destruct (Req_EM_T _ 0) as [e|_]; [contradiction|].
  destruct (Rle_dec _ _) as [l|_]; [lra|].
  destruct (loop fuel m sdf fss cont _) as [[s stopped]|] eqn:L; [|discriminate].
  intros H; injection H as <- <- <-.
  destruct (loop_trace fuel 0 _ _ _ (Inv0 h) L) as (N & _ & HC & HR).
  assert (C0 : cond m 0 (orbit m x 0) = true).
  { unfold RunModel.cond. destruct m; cbn [RunSpec.orbit]; auto; cbn in Hlt; destruct (Rlt_dec _ _); auto; contradiction. }
  exists N, stopped. destruct HR as [(-> & HF & HI)|(-> & HP & HA & HL & HS)].
  - assert (HN : (0 < N)%nat). { destruct N; [|lia]. cbn [Nat.sub] in HF. congruence. }
    destruct HI as (E1 & E2 & E3 & E4 & E5 & E6 & E7). destruct (E6 ltac:(lia)) as [E8 E9].
    split; [lia|]. split; [auto|]. split; [auto|]. split; [intros i Hi; apply HC; lia|]. split; [auto|]. split; [discriminate|].
    unfold finish. now rewrite E2, E4, E8, E9.
  - destruct HA as (E1 & E2 & E3 & E4 & E5 & E8 & E9). replace (S (N - 1)) with N in * by lia.
    split; [lia|]. split; [auto|]. split; [auto|]. split; [intros i Hi; apply HC; lia|]. split; [discriminate|]. split; [auto|].
    unfold finish. now rewrite E2, E4, E8, E9.
Qed.

(** lines of a trace *)
Lemma linesOf_app (a b : list (@event Traj Line Saved)) : linesOf (a ++ b) = linesOf a ++ linesOf b.
Proof. apply flat_map_app. Qed.
Lemma linesOf_steps N : linesOf (flat_map (stepEvents m sdf fss cont x) (seq 0 N)) = linesTo N.
Proof.
  induction N as [|N IH]; [reflexivity|]. rewrite flat_S, linesOf_app, IH, linesTo_S. f_equal.
  unfold RunSpec.stepEvents. rewrite !linesOf_app. destruct (N =? 0), (saveDue m sdf fss cont N), (lineDue m cont N); reflexivity.
Qed.
Lemma run_lines fuel streamInfo h x' es r :
  timeToReach getTime m x <> 0%R -> (getTime x < timeToReach getTime m x)%R ->
  runFrom getTime advanceBy tstep lineOf save ahStep fuel m sdf streamInfo fss cont h x = Some (x', es, r) ->
  exists N stopped, (0 < N)%nat /\ x' = orbit m x (N - 1) /\ r = linesTo N /\
    (forall i, (i < N)%nat -> cond m i (orbit m x (i - 1)) = true) /\
    (stopped = false -> cond m N (orbit m x (N - 1)) = false) /\
    (stopped = true <-> In EStopped es) /\
    (stopped = true -> lineDue m cont (N - 1) = true /\ exists h', ahStep h' (lineOf (orbit m x (N - 1))) = None) /\
    linesOf es = linesTo N ++ (if lineDue m cont (N - 1) then [] else [lineOf (orbit m x (N - 1))]).
Proof.
  intros H1 H2 H3. destruct (run_trace _ _ _ _ _ _ H1 H2 H3) as (N & st & A & B & C & D & E & F & G).
  exists N, st. split; [auto|]. split; [auto|]. split; [auto|]. split; [auto|]. split; [auto|]. split; [|split; [auto|]].
  - rewrite G. split.
    + intros ->. rewrite !in_app_iff. right. right. left. now left.
    + rewrite !in_app_iff. destruct st; auto. intros [Hin|[Hin|[Hin|[Hin|[Hin|Hin]]]]].
      * destruct streamInfo, cont; cbn in Hin; intuition discriminate.
      * apply in_flat_map in Hin. destruct Hin as [j [_ Hj]]. unfold RunSpec.stepEvents in Hj.
        rewrite !in_app_iff in Hj. destruct (j =? 0), (saveDue m sdf fss cont j), (lineDue m cont j); cbn in Hj; intuition discriminate.
      * destruct Hin.
      * destruct (lineDue m cont (N - 1)); cbn in Hin; intuition discriminate.
      * cbn in Hin; intuition discriminate.
      * destruct (saveDue m sdf fss cont (N - 1)); cbn in Hin; intuition discriminate.
  - rewrite G, !linesOf_app, linesOf_steps. destruct streamInfo, cont, st, (lineDue m _ (N - 1)), (saveDue m sdf fss _ (N - 1)); cbn; rewrite ?app_nil_r; reflexivity.
Qed.
End P.
