From Coq Require Import List Arith Bool Reals Lra Lia Sorted.
From Verif Require Import RunModel RunSpec RunProofs.
Import ListNotations.

Section L.
Context {Traj Line Saved AH : Type}.
Variable getTime : Traj -> R.
Variable advanceBy tstep : Traj -> R -> Traj.
Variable lineOf : Traj -> Line.
Variable save : Traj -> Saved.
Variable ahStep : AH -> Line -> option AH.
Notation orbit := (orbit getTime advanceBy tstep).
Notation runFrom := (runFrom getTime advanceBy tstep lineOf save ahStep).
Notation event := (@event Traj Line Saved).

Lemma due_ndt n Dt k : due (NDt n Dt) k = true.
Proof. unfold due. apply orb_true_r. Qed.
Lemma due_enddt T Dt k : due (EndDt T Dt) k = true.
Proof. unfold due. apply orb_true_r. Qed.

Lemma orbit_ndt n Dt x k : orbit (NDt n Dt) x k = Nat.iter k (fun y => advanceBy y Dt) x.
Proof. induction k as [|k IH]; [reflexivity|]. cbn [RunSpec.orbit Nat.iter adv nat_rect]. rewrite IH. reflexivity. Qed.
Lemma orbit_dc T dc x k : orbit (EndDc T dc) x k = Nat.iter k (fun y => tstep y (T - getTime y)%R) x.
Proof. induction k as [|k IH]; [reflexivity|]. cbn [RunSpec.orbit Nat.iter adv nat_rect]. rewrite IH. reflexivity. Qed.

Lemma lineDue_pos m cont k : (forall j, due m j = true) -> (0 < k)%nat -> lineDue m cont k = true.
Proof. intros H Hk. unfold lineDue. rewrite H. destruct k; [lia|reflexivity]. Qed.

Lemma filter_all {A} (f : A -> bool) l : (forall a, In a l -> f a = true) -> filter f l = l.
Proof. induction l as [|a l IH]; intros H; [reflexivity|]. cbn. rewrite (H a) by now left. f_equal. apply IH. intros; apply H; now right. Qed.

Lemma linesTo_all m cont x N : (forall j, due m j = true) -> (0 < N)%nat ->
  linesTo getTime advanceBy tstep lineOf m cont x N =
  map (fun k => lineOf (orbit m x k)) (if cont then seq 1 (N - 1) else seq 0 N).
Proof.
  intros H HN. unfold linesTo. f_equal. destruct N as [|N]; [lia|]. cbn [seq filter]. replace (S N - 1) with N by lia.
  assert (F : filter (lineDue m cont) (seq 1 N) = seq 1 N).
  { apply filter_all. intros a Ha. apply in_seq in Ha. apply lineDue_pos; auto. lia. }
  rewrite F. unfold lineDue. rewrite H. destruct cont; reflexivity.
Qed.

Ltac kill H := try contradiction; destruct H as [H|[]]; discriminate H.

(** number of intervals given *)
Lemma ndt_lines fuel n Dt sdf si fss cont h x x' es r : (0 < n)%nat ->
  timeToReach getTime (NDt n Dt) x <> 0%R -> (0 < Dt)%R ->
  runFrom fuel (NDt n Dt) sdf si fss cont h x = Some (x', es, r) ->
  exists N, (0 < N <= S n)%nat /\ (~ In EStopped es -> N = S n) /\ (cont = true -> (1 < N)%nat) /\
    x' = Nat.iter (N - 1) (fun y => advanceBy y Dt) x /\
    linesOf es = map (fun k => lineOf (Nat.iter k (fun y => advanceBy y Dt) x)) (if cont then seq 1 (N - 1) else seq 0 N) /\
    r = linesOf es.
Proof.
  intros Hn Ht HD E.
  assert (Hlt : (getTime x < timeToReach getTime (NDt n Dt) x)%R).
  { cbn. assert (0 < INR n)%R by (apply lt_0_INR; lia). nra. }
  destruct (run_lines getTime advanceBy tstep lineOf save ahStep (NDt n Dt) sdf fss cont x _ _ _ _ _ _ Ht Hlt E)
    as (N & st & A & B & C & D & F & G & G' & I).
  assert (HN : (N <= S n)%nat).
  { destruct (le_lt_dec N (S n)); auto. specialize (D (S n) l). cbn [cond] in D. apply Nat.leb_le in D. lia. }
  assert (HL : lineDue (NDt n Dt) cont (N - 1) = true).
  { destruct st.
    - apply G'. reflexivity.
    - specialize (F eq_refl). cbn [cond] in F. apply Nat.leb_gt in F. apply lineDue_pos; [apply due_ndt|lia]. }
  exists N. rewrite HL, app_nil_r in I. split; [lia|]. split; [|split; [|split; [|split]]].
  - intros Hs. destruct st; [exfalso; apply Hs, G; reflexivity|]. specialize (F eq_refl). cbn [cond] in F. apply Nat.leb_gt in F. lia.
  - intros ->. unfold lineDue in HL. rewrite due_ndt in HL. cbn in HL. destruct (N - 1)%nat eqn:EN; [discriminate|lia].
  - rewrite B. apply orbit_ndt.
  - rewrite I, (linesTo_all (NDt n Dt)) by (auto; apply due_ndt). apply map_ext. intros k. f_equal. apply orbit_ndt.
  - rewrite I. exact C.
Qed.

Lemma iter_time (Dt : R) x k : (forall y, getTime (advanceBy y Dt) = getTime y + Dt)%R ->
  getTime (Nat.iter k (fun y => advanceBy y Dt) x) = (getTime x + INR k * Dt)%R.
Proof.
  intros H. induction k as [|k IH]; [simpl; ring|]. cbn [Nat.iter nat_rect]. rewrite H. unfold Nat.iter in IH. rewrite IH, S_INR. ring.
Qed.

Lemma body_count m sdf fss cont s : count (fst (body getTime advanceBy tstep lineOf save ahStep m sdf fss cont s)) = count s /\
  tr (fst (body getTime advanceBy tstep lineOf save ahStep m sdf fss cont s)) = if count s =? 0 then tr s else adv getTime advanceBy tstep m (tr s).
Proof.
  assert (A : count (advancePart getTime advanceBy tstep m s) = count s /\
    tr (advancePart getTime advanceBy tstep m s) = if count s =? 0 then tr s else adv getTime advanceBy tstep m (tr s)).
  { unfold advancePart. destruct (count s =? 0); auto. }
  unfold body. cbv zeta. destruct A as [A1 A2]. set (s1 := advancePart getTime advanceBy tstep m s) in *. clearbody s1.
  destruct (due m (count s1)); [|auto]. 
  assert (B : count (bumpPart (savePart save sdf fss cont s1)) = count s1 /\ tr (bumpPart (savePart save sdf fss cont s1)) = tr s1).
  { unfold savePart. destruct (saves sdf fss cont (stateCount s1)); auto. }
  destruct B as [B1 B2]. set (s2 := bumpPart (savePart save sdf fss cont s1)) in *. clearbody s2.
  destruct (streamPart_spec lineOf ahStep cont (count s2) s2 eq_refl) as (C1 & C2 & _). rewrite C1, C2. split; congruence.
Qed.
Lemma loop_ndt_terminates n Dt sdf fss cont : forall fuel s, (S n <= count s + fuel)%nat ->
  loop getTime advanceBy tstep lineOf save ahStep fuel (NDt n Dt) sdf fss cont s <> None.
Proof.
  induction fuel as [|f IH]; intros s Hf; cbn [loop cond].
  - destruct (Nat.leb_spec (count s) n); [lia|discriminate].
  - destruct (Nat.leb_spec (count s) n); [|discriminate].
    destruct (body_count (NDt n Dt) sdf fss cont s) as [Hc _].
    destruct (body getTime advanceBy tstep lineOf save ahStep (NDt n Dt) sdf fss cont s) as [s1 [|]]; [discriminate|].
    cbn [fst] in Hc. apply IH. cbn [count]. lia.
Qed.
Lemma ndt_returns fuel n Dt sdf si fss cont h x : (n < fuel)%nat -> runFrom fuel (NDt n Dt) sdf si fss cont h x <> None.
Proof.
  intros Hf. unfold RunModel.runFrom. destruct (Req_EM_T _ 0); [discriminate|]. destruct (Rle_dec _ _); [discriminate|].
  pose proof (loop_ndt_terminates n Dt sdf fss cont fuel (mkLst x 0 0 false false h [] []) ltac:(cbn; lia)) as H.
  destruct (loop _ _ _ _ _ _ _ _ _ _ _ _) as [[s b]|]; [discriminate|congruence].
Qed.

(** every dc-th step *)
Lemma dc_lines fuel T dc sdf si fss cont h x x' es r : (0 < dc)%nat -> T <> 0%R -> (getTime x < T)%R ->
  runFrom fuel (EndDc T dc) sdf si fss cont h x = Some (x', es, r) ->
  exists N, (0 < N)%nat /\ x' = Nat.iter (N - 1) (fun y => tstep y (T - getTime y)%R) x /\
    r = map (fun k => lineOf (Nat.iter k (fun y => tstep y (T - getTime y)%R) x))
            (filter (fun k => k mod dc =? 0) (if cont then seq 1 (N - 1) else seq 0 N)) /\
    linesOf es = r ++ (if ((N - 1) mod dc =? 0) && (negb (N - 1 =? 0) || negb cont) then [] else [lineOf x']).
Proof.
  intros Hdc HT Hlt E.
  destruct (run_lines getTime advanceBy tstep lineOf save ahStep (EndDc T dc) sdf fss cont x _ _ _ _ _ _ HT Hlt E)
    as (N & st & A & B & C & D & F & G & G' & I).
  assert (Hdue : forall k, due (EndDc T dc) k = (k mod dc =? 0)).
  { intros [|k]; unfold due; [|reflexivity]. rewrite Nat.mod_0_l by lia. reflexivity. }
  exists N. rewrite <- (orbit_dc T dc). split; [auto|]. split; [auto|]. split.
  - rewrite C. unfold linesTo. rewrite (map_ext _ _ (fun k => f_equal lineOf (orbit_dc T dc x k))). f_equal.
    destruct N as [|N]; [lia|]. replace (S N - 1) with N by lia. cbn [seq].
    assert (F1 : filter (lineDue (EndDc T dc) cont) (seq 1 N) = filter (fun k => k mod dc =? 0) (seq 1 N)).
    { apply filter_ext_in. intros a Ha. apply in_seq in Ha. unfold lineDue. rewrite Hdue. destruct a; [lia|]. cbn. now rewrite andb_true_r. }
    destruct cont; cbn [filter]; rewrite F1; unfold lineDue; rewrite Hdue, Nat.mod_0_l by lia; reflexivity.
  - rewrite I, C, B. f_equal. unfold lineDue. rewrite Hdue. reflexivity.
Qed.

(** ** runs with an end time *)
Section EndTime.
Variable m : mode.
Variable T : R.
Hypothesis Hm : match m with NDt _ _ => False | EndDt T' Dt => T' = T /\ (0 < Dt)%R | EndDc T' dc => T' = T /\ (0 < dc)%nat end.
Hypothesis Hadv : forall x d, (0 < d)%R -> getTime (advanceBy x d) = (getTime x + d)%R.
Hypothesis Hstep : forall x d, (0 < d)%R -> (getTime x < getTime (tstep x d) <= getTime x + d)%R.

Lemma ttr_end x : timeToReach getTime m x = T.
Proof. destruct m; cbn; tauto. Qed.
Lemma cond_end k x : cond getTime m k x = true <-> (getTime x < T)%R.
Proof. destruct m; [contradiction| |]; destruct Hm as [-> _]; cbn; destruct (Rlt_dec _ _); intuition discriminate. Qed.

Lemma adv_end x : (getTime x < T)%R -> (getTime x < getTime (adv getTime advanceBy tstep m x) <= T)%R.
Proof.
  intros H. destruct m; [contradiction| |]; destruct Hm as [-> Hp]; cbn [adv].
  - unfold Rmin. destruct (Rle_dec _ _); rewrite Hadv by lra; lra.
  - specialize (Hstep x (T - getTime x) ltac:(lra)). lra.
Qed.
Lemma orbit_end x N : (forall i, (i < N)%nat -> cond getTime m i (orbit m x (i - 1)) = true) ->
  forall j, (S j < N)%nat -> (getTime (orbit m x j) < getTime (orbit m x (S j)) <= T)%R.
Proof.
  intros H j Hj. cbn [RunSpec.orbit]. apply adv_end. specialize (H (S j) Hj). apply cond_end in H.
  now replace (S j - 1) with j in H by lia.
Qed.

Lemma orbit_lt x N : (forall i, (i < N)%nat -> cond getTime m i (orbit m x (i - 1)) = true) ->
  forall j k, (j < k)%nat -> (k < N)%nat -> (getTime (orbit m x j) < getTime (orbit m x k))%R.
Proof.
  intros H j k Hjk. induction Hjk as [|k Hjk IH]; intros Hk.
  - apply (orbit_end x N H j Hk).
  - apply Rlt_trans with (getTime (orbit m x k)); [apply IH; lia|apply (orbit_end x N H k Hk)].
Qed.

Variable lineTime : Line -> R.
Hypothesis HlT : forall x, lineTime (lineOf x) = getTime x.

Lemma sorted_seq (f : nat -> R) l : StronglySorted lt l -> (forall j k, In j l -> In k l -> (j < k)%nat -> (f j < f k)%R) -> StronglySorted Rlt (map f l).
Proof.
  induction 1 as [|a l Hl IH Ha]; intros Hf; cbn; constructor.
  - apply IH. intros; apply Hf; auto; now right.
  - apply Forall_forall. intros y Hy. apply in_map_iff in Hy. destruct Hy as [k [<- Hk]]. apply Hf; [now left|now right|].
    rewrite Forall_forall in Ha. now apply Ha.
Qed.
Lemma seq_sorted a n : StronglySorted lt (seq a n).
Proof.
  revert a. induction n as [|n IH]; intros a; constructor; auto. apply Forall_forall. intros y Hy. apply in_seq in Hy. lia.
Qed.
Lemma filter_sorted (g : nat -> bool) l : StronglySorted lt l -> StronglySorted lt (filter g l).
Proof.
  induction 1 as [|a l Hl IH Ha]; cbn; [constructor|]. destruct (g a); auto. constructor; auto.
  apply Forall_forall. intros y Hy. apply filter_In in Hy. rewrite Forall_forall in Ha. now apply Ha.
Qed.
Lemma sorted_snoc l a : StronglySorted lt l -> (forall y, In y l -> (y < a)%nat) -> StronglySorted lt (l ++ [a]).
Proof.
  induction 1 as [|b l Hl IH Hb]; intros H; cbn; [repeat constructor|]. constructor.
  - apply IH. intros; apply H; now right.
  - apply Forall_app. split; [exact Hb|]. constructor; [|constructor]. apply H. now left.
Qed.

Lemma end_run fuel sdf si fss cont h x x' es r : T <> 0%R -> (getTime x < T)%R ->
  runFrom fuel m sdf si fss cont h x = Some (x', es, r) ->
  (getTime x < getTime x' \/ x' = x)%R /\ (getTime x' <= T)%R /\
  (forall y, In (EAdvance y) es -> (getTime y <= T)%R) /\
  StronglySorted Rlt (map lineTime (linesOf es)) /\
  (forall l, In l (linesOf es) -> (lineTime l <= T)%R) /\
  (~ In EStopped es -> getTime x' = T /\ exists ls, linesOf es = ls ++ [lineOf x']).
Proof.
  intros HT Hlt E.
  assert (Ht : timeToReach getTime m x = T) by apply ttr_end.
  destruct (run_trace getTime advanceBy tstep lineOf save ahStep m sdf fss cont x fuel si h x' es r) as (N & st & A & B & C & D & F & G & I); auto; try (rewrite Ht; auto).
  destruct (run_lines getTime advanceBy tstep lineOf save ahStep m sdf fss cont x fuel si h x' es r) as (N' & st' & A' & B' & C' & D' & F' & G' & G'' & I'); auto; try (rewrite Ht; auto).
  assert (Hle : forall j, (j < N)%nat -> (getTime (orbit m x j) <= T)%R).
  { intros [|j] Hj; [cbn; lra|]. apply (orbit_end x N D j Hj). }
  assert (Hle' : forall j, (j < N')%nat -> (getTime (orbit m x j) <= T)%R).
  { intros [|j] Hj; [cbn; lra|]. apply (orbit_end x N' D' j Hj). }
  (* indices of the streamed lines *)
  set (idx := filter (lineDue m cont) (seq 0 N') ++ (if lineDue m cont (N' - 1) then [] else [N' - 1]%nat)).
  assert (Hl : linesOf es = map (fun k => lineOf (orbit m x k)) idx).
  { rewrite I'. unfold idx. rewrite map_app. unfold linesTo. f_equal. destruct (lineDue m cont (N' - 1)); reflexivity. }
  assert (Hidx : forall k, In k idx -> (k < N')%nat).
  { intros k Hk. unfold idx in Hk. apply in_app_iff in Hk. destruct Hk as [Hk|Hk].
    - apply filter_In in Hk. destruct Hk as [Hk _]. apply in_seq in Hk. lia.
    - destruct (lineDue m cont (N' - 1)); [destruct Hk|]. destruct Hk as [<-|[]]. lia. }
  assert (Hso : StronglySorted lt idx).
  { unfold idx. destruct (lineDue m cont (N' - 1)) eqn:EL; [rewrite app_nil_r; apply filter_sorted, seq_sorted|].
    apply sorted_snoc; [apply filter_sorted, seq_sorted|]. intros y Hy. apply filter_In in Hy. destruct Hy as [Hy1 Hy2].
    apply in_seq in Hy1. assert (y <> N' - 1)%nat by congruence. lia. }
  split; [|split; [|split; [|split; [|split]]]].
  - destruct (Nat.eq_dec N 1) as [->|]; [right; rewrite B; reflexivity|left].
    rewrite B. change (getTime x) with (getTime (orbit m x 0)). apply (orbit_lt x N D); lia.
  - rewrite B. apply Hle. lia.
  - intros y Hy. rewrite I in Hy. rewrite !in_app_iff in Hy.
    destruct Hy as [Hin|[Hin|[Hin|[Hin|[Hin|Hin]]]]].
    + destruct si, cont; cbn in Hin; kill Hin.
    + apply in_flat_map in Hin. destruct Hin as [j [Hj Hin]]. apply in_seq in Hj. unfold stepEvents in Hin.
      rewrite !in_app_iff in Hin. destruct Hin as [Hin|[Hin|Hin]].
      * destruct (j =? 0); [destruct Hin|]. destruct Hin as [Hin|[]]. inversion Hin; subst. apply Hle. lia.
      * destruct (saveDue m sdf fss cont j); cbn in Hin; kill Hin.
      * destruct (lineDue m cont j); cbn in Hin; kill Hin.
    + destruct st; cbn in Hin; kill Hin.
    + destruct (lineDue m cont (N - 1)); cbn in Hin; kill Hin.
    + cbn in Hin; kill Hin.
    + destruct (saveDue m sdf fss cont (N - 1)); cbn in Hin; kill Hin.
  - rewrite Hl, map_map. apply sorted_seq; auto. intros j k Hj Hk Hjk. rewrite !HlT. apply (orbit_lt x N' D'); auto.
  - intros l Hin. rewrite Hl in Hin. apply in_map_iff in Hin. destruct Hin as [k [<- Hk]]. rewrite HlT. apply Hle', Hidx, Hk.
  - intros Hs. destruct st'; [exfalso; apply Hs, G'; reflexivity|]. specialize (F' eq_refl).
    assert (HnT : ~ (getTime (orbit m x (N' - 1)) < T)%R) by (rewrite <- (cond_end N'); congruence).
    split; [rewrite B'; pose proof (Hle' (N' - 1)%nat ltac:(lia)); lra|].
    rewrite I'. destruct (lineDue m cont (N' - 1)) eqn:EL.
    + exists (linesTo getTime advanceBy tstep lineOf m cont x (N' - 1)). rewrite app_nil_r.
      replace N' with (S (N' - 1)) at 1 by lia. rewrite linesTo_S, EL, B'. reflexivity.
    + eexists. rewrite B'. reflexivity.
Qed.

Lemma end_nothing fuel sdf si fss cont h x : T <> 0%R -> (T <= getTime x)%R ->
  runFrom fuel m sdf si fss cont h x = Some (x, [], []).
Proof.
  intros HT Hle. unfold RunModel.runFrom. rewrite ttr_end. destruct (Req_EM_T T 0); [contradiction|].
  destruct (Rle_dec T (getTime x)); [reflexivity|contradiction].
Qed.
(** the loop terminates if each step proceeds by at least delta or reaches the end *)
Variable delta : R.
Hypothesis Hd : (0 < delta)%R.
Hypothesis Hprog : match m with EndDt _ Dt => delta = Dt | _ => forall x d, (0 < d)%R -> (getTime x + Rmin d delta <= getTime (tstep x d))%R end.
Lemma adv_prog x : (getTime x < T)%R -> (getTime x + Rmin (T - getTime x) delta <= getTime (adv getTime advanceBy tstep m x))%R.
Proof.
  intros H. destruct m; [contradiction| |]; destruct Hm as [-> Hp]; cbn [adv].
  - rewrite Hprog in *. unfold Rmin. destruct (Rle_dec Dt (T - getTime x)), (Rle_dec (T - getTime x) Dt); rewrite Hadv by lra; lra.
  - apply Hprog. lra.
Qed.
Lemma loop_end_terminates sdf fss cont : forall fuel s,
  (T - getTime (tr s) <= (INR fuel - (if count s =? 0 then 1 else 0)) * delta)%R ->
  loop getTime advanceBy tstep lineOf save ahStep fuel m sdf fss cont s <> None.
Proof.
  induction fuel as [|f IH]; intros s Hf; cbn [loop]; destruct (cond getTime m (count s) (tr s)) eqn:C; try discriminate.
  - apply cond_end in C. cbn [INR] in Hf. destruct (count s =? 0); nra.
  - apply cond_end in C. destruct (body_count m sdf fss cont s) as [B1 B2].
    destruct (body getTime advanceBy tstep lineOf save ahStep m sdf fss cont s) as [s1 [|]]; [discriminate|].
    cbn [fst] in *. apply IH. cbn [count tr]. rewrite S_INR in Hf. cbn [Nat.eqb]. rewrite B2.
    destruct (count s =? 0); [nra|].
    pose proof (adv_prog (tr s) C) as HA. unfold Rmin in HA.
    assert (HI : (0 <= INR f)%R) by apply pos_INR.
    destruct (Rle_dec (T - getTime (tr s)) delta); nra.
Qed.
Lemma end_returns fuel sdf si fss cont h x : (T - getTime x <= (INR fuel - 1) * delta)%R ->
  runFrom fuel m sdf si fss cont h x <> None.
Proof.
  intros Hf. unfold RunModel.runFrom. destruct (Req_EM_T _ 0); [discriminate|]. destruct (Rle_dec _ _); [discriminate|].
  pose proof (loop_end_terminates sdf fss cont fuel (mkLst x 0 0 false false h [] []) ltac:(cbn; lra)) as H.
  destruct (loop _ _ _ _ _ _ _ _ _ _ _ _) as [[s b]|]; [discriminate|congruence].
Qed.
End EndTime.

(** ** state saving *)
Fixpoint onceSaved (flag : bool) (es : list event) : Prop :=
  match es with
  | [] => True
  | ESave _ :: t => flag = false /\ onceSaved true t
  | EAdvance _ :: t => onceSaved false t
  | _ :: t => onceSaved flag t
  end.
Fixpoint flagAfter (flag : bool) (es : list event) : bool :=
  match es with
  | [] => flag
  | ESave _ :: t => flagAfter true t
  | EAdvance _ :: t => flagAfter false t
  | _ :: t => flagAfter flag t
  end.
Lemma once_app a : forall flag b, onceSaved flag (a ++ b) <-> onceSaved flag a /\ onceSaved (flagAfter flag a) b.
Proof. induction a as [|e a IH]; intros flag b; cbn; [tauto|]. destruct e; rewrite ?IH; tauto. Qed.
Lemma flag_app a : forall flag b, flagAfter flag (a ++ b) = flagAfter (flagAfter flag a) b.
Proof. induction a as [|e a IH]; intros flag b; cbn; auto. destruct e; auto. Qed.
Lemma once_between flag a s1 b s2 c : onceSaved flag (a ++ ESave s1 :: b ++ ESave s2 :: c) -> exists y, In (EAdvance y) b.
Proof.
  rewrite once_app. intros [_ H]. cbn in H. destruct H as [_ H]. apply once_app in H. destruct H as [_ [H _]].
  assert (G : forall b fl, fl = true -> flagAfter fl b = false -> exists y, In (EAdvance y) b).
  { clear. induction b as [|e b IH]; intros fl Hf Hb; cbn in Hb; [congruence|].
    destruct e; try (destruct (IH _ Hf Hb) as [y Hy]; exists y; now right).
    - eexists; now left.
    - destruct (IH _ eq_refl Hb) as [y Hy]. exists y. now right. }
  apply (G b true eq_refl H).
Qed.

Lemma save_run m fuel sdf si fss cont h x x' es r :
  timeToReach getTime m x <> 0%R -> (getTime x < timeToReach getTime m x)%R ->
  runFrom fuel m sdf si fss cont h x = Some (x', es, r) ->
  (exists ss, savedOf es = ss ++ [save x']) /\ onceSaved false es.
Proof.
  intros H1 H2 E.
  destruct (run_trace getTime advanceBy tstep lineOf save ahStep m sdf fss cont x fuel si h x' es r) as (N & st & A & B & C & D & F & G & I); auto.
  set (ev := flat_map (stepEvents getTime advanceBy tstep lineOf save m sdf fss cont x)) in I.
  assert (Hf : forall k, onceSaved false (ev (seq 0 (S k))) /\ flagAfter false (ev (seq 0 (S k))) = saveDue m sdf fss cont k).
  { induction k as [|k [IH1 IH2]].
    - unfold ev. cbn [seq flat_map]. rewrite app_nil_r. unfold stepEvents. cbn [Nat.eqb].
      destruct (saveDue m sdf fss cont 0), (lineDue m cont 0); cbn; auto.
    - unfold ev in *. rewrite (flat_S _ _ _ _ _ _ _ _ _ _ (S k)). rewrite once_app, flag_app, IH2. split.
      + split; [exact IH1|]. unfold stepEvents. cbn [Nat.eqb]. destruct (saveDue m sdf fss cont (S k)), (lineDue m cont (S k)); cbn; auto.
      + unfold stepEvents. cbn [Nat.eqb]. destruct (saveDue m sdf fss cont (S k)), (lineDue m cont (S k)); cbn; auto. }
  destruct N as [|N]; [lia|]. replace (S N - 1) with N in * by lia. destruct (Hf N) as [Hf1 Hf2].
  split.
  - assert (SA : forall a b : list event, savedOf (a ++ b) = savedOf a ++ savedOf b) by (intros; apply flat_map_app).
    rewrite I, !SA. destruct (saveDue m sdf fss cont N) eqn:ES.
    + assert (E1 : savedOf (ev (seq 0 (S N))) = savedOf (ev (seq 0 N)) ++ [save x']).
      { unfold ev. rewrite (flat_S _ _ _ _ _ _ _ _ _ _ N), SA. f_equal. unfold stepEvents. rewrite ES, !SA, B.
        destruct (N =? 0), (lineDue m cont N); reflexivity. }
      assert (E2 : savedOf (if st then [EStopped] else [] : list event) = []) by (destruct st; reflexivity).
      assert (E3 : savedOf (if lineDue m cont N then [] else [ELine (lineOf (orbit m x N))] : list event) = []) by (destruct (lineDue m cont N); reflexivity).
      rewrite E1, E2, E3. cbn [app savedOf flat_map]. rewrite !app_nil_r.
      exists (savedOf (if si then [if cont then EContinuing else EHeader] else [] : list event) ++ savedOf (ev (seq 0 N))).
      apply app_assoc.
    + rewrite B. rewrite !app_assoc. eexists. reflexivity.
  - rewrite I. repeat rewrite once_app.
    assert (P : onceSaved false (if si then [if cont then EContinuing else EHeader] else []) /\
      flagAfter false (if si then [if cont then EContinuing else EHeader] else [] : list event) = false) by (destruct si, cont; cbn; auto).
    destruct P as [P1 P2]. rewrite P2. split; [exact P1|]. split; [exact Hf1|]. rewrite Hf2.
    destruct st, (lineDue m cont N), (saveDue m sdf fss cont N); cbn; auto.
Qed.

(** the returned array in the end-time mode with an interval *)
Lemma res_enddt T Dt fuel sdf si fss cont h x x' es r : T <> 0%R -> (getTime x < T)%R ->
  runFrom fuel (EndDt T Dt) sdf si fss cont h x = Some (x', es, r) -> r = linesOf es.
Proof.
  intros H1 H2 E.
  destruct (run_lines getTime advanceBy tstep lineOf save ahStep (EndDt T Dt) sdf fss cont x _ _ _ _ _ _ H1 H2 E)
    as (N & st & A & B & C & D & F & G & G' & I).
  assert (HL : lineDue (EndDt T Dt) cont (N - 1) = true).
  { destruct st; [apply G'; reflexivity|]. apply lineDue_pos; [apply due_enddt|].
    destruct N as [|[|N]]; [lia| |lia]. specialize (F eq_refl). cbn in F. destruct (Rlt_dec (getTime x) T); [discriminate|contradiction]. }
  rewrite I, C, HL. now rewrite app_nil_r.
Qed.
End L.
