From Coq Require Import List Arith Bool Reals Lra Lia.
From Verif Require Import RunModel RunSpec RunProofs RunLemmas TimeAvModel TimeAvSpec.
Import ListNotations.
Local Open Scope nat_scope.

Section F.
Variable tau : R.
Definition follow (a : averaging) (l : list sample) : averaging := fold_left (fun a s => streamSample tau s a) l a.
Lemma follow_app a l k : follow a (l ++ k) = follow (follow a l) k.
Proof. apply fold_left_app. Qed.

(** what [averaging] is after samples *)
Definition holds (n : nat) (l : list sample) (a : averaging) : Prop :=
  averages a = timeMeans tau l n /\ amount a = length (relaxed tau l).
Lemma relaxed_app l k : relaxed tau (l ++ k) = relaxed tau l ++ relaxed tau k.
Proof. apply filter_app. Qed.
Lemma total_app j l k : total j (l ++ k) = (total j l + total j k)%R.
Proof. unfold total. induction l as [|x l IH]; cbn [map app fold_right]; [ring|]. rewrite IH. ring. Qed.
Lemma zipWith_length f a : forall b, length a = length b -> length (zipWith f a b) = length a.
Proof. induction a as [|x a IH]; intros [|y b] H; cbn in *; auto; try discriminate. Qed.
Lemma zipWith_nth f a : forall b j, length a = length b -> j < length a -> nth j (zipWith f a b) 0%R = f (nth j a 0%R) (nth j b 0%R).
Proof. induction a as [|x a IH]; intros [|y b] j H Hj; cbn in *; try lia. destruct j; auto. apply IH; lia. Qed.
Lemma timeMeans_length l n : length (timeMeans tau l n) = n.
Proof. unfold timeMeans. destruct (relaxed tau l); [apply repeat_length|]. now rewrite map_length, seq_length. Qed.
Lemma timeMeans_nth l n j : j < n -> nth j (timeMeans tau l n) 0%R = timeMean tau l j.
Proof.
  intros H. unfold timeMeans. destruct (relaxed tau l) eqn:E.
  - rewrite nth_repeat. unfold timeMean. rewrite E. cbn. unfold Rdiv. now rewrite Rmult_0_l.
  - rewrite nth_indep with (d' := timeMean tau l 0) by (now rewrite map_length, seq_length). rewrite map_nth, seq_nth by exact H. reflexivity.
Qed.
Lemma holds_init n : holds n [] (constructed n).
Proof. split; reflexivity. Qed.
Lemma holds_step n l a s : holds n l a -> length (snd s) = n -> holds n (l ++ [s]) (streamSample tau s a).
Proof.
  intros [H1 H2] Hs. unfold holds, streamSample. destruct (Rlt_dec tau (fst s)) as [Ht|Ht].
  - assert (E : relaxed tau (l ++ [s]) = relaxed tau l ++ [s]).
    { rewrite relaxed_app. f_equal. unfold relaxed. cbn. now destruct (Rlt_dec tau (fst s)). }
    cbn [averages amount]. split.
    + apply nth_ext with (d := 0%R) (d' := 0%R).
      * rewrite zipWith_length; rewrite H1, ?timeMeans_length; auto.
      * rewrite zipWith_length by (rewrite H1, timeMeans_length; auto). rewrite H1, timeMeans_length. intros j Hj.
        rewrite zipWith_nth by (rewrite ?timeMeans_length; auto). rewrite !timeMeans_nth by exact Hj. unfold timeMean. rewrite E, total_app, app_length, H2.
        cbn [length]. rewrite plus_INR. change (INR 1) with 1%R.
        assert (P : (0 <= INR (length (relaxed tau l)))%R) by apply pos_INR.
        replace (total j [s]) with (nth j (snd s) 0%R) by (unfold total; cbn; lra).
        destruct (Nat.eq_dec (length (relaxed tau l)) 0) as [Z|Z].
        -- rewrite Z. apply length_zero_iff_nil in Z. rewrite Z. unfold total. cbn. unfold Rdiv. rewrite !Rmult_0_l, !Rplus_0_l. reflexivity.
        -- assert (Q : INR (length (relaxed tau l)) <> 0%R) by (now apply not_0_INR). field. split; [lra|exact Q].
    + rewrite E, app_length, H2. reflexivity.
  - assert (E : relaxed tau (l ++ [s]) = relaxed tau l).
    { rewrite relaxed_app. unfold relaxed at 2. cbn. destruct (Rlt_dec tau (fst s)); [contradiction|]. apply app_nil_r. }
    split; [|rewrite E; exact H2]. rewrite H1. unfold timeMeans, timeMean. now rewrite E.
Qed.
Lemma holds_follow n k : forall l a, holds n l a -> (forall s, In s k -> length (snd s) = n) -> holds n (l ++ k) (follow a k).
Proof.
  induction k as [|s k IH]; intros l a H Hk; [now rewrite app_nil_r|].
  change (s :: k) with ([s] ++ k). rewrite app_assoc. cbn [app follow fold_left]. apply IH; [|intros; apply Hk; now right].
  apply holds_step; [exact H|]. apply Hk. now left.
Qed.
End F.

Section E.
Context {Traj Saved : Type}.
Notation event := (@event Traj sample Saved).
Variable process : list R -> list R.
Variable tau : R.
Notation onEvent := (@onEvent Traj Saved tau).
Lemma events_follow (es : list event) : forall a, fold_left onEvent es a = follow tau a (linesOf es).
Proof. induction es as [|e es IH]; intros a; [reflexivity|]. cbn [fold_left]. rewrite IH. destruct e; reflexivity. Qed.
Lemma savedWith_app (u v : list event) : forall a, savedWith tau a (u ++ v) = savedWith tau a u ++ savedWith tau (follow tau a (linesOf u)) v.
Proof. induction u as [|e u IH]; intros a; [reflexivity|]. destruct e; cbn [app savedWith]; rewrite ?IH; reflexivity. Qed.
Lemma displayed_app (u v : list event) : forall a, displayed process tau a (u ++ v) = displayed process tau a u ++ displayed process tau (follow tau a (linesOf u)) v.
Proof. induction u as [|e u IH]; intros a; [reflexivity|]. destruct e; cbn [app displayed]; rewrite ?IH; reflexivity. Qed.
Lemma savedWith_none (es : list event) : (forall s, ~ In (ESave s) es) -> forall a, savedWith tau a es = [].
Proof. induction es as [|e es IH]; intros H a; [reflexivity|]. assert (H' : forall s, ~ In (ESave s) es) by (intros s Hs; apply (H s); now right).
  destruct e; cbn [savedWith]; try apply IH; auto. exfalso. apply (H s). now left. Qed.
Lemma displayed_none (es : list event) : ~ In ELog es -> forall a, displayed process tau a es = [].
Proof. induction es as [|e es IH]; intros H a; [reflexivity|]. assert (H' : ~ In ELog es) by (intros Hs; apply H; now right).
  destruct e; cbn [displayed]; try apply IH; auto. exfalso. apply H. now left. Qed.
Lemma last_snoc {A} (l : list A) x d : last (l ++ [x]) d = x.
Proof. apply last_last. Qed.
Lemma last_cons {A} (l : list A) : forall x d d', l <> [] -> last (x :: l) d = last l d'.
Proof. induction l as [|y l IH]; intros x d d' H; [congruence|]. destruct l as [|w l]; [reflexivity|]. change (last (x :: y :: w :: l) d) with (last (y :: w :: l) d). rewrite (IH y d d'); [reflexivity|discriminate]. Qed.
Lemma resumed_at (u v : list event) s a : (forall s', ~ In (ESave s') v) ->
  resumedFrom tau a (u ++ ESave s :: v) = Some (s, follow tau a (linesOf u)).
Proof.
  intros H. unfold resumedFrom. rewrite savedWith_app. cbn [savedWith]. rewrite (savedWith_none v H). rewrite map_app. apply last_snoc.
Qed.
End E.

Section S.
Context {Traj Saved AH : Type}.
Variable getTime : Traj -> R.
Variable advanceBy tstep : Traj -> R -> Traj.
Variable lineOf : Traj -> sample.
Variable save : Traj -> Saved.
Variable load : Saved -> Traj -> option Traj.
Variable ahStep : AH -> sample -> option AH.
Notation event := (@event Traj sample Saved).
Notation session := (@session Traj Saved AH getTime advanceBy tstep lineOf save ahStep).
Notation stepEvents := (stepEvents getTime advanceBy tstep lineOf save).
Variable process : list R -> list R.
Variable tau : R.

Lemma step_no_log m sdf fss cont x N : ~ In (ELog : event) (flat_map (stepEvents m sdf fss cont x) (seq 0 N)).
Proof.
  intros H. apply in_flat_map in H. destruct H as [j [_ Hj]]. unfold RunSpec.stepEvents in Hj. rewrite !in_app_iff in Hj.
  destruct (j =? 0), (saveDue m sdf fss cont j), (lineDue m cont j); cbn in Hj; intuition discriminate.
Qed.
(** the lines, the display at the end and the last record of a session *)
Lemma session_facts fuel m sdf si fss cont h x x' es r : timeToReach getTime m x <> 0%R -> (getTime x < timeToReach getTime m x)%R ->
  runFrom getTime advanceBy tstep lineOf save ahStep fuel m sdf si fss cont h x = Some (x', es, r) -> forall a,
  displayed process tau a es = [process (averages (follow tau a (linesOf es)))] /\
  (forall s, In s (linesOf es) -> exists y, s = lineOf y) /\
  (exists k l, linesOf es = l ++ [lineOf x'] /\ x' = orbit getTime advanceBy tstep m x k /\ (forall i, (i <= k)%nat -> cond getTime m i (orbit getTime advanceBy tstep m x (i - 1)) = true) /\
     (~ In EStopped es -> cond getTime m (S k) x' = false) /\
     (saveDue m sdf fss cont k = false /\ savedLast es /\ resumedFrom tau a es = Some (save x', follow tau a (linesOf es)) \/
      saveDue m sdf fss cont k = true /\ ~ savedLast es /\ resumedFrom tau a es = Some (save x', follow tau a l))).
Proof.
  intros H1 H2 H3 a. destruct (run_trace getTime advanceBy tstep lineOf save ahStep m sdf fss cont x fuel si h x' es r H1 H2 H3) as (N & st & A & B & C & D & F & G & I).
  destruct N as [|N]; [lia|]. replace (S N - 1) with N in * by lia.
  set (hd := if si then [if cont then EContinuing else EHeader] else [] : list event) in I.
  set (stp := if st then [EStopped] else [] : list event) in I.
  assert (LH : linesOf hd = []) by (unfold hd; destruct si, cont; reflexivity).
  assert (LS : linesOf stp = []) by (unfold stp; destruct st; reflexivity).
  assert (NS : ~ In EStopped es -> st = false).
  { intros H. destruct st; [|reflexivity]. exfalso. apply H. rewrite I, !in_app_iff. right. right. left. now left. }
  set (ev := flat_map (stepEvents m sdf fss cont x)) in I.
  assert (EV : ev (seq 0 (S N)) = ev (seq 0 N) ++ stepEvents m sdf fss cont x N) by (unfold ev; apply flat_S).
  assert (NLH : ~ In (ELog : event) hd) by (unfold hd; destruct si, cont; cbn; intuition discriminate).
  assert (NLE : forall k, ~ In (ELog : event) (ev (seq 0 k))) by (intros k; apply step_no_log).
  set (rest := if lineDue m cont N then [] else [ELine (lineOf (orbit getTime advanceBy tstep m x N))] : list event) in I.
  set (sv := if saveDue m sdf fss cont N then [] else [ESave (save (orbit getTime advanceBy tstep m x N))] : list event) in I.
  assert (LV : linesOf sv = []) by (unfold sv; destruct (saveDue m sdf fss cont N); reflexivity).
  assert (LE : linesOf es = linesOf (ev (seq 0 (S N))) ++ linesOf rest).
  { rewrite I, !linesOf_app, LH, LS, LV. change (linesOf [ELog]) with (@nil sample). rewrite !app_nil_r. reflexivity. }
  assert (LN : linesOf (stepEvents m sdf fss cont x N) ++ linesOf rest = [lineOf x']).
  { unfold RunSpec.stepEvents, rest. rewrite !linesOf_app. rewrite B. destruct (N =? 0), (saveDue m sdf fss cont N), (lineDue m cont N); reflexivity. }
  assert (LL : linesOf es = linesOf (ev (seq 0 N)) ++ [lineOf x']) by (rewrite LE, EV, linesOf_app, <- app_assoc, LN; reflexivity).
  split; [|split].
  - rewrite I. replace (hd ++ ev (seq 0 (S N)) ++ stp ++ rest ++ [ELog] ++ sv) with ((hd ++ ev (seq 0 (S N)) ++ stp ++ rest) ++ ELog :: sv) by (rewrite <- !app_assoc; reflexivity).
    rewrite displayed_app, displayed_none.
    2:{ rewrite !in_app_iff. intros [Q|[Q|[Q|Q]]]; [exact (NLH Q)|exact (NLE _ Q)| |].
        - unfold stp in Q. destruct st; cbn in Q; intuition discriminate.
        - unfold rest in Q. destruct (lineDue m cont N); cbn in Q; intuition discriminate. }
    cbn [app displayed]. rewrite displayed_none by (unfold sv; destruct (saveDue m sdf fss cont N); cbn; intuition discriminate).
    rewrite !linesOf_app. change (ELog :: sv) with ([ELog] ++ sv). rewrite linesOf_app, LH, LS, LV. change (linesOf [ELog]) with (@nil sample). now rewrite !app_nil_r.
  - intros s Hs. rewrite LL in Hs. apply in_app_iff in Hs. destruct Hs as [Hs|[Hs|[]]]; [|eauto].
    unfold linesOf in Hs. apply in_flat_map in Hs. destruct Hs as [e [He Hs]]. destruct e; cbn in Hs; try contradiction. destruct Hs as [Hs|[]]; subst.
    unfold ev in He. apply in_flat_map in He. destruct He as [j [_ He]]. unfold RunSpec.stepEvents in He. rewrite !in_app_iff in He.
    destruct (j =? 0), (saveDue m sdf fss cont j), (lineDue m cont j); cbn in He; destruct He as [He|[He|He]]; repeat (destruct He as [He|He]); try contradiction; try discriminate; inversion He; eauto.
  - exists N, (linesOf (ev (seq 0 N))). split; [exact LL|]. split; [exact B|]. split; [intros i Hi; apply D; lia|]. split; [rewrite B; intros Q; apply F; auto|].
    destruct (saveDue m sdf fss cont N) eqn:SD.
    + right. split; [reflexivity|]. split.
      * intros (es' & s & Q). rewrite I in Q. unfold sv in Q. rewrite app_nil_r in Q. rewrite !app_assoc in Q. apply app_inj_tail in Q. destruct Q as [_ Q]. discriminate.
      * rewrite I, EV. unfold RunSpec.stepEvents. rewrite SD.
        set (ad := if N =? 0 then [] else [EAdvance (orbit getTime advanceBy tstep m x N)] : list event).
        set (ln := if lineDue m cont N then [ELine (lineOf (orbit getTime advanceBy tstep m x N))] else [] : list event).
        replace (hd ++ (ev (seq 0 N) ++ ad ++ [ESave (save (orbit getTime advanceBy tstep m x N))] ++ ln) ++ stp ++ rest ++ [ELog] ++ sv)
          with ((hd ++ ev (seq 0 N) ++ ad) ++ ESave (save (orbit getTime advanceBy tstep m x N)) :: (ln ++ stp ++ rest ++ [ELog] ++ sv)) by (rewrite <- !app_assoc; reflexivity).
        rewrite resumed_at.
        -- rewrite !linesOf_app, LH. replace (linesOf ad) with (@nil sample) by (unfold ad; destruct (N =? 0); reflexivity). rewrite app_nil_r, <- B. reflexivity.
        -- intros s. unfold ln, stp, rest, sv. rewrite !in_app_iff. destruct (lineDue m cont N), st; cbn; intuition discriminate.
    + left. split; [reflexivity|]. unfold sv in I. split.
      * exists (hd ++ ev (seq 0 (S N)) ++ stp ++ rest ++ [ELog]), (save (orbit getTime advanceBy tstep m x N)). rewrite I, <- !app_assoc. reflexivity.
      * replace (linesOf es) with (linesOf (hd ++ ev (seq 0 (S N)) ++ stp ++ rest ++ [ELog])).
        -- rewrite I. replace (hd ++ ev (seq 0 (S N)) ++ stp ++ rest ++ [ELog] ++ [ESave (save (orbit getTime advanceBy tstep m x N))])
             with ((hd ++ ev (seq 0 (S N)) ++ stp ++ rest ++ [ELog]) ++ ESave (save (orbit getTime advanceBy tstep m x N)) :: []) by (rewrite <- !app_assoc; reflexivity).
           rewrite resumed_at by (intros s []). now rewrite <- B.
        -- rewrite LE, !linesOf_app, LH, LS. change (linesOf [ELog]) with (@nil sample). now rewrite !app_nil_r.
Qed.

Variable n : nat.
Hypothesis columns : forall y, length (snd (lineOf y)) = n.

Lemma session_display c x x' es : session c x x' es -> displayed process tau (constructed n) es = [process (timeMeans tau (linesOf es) n)].
Proof.
  intros (fuel & m & sdf & si & fss & h & r & H1 & H2 & H3). destruct (session_facts _ _ _ _ _ _ _ _ _ _ _ H1 H2 H3 (constructed n)) as (A & B & _). rewrite A. do 2 f_equal.
  apply (holds_follow tau n (linesOf es) [] (constructed n) (holds_init tau n)). intros s Hs. destruct (B s Hs) as [y ->]. apply columns.
Qed.

Notation sessions := (@sessions Traj Saved AH getTime advanceBy tstep lineOf save load ahStep tau).
Lemma sessions_display c x a l : sessions c x a l -> forall k, holds tau n k a ->
  (forall e, In e (removelast l) -> savedLast (snd e)) ->
  exists e, last l (a, []) = e /\ displayed process tau (fst e) (snd e) = [process (timeMeans tau (k ++ flat_map (fun e => linesOf (snd e)) l) n)].
Proof.
  intros H. induction H as [c x a x' es Hs|c x a x' es s a' y z l Hs Hr Hl Hrest IH]; intros k Hk Hsv.
  - eexists; split; [reflexivity|]. destruct Hs as (fuel & m & sdf & si & fss & h & r & H1 & H2 & H3).
    destruct (session_facts _ _ _ _ _ _ _ _ _ _ _ H1 H2 H3 a) as (A & B & _). cbn [last fst snd flat_map]. rewrite A, app_nil_r. do 2 f_equal.
    apply (holds_follow tau n (linesOf es) k a Hk). intros q Hq. destruct (B q Hq) as [w ->]. apply columns.
  - assert (NE : l <> []) by (inversion Hrest; discriminate).
    destruct Hs as (fuel & m & sdf & si & fss & h & r & H1 & H2 & H3).
    destruct (session_facts _ _ _ _ _ _ _ _ _ _ _ H1 H2 H3 a) as (A & B & K & l0 & _ & _ & _ & _ & C).
    assert (SL : savedLast es). { apply (Hsv (a, es)). destruct l; [congruence|]. now left. }
    destruct C as [(_ & _ & C)|(_ & C & _)]; [|contradiction]. rewrite C in Hr. inversion Hr; subst.
    destruct (IH (k ++ linesOf es)) as (e & E1 & E2).
    + apply (holds_follow tau n (linesOf es) k a Hk). intros q Hq. destruct (B q Hq) as [w ->]. apply columns.
    + intros e He. apply Hsv. destruct l; [congruence|]. now right.
    + exists e. split.
      * rewrite <- E1. now apply last_cons.
      * rewrite E2. cbn [flat_map snd]. now rewrite app_assoc.
Qed.

(** the last sample is lost if the number of intervals is a multiple of the period of saving *)
Lemma ndt_saved_last N Dt sdf fuel si fss c h x x' es r : (0 < N)%nat -> (0 < Dt)%R -> (getTime x + INR N * Dt <> 0)%R -> ~ In EStopped es ->
  runFrom getTime advanceBy tstep lineOf save ahStep fuel (NDt N Dt) sdf si fss c h x = Some (x', es, r) ->
  savedLast es <-> sdf = 0 \/ N mod sdf <> 0.
Proof.
  intros HN HD Ht Hs E. change (timeToReach getTime (NDt N Dt) x <> 0%R) in Ht.
  assert (Hlt : (getTime x < timeToReach getTime (NDt N Dt) x)%R).
  { cbn. apply lt_INR in HN. cbn in HN. assert (0 < INR N * Dt)%R by (apply Rmult_lt_0_compat; lra). lra. }
  destruct (session_facts _ _ _ _ _ _ _ _ _ _ _ Ht Hlt E (constructed n)) as (_ & _ & k & l & _ & _ & K1 & K2 & C).
  specialize (K2 Hs). cbn [cond] in K2. apply Nat.leb_gt in K2. pose proof (K1 k (le_n k)) as K3. cbn [cond] in K3. apply Nat.leb_le in K3. assert (k = N) by lia. subst k.
  assert (DC : forall j, dueCount (NDt N Dt) j = j).
  { intros j. unfold dueCount. rewrite filter_all by (intros; apply due_ndt). apply seq_length. }
  assert (SD : saveDue (NDt N Dt) sdf fss c N = negb (sdf =? 0) && (N mod sdf =? 0)).
  { unfold saveDue. rewrite due_ndt, DC. destruct N; [lia|]. cbn [Nat.eqb negb orb andb]. now rewrite andb_true_r. }
  rewrite SD in C. destruct (Nat.eqb_spec sdf 0) as [->|Z].
  - cbn in C. destruct C as [(_ & C & _)|(C & _)]; [|discriminate]. split; auto.
  - cbn [negb andb] in C. destruct (Nat.eqb_spec (N mod sdf) 0) as [M|M].
    + destruct C as [(C & _)|(_ & C & _)]; [discriminate|]. split; [contradiction|]. intros [Q|Q]; contradiction.
    + destruct C as [(_ & C & _)|(C & _)]; [|discriminate]. split; auto.
Qed.

Lemma not_last_lost c x x' es a s a' : session c x x' es -> ~ savedLast es -> resumedFrom tau a es = Some (s, a') -> exists l, linesOf es = l ++ [lineOf x'] /\ s = save x' /\ a' = follow tau a l.
Proof.
  intros (fuel & m & sdf & si & fss & h & r & H1 & H2 & H3) NL Hr.
  destruct (session_facts _ _ _ _ _ _ _ _ _ _ _ H1 H2 H3 a) as (_ & _ & K & l & L & _ & _ & _ & C).
  destruct C as [(_ & C & _)|(_ & _ & C)]; [contradiction|]. rewrite C in Hr. inversion Hr; subst. eauto.
Qed.
(** two sessions, the first of which did not end by saving *)
Lemma lost c x1 es1 es2 a2 : sessions c x1 (constructed n) [(constructed n, es1); (a2, es2)] -> ~ savedLast es1 ->
  displayed process tau a2 es2 = [process (timeMeans tau (removelast (linesOf es1) ++ linesOf es2) n)].
Proof.
  intros H NL. inversion H as [|c' x a x' es s a' y z l Hs Hr Hl Hrest]; subst.
  inversion Hrest as [c2 w a w' es2' Hs2|]; subst; [|match goal with H : sessions _ _ _ [] |- _ => inversion H end].
  destruct (not_last_lost _ _ _ _ _ _ _ Hs NL Hr) as (l0 & L & -> & ->).
  destruct Hs2 as (fuel & m & sdf & si & fss & h & r & H1 & H2 & H3).
  destruct (session_facts _ _ _ _ _ _ _ _ _ _ _ H1 H2 H3 (follow tau (constructed n) l0)) as (A & B & _). rewrite A. do 2 f_equal.
  rewrite L, removelast_last.
  assert (P : forall s, In s (linesOf es1) -> length (snd s) = n).
  { destruct Hs as (fuel' & m' & sdf' & si' & fss' & h' & r' & G1 & G2 & G3).
    destruct (session_facts _ _ _ _ _ _ _ _ _ _ _ G1 G2 G3 (constructed n)) as (_ & B' & _). intros s Hs. destruct (B' s Hs) as [q ->]. apply columns. }
  apply (holds_follow tau n (linesOf es2) l0).
  - apply (holds_follow tau n l0 [] (constructed n) (holds_init tau n)). intros q Hq. apply P. rewrite L. apply in_app_iff. now left.
  - intros q Hq. destruct (B q Hq) as [w0 ->]. apply columns.
Qed.
End S.
