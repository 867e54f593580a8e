From Coq Require Import List Arith Bool Reals Lra Lia.
From Verif Require Import AutostopModel AutostopSpec.
Import ListNotations.
Local Open Scope R_scope.

Lemma vmap2_length f a b : length a = length b -> length (vmap2 f a b) = length a.
Proof. intros H. unfold vmap2. rewrite map_length, combine_length. lia. Qed.
Lemma vmap2_nth f a b c d : length a = length b -> (c < length a)%nat -> nth c (vmap2 f a b) d = f (nth c a 0) (nth c b 0).
Proof.
  intros H Hc. unfold vmap2. rewrite (nth_indep _ d (f (fst (0, 0)) (snd (0, 0)))) by (rewrite map_length, combine_length; lia).
  rewrite (map_nth (fun p => f (fst p) (snd p))), combine_nth by auto. reflexivity.
Qed.
Lemma forallb_nth {A} (f : A -> bool) l d : forallb f l = true <-> forall c, (c < length l)%nat -> f (nth c l d) = true.
Proof.
  rewrite forallb_forall. split.
  - intros H c Hc. apply H, nth_In, Hc.
  - intros H x Hx. destruct (In_nth l x d Hx) as [c [Hc <-]]. auto.
Qed.

Lemma sumR_ext n f g : (forall k, (k < n)%nat -> f k = g k) -> sumR n f = sumR n g.
Proof. induction n as [|n IH]; intros H; cbn; auto. rewrite IH, H; auto. Qed.
Lemma sumR_shift n f : sumR (S n) f = f 0%nat + sumR n (fun k => f (S k)).
Proof. induction n as [|n IH]; [cbn; ring|]. change (sumR (S (S n)) f) with (sumR (S n) f + f (S n)). rewrite IH. cbn. ring. Qed.

Lemma seq_last s k : (0 < k)%nat -> seq s k = seq s (k - 1) ++ [(s + (k - 1))%nat].
Proof. intros H. rewrite <- seq_S. f_equal. lia. Qed.

Lemma nth_map0 (f : R -> R) l c : (c < length l)%nat -> nth c (map f l) 0 = f (nth c l 0).
Proof. intros H. rewrite (nth_indep _ 0 (f 0)) by (rewrite map_length; lia). apply map_nth. Qed.

Lemma sumR_slide k f : sumR k (fun i => f (S i)) = sumR k f + (f k - f 0%nat).
Proof. induction k as [|k IH]; cbn [sumR]; [ring|]. rewrite IH. ring. Qed.

Section P.
Variables eps epsAbs : R.
Variable n w : nat.
Hypothesis Hn : (0 < n)%nat.
Hypothesis Hw : (0 < w)%nat.
Hypothesis Ha : 0 < epsAbs.
Variable records : list (list R).
Hypothesis Hrec : forall r, In r records -> length r = w.
Notation handle := (handle eps epsAbs n).
Notation feed := (feed eps epsAbs n).
Notation clip := (clip epsAbs).

Lemma clip_pos v : 0 < Rabs (clip v).
Proof. unfold AutostopModel.clip. destruct (Rlt_dec (Rabs v) epsAbs); [rewrite Rabs_right; lra|]. lra. Qed.

Definition buf (i : nat) : list R := map clip (nth i records []).
Lemma buf_length i : (i < length records)%nat -> length (buf i) = w.
Proof. intros H. unfold buf. rewrite map_length. apply Hrec, nth_In, H. Qed.
Lemma buf_nth i c : (i < length records)%nat -> (c < w)%nat -> nth c (buf i) 0 = col epsAbs records i c.
Proof.
  intros Hi Hc. unfold buf. rewrite (nth_indep _ 0 (clip 0)) by (rewrite map_length, Hrec; auto using nth_In). rewrite map_nth. reflexivity.
Qed.

(** state before record number j >= 1: the queue holds the last min(j-1,n) records, the averages their means *)
Definition qlen (j : nat) : nat := Nat.min (j - 1) n.
Definition Inv (j : nat) (h : handler) : Prop :=
  length (averages h) = w /\ queue h = map buf (seq (j - qlen j) (qlen j)) /\
  ((0 < qlen j)%nat -> forall c, (c < w)%nat -> nth c (averages h) 0 = mean epsAbs records (qlen j) j c).

Lemma Inv_first r : length r = w -> handle newHandler r = Some (mkHandler (map (fun _ => 0) (map clip r)) []).
Proof. intros H. unfold AutostopModel.handle. destruct (Nat.eqb_spec n 0); [lia|]. reflexivity. Qed.
Lemma Inv1 r : length r = w -> Inv 1 (mkHandler (map (fun _ => 0) (map clip r)) []).
Proof. intros H. unfold Inv, qlen. cbn. rewrite !map_length. split; [auto|]. split; [reflexivity|lia]. Qed.

Lemma handle_inv j h : (1 <= j < length records)%nat -> Inv j h ->
  match handle h (nth j records []) with
  | None => (n + 1 <= j)%nat /\ settled eps epsAbs w records n j
  | Some h' => Inv (S j) h' /\ ~ ((n + 1 <= j)%nat /\ settled eps epsAbs w records n j)
  end.
Proof.
  intros Hj (I1 & I2 & I3). unfold AutostopModel.handle. fold (buf j).
  destruct (Nat.eqb_spec n 0); [lia|]. destruct (Nat.eqb_spec (length (averages h)) 0); [lia|].
  assert (Lb : length (buf j) = w) by (apply buf_length; lia).
  assert (LQ : length (queue h) = qlen j) by (rewrite I2, map_length, seq_length; reflexivity).
  rewrite LQ. destruct (Nat.eqb_spec (qlen j) n) as [E|E].
  - (* full queue *)
    assert (Hj2 : (n + 1 <= j)%nat) by (unfold qlen in E; lia).
    rewrite E in *. specialize (I3 Hn).
    assert (C : forallb (below eps) (vmap2 deviation (averages h) (buf j)) = true <-> settled eps epsAbs w records n j).
    { rewrite (forallb_nth _ _ 0). rewrite vmap2_length by lia. rewrite I1. unfold settled.
      split; intros H c Hc; specialize (H c Hc).
      - rewrite vmap2_nth, I3, buf_nth in H by lia. cbv zeta. unfold below, deviation in H.
        set (m := mean epsAbs records n j c) in *. pose proof (clip_pos (nth c (nth j records []) 0)) as P.
        change (clip (nth c (nth j records []) 0)) with (col epsAbs records j c) in P.
        set (v := col epsAbs records j c) in *. destruct (Rlt_dec _ eps) as [L|]; [|discriminate].
        assert (D : 0 < Rabs m + Rabs v) by (pose proof (Rabs_pos m); lra).
        apply (Rmult_lt_compat_r (Rabs m + Rabs v)) in L; auto. unfold Rdiv in L. rewrite Rmult_assoc, Rinv_l in L by lra. lra.
      - rewrite vmap2_nth, I3, buf_nth by lia. cbv zeta in H. unfold below, deviation.
        set (m := mean epsAbs records n j c) in *. pose proof (clip_pos (nth c (nth j records []) 0)) as P.
        change (clip (nth c (nth j records []) 0)) with (col epsAbs records j c) in P.
        set (v := col epsAbs records j c) in *. destruct (Rlt_dec _ eps) as [L|L]; [reflexivity|].
        assert (D : 0 < Rabs m + Rabs v) by (pose proof (Rabs_pos m); lra).
        exfalso. apply L. apply (Rmult_lt_reg_r (Rabs m + Rabs v)); auto. unfold Rdiv. rewrite Rmult_assoc, Rinv_l by lra. lra. }
    destruct (forallb _ _) eqn:F.
    + split; [auto|]. now apply C.
    + assert (Q : queue h = buf (j - n) :: map buf (seq (S (j - n)) (n - 1))).
      { rewrite I2. replace n with (S (n - 1)) at 2 by lia. reflexivity. }
      rewrite Q. split.
      * assert (Lf : length (buf (j - n)) = w) by (apply buf_length; lia).
        assert (LL : length (map (fun d => d / INR n) (vmap2 Rminus (buf j) (buf (j - n)))) = w) by (rewrite map_length, vmap2_length; lia).
        unfold Inv. cbn [averages queue]. assert (E2 : qlen (S j) = n) by (unfold qlen; lia). rewrite E2. split; [|split].
        -- rewrite vmap2_length; lia.
        -- replace (S j - n)%nat with (S (j - n)) by lia. rewrite (seq_last _ n) by lia.
           rewrite map_app. cbn [map]. do 3 f_equal. lia.
        -- intros _ c Hc. rewrite vmap2_nth by lia.
           rewrite nth_map0, vmap2_nth, I3, !buf_nth by (try rewrite vmap2_length; lia).
           unfold mean. replace (S j - n)%nat with (S (j - n)) by lia.
           assert (S1 : sumR n (fun k => col epsAbs records (S (j - n) + k) c) = sumR n (fun k => col epsAbs records (j - n + k) c) + (col epsAbs records j c - col epsAbs records (j - n) c)).
           { rewrite (sumR_ext n _ (fun k => col epsAbs records (j - n + S k) c)) by (intros k _; f_equal; lia).
             rewrite (sumR_slide n (fun k => col epsAbs records (j - n + k) c)). cbv beta. do 2 f_equal; f_equal; lia. }
           rewrite S1. assert (INR n <> 0) by (apply not_0_INR; lia). field. auto.
      * intros [_ HS]. apply C in HS. discriminate.
  - (* filling *)
    assert (Hq : qlen j = (j - 1)%nat) by (unfold qlen in *; lia). assert (Hlt : (j - 1 < n)%nat) by (unfold qlen in E; lia).
    split; [|lia]. rewrite Hq in *.
    unfold Inv. cbn [averages queue]. assert (E2 : qlen (S j) = j) by (unfold qlen; lia). rewrite E2. split; [|split].
    + rewrite vmap2_length; lia.
    + rewrite I2. replace (j - (j - 1))%nat with 1%nat by lia. replace (S j - j)%nat with 1%nat by lia.
      rewrite (seq_last _ j) by lia. rewrite map_app. cbn [map]. do 3 f_equal. lia.
    + intros _ c Hc. rewrite vmap2_nth, buf_nth by lia.
      unfold mean. replace (S j - j)%nat with 1%nat by lia.
      replace (sumR j (fun k => col epsAbs records (1 + k) c)) with (sumR (j - 1) (fun k => col epsAbs records (1 + k) c) + col epsAbs records j c).
      2: { replace j with (S (j - 1)) at 3 by lia. cbn [sumR]. do 2 f_equal. lia. }
      replace (j - 1 + 1)%nat with j by lia.
      destruct (Nat.eq_dec j 1) as [->|Hj1].
      * cbn. field.
      * rewrite (I3 ltac:(lia) c Hc). unfold mean. replace (j - (j - 1))%nat with 1%nat by lia.
        assert (INR (j - 1) <> 0) by (apply not_0_INR; lia). assert (INR j <> 0) by (apply not_0_INR; lia). field. auto.
Qed.

Definition stopCond (j : nat) : Prop := (n + 1 <= j < length records)%nat /\ settled eps epsAbs w records n j.

Lemma feed_inv : forall m j h, (j + m = length records)%nat -> (1 <= j)%nat -> Inv j h ->
  match feed h (skipn j records) with
  | Some k => stopCond (j + k) /\ forall i, (j <= i < j + k)%nat -> ~ stopCond i
  | None => forall i, (j <= i)%nat -> ~ stopCond i
  end.
Proof.
  induction m as [|m IH]; intros j h Hm Hj HI.
  - rewrite skipn_all2 by lia. cbn. intros i Hi [Hc _]. lia.
  - assert (Sk : skipn j records = nth j records [] :: skipn (S j) records).
    { clear - Hm. assert (H : (j < length records)%nat) by lia. clear Hm. revert j H. induction records as [|r rs IHr]; intros j H; cbn in H; [lia|].
      destruct j; [reflexivity|]. cbn [skipn nth]. apply IHr. lia. }
    rewrite Sk. cbn [AutostopModel.feed]. pose proof (handle_inv j h ltac:(lia) HI) as HH.
    destruct (handle h (nth j records [])) as [h'|].
    + destruct HH as [HI' Hno]. specialize (IH (S j) h' ltac:(lia) ltac:(lia) HI').
      destruct (feed h' (skipn (S j) records)) as [k|]; cbn [option_map].
      * destruct IH as [A B]. replace (S j + k)%nat with (j + S k)%nat in * by lia. split; [auto|].
        intros i Hi. destruct (Nat.eq_dec i j) as [->|]; [|apply B; lia]. intros [H1 H2]. apply Hno. split; [lia|auto].
      * intros i Hi. destruct (Nat.eq_dec i j) as [->|]; [|apply IH; lia]. intros [H1 H2]. apply Hno. split; [lia|auto].
    + rewrite Nat.add_0_r. destruct HH as [H1 H2]. split; [split; [lia|auto]|]. intros; lia.
Qed.

Lemma stops_first : match stopsAt eps epsAbs n records with
  | Some j => stopCond j /\ forall i, (i < j)%nat -> ~ stopCond i
  | None => forall i, ~ stopCond i
  end.
Proof.
  unfold stopsAt. destruct (Nat.eq_dec (length records) 0) as [L|L].
  - apply length_zero_iff_nil in L. replace (feed newHandler records) with (@None nat) by (rewrite L; reflexivity). intros i [H _]. rewrite L in H. cbn in H. lia.
  - assert (E : records = hd [] records :: skipn 1 records) by (destruct records; [now elim L|reflexivity]).
    set (r := hd [] records) in *. assert (Hr : length r = w) by (apply Hrec; rewrite E; now left).
    assert (F0 : feed newHandler records = option_map S (feed (mkHandler (map (fun _ => 0) (map clip r)) []) (skipn 1 records))).
    { rewrite E at 1. cbn [AutostopModel.feed]. rewrite Inv_first by auto. reflexivity. }
    rewrite F0. pose proof (feed_inv (length records - 1) 1 _ ltac:(lia) ltac:(lia) (Inv1 r Hr)) as F.
    destruct (feed _ (skipn 1 records)) as [k|]; cbn [option_map].
    + destruct F as [A B]. split; [exact A|]. intros i Hi. destruct i as [|i]; [intros [H _]; lia|]. apply B. lia.
    + intros i. destruct i as [|i]; [intros [H _]; lia|]. apply F. lia.
Qed.
End P.

Lemma no_repetition eps epsAbs records : stopsAt eps epsAbs 0 records = None.
Proof. unfold stopsAt. generalize newHandler. induction records as [|r rs IH]; intros h; cbn; auto. now rewrite IH. Qed.
