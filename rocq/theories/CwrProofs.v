From Coq Require Import List Arith Bool Lia FinFun.
From Verif Require Import CwrModel.
Import ListNotations.

(** the enumeration the table is compared with *)
Fixpoint comb (n k : nat) : list (list nat) :=
  match n with
  | O => match k with O => [[]] | _ => [] end
  | S n' => flat_map (fun p => map (cons p) (comb n' (k - p))) (seq 0 (k + 1))
  end.

Lemma binom_0 n : binom n 0 = 1.
Proof. now destruct n. Qed.
Lemma binom_gt : forall n k, n < k -> binom n k = 0.
Proof. induction n as [|n IH]; intros [|k] H; try lia; cbn; auto. rewrite !IH; lia. Qed.
Lemma binom_nn : forall n, binom n n = 1.
Proof. induction n as [|n IH]; cbn; auto. rewrite IH, binom_gt; lia. Qed.

Lemma comb_in : forall n k c, In c (comb n k) <-> length c = n /\ list_sum c = k.
Proof.
  induction n as [|n IH]; intros k c.
  - destruct k; cbn; split.
    + intros [<-|[]]. auto.
    + intros [H _]. destruct c; [now left|discriminate].
    + intros [].
    + intros [H1 H2]. destruct c; [discriminate H2|discriminate H1].
  - cbn [comb]. rewrite in_flat_map. split.
    + intros [p [Hp Hc]]. apply in_seq in Hp. apply in_map_iff in Hc. destruct Hc as [c' [<- Hc]]. apply IH in Hc.
      destruct Hc as [H1 H2]. cbn [length]. change (list_sum (p :: c')) with (p + list_sum c'). lia.
    + intros [H1 H2]. destruct c as [|p c']; [discriminate|]. cbn [length] in H1. change (list_sum (p :: c')) with (p + list_sum c') in H2.
      exists p. split; [apply in_seq; lia|]. apply in_map. apply IH. lia.
Qed.

Lemma NoDup_app {A} (a b : list A) : NoDup a -> NoDup b -> (forall x, In x a -> ~ In x b) -> NoDup (a ++ b).
Proof.
  induction a as [|x a IH]; intros Na Nb D; cbn; auto. inversion Na as [|? ? N1 N2]; subst. constructor.
  - rewrite in_app_iff. intros [I|I]; [contradiction|]. exact (D x (or_introl eq_refl) I).
  - apply IH; auto. intros y I. apply D. now right.
Qed.
Lemma comb_nodup : forall n k, NoDup (comb n k).
Proof.
  induction n as [|n IH]; intros k.
  - destruct k; cbn; repeat constructor. intros [].
  - cbn [comb]. assert (H : forall m s, NoDup (flat_map (fun p => map (cons p) (comb n (k - p))) (seq s m))).
    { induction m as [|m IHm]; intros s; [constructor|]. cbn [seq flat_map]. apply NoDup_app; auto.
      - apply Injective_map_NoDup; [intros a b E; now injection E|auto].
      - intros c I1 I2. apply in_map_iff in I1. destruct I1 as [c1 [<- _]]. apply in_flat_map in I2. destruct I2 as [p [Hp I2]].
        apply in_map_iff in I2. destruct I2 as [c2 [E _]]. injection E as -> _. apply in_seq in Hp. lia. }
    apply H.
Qed.

(** sum of multiChoose n (k-p) over p *)
Lemma hockey n : forall k, list_sum (map (fun p => binom (n + (k - p)) (k - p)) (seq 0 (k + 1))) = binom (S n + k) k.
Proof.
  induction k as [|k IH].
  - cbn. now rewrite !binom_0.
  - replace (S k + 1) with (S (k + 1)) by lia. cbn [seq map]. change (list_sum (?x :: ?l)) with (x + list_sum l).
    rewrite <- seq_shift, map_map.
    rewrite (map_ext (fun x => binom (n + (S k - S x)) (S k - S x)) (fun p => binom (n + (k - p)) (k - p))) by (intros; reflexivity).
    cbn [list_sum fold_right]. change (fold_right Nat.add 0 ?l) with (list_sum l). rewrite IH.
    replace (S n + S k) with (S (S n + k)) by lia. cbn [binom]. replace (n + (S k - 0)) with (S n + k) by lia. replace (S k - 0) with (S k) by lia.
    replace (S (n + k)) with (S n + k) by lia. lia.
Qed.
Lemma flat_map_length' {A B} (f : A -> list B) L : length (flat_map f L) = list_sum (map (fun x => length (f x)) L).
Proof. induction L as [|x L IH]; cbn; auto. rewrite app_length, IH. reflexivity. Qed.
Lemma comb_length : forall n k, length (comb (S n) k) = binom (n + k) k.
Proof.
  induction n as [|n IH]; intros k; cbn [comb]; rewrite flat_map_length'.
  - rewrite binom_nn. 
    replace (k + 1) with (S k) by lia. rewrite seq_S, map_app. unfold list_sum at 1. rewrite fold_right_app. cbn [map fold_right Nat.add].
    rewrite map_length. replace (k - (0 + k)) with 0 by lia. cbn [length Nat.add].
    assert (H : forall m s, s + m <= k -> fold_right Nat.add 1 (map (fun x => length (map (cons x) match k - x with 0 => [[]] | S _ => [] end)) (seq s m)) = 1).
    { induction m as [|m IHm]; intros s Hs; cbn [seq map fold_right]; auto. rewrite IHm by lia. rewrite map_length.
      destruct (k - s) eqn:E; [lia|]. reflexivity. }
    rewrite Nat.sub_diag. cbn [length Nat.add]. apply H. lia.
  - rewrite (map_ext _ (fun p => binom (n + (k - p)) (k - p))).
    + apply hockey.
    + intros p. rewrite map_length. apply IH.
Qed.
Lemma comb_multi n k : 0 < n -> length (comb n k) = multiChoose n k.
Proof. intros H. destruct n as [|n]; [lia|]. rewrite comb_length. unfold multiChoose. f_equal. lia. Qed.

Lemma fillSite_spec : forall o t i site v r s, fillSite t i o site v r s = if (i <=? r) && (r <? i + o) && (s =? site) then v else t r s.
Proof.
  induction o as [|o IH]; intros t i site v r s; cbn [fillSite].
  - destruct (Nat.leb_spec i r), (Nat.ltb_spec r (i + 0)); cbn; auto; lia.
  - rewrite IH. unfold setSite.
    destruct (Nat.leb_spec (S i) r), (Nat.ltb_spec r (S i + o)), (Nat.leb_spec i r), (Nat.ltb_spec r (i + S o)), (Nat.eqb_spec s site), (Nat.eqb_spec r i); cbn; auto; lia.
Qed.

Lemma nth_cons_map (q n : nat) (X : list (list nat)) : n < length X -> nth n (map (cons q) X) [] = q :: nth n X [].
Proof. intros H. rewrite (nth_indep _ [] (q :: [])) by (rewrite map_length; lia). apply (map_nth (cons q)). Qed.

(** the rows from i on hold the configurations of L at the sites from a on, everything else is as in t *)
Definition holds (N a : nat) (t t' : table) (i : nat) (L : list (list nat)) : Prop :=
  forall r s, s < N -> t' r s = if (i <=? r) && (r <? i + length L) && (a <=? s) then nth (s - a) (nth (r - i) L []) 0 else t r s.

Lemma recurse_spec N : forall d t i k, d < N -> holds N (N - 1 - d) t (recurse N d t i k) i (comb (S d) k).
Proof.
  induction d as [|d IH]; intros t i k Hd r s Hs.
  - assert (E : comb 1 k = [[k]]).
    { assert (L : length (comb 1 k) = 1) by (rewrite comb_length; apply binom_nn).
      assert (I : In [k] (comb 1 k)) by (apply comb_in; cbn; lia). destruct (comb 1 k) as [|x [|y l]]; try discriminate. destruct I as [->|[]]. reflexivity. }
    rewrite E. cbn [recurse length]. unfold setSite.
    destruct (Nat.eqb_spec r i) as [->|N1].
    + rewrite Nat.leb_refl. replace (i <? i + 1) with true by (symmetry; apply Nat.ltb_lt; lia). rewrite Nat.sub_diag. cbn [andb nth].
      destruct (Nat.eqb_spec s (N - 1 - 0)), (Nat.leb_spec (N - 1 - 0) s); try lia. subst s. now rewrite Nat.sub_diag.
    + cbn [andb]. destruct (Nat.leb_spec i r), (Nat.ltb_spec r (i + 1)); cbn; auto; lia.
  - set (a := N - 1 - S d). assert (Ea : N - 1 - d = S a) by (unfold a; lia).
    change (comb (S (S d)) k) with (flat_map (fun p => map (cons p) (comb (S d) (k - p))) (seq 0 (k + 1))).
    cbn [recurse]. fold a. replace (N - a - 1) with (S d) by (unfold a; lia).
    set (step := fun (ti : table * nat) putHere => let (t0, i0) := ti in (fillSite (recurse N d t0 i0 (k - putHere)) i0 (multiChoose (S d) (k - putHere)) a putHere, i0 + multiChoose (S d) (k - putHere))).
    generalize (seq 0 (k + 1)). intros L. revert r s Hs.
    change (holds N a t (fst (fold_left step L (t, i))) i (flat_map (fun p => map (cons p) (comb (S d) (k - p))) L)).
    revert t i. induction L as [|q L IHL]; intros t i r s Hs.
    + cbn [fold_left flat_map length fst]. destruct (Nat.leb_spec i r), (Nat.ltb_spec r (i + 0)); cbn [andb]; auto; lia.
    + cbn [fold_left flat_map]. unfold step at 2. set (m := multiChoose (S d) (k - q)).
      set (t1 := fillSite (recurse N d t i (k - q)) i m a q).
      rewrite (IHL t1 (i + m) r s Hs).
      assert (Lm : length (comb (S d) (k - q)) = m) by (apply comb_multi; lia).
      rewrite app_length, map_length, Lm.
      set (rest := flat_map (fun p => map (cons p) (comb (S d) (k - p))) L).
      assert (T1 : t1 r s = if (i <=? r) && (r <? i + m) && (a <=? s) then nth (s - a) (nth (r - i) (map (cons q) (comb (S d) (k - q))) []) 0 else t r s).
      { unfold t1. rewrite fillSite_spec, (IH t i (k - q) ltac:(lia) r s Hs). rewrite Lm, Ea.
        destruct (Nat.leb_spec i r), (Nat.ltb_spec r (i + m)); cbn [andb]; auto.
        rewrite nth_cons_map by lia.
        destruct (Nat.eqb_spec s a) as [->|N1].
        - rewrite Nat.leb_refl, Nat.sub_diag. reflexivity.
        - destruct (Nat.leb_spec (S a) s), (Nat.leb_spec a s); try lia; auto.
          replace (s - a) with (S (s - S a)) by lia. reflexivity. }
      destruct (Nat.leb_spec (i + m) r) as [L1|L1].
      * destruct (Nat.ltb_spec r (i + m + length rest)) as [L2|L2]; cbn [andb].
        -- replace (i <=? r) with true by (symmetry; apply Nat.leb_le; lia). replace (r <? i + (m + length rest)) with true by (symmetry; apply Nat.ltb_lt; lia).
           cbn [andb]. rewrite T1. replace (r <? i + m) with false by (symmetry; apply Nat.ltb_ge; lia). rewrite andb_false_r. cbn [andb].
           rewrite app_nth2; rewrite map_length, Lm; [|lia]. replace (r - i - m) with (r - (i + m)) by lia. reflexivity.
        -- rewrite T1. replace (r <? i + m) with false by (symmetry; apply Nat.ltb_ge; lia).
           replace (r <? i + (m + length rest)) with false by (symmetry; apply Nat.ltb_ge; lia). rewrite !andb_false_r. reflexivity.
      * cbn [andb]. rewrite T1. destruct (Nat.leb_spec i r) as [L3|L3]; cbn [andb]; auto.
        replace (r <? i + m) with true by (symmetry; apply Nat.ltb_lt; lia).
        replace (r <? i + (m + length rest)) with true by (symmetry; apply Nat.ltb_lt; lia). cbn [andb].
        rewrite app_nth1 by (rewrite map_length; lia). reflexivity.
Qed.

Lemma map_nth_seq (c : list nat) n : length c = n -> map (fun s => nth s c 0) (seq 0 n) = c.
Proof.
  intros <-. induction c as [|x c IH]; [reflexivity|]. cbn [length seq map]. f_equal. rewrite <- seq_shift, map_map. exact IH.
Qed.
Lemma cwr_comb N k : 0 < N -> cwrDir N k = comb N k.
Proof.
  intros H. unfold cwrDir. rewrite <- comb_multi by auto.
  pose proof (recurse_spec N (N - 1) emptyTable 0 k ltac:(lia)) as R. replace (N - 1 - (N - 1)) with 0 in R by lia.
  replace (S (N - 1)) with N in R by lia. set (t := recurse N (N - 1) emptyTable 0 k) in *. clearbody t.
  transitivity (map (fun r => nth r (comb N k) []) (seq 0 (length (comb N k)))).
  - apply map_ext_in. intros r Hr. apply in_seq in Hr. assert (Hc : length (nth r (comb N k) []) = N).
    { apply (comb_in N k). apply nth_In. lia. }
    rewrite <- (map_nth_seq _ N Hc) at 1. apply map_ext_in. intros s Hs. apply in_seq in Hs. rewrite (R r s) by lia.
    replace (r <? 0 + length (comb N k)) with true by (symmetry; apply Nat.ltb_lt; lia). cbn. now rewrite !Nat.sub_0_r.
  - generalize (comb N k). intros L. induction L as [|x L IH]; [reflexivity|]. cbn [length seq map]. f_equal. rewrite <- seq_shift, map_map. exact IH.
Qed.

Lemma configEq_spec : forall a b, configEq a b = true <-> a = b.
Proof.
  induction a as [|x a IH]; intros [|y b]; cbn; split; try discriminate; auto.
  - intros H. apply andb_prop in H. destruct H as [H1 H2]. apply Nat.eqb_eq in H1. apply IH in H2. congruence.
  - intros H. injection H as <- <-. rewrite Nat.eqb_refl. cbn. now apply IH.
Qed.
Lemma byContent_some : forall dir c i, NoDup dir -> (byContent dir c = Some i <-> byPosition dir i = Some c).
Proof.
  induction dir as [|x dir IH]; intros c i N; cbn.
  - destruct i; split; discriminate.
  - inversion N as [|? ? N1 N2]; subst. destruct (configEq x c) eqn:E.
    + apply configEq_spec in E. subst x. destruct i; cbn; split; auto; try discriminate.
      intros H. exfalso. apply N1. exact (nth_error_In _ _ H).
    + destruct i; cbn.
      * split; [destruct (byContent dir c); discriminate|]. intros H. injection H as ->. exfalso.
        assert (configEq c c = true) by (now apply configEq_spec). congruence.
      * rewrite <- (IH c i N2). unfold byPosition. destruct (byContent dir c); cbn; split; intros H; congruence || (injection H as ->; auto) || discriminate.
Qed.
Lemma byContent_none : forall dir c, byContent dir c = None <-> ~ In c dir.
Proof.
  induction dir as [|x dir IH]; intros c; cbn; [tauto|]. destruct (configEq x c) eqn:E.
  - apply configEq_spec in E. split; [discriminate|]. intros H. exfalso. apply H. now left.
  - assert (x <> c) by (intros ->; assert (configEq c c = true) by (now apply configEq_spec); congruence).
    destruct (byContent dir c) eqn:B; cbn; split; try discriminate; auto.
    + intros H0. exfalso. apply H0. right. destruct (in_dec (list_eq_dec Nat.eq_dec) c dir) as [I|I]; auto. apply IH in I. congruence.
    + intros _ [I|I]; [auto|]. now apply (proj1 (IH c)).
Qed.

Lemma cwr_exactly_once N k c : 0 < N -> length c = N -> list_sum c = k -> exists i, i < length (cwrDir N k) /\ byPosition (cwrDir N k) i = Some c /\
  forall j, byPosition (cwrDir N k) j = Some c -> j = i.
Proof.
  intros H L S. rewrite cwr_comb by auto. destruct (In_nth_error (comb N k) c) as [i Hi]; [now apply comb_in|].
  exists i. split; [apply nth_error_Some; intros E; rewrite E in Hi; discriminate|]. split; [exact Hi|]. intros j Hj. unfold byPosition in Hj.
  apply (proj1 (NoDup_nth_error (comb N k)) (comb_nodup N k)); [apply nth_error_Some; intros E; rewrite E in Hj; discriminate|exact (eq_trans Hj (eq_sym Hi))].
Qed.
Lemma cwr_only N k i c : 0 < N -> byPosition (cwrDir N k) i = Some c -> length c = N /\ list_sum c = k.
Proof. intros H E. rewrite cwr_comb in E by auto. apply comb_in. exact (nth_error_In _ _ E). Qed.
Lemma cwr_inverse N k i c : 0 < N -> (byContent (cwrDir N k) c = Some i <-> byPosition (cwrDir N k) i = Some c).
Proof. intros H. rewrite cwr_comb by auto. apply byContent_some, comb_nodup. Qed.
Lemma cwr_refused N k c : 0 < N -> (byContent (cwrDir N k) c = None <-> ~ (length c = N /\ list_sum c = k)).
Proof. intros H. rewrite cwr_comb by auto. rewrite byContent_none, comb_in. reflexivity. Qed.
Lemma cwr_length N k : 0 < N -> length (cwrDir N k) = binom (N + k - 1) k.
Proof. intros H. rewrite cwr_comb by auto. now apply comb_multi. Qed.
