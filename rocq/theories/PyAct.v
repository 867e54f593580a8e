(** StateVector.actwith. *)
From Coq Require Import List Arith Reals Lra Lia Bool Sorted Permutation.
From Verif Require Import Star Arr CReal MultiIndexModel SliceModel SliceSpec SliceProofs EmbedProofs FourierModel FourierSpec PyModel PySpec PyLists PyExpect.
Import ListNotations.
Local Open Scope nat_scope.
Add Ring KPA : (k_ring CR).

Lemma at_position_length p v : forall y, length (at_position p v y) = length y.
Proof. revert p. intros p y; revert p; induction y as [|a y IH]; intros [|p]; cbn; auto. Qed.
Lemma at_position_nth : forall y p v i, nth i (at_position p v y) 0 = if (i =? p) && (i <? length y) then v else nth i y 0.
Proof.
  induction y as [|a y IH]; intros [|p] v [|i]; cbn [at_position nth length]; rewrite ?andb_false_r; auto; try reflexivity.
  rewrite IH. reflexivity.
Qed.

Section Act.
Variables (sv : ndarray) (dims : list nat).
Let n := ndim sv.
Hypothesis HD : good_positions n dims.
Let stateLabels := map (fun p => if member p dims then 2 * p + 1 else 2 * p) (seq 0 n).
Let opLabels := flat_map (fun d => [2 * d; 2 * d + 1]) dims.

Lemma outDims_step : forall l cur, NoDup l -> (forall v, In v l -> v < length cur) ->
  fold_left (fun l d => at_position d (S (nth d l 0)) l) l cur = map (fun p => if member p l then nth p cur 0 + 1 else nth p cur 0) (seq 0 (length cur)).
Proof.
  induction l as [|d l IH]; intros cur N B; cbn [fold_left].
  - cbn. symmetry. apply map_nth_all.
  - inversion N as [|? ? Ni N']; subst. rewrite IH; auto; [|intros v Hv; rewrite at_position_length; apply B; now right]. rewrite at_position_length. apply map_ext_in. intros p Hp. apply in_seq in Hp.
    rewrite at_position_nth. cbn [member existsb]. fold (member p l). destruct (Nat.eqb_spec p d) as [->|E]; cbn [andb orb].
    + apply member_nIn in Ni. rewrite Ni. replace (d <? length cur) with true by (symmetry; apply Nat.ltb_lt; lia). lia.
    + reflexivity.
Qed.
Lemma outDims_labels : fold_left (fun l d => at_position d (S (nth d l 0)) l) dims (map (fun i => 2 * i) (seq 0 n)) = stateLabels.
Proof.
  destruct HD as [N B]. rewrite outDims_step; auto; rewrite map_length, seq_length; auto. apply map_ext_in. intros p Hp. apply in_seq in Hp.
  rewrite (nth_map_seq (fun i => 2 * i)) by lia. reflexivity.
Qed.
Lemma state_In x : In x stateLabels <-> exists p, p < n /\ ((In p dims /\ x = 2 * p + 1) \/ (~ In p dims /\ x = 2 * p)).
Proof.
  unfold stateLabels. rewrite in_map_iff. split.
  - intros (p & E & Hp). apply in_seq in Hp. exists p. split; [lia|]. destruct (member p dims) eqn:M; [left; apply member_In in M | right; apply member_nIn in M]; auto.
  - intros (p & Hp & H). exists p. split; [|apply in_seq; lia]. destruct H as [[M ->]|[M ->]]; [apply member_In in M | apply member_nIn in M]; now rewrite M.
Qed.
Lemma op_In x : In x opLabels <-> exists p, In p dims /\ (x = 2 * p \/ x = 2 * p + 1).
Proof. unfold opLabels. rewrite in_flat_map. cbn. split; intros (p & Hp & H); exists p; intuition. Qed.
Lemma state_NoDup : NoDup stateLabels.
Proof.
  unfold stateLabels. apply NoDup_map_inj; [|apply seq_NoDup]. intros a b _ _. destruct (member a dims), (member b dims); lia.
Qed.
Lemma op_NoDup : NoDup opLabels.
Proof.
  unfold opLabels. apply NoDup_flat_map; [apply HD| |].
  - intros d _. constructor; [cbn; lia|]. constructor; [cbn; tauto|constructor].
  - intros d d' y _ _ H1 H2. cbn in *. lia.
Qed.
Lemma occurrences_app l a b : occurrences l (a ++ b) = occurrences l a + occurrences l b.
Proof. unfold occurrences. now rewrite filter_app, app_length. Qed.
Lemma occurrences_NoDup l a : NoDup a -> occurrences l a = if member l a then 1 else 0.
Proof.
  unfold occurrences. induction 1 as [|b a Ni N IH]; [reflexivity|]. cbn [filter member existsb]. fold (member l a). destruct (Nat.eqb_spec l b) as [->|E]; cbn [orb length].
  - rewrite IH. apply member_nIn in Ni. now rewrite Ni.
  - exact IH.
Qed.
Let labels := opLabels ++ stateLabels.
Lemma occ_one x : occurrences x labels = 1 <-> exists p, p < n /\ x = 2 * p.
Proof.
  unfold labels. rewrite occurrences_app, !occurrences_NoDup by (apply op_NoDup || apply state_NoDup). split.
  - destruct (member x opLabels) eqn:M1, (member x stateLabels) eqn:M2; try (cbn; discriminate); intros _.
    + apply member_In, op_In in M1. destruct M1 as (p & Hp & [->| ->]); [exists p; split; auto; now apply HD|]. exfalso. apply member_nIn in M2. apply M2, state_In. exists p. split; [now apply HD|]. auto.
    + apply member_In, state_In in M2. destruct M2 as (p & Hp & [[H ->]|[H ->]]); [|exists p; auto]. exfalso. apply member_nIn in M1. apply M1, op_In. exists p. auto.
  - intros (p & Hp & ->). destruct (in_dec Nat.eq_dec p dims) as [H|H].
    + replace (member (2 * p) opLabels) with true by (symmetry; apply member_In, op_In; exists p; auto).
      replace (member (2 * p) stateLabels) with false; auto. symmetry. apply member_nIn. rewrite state_In. intros (q & _ & [[_ E]|[Hq E]]); [lia|]. assert (p = q) by lia. subst. auto.
    + replace (member (2 * p) opLabels) with false; [|symmetry; apply member_nIn; rewrite op_In; intros (q & Hq & [E|E]); [assert (p = q) by lia; subst; auto|lia]].
      replace (member (2 * p) stateLabels) with true; auto. symmetry. apply member_In, state_In. exists p. auto.
Qed.
Lemma list_max_In l x : In x l -> x <= list_max l.
Proof. intros H. pose proof (proj1 (list_max_le l (list_max l)) (le_n _)) as F. rewrite Forall_forall in F. auto. Qed.
Lemma occ_In x l : occurrences x l <> 0 -> In x l.
Proof.
  unfold occurrences. intros H. destruct (filter (Nat.eqb x) l) as [|y r] eqn:E; [cbn in H; lia|]. assert (Hy : In y (filter (Nat.eqb x) l)) by (rewrite E; left; auto).
  apply filter_In in Hy. destruct Hy as [Hy Q]. apply Nat.eqb_eq in Q. now subst.
Qed.
Lemma out_labels : filter (fun l => occurrences l labels =? 1) (seq 0 (S (list_max labels))) = map (fun i => 2 * i) (seq 0 n).
Proof.
  apply sorted_unique.
  - apply sorted_filter, sorted_seq.
  - generalize (sorted_seq 0 n). induction 1 as [|a l S IH F]; cbn; constructor; auto. rewrite Forall_forall in *. intros x Hx. apply in_map_iff in Hx. destruct Hx as (i & <- & Hi). apply F in Hi. lia.
  - intros x. rewrite filter_In, Nat.eqb_eq, in_seq, in_map_iff. split.
    + intros [_ H]. apply occ_one in H. destruct H as (p & Hp & ->). exists p. split; auto. apply in_seq. lia.
    + intros (p & <- & Hp). apply in_seq in Hp. assert (E : occurrences (2 * p) labels = 1) by (apply occ_one; exists p; split; auto; lia). split; auto. split; [lia|].
      assert (H : In (2 * p) labels) by (apply occ_In; lia). apply list_max_In in H. lia.
Qed.
Lemma firsts_In l x : In x (firsts l) -> In x l.
Proof.
  induction l as [|a l IH]; [auto|]. cbn [firsts]. intros [->|H]; [now left|]. apply filter_In in H. right. apply IH, H.
Qed.
Lemma filter_comm {A} (f g : A -> bool) l : filter f (filter g l) = filter g (filter f l).
Proof. induction l as [|a l IH]; cbn; auto. destruct (f a) eqn:F, (g a) eqn:G; cbn; rewrite ?F, ?G, ?IH; auto. Qed.
Lemma firsts_app a b : NoDup a -> firsts (a ++ b) = a ++ filter (fun x => negb (member x a)) (firsts b).
Proof.
  induction 1 as [|x a Ni N IH]; cbn [app firsts].
  - cbn. symmetry. induction (firsts b) as [|y l I]; cbn; auto. now rewrite I.
  - f_equal. rewrite IH, filter_app. f_equal.
    + clear -Ni. induction a as [|y a I]; auto. cbn. destruct (Nat.eqb_spec y x) as [->|E]; [exfalso; apply Ni; now left|]. cbn. f_equal. apply I. intros H; apply Ni; now right.
    + clear. induction (firsts b) as [|y l I]; auto. cbn [filter]. change (member y (x :: a)) with ((y =? x) || member y a).
      destruct (member y a) eqn:M, (y =? x) eqn:E; cbn [negb orb filter]; rewrite ?E; cbn [negb]; rewrite ?I; auto.
Qed.
Lemma summed_labels : filter (fun l => negb (occurrences l labels =? 1)) (firsts labels) = map (fun d => 2 * d + 1) dims.
Proof.
  unfold labels at 2. rewrite firsts_app by apply op_NoDup. rewrite filter_app.
  assert (Z : filter (fun l => negb (occurrences l labels =? 1)) (filter (fun x => negb (member x opLabels)) (firsts stateLabels)) = []).
  { rewrite filter_comm. assert (H : forall x, In x (filter (fun l => negb (occurrences l labels =? 1)) (firsts stateLabels)) -> negb (member x opLabels) = false).
    { intros x Hx. apply filter_In in Hx. destruct Hx as [Hx Hn]. apply firsts_In, state_In in Hx. destruct Hx as (p & Hp & [[H ->]|[H ->]]).
      - apply negb_false_iff, member_In, op_In. exists p. auto.
      - exfalso. assert (E : occurrences (2 * p) labels = 1) by (apply occ_one; eauto). rewrite E in Hn. discriminate. }
    induction (filter (fun l => negb (occurrences l labels =? 1)) (firsts stateLabels)) as [|y l I]; auto. cbn. rewrite H by (left; auto). apply I. intros x Hx. apply H. now right. }
  rewrite Z, app_nil_r. unfold opLabels. assert (B : forall d, In d dims -> occurrences (2 * d) labels = 1 /\ occurrences (2 * d + 1) labels <> 1).
  { intros d Hd. split; [apply occ_one; exists d; split; auto; now apply HD|]. rewrite occ_one. intros (p & _ & E). lia. }
  revert B. clear Z. generalize labels. clear. intros labels B. induction dims as [|d l IH]; auto. cbn [flat_map app map]. destruct (B d (or_introl eq_refl)) as [E1 E2]. cbn [filter]. rewrite E1. cbn [Nat.eqb negb].
  destruct (Nat.eqb_spec (occurrences (2 * d + 1) labels) 1); [contradiction|]. cbn [negb]. f_equal. apply IH. intros d' Hd'. apply B. now right.
Qed.

Variable ops : list ndarray.
Hypothesis Hlen : length ops = length dims.
Hypothesis Hops : forall o d, In (o, d) (combine ops dims) -> shape o = [nth d (shape sv) 0; nth d (shape sv) 0].
Let operands := map (fun od => (fst od, [2 * snd od; 2 * snd od + 1])) (combine ops dims) ++ [(sv, stateLabels)].
Lemma operands_labels : concat (map snd operands) = labels.
Proof.
  unfold operands, labels, opLabels. rewrite map_app, concat_app. cbn [map concat]. rewrite app_nil_r. f_equal. rewrite map_map. cbn [snd]. clear -Hlen. revert ops Hlen.
  induction dims as [|d l IH]; intros [|o r] H; try discriminate; [reflexivity|]. cbn. do 2 f_equal. apply IH. now injection H.
Qed.
Lemma find_state : forall l (x : nat), (forall d o, In (o, d) l -> x <> 2 * d /\ x <> 2 * d + 1) -> In x stateLabels ->
  find (fun o : ndarray * list nat => member x (snd o)) (map (fun od => (fst od, [2 * snd od; 2 * snd od + 1])) l ++ [(sv, stateLabels)]) = Some (sv, stateLabels).
Proof.
  induction l as [|[o d] l IH]; intros x N H; cbn [map app find snd fst].
  - apply member_In in H. now rewrite H.
  - destruct (N d o (or_introl eq_refl)). replace (member x [2 * d; 2 * d + 1]) with false by (symmetry; apply member_nIn; cbn; intuition). apply IH; auto. intros; eapply N; right; eauto.
Qed.
Lemma find_op : forall l (x : nat) d, (x = 2 * d \/ x = 2 * d + 1) -> In d (map snd l) -> exists o, In (o, d) l /\
  find (fun o : ndarray * list nat => member x (snd o)) (map (fun od => (fst od, [2 * snd od; 2 * snd od + 1])) l ++ [(sv, stateLabels)]) = Some (o, [2 * d; 2 * d + 1]).
Proof.
  induction l as [|[o e] l IH]; intros x d Hx H; [destruct H|]. cbn [map app find snd fst]. destruct (Nat.eq_dec e d) as [->|E].
  - exists o. split; [now left|]. replace (member x [2 * d; 2 * d + 1]) with true; auto. symmetry. apply member_In. cbn. intuition.
  - replace (member x [2 * e; 2 * e + 1]) with false by (symmetry; apply member_nIn; cbn; lia). destruct H as [H|H]; [cbn in H; congruence|].
    destruct (IH x d Hx H) as (o' & H1 & H2). exists o'. split; [now right|exact H2].
Qed.
Lemma snd_combine : map snd (combine ops dims) = dims.
Proof. clear -Hlen. revert ops Hlen. induction dims as [|d l IH]; intros [|o r] H; try discriminate; auto. cbn. f_equal. apply IH. now injection H. Qed.
Lemma place_map_inj (f : nat -> nat) l p : (forall a b, f a = f b -> a = b) -> place (f p) (map f l) = place p l.
Proof. intros I. induction l as [|a l IH]; auto. cbn. destruct (Nat.eqb_spec (f p) (f a)) as [E|E], (Nat.eqb_spec p a) as [E'|E']; auto; [apply I in E; contradiction | subst; contradiction]. Qed.
Lemma place_seq p m : p < m -> place p (seq 0 m) = p.
Proof. intros H. pose proof (place_nth (seq 0 m) (seq_NoDup m 0) p) as E. rewrite seq_length in E. specialize (E H). rewrite seq_nth in E; auto. Qed.
Lemma place_state p : p < n -> ~ In p dims -> place (2 * p) stateLabels = p.
Proof.
  intros Hp H. pose proof (place_nth stateLabels state_NoDup p) as E. unfold stateLabels in E at 1. rewrite map_length, seq_length in E. specialize (E Hp).
  unfold stateLabels in E at 1. rewrite (nth_map_seq (fun p => if member p dims then 2 * p + 1 else 2 * p)) in E by auto. apply member_nIn in H. now rewrite H in E.
Qed.
Lemma extent_even p : p < n -> extent operands (2 * p) = nth p (shape sv) 0.
Proof.
  intros Hp. unfold extent, operands. destruct (in_dec Nat.eq_dec p dims) as [H|H].
  - destruct (find_op (combine ops dims) (2 * p) p) as (o & H1 & ->); [auto|now rewrite snd_combine|]. cbn [snd fst place]. rewrite Nat.eqb_refl. now rewrite (Hops o p H1).
  - rewrite find_state.
    + cbn [snd fst]. now rewrite place_state.
    + intros d o Hd. assert (In d dims) by (eapply in_combine_r; eauto). split; [intros E; assert (p = d) by lia; subst; auto|lia].
    + apply state_In. exists p. auto.
Qed.
Lemma extent_odd d : In d dims -> extent operands (2 * d + 1) = nth d (shape sv) 0.
Proof.
  intros H. unfold extent, operands. destruct (find_op (combine ops dims) (2 * d + 1) d) as (o & H1 & ->); [auto|now rewrite snd_combine|]. cbn [snd fst place].
  destruct (Nat.eqb_spec (2 * d + 1) (2 * d)); [lia|]. rewrite Nat.eqb_refl. now rewrite (Hops o d H1).
Qed.
Lemma kprod_app {A} (f : A -> CR) a b : kprod f (a ++ b) = kmul (kprod f a) (kprod f b).
Proof. unfold kprod. induction a as [|x a IH]; cbn [app fold_right]; [ring|]. rewrite IH. ring. Qed.
Lemma find_combine_place V s o : NoDup V -> length s = length V -> In o V -> find (fun p => Nat.eqb (fst p) o) (combine V s) = Some (o, nth (place o V) s 0).
Proof.
  intros N. revert s. induction N as [|v V Ni N IH]; intros [|a s] L H; try discriminate; [destruct H|]. cbn [combine find fst place]. rewrite (Nat.eqb_sym o v).
  destruct (Nat.eqb_spec v o) as [->|E]; [reflexivity|]. destruct H as [->|H]; [contradiction|]. cbn [nth]. apply IH; auto.
Qed.
Lemma actwith_spec : exists r, actwith sv ops dims = Some r /\ shape r = shape sv /\
  forall y, inr (shape sv) y -> elem r y = lifted_action (product_of ops) dims (shape sv) (elem sv) y.
Proof.
  unfold actwith. rewrite Hlen, Nat.eqb_refl. fold n. rewrite outDims_labels. fold operands. eexists. split; [reflexivity|].
  unfold einsum. rewrite operands_labels, out_labels, summed_labels. cbn [shape elem]. split.
  - rewrite map_map. etransitivity; [|apply map_nth_all]. apply map_ext_in. intros p Hp. apply in_seq in Hp. apply extent_even. unfold n, ndim. lia.
  - intros y Hy. rewrite map_map. rewrite (map_ext_in _ (fun v => nth v (shape sv) 0)) by (intros d Hd; now apply extent_odd).
    unfold lifted_action. apply isum_ext. intros s Hs. pose proof (inr_length _ _ Hs) as Ls. rewrite map_length in Ls. pose proof (inr_length _ _ Hy) as Ly.
    assert (Ev : forall p, p < n -> (if member (2 * p) (map (fun i => 2 * i) (seq 0 n)) then nth (place (2 * p) (map (fun i => 2 * i) (seq 0 n))) y 0 else nth (place (2 * p) (map (fun d => 2 * d + 1) dims)) s 0) = nth p y 0).
    { intros p Hp. replace (member (2 * p) (map (fun i => 2 * i) (seq 0 n))) with true by (symmetry; apply member_In, in_map_iff; exists p; split; auto; apply in_seq; lia).
      rewrite (place_map_inj (fun i => 2 * i)) by (intros; lia). now rewrite place_seq. }
    assert (Od : forall p, In p dims -> (if member (2 * p + 1) (map (fun i => 2 * i) (seq 0 n)) then nth (place (2 * p + 1) (map (fun i => 2 * i) (seq 0 n))) y 0 else nth (place (2 * p + 1) (map (fun d => 2 * d + 1) dims)) s 0) = nth (place p dims) s 0).
    { intros p Hp. replace (member (2 * p + 1) (map (fun i => 2 * i) (seq 0 n))) with false by (symmetry; apply member_nIn; rewrite in_map_iff; intros (q & E & _); lia).
      now rewrite (place_map_inj (fun i => 2 * i + 1)) by (intros; lia). }
    unfold operands. rewrite kprod_app. f_equal.
    + transitivity (product_of ops (map (fun v => nth v y 0) dims) (map (fun v => nth (place v dims) s 0) dims)).
      2:{ rewrite map_place; auto. apply HD. }
      assert (G : forall l r, length r = length l -> (forall d, In d l -> In d dims) ->
        kprod (fun o : ndarray * list nat => elem (fst o) (map (fun l0 => if member l0 (map (fun i => 2 * i) (seq 0 n)) then nth (place l0 (map (fun i => 2 * i) (seq 0 n))) y 0 else nth (place l0 (map (fun d => 2 * d + 1) dims)) s 0) (snd o)))
          (map (fun od => (fst od, [2 * snd od; 2 * snd od + 1])) (combine r l)) = product_of r (map (fun v => nth v y 0) l) (map (fun v => nth (place v dims) s 0) l)).
      { induction l as [|d l IH]; intros [|o r] L I; try discriminate; [reflexivity|]. cbn [combine map product_of]. unfold kprod. cbn [fold_right fst snd map].
        rewrite Ev by (apply HD, I; left; auto). rewrite Od by (apply I; left; auto). f_equal. apply IH; [now injection L|]. intros d' Hd'. apply I. now right. }
      apply G; auto.
    + unfold kprod. cbn [fold_right fst snd]. etransitivity; [apply (Rmul_comm (k_ring CR))|]. etransitivity; [apply (Rmul_1_l (k_ring CR))|]. f_equal.
      unfold stateLabels. rewrite map_map. unfold replace_at. rewrite Ly. apply map_ext_in. intros p Hp. apply in_seq in Hp. destruct (member p dims) eqn:M.
      * apply member_In in M. rewrite Od by auto. rewrite find_combine_place; auto. apply HD.
      * apply member_nIn in M. rewrite Ev by (unfold n, ndim; lia). now rewrite find_combine_nIn.
Qed.
End Act.
