From Coq Require Import List Arith Lia Reals Lra Bool String.
From Verif Require Import Star CReal Arr PureModel HermSpec HermModel DensityModel DensitySpec DensityProofs CompositeModel CompositeSpec AverageModel AverageSpec AverageProofs CollectModel CollectSpec.
Import ListNotations.
Local Open Scope nat_scope.

(** * Collecting *)
Lemma labels_concat els : collectLabels els = List.concat (map avLabels els).
Proof.
  unfold collectLabels. enough (H : forall acc, fold_left (fun out e => out ++ avLabels e)%list els acc = (acc ++ List.concat (map avLabels els))%list) by apply H.
  induction els as [|e els IH]; intros acc; cbn; [now rewrite app_nil_r|]. rewrite IH, app_assoc. reflexivity.
Qed.
Lemma window_mid (p w s : list R) : window (List.length p) (List.length w) (p ++ w ++ s) = w.
Proof. unfold window. rewrite skipn_app, skipn_all, Nat.sub_diag. cbn [app skipn]. rewrite firstn_app, firstn_all, Nat.sub_diag. cbn [firstn]. apply app_nil_r. Qed.
Lemma write_mid (p w w' s : list R) : List.length w' = List.length w -> writeWindow (List.length p) w' (p ++ w ++ s) = (p ++ w' ++ s)%list.
Proof.
  intros E. unfold writeWindow. rewrite firstn_app, firstn_all, Nat.sub_diag. cbn [firstn]. rewrite app_nil_r. f_equal. f_equal.
  rewrite skipn_app, skipn_all2 by lia. cbn [app]. replace (List.length p + List.length w' - List.length p) with (List.length w) by lia. rewrite skipn_app, skipn_all, Nat.sub_diag. reflexivity.
Qed.
Lemma collect_average els t m : Forall (proper t m) els -> collectAverage els t m = Some (List.concat (map (fun e => avAverage e t m) els)).
Proof.
  intros HP. unfold collectAverage. rewrite labels_concat.
  enough (H : forall pre n, n = List.length pre + List.length (List.concat (map avLabels els)) ->
    fold_left (fun st e => match st, checked (avN e) (avAverage e t m) with
                            | Some (out, res), Some a => if out + List.length a <=? n then Some (out + List.length a, writeWindow out a res) else None
                            | _, _ => None end) els (Some (List.length pre, (pre ++ repeat 0%R (List.length (List.concat (map avLabels els))))%list))
    = Some (n, (pre ++ List.concat (map (fun e => avAverage e t m) els))%list)).
  { specialize (H [] _ eq_refl). cbn [List.length app Nat.add] in H. rewrite H. reflexivity. }
  induction HP as [|e els [P1 [P2 _]] HP IH]; intros pre n Hn; cbn [map List.concat fold_left].
  - cbn in Hn. rewrite Nat.add_0_r in Hn. rewrite Hn. reflexivity.
  - cbn [map List.concat] in Hn. rewrite app_length in Hn. assert (Ec : checked (avN e) (avAverage e t m) = Some (avAverage e t m)) by (unfold checked; now rewrite P2, Nat.eqb_refl).
    rewrite Ec, P2.
    destruct (Nat.leb_spec (List.length pre + avN e) n) as [L|L]; [|lia]. rewrite app_length, repeat_app.
    rewrite write_mid by (rewrite repeat_length; lia).
    specialize (IH (pre ++ avAverage e t m)%list n). rewrite app_length, P2 in IH. rewrite <- !app_assoc in IH. rewrite IH by lia. reflexivity.
Qed.
Lemma collect_process els : forall ws, Forall2 (fun e w => List.length w = avN e /\ List.length (avProcess e w) = avN e) els ws ->
  collectProcess els (List.concat ws) = List.concat (map (fun ew => avProcess (fst ew) (snd ew)) (combine els ws)).
Proof.
  intros ws H. unfold collectProcess.
  enough (G : forall pre, fold_left (fun st e => match st with (l1, a) =>
         let u1 := l1 + avN e in
         let a' := if l1 <? u1 then writeWindow l1 (avProcess e (window l1 (u1 - l1) a)) a else a in (u1, a') end) els (List.length pre, (pre ++ List.concat ws)%list)
     = (List.length pre + List.length (List.concat ws), (pre ++ List.concat (map (fun ew => avProcess (fst ew) (snd ew)) (combine els ws)))%list)).
  { specialize (G []). cbn [List.length app Nat.add] in G. rewrite G. reflexivity. }
  induction H as [|e w els ws [E1 E2] H IH]; intros pre; cbn [fold_left List.concat combine map fst snd].
  - cbn. f_equal. lia.
  - cbv zeta. replace (List.length pre + avN e - List.length pre) with (List.length w) by lia.
    set (a' := if _ <? _ then _ else _).
    assert (Ea : a' = (pre ++ avProcess e w ++ List.concat ws)%list).
    { unfold a'. destruct (Nat.ltb_spec (List.length pre) (List.length pre + avN e)) as [L|L].
      - rewrite window_mid. apply write_mid. lia.
      - destruct w; [|cbn in E1; lia]. destruct (avProcess e []) eqn:Ep; [reflexivity|cbn in E2, E1; lia]. }
    rewrite Ea. specialize (IH (pre ++ avProcess e w)%list). cbv zeta in IH. rewrite app_length, E2 in IH. rewrite <- !app_assoc in IH. rewrite IH, app_length. f_equal. lia.
Qed.
Lemma combine_app {A B} (l1 l2 : list A) (m1 m2 : list B) : List.length l1 = List.length m1 -> combine (l1 ++ l2) (m1 ++ m2) = (combine l1 m1 ++ combine l2 m2)%list.
Proof. revert m1. induction l1 as [|a l1 IH]; intros [|b m1] E; cbn in *; try lia; auto. f_equal. apply IH. lia. Qed.
Lemma collect_shown els t m : Forall (proper t m) els -> exists a, collectAverage els t m = Some a /\
  combine (collectLabels els) (collectProcess els a) = List.concat (map (fun e => shown e t m) els).
Proof.
  intros H. exists (List.concat (map (fun e => avAverage e t m) els)). split; [now apply collect_average|].
  rewrite collect_process.
  - rewrite labels_concat. induction H as [|e els [P1 [P2 P3]] H IH]; [reflexivity|]. cbn [map List.concat combine fst snd]. rewrite combine_app.
    + rewrite IH. reflexivity.
    + rewrite P3; auto.
  - induction H as [|e els [P1 [P2 P3]] H IH]; cbn; constructor; auto.
Qed.

(** * Negativity *)
Section Neg.
Variables (r : nat -> nat -> CR) (fl : list R).
Definition two (p q : nat) : list R := [cre (r p q); cim (r p q)].
Lemma neg_inner i n : forall j0 m idx, i < j0 -> (forall k, k < 2 * n -> get (idx + k) fl = nth k (flat_map (two i) (seq j0 n)) 0%R) ->
  exists m', fold_left (negOff fl i) (seq j0 n) (m, idx) = (m', idx + 2 * n) /\
    forall p q, m' p q = if (p =? i) && ((j0 <=? q) && (q <? j0 + n)) then r i q else if (q =? i) && ((j0 <=? p) && (p <? j0 + n)) then kconj (r i p) else m p q.
Proof.
  induction n as [|n IH]; intros j0 m idx Hi Hf.
  - exists m. split; [cbn; f_equal; lia|]. intros p q. rewrite Nat.add_0_r. destruct (Nat.leb_spec j0 q), (Nat.ltb_spec q j0), (Nat.leb_spec j0 p), (Nat.ltb_spec p j0); try lia; rewrite ?andb_false_r; reflexivity.
  - cbn [seq fold_left].
    assert (E0 : get idx fl = cre (r i j0)). { rewrite <- (Nat.add_0_r idx), Hf by lia. reflexivity. }
    assert (E1 : get (idx + 1) fl = cim (r i j0)). { rewrite Hf by lia. reflexivity. }
    assert (Er : (cre (r i j0), cim (r i j0)) = r i j0) by (destruct (r i j0); reflexivity).
    assert (En : negOff fl i (m, idx) j0 = (mset (mset m i j0 (r i j0)) j0 i (kconj (r i j0)), idx + 2)) by (unfold negOff; cbn [fst snd]; rewrite E0, E1, Er; reflexivity).
    rewrite En.
    destruct (IH (Datatypes.S j0) (mset (mset m i j0 (r i j0)) j0 i (kconj (r i j0))) (idx + 2)) as [m' [Em Hm]]; [lia| |].
    + intros k Hk. replace (idx + 2 + k) with (idx + (2 + k)) by lia. rewrite Hf by lia. reflexivity.
    + exists m'. split; [etransitivity; [exact Em|f_equal; lia]|]. intros p q. rewrite Hm. unfold mset.
      destruct (Nat.eqb_spec p i), (Nat.eqb_spec q i), (Nat.eqb_spec q j0), (Nat.eqb_spec p j0), (Nat.leb_spec j0 q), (Nat.leb_spec j0 p), (Nat.leb_spec (Datatypes.S j0) q), (Nat.leb_spec (Datatypes.S j0) p),
        (Nat.ltb_spec q (j0 + Datatypes.S n)), (Nat.ltb_spec p (j0 + Datatypes.S n)), (Nat.ltb_spec q (Datatypes.S j0 + n)), (Nat.ltb_spec p (Datatypes.S j0 + n)); subst; try lia; cbn [andb]; reflexivity.
Qed.
Fixpoint offN (l : list nat) : list R := match l with [] => [] | i :: l' => (flat_map (two i) l' ++ offN l')%list end.
Lemma two_length i l : List.length (flat_map (two i) l) = 2 * List.length l.
Proof. induction l; cbn in *; lia. Qed.
Lemma neg_outer dim n : forall s (m : nat -> nat -> CR) idx, s + n = dim -> (forall k, k < List.length (offN (seq s n)) -> get (idx + k) fl = nth k (offN (seq s n)) 0%R) ->
  exists (m' : nat -> nat -> CR) idx', fold_left (fun (st : (nat -> nat -> CR) * nat) i => fold_left (negOff fl i) (seq (i + 1) (dim - (i + 1))) st) (seq s n) (m, idx) = (m', idx') /\
    forall p q, p < dim -> q < dim -> m' p q = if (s <=? p) && (p <? q) then r p q else if (s <=? q) && (q <? p) then kconj (r q p) else m p q.
Proof.
  induction n as [|n IH]; intros s m idx Hs Hf.
  - exists m, idx. split; [reflexivity|]. intros p q Hp Hq. destruct (Nat.leb_spec s p), (Nat.leb_spec s q); try lia. reflexivity.
  - cbn [seq fold_left]. cbn [seq offN] in Hf. rewrite app_length, two_length, seq_length in Hf.
    replace (dim - (s + 1)) with n by lia. rewrite Nat.add_1_r.
    destruct (neg_inner s n (Datatypes.S s) m idx) as [m1 [E1 H1]]; [lia| |].
    + intros k Hk. rewrite Hf by lia. rewrite app_nth1 by (rewrite two_length, seq_length; lia). reflexivity.
    + rewrite E1. destruct (IH (Datatypes.S s) m1 (idx + 2 * n)) as [m2 [idx2 [E2 H2]]]; [lia| |].
      * intros k Hk. replace (idx + 2 * n + k) with (idx + (2 * n + k)) by lia. rewrite Hf by lia. rewrite app_nth2 by (rewrite two_length, seq_length; lia).
        rewrite two_length, seq_length. f_equal. lia.
      * exists m2, idx2. split; [exact E2|]. intros p q Hp Hq. rewrite H2, H1 by auto.
        destruct (Nat.leb_spec (Datatypes.S s) p), (Nat.leb_spec s p), (Nat.leb_spec (Datatypes.S s) q), (Nat.leb_spec s q), (Nat.eqb_spec p s), (Nat.eqb_spec q s), (Nat.ltb_spec p q), (Nat.ltb_spec q p),
         (Nat.ltb_spec q (Datatypes.S s + n)), (Nat.ltb_spec p (Datatypes.S s + n)); try lia; subst; cbn [andb]; reflexivity.
Qed.
Lemma neg_diag n : forall s (m : nat -> nat -> CR), exists m' : nat -> nat -> CR, fold_left (fun (st : (nat -> nat -> CR) * nat) i => (mset (fst st) i i (RC (get (snd st) fl)), snd st + 1)) (seq s n) (m, s) = (m', s + n) /\
  forall p q, m' p q = if (p =? q) && ((s <=? p) && (p <? s + n)) then RC (get p fl) else m p q.
Proof.
  induction n as [|n IH]; intros s m.
  - exists m. split; [cbn; f_equal; lia|]. intros p q. destruct (Nat.leb_spec s p), (Nat.ltb_spec p (s + 0)); try lia; rewrite ?andb_false_r; reflexivity.
  - cbn [seq fold_left fst snd]. rewrite Nat.add_1_r. destruct (IH (Datatypes.S s) (mset m s s (RC (get s fl)))) as [m' [E H]]. exists m'. split; [etransitivity; [exact E|f_equal; lia]|].
    intros p q. rewrite H. unfold mset.
    destruct (Nat.eqb_spec p q), (Nat.leb_spec (Datatypes.S s) p), (Nat.leb_spec s p), (Nat.eqb_spec p s), (Nat.eqb_spec q s), (Nat.ltb_spec p (Datatypes.S s + n)), (Nat.ltb_spec p (s + Datatypes.S n)); subst; try lia; cbn [andb]; reflexivity.
Qed.
Lemma neg_matrix dim : (forall k, k < dim -> get k fl = cre (r k k)) -> (forall k, k < List.length (offN (seq 0 dim)) -> get (dim + k) fl = nth k (offN (seq 0 dim)) 0%R) ->
  (forall p q, p < dim -> q < dim -> r p q = kconj (r q p)) -> forall p q, p < dim -> q < dim -> negMatrix dim fl p q = r p q.
Proof.
  intros Hd Ho Hh p q Hp Hq. unfold negMatrix. cbv zeta. destruct (neg_diag dim 0 (fun _ _ => k0)) as [m1 [E1 H1]]. rewrite E1.
  destruct (neg_outer dim dim 0 m1 (0 + dim)) as [m2 [i2 [E2 H2]]]; [lia|exact Ho|]. rewrite E2. cbn [fst]. rewrite H2 by auto. cbn [Nat.leb andb].
  destruct (Nat.ltb_spec p q); [reflexivity|]. destruct (Nat.ltb_spec q p); [symmetry; now apply Hh|]. assert (p = q) by lia. subst q. rewrite H1, Nat.eqb_refl. cbn [Nat.leb andb Nat.add].
  destruct (Nat.ltb_spec p dim); [|lia]. rewrite Hd by auto. assert (Hr := Hh p p Hp Hp). destruct (r p p) as [a b]. unfold RC, cre. cbn in *. unfold cr_conj in Hr. injection Hr as Hr. cbn in Hr. f_equal. lra.
Qed.
End Neg.

Lemma offL_linear dims rho l : offL (fun i j => [reP RParts (rho i j); imP RParts (rho i j)]) (map (fun p => nth p (indices dims) []) l) = offN (linear_view dims rho) l.
Proof.
  induction l as [|a l IH]; [reflexivity|]. cbn [map offL offN]. rewrite IH. f_equal. clear IH. induction l as [|b l IH]; [reflexivity|]. cbn [map flat_map]. rewrite IH. reflexivity.
Qed.
Lemma nth_seq_list {A} (l : list A) d : l = map (fun p => nth p l d) (seq 0 (List.length l)).
Proof. induction l as [|a l IH]; [reflexivity|]. cbn [List.length seq map nth]. f_equal. rewrite <- seq_shift, map_map. exact IH. Qed.
Lemma setAt_last (l : list R) x y : setAt (List.length (l ++ [x]) - 1) y (l ++ [x]) = (l ++ [y])%list.
Proof. rewrite app_length. cbn [List.length]. replace (List.length l + 1 - 1) with (List.length l) by lia. induction l as [|a l IH]; [reflexivity|]. cbn. f_equal. exact IH. Qed.
Lemma neg_processed negPT dims rho fuel (x : R) : dims <> [] -> (forall n, In n dims -> 0 < n) -> fold_right Nat.mul 1 dims <= fuel -> hermitian dims rho ->
  (forall m m', (forall p q, p < fold_right Nat.mul 1 dims -> q < fold_right Nat.mul 1 dims -> m p q = m' p q) -> negPT m = negPT m') ->
  exists vals, deflate RParts fuel dims rho true = Some vals /\ negProcess negPT dims (vals ++ [x]) = (vals ++ [negPT (linear_view dims rho)])%list.
Proof.
  intros Hne Hpos Hf Hh Hext. exists (deflated RParts rho dims true). split; [now apply deflate_ok|]. unfold negProcess. rewrite setAt_last.
  enough (Em : negPT (negMatrix (fold_right Nat.mul 1 dims) (deflated RParts rho dims true ++ [x])) = negPT (linear_view dims rho)) by (rewrite Em; reflexivity). apply Hext.
  set (dim := fold_right Nat.mul 1 dims). assert (Hl : List.length (indices dims) = dim) by apply indices_length.
  assert (Ei : indices dims = map (fun p => nth p (indices dims) []) (seq 0 dim)) by (rewrite <- Hl; apply nth_seq_list).
  assert (Ed : deflated RParts rho dims true = (map (fun p => cre (linear_view dims rho p p)) (seq 0 dim) ++ offN (linear_view dims rho) (seq 0 dim))%list).
  { unfold deflated. rewrite <- offL_linear, <- Ei. f_equal. rewrite Ei at 1. rewrite map_map. reflexivity. }
  apply (neg_matrix (linear_view dims rho)).
  - intros k Hk. unfold get. rewrite Ed, app_nth1 by (rewrite app_length, map_length, seq_length; lia). rewrite app_nth1 by (rewrite map_length, seq_length; lia).
    rewrite (nth_indep _ 0%R (cre (linear_view dims rho 0 0))) by (rewrite map_length, seq_length; lia).
    rewrite (map_nth (fun p => cre (linear_view dims rho p p)) (seq 0 dim) 0), seq_nth by lia. reflexivity.
  - intros k Hk. unfold get. rewrite Ed. rewrite <- app_assoc, app_nth2 by (rewrite map_length, seq_length; lia). rewrite map_length, seq_length.
    replace (dim + k - dim) with k by lia. apply app_nth1. exact Hk.
  - intros p q Hp Hq. unfold linear_view. symmetry. apply Hh; apply in_indices, nth_In; lia.
Qed.

Lemma neg_wrong : exists resized dims rho fuel vals, (forall n, List.length (resized n) = n) /\ state dims rho /\ deflate RParts fuel dims rho true = Some vals /\
  forall negPT, option_map (negProcess negPT dims) (negAverage resized fuel dims rho) <> Some (vals ++ [negPT (linear_view dims rho)])%list.
Proof.
  exists (fun n => repeat 5%R n), [1; 2], (fun i j => if listnat_eqb i [0; 0] && listnat_eqb j [0; 0] then k1 else k0), 10, [1; 0; 0; 0]%R. split; [intros n; apply repeat_length|]. split; [split|].
  - apply cr_eq; cbn; ring.
  - intros i j _ _. unfold dag. destruct (listnat_eqb i [0; 0]), (listnat_eqb j [0; 0]); apply cr_eq; cbn; ring.
  - split; [reflexivity|]. intros negPT H. unfold negAverage in H.
    assert (E : deflate RParts 10 [1; 2] ((fun i j => if listnat_eqb i [0; 0] && listnat_eqb j [0; 0] then k1 else k0) : op) true = Some [1; 0; 0; 0]%R) by reflexivity. rewrite E in H. clear E.
    cbn [option_map List.length Nat.add repeat] in H. unfold negProcess in H. cbn [List.length Nat.sub] in H. revert H. generalize (negPT (negMatrix (fold_right Nat.mul 1 [1; 2]) [5; 5; 5; 5; 5]%R)). intros v H. apply (f_equal (fun o => match o with Some l => hd 0%R l | None => 0%R end)) in H. cbn [setAt app hd] in H. lra.
Qed.
