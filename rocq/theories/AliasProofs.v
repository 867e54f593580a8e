(** Proofs about the ownership of the data of state vectors and density operators. *)
From Coq Require Import List Arith Bool Lia.
From Verif Require Import AliasModel AliasSpec.
Import ListNotations.

(** * Lists *)

Lemma setAt_length : forall A (l : list A) i a, length (setAt l i a) = length l.
Proof. induction l as [|b l IH]; intros [|i] a; cbn; auto. Qed.

Lemma setAt_app : forall A (v : list A) a w b, setAt (v ++ a :: w) (length v) b = v ++ b :: w.
Proof. induction v as [|x v IH]; intros; cbn; [reflexivity|]. now rewrite IH. Qed.

Lemma setAt_same : forall A (l : list A) i a, i < length l -> nth_error (setAt l i a) i = Some a.
Proof. induction l as [|b l IH]; intros [|i] a H; cbn in *; try lia; auto. apply IH. lia. Qed.

Lemma setAt_other : forall A (l : list A) i j a, i <> j -> nth_error (setAt l i a) j = nth_error l j.
Proof.
  induction l as [|b l IH]; intros [|i] [|j] a H; cbn; auto; try lia.
Qed.

Lemma setAt_twice : forall A (l : list A) i a b, setAt (setAt l i a) i b = setAt l i b.
Proof. induction l as [|x l IH]; intros [|i] a b; cbn; auto. now rewrite IH. Qed.

Lemma setAt_id : forall A (l : list A) i a, nth_error l i = Some a -> setAt l i a = l.
Proof.
  induction l as [|x l IH]; intros [|i] a H; cbn in *; try discriminate; auto.
  - now injection H as ->.
  - now rewrite IH.
Qed.

Lemma nth_of_error : forall A (l : list A) i a d, nth_error l i = Some a -> nth i l d = a.
Proof. intros. now apply nth_error_nth. Qed.

Lemma map_nth_seq : forall A (l : list A) d, map (fun c => nth c l d) (seq 0 (length l)) = l.
Proof.
  intros A l d. apply nth_ext with (d := d) (d' := d).
  - now rewrite map_length, seq_length.
  - intros n H. rewrite map_length, seq_length in H.
    rewrite (nth_indep _ d (nth (length l) l d)) by (rewrite map_length, seq_length; lia).
    rewrite (map_nth (fun c => nth c l d)). now rewrite seq_nth.
Qed.

Lemma split_at : forall A (l : list A) k, k < length l ->
  exists v a w, l = v ++ a :: w /\ length v = k.
Proof.
  intros A l k H. destruct (nth_error l k) as [a|] eqn:E.
  - destruct (nth_error_split l k E) as (v & w & -> & Hk). now exists v, a, w.
  - apply nth_error_None in E. lia.
Qed.

Lemma fold_nested : forall S A B (F : S -> A * B -> S) (la : list A) (lb : list B) s,
  fold_left (fun s i => fold_left (fun s j => F s (i, j)) lb s) la s = fold_left F (list_prod la lb) s.
Proof.
  intros S A B F la lb. induction la as [|a la IH]; intro s; cbn; [reflexivity|].
  rewrite fold_left_app, IH. f_equal. clear IH la. revert s.
  induction lb as [|b lb IHb]; intro s; cbn; [reflexivity|]. apply IHb.
Qed.

Lemma fold_inv_ext : forall S A (P : S -> Prop) (F G : S -> A -> S) l s,
  (forall s a, In a l -> P s -> F s a = G s a /\ P (G s a)) -> P s -> fold_left F l s = fold_left G l s.
Proof.
  intros S A P F G l. induction l as [|a l IH]; intros s H Hs; cbn; [reflexivity|].
  destruct (H s a (or_introl eq_refl) Hs) as [E Hp]. rewrite E. apply IH; [|exact Hp].
  intros s' a' Ha. apply H. now right.
Qed.

Lemma shift_seq : forall m d k, map (fun x => m + x) (seq k d) = seq (m + k) d.
Proof. intros m d. induction d as [|d IH]; intro k; cbn; [reflexivity|]. f_equal. rewrite IH. f_equal. lia. Qed.

Lemma positions : forall d n a,
  map (fun ij => fst ij * d + snd ij) (list_prod (seq a n) (seq 0 d)) = seq (a * d) (n * d).
Proof.
  intros d n. induction n as [|n IH]; intro a; cbn [seq list_prod Nat.mul]; [reflexivity|].
  rewrite map_app, map_map, IH. cbn [fst snd]. rewrite seq_app. f_equal.
  - rewrite shift_seq. f_equal. lia.
  - f_equal. lia.
Qed.

Lemma list_prod_nth : forall A (v w : list A) d,
  list_prod v w = map (fun ij => (nth (fst ij) v d, nth (snd ij) w d)) (list_prod (seq 0 (length v)) (seq 0 (length w))).
Proof.
  intros A v w d.
  assert (G : forall (la : list nat), list_prod (map (fun c => nth c v d) la) (map (fun c => nth c w d) (seq 0 (length w)))
              = map (fun ij => (nth (fst ij) v d, nth (snd ij) w d)) (list_prod la (seq 0 (length w)))).
  { induction la as [|a la IH]; cbn [map list_prod]; [reflexivity|].
    rewrite map_app, IH, !map_map. reflexivity. }
  rewrite <- G, !map_nth_seq. reflexivity.
Qed.

Section AliasProofs.
  Variables (K : Type) (kz : K) (kadd ksub kmul kdiv : K -> K -> K) (kneg kconj : K -> K).

  Notation state := (state K). Notation cmd := (cmd K). Notation values := (values K).
  Notation exec := (exec K kz kadd ksub kmul kdiv kneg kconj).
  Notation run := (run K kz kadd ksub kmul kdiv kneg kconj).
  Notation step := (step K kz kadd ksub kmul kdiv kneg kconj).
  Notation steps := (steps K kz kadd ksub kmul kdiv kneg kconj).
  Notation cell := (cell K kz). Notation setCell := (setCell K).
  Notation elementwise := (elementwise K).

  Lemma elementwise_length : forall A (f : K -> A -> K) v w, length v = length w -> length (elementwise f v w) = length v.
  Proof. intros A f v w H. unfold elementwise. rewrite map_length, combine_length. lia. Qed.

  (** ** One block rewritten, one element after the other *)

  Lemma fold_block : forall Q (pos : Q -> nat) (g : Q -> K -> K) b qs k h v0 v,
    length v0 = k -> length v = length qs -> map pos qs = seq k (length qs) ->
    nth_error h b = Some (v0 ++ v) ->
    fold_left (fun h q => setCell h b (pos q) (g q (cell h b (pos q)))) qs h
    = setAt h b (v0 ++ map (fun aq => g (snd aq) (fst aq)) (combine v qs)).
  Proof.
    intros Q pos g b. induction qs as [|q qs IH]; intros k h v0 v Hk Hl Hp Hb.
    - destruct v; [|discriminate]. cbn. rewrite app_nil_r in *. symmetry. now apply setAt_id.
    - destruct v as [|a v]; [discriminate|]. cbn [length] in *. cbn [map seq] in Hp.
      injection Hp as Hq Hp. cbn [fold_left combine map fst snd].
      set (h1 := setCell h b (pos q) (g q (cell h b (pos q)))).
      assert (E1 : h1 = setAt h b (v0 ++ g q a :: v)).
      { unfold h1, AliasModel.setCell, AliasModel.cell. rewrite (nth_of_error _ _ _ _ [] Hb), Hq, <- Hk.
        rewrite setAt_app. do 4 f_equal. rewrite app_nth2 by lia. now rewrite Nat.sub_diag. }
      assert (Hlt : b < length h) by (apply nth_error_Some; now rewrite Hb).
      rewrite (IH (S k) h1 (v0 ++ [g q a]) v).
      + rewrite E1, setAt_twice, <- app_assoc. reflexivity.
      + rewrite app_length. cbn. lia.
      + lia.
      + exact Hp.
      + rewrite E1, setAt_same by exact Hlt. now rewrite <- app_assoc.
  Qed.

  Lemma combine_map_r : forall A B C (f : B -> C) (l : list A) (m : list B),
    combine l (map f m) = map (fun ab => (fst ab, f (snd ab))) (combine l m).
  Proof. induction l as [|a l IH]; intros [|b m]; cbn; auto. now rewrite IH. Qed.

  Definition whole (k : kind) (d : list nat) (b n : nat) : obj :=
    {| o_kind := k; o_dims := d; o_blk := b; o_cells := seq 0 n |}.

  Lemma contents_whole : forall h k d b v, nth_error h b = Some v -> contents K kz h (whole k d b (length v)) = v.
  Proof.
    intros h k d b v H. unfold contents, whole, AliasModel.cell. cbn [o_blk o_cells].
    rewrite (nth_of_error _ _ _ _ [] H). apply map_nth_seq.
  Qed.

  Lemma combine_self : forall A (l : list A), combine l l = map (fun a => (a, a)) l.
  Proof. induction l as [|a l IH]; cbn; [reflexivity|]. now rewrite IH. Qed.

  Lemma fold_map : forall S A B (F : S -> B -> S) (g : A -> B) l s,
    fold_left F (map g l) s = fold_left (fun s a => F s (g a)) l s.
  Proof. induction l as [|a l IH]; intro s; cbn; auto. Qed.

  Lemma mapInto_whole : forall f h k d b v, nth_error h b = Some v ->
    mapInto K kz f h (whole k d b (length v)) = setAt h b (map f v).
  Proof.
    intros f h k d b v H. unfold mapInto, whole. cbn [o_blk o_cells].
    rewrite (fold_block nat (fun p => p) (fun _ a => f a) b (seq 0 (length v)) 0 h [] v); auto.
    - cbn [app]. f_equal. transitivity (map f (map fst (combine v (seq 0 (length v))))); [now rewrite map_map|].
      f_equal. generalize 0. induction v as [|a v IH]; intro n; cbn; [reflexivity|]. f_equal. clear - v.
      revert n. induction v as [|a v IH]; intro n; cbn; [reflexivity|]. f_equal. apply IH.
    - now rewrite seq_length.
    - rewrite map_id, seq_length. reflexivity.
  Qed.

  Lemma elementwise_nth : forall A (f : K -> A -> K) v w (d : A), length v = length w ->
    elementwise f v w = map (fun aq => f (fst aq) (nth (snd aq) w d)) (combine v (seq 0 (length w))).
  Proof.
    intros A f v w d H. unfold elementwise. rewrite <- (map_nth_seq _ w d) at 1.
    rewrite combine_map_r, map_map. reflexivity.
  Qed.

  Lemma zipInto_whole : forall f h k d b v k' d' b' w, nth_error h b = Some v -> nth_error h b' = Some w ->
    length v = length w ->
    zipInto K kz f h (whole k d b (length v)) (whole k' d' b' (length w)) = setAt h b (elementwise f v w).
  Proof.
    intros f h k d b v k' d' b' w Hv Hw Hl. unfold zipInto, whole. cbn [o_blk o_cells].
    rewrite <- Hl, combine_self, fold_map. cbn [fst snd].
    destruct (Nat.eq_dec b b') as [->|Hb].
    - assert (v = w) by congruence. subst w.
      rewrite (fold_block nat (fun p => p) (fun _ a => f a a) b' (seq 0 (length v)) 0 h [] v); auto.
      + cbn [app]. f_equal. unfold elementwise. rewrite combine_self, map_map. cbn [fst snd].
        transitivity (map (fun a => f a a) (map fst (combine v (seq 0 (length v))))); [now rewrite map_map|].
        f_equal. generalize 0. clear. induction v as [|a v IH]; intro n; cbn; [reflexivity|]. f_equal. apply IH.
      + now rewrite seq_length.
      + rewrite map_id, seq_length. reflexivity.
    - rewrite (fold_inv_ext _ _ (fun h => nth_error h b' = Some w) _
                 (fun h q => setCell h b q ((fun q a => f a (nth q w kz)) q (cell h b q)))).
      + rewrite (fold_block nat (fun p => p) (fun q a => f a (nth q w kz)) b (seq 0 (length v)) 0 h [] v); auto.
        * cbn [app]. f_equal. rewrite (elementwise_nth _ f v w kz Hl), Hl. reflexivity.
        * now rewrite seq_length.
        * rewrite map_id, seq_length. reflexivity.
      + intros h' q _ Hw'. split.
        * unfold AliasModel.cell at 2. now rewrite (nth_of_error _ _ _ _ [] Hw').
        * unfold AliasModel.setCell. now rewrite setAt_other.
      + exact Hw.
  Qed.

  Lemma dyadInto_whole : forall f h k d b r k' d' b' v, nth_error h b = Some r -> nth_error h b' = Some v ->
    length r = length v * length v -> b <> b' ->
    dyadInto K kz f h (whole k d b (length r)) (whole k' d' b' (length v))
    = setAt h b (elementwise (fun a p => f a (fst p) (snd p)) r (list_prod v v)).
  Proof.
    intros f h k d b r k' d' b' v Hr Hv Hl Hb. unfold dyadInto, whole. cbn [o_blk o_cells].
    rewrite seq_length. set (n := length v) in *.
    rewrite (fold_nested _ _ _ (fun h ij =>
      setCell h b (nth (fst ij * n + snd ij) (seq 0 (length r)) 0)
        (f (cell h b (nth (fst ij * n + snd ij) (seq 0 (length r)) 0)) (cell h b' (nth (fst ij) (seq 0 n) 0))
           (cell h b' (nth (snd ij) (seq 0 n) 0))))).
    rewrite (fold_inv_ext _ _ (fun h => nth_error h b' = Some v) _
      (fun h ij => setCell h b (fst ij * n + snd ij)
         ((fun ij a => f a (nth (fst ij) v kz) (nth (snd ij) v kz)) ij (cell h b (fst ij * n + snd ij))))).
    - rewrite (fold_block (nat * nat) (fun ij => fst ij * n + snd ij)
                 (fun ij a => f a (nth (fst ij) v kz) (nth (snd ij) v kz)) b (list_prod (seq 0 n) (seq 0 n)) 0 h [] r); auto.
      + cbn [app]. f_equal. unfold elementwise. rewrite (list_prod_nth _ v v kz). fold n.
        rewrite combine_map_r, map_map. reflexivity.
      + rewrite prod_length, !seq_length. exact Hl.
      + rewrite prod_length, !seq_length. apply (positions n n 0).
    - intros h' [i j] Hin Hv'. apply in_prod_iff in Hin. destruct Hin as [Hi Hj].
      apply in_seq in Hi. apply in_seq in Hj. cbn [fst snd].
      assert (Hij : i * n + j < length r) by (rewrite Hl; nia).
      rewrite !seq_nth by lia. cbn [Nat.add]. split.
      + unfold AliasModel.cell at 2 3. now rewrite (nth_of_error _ _ _ _ [] Hv').
      + unfold AliasModel.setCell. now rewrite setAt_other.
    - exact Hv.
  Qed.

  (** ** The values and the memory *)

  Definition rel (vs : values) (s : state) : Prop :=
    (forall x k d v, vs x = Some (k, d, v) ->
       exists b, s_env K s x = Some (whole k d b (length v)) /\ nth_error (s_heap K s) b = Some v /\ sized K k d v)
    /\ (forall x y a b c d, x <> y -> vs x = Some a -> vs y = Some b -> s_env K s x = Some c -> s_env K s y = Some d ->
          o_blk c <> o_blk d).

  Lemma kind_eqb_refl : forall k, kind_eqb k k = true.
  Proof. now intros []. Qed.

  Lemma dims_eqb_refl : forall d, dims_eqb d d = true.
  Proof. induction d as [|a d IH]; cbn; [reflexivity|]. now rewrite Nat.eqb_refl, IH. Qed.

  Lemma dims_eqb_eq : forall d e, dims_eqb d e = true -> d = e.
  Proof.
    induction d as [|a d IH]; intros [|b e] H; cbn in H; try discriminate; [reflexivity|].
    apply andb_prop in H. destruct H as [H1 H2]. apply Nat.eqb_eq in H1. f_equal; auto.
  Qed.

  Lemma kind_eqb_eq : forall a b, kind_eqb a b = true -> a = b.
  Proof. now intros [] []. Qed.

  Lemma sameShape_whole : forall k d b n b' m, sameShape (whole k d b n) (whole k d b' m) = true.
  Proof. intros. unfold sameShape, whole. cbn. now rewrite kind_eqb_refl, dims_eqb_refl. Qed.

  Lemma put_same : forall (vs : values) x v, put K vs x v x = v.
  Proof. intros. unfold put. now rewrite Nat.eqb_refl. Qed.

  Lemma put_other : forall (vs : values) x y v, y <> x -> put K vs x v y = vs y.
  Proof. intros vs x y v H. unfold put. apply Nat.eqb_neq in H. now rewrite H. Qed.

  Lemma bind_same : forall e x o, bindName e x o x = Some o.
  Proof. intros. unfold bindName. now rewrite Nat.eqb_refl. Qed.

  Lemma bind_other : forall e x y o, y <> x -> bindName e x o y = e y.
  Proof. intros e x y o H. unfold bindName. apply Nat.eqb_neq in H. now rewrite H. Qed.

  Lemma rel_forget : forall vs s y, rel vs s -> rel (put K vs y None) s.
  Proof.
    intros vs s y [R1 R2]. split.
    - intros x k d v H. destruct (Nat.eq_dec x y) as [->|Hx].
      + rewrite put_same in H. discriminate.
      + rewrite put_other in H by exact Hx. now apply R1.
    - intros x z a b c d Hn H1 H2.
      destruct (Nat.eq_dec x y) as [->|Hx]; [rewrite put_same in H1; discriminate|].
      destruct (Nat.eq_dec z y) as [->|Hz]; [rewrite put_same in H2; discriminate|].
      rewrite put_other in H1, H2 by assumption. now apply (R2 x z a b).
  Qed.

  (** a new block under a new name *)
  Lemma rel_fresh : forall vs s x k d v, rel vs s -> sized K k d v ->
    rel (put K vs x (Some (k, d, v)))
      {| s_heap := s_heap K s ++ [v]; s_env := bindName (s_env K s) x (whole k d (length (s_heap K s)) (length v)) |}.
  Proof.
    intros vs s x k d v [R1 R2] Hv.
    assert (Old : forall y a o, y <> x -> vs y = Some a -> s_env K s y = Some o -> o_blk o < length (s_heap K s)).
    { intros y [[k' d'] v'] o Hy H Ho. destruct (R1 y k' d' v' H) as (b & Hb & Hn & _).
      rewrite Ho in Hb. injection Hb as ->. cbn [whole o_blk]. apply nth_error_Some. now rewrite Hn. }
    split; cbn [s_heap s_env].
    - intros y k' d' v' H. destruct (Nat.eq_dec y x) as [->|Hy].
      + rewrite put_same in H. injection H as <- <- <-. exists (length (s_heap K s)).
        rewrite bind_same, nth_error_app2, Nat.sub_diag by lia. auto.
      + rewrite put_other in H by exact Hy. destruct (R1 y k' d' v' H) as (b & Hb & Hn & Hs).
        exists b. rewrite bind_other by exact Hy. split; [exact Hb|]. split; [|exact Hs].
        rewrite nth_error_app1; [exact Hn|]. apply nth_error_Some. now rewrite Hn.
    - intros y z a b c e Hn H1 H2 E1 E2.
      destruct (Nat.eq_dec y x) as [->|Hy]; destruct (Nat.eq_dec z x) as [->|Hz]; try congruence.
      + rewrite bind_same in E1. rewrite bind_other in E2 by exact Hz. rewrite put_other in H2 by exact Hz.
        injection E1 as <-. cbn [whole o_blk]. specialize (Old z b e Hz H2 E2). lia.
      + rewrite bind_same in E2. rewrite bind_other in E1 by exact Hy. rewrite put_other in H1 by exact Hy.
        injection E2 as <-. cbn [whole o_blk]. specialize (Old y a c Hy H1 E1). lia.
      + rewrite bind_other in E1, E2 by assumption. rewrite put_other in H1, H2 by assumption.
        now apply (R2 y z a b).
  Qed.

  (** the block of a name rewritten *)
  Lemma rel_rewrite : forall vs s x k d v w, rel vs s -> vs x = Some (k, d, v) -> length w = length v ->
    forall b, s_env K s x = Some (whole k d b (length v)) ->
    rel (put K vs x (Some (k, d, w))) {| s_heap := setAt (s_heap K s) b w; s_env := s_env K s |}.
  Proof.
    intros vs s x k d v w [R1 R2] Hx Hl b Hb.
    assert (Hn : nth_error (s_heap K s) b = Some v /\ sized K k d v).
    { destruct (R1 x k d v Hx) as (b' & Hb' & Hn & Hs). rewrite Hb in Hb'. injection Hb' as <-. auto. }
    destruct Hn as [Hn Hs]. assert (Hlt : b < length (s_heap K s)) by (apply nth_error_Some; now rewrite Hn).
    split; cbn [s_heap s_env].
    - intros y k' d' v' H. destruct (Nat.eq_dec y x) as [->|Hy].
      + rewrite put_same in H. injection H as <- <- <-. exists b. rewrite Hl. split; [exact Hb|].
        split; [now apply setAt_same|]. unfold sized in *. congruence.
      + rewrite put_other in H by exact Hy. destruct (R1 y k' d' v' H) as (b' & Hb' & Hn' & Hs').
        exists b'. split; [exact Hb'|]. split; [|exact Hs'].
        rewrite setAt_other; [exact Hn'|].
        exact (R2 x y _ _ _ _ (not_eq_sym Hy) Hx H Hb Hb').
    - intros y z a e c f Hne H1 H2 E1 E2.
      assert (L : forall u g, put K vs x (Some (k, d, w)) u = Some g -> exists g', vs u = Some g').
      { intros u g H. destruct (Nat.eq_dec u x) as [->|Hu]; [eauto|]. rewrite put_other in H by exact Hu. eauto. }
      destruct (L y a H1) as [a' Ha]. destruct (L z e H2) as [e' He].
      now apply (R2 y z a' e' c f).
  Qed.

  Lemma dims_size : forall d e, fold_right Nat.mul 1 (d ++ e) = fold_right Nat.mul 1 d * fold_right Nat.mul 1 e.
  Proof. induction d as [|a d IH]; intro e; cbn; [lia|]. rewrite IH. lia. Qed.

  Lemma outer_spec : forall g v w, outer K kmul g v w = map (fun ab => kmul (fst ab) (g (snd ab))) (list_prod v w).
  Proof.
    intros g v w. unfold outer. induction v as [|a v IH]; cbn; [reflexivity|].
    rewrite map_app, IH, map_map. reflexivity.
  Qed.

  Lemma contiguous_whole : forall k d b n, contiguous (whole k d b n) = true.
  Proof.
    intros k d b n. unfold contiguous, whole. cbn [o_cells]. rewrite seq_length.
    destruct n as [|n]; [reflexivity|]. cbn [seq hd]. apply dims_eqb_refl.
  Qed.

  Lemma zeros_all : forall v, Forall (fun a => a = kz) v -> v = zeros K kz (length v).
  Proof. induction 1 as [|a v H _ IH]; cbn; [reflexivity|]. rewrite H. unfold zeros in IH. now rewrite <- IH. Qed.

  Lemma elementwise_second : forall (v w : list K), length v = length w -> elementwise (fun _ b : K => b) v w = w.
  Proof.
    intros v w H. unfold elementwise. revert w H. induction v as [|a v IH]; intros [|b w] H; cbn in *; try discriminate; auto.
    f_equal. apply IH. lia.
  Qed.

  Lemma rel_zip : forall f vs s x y k d v w, rel vs s -> vs x = Some (k, d, v) -> vs y = Some (k, d, w) ->
    exists s', doZip K kz f s x y = Ok K s' /\ rel (put K vs x (Some (k, d, elementwise f v w))) s' /\ s_env K s' = s_env K s.
  Proof.
    intros f vs s x y k d v w R Hx Hy. pose proof R as [R1 R2].
    destruct (R1 x k d v Hx) as (b & Hb & Hn & Hs). destruct (R1 y k d w Hy) as (b' & Hb' & Hn' & Hs').
    assert (Hl : length v = length w) by (unfold sized in *; congruence).
    unfold doZip. rewrite Hb, Hb', sameShape_whole, (zipInto_whole f _ k d b v k d b' w Hn Hn' Hl).
    eexists. split; [reflexivity|]. split; [|reflexivity].
    apply (rel_rewrite vs s x k d v); auto. now apply elementwise_length.
  Qed.

  Lemma rel_bin : forall f vs s x y z k d v w, rel vs s -> vs y = Some (k, d, v) -> vs z = Some (k, d, w) ->
    exists s', doBin K kz f s x y z = Ok K s' /\ rel (put K vs x (Some (k, d, elementwise f v w))) s'.
  Proof.
    intros f vs s x y z k d v w R Hy Hz. pose proof R as [R1 R2].
    destruct (R1 y k d v Hy) as (b & Hb & Hn & Hs). destruct (R1 z k d w Hz) as (b' & Hb' & Hn' & Hs').
    assert (Hl : length v = length w) by (unfold sized in *; congruence).
    unfold doBin. rewrite Hb, Hb', sameShape_whole. cbn zeta. rewrite (contents_whole _ _ _ _ _ Hn).
    cbn [whole o_kind o_dims o_cells]. rewrite seq_length.
    fold (whole k d (length (s_heap K s)) (length v)).
    assert (A1 : nth_error (s_heap K s ++ [v]) (length (s_heap K s)) = Some v)
      by (rewrite nth_error_app2, Nat.sub_diag by lia; reflexivity).
    assert (A2 : nth_error (s_heap K s ++ [v]) b' = Some w)
      by (rewrite nth_error_app1; [exact Hn'|]; apply nth_error_Some; now rewrite Hn').
    fold (whole k d b' (length w)). rewrite (zipInto_whole f _ k d _ v k d b' w A1 A2 Hl).
    eexists. split; [reflexivity|].
    replace (setAt (s_heap K s ++ [v]) (length (s_heap K s)) (elementwise f v w)) with (s_heap K s ++ [elementwise f v w])
      by now rewrite setAt_app.
    rewrite <- (elementwise_length _ f v w Hl). apply rel_fresh; [exact R|].
    unfold sized in *. now rewrite elementwise_length.
  Qed.

  Lemma rel_un : forall f vs s x y k d v, rel vs s -> vs y = Some (k, d, v) ->
    exists s', doUn K kz f s x y = Ok K s' /\ rel (put K vs x (Some (k, d, map f v))) s'.
  Proof.
    intros f vs s x y k d v R Hy. pose proof R as [R1 R2].
    destruct (R1 y k d v Hy) as (b & Hb & Hn & Hs).
    unfold doUn. rewrite Hb. cbn zeta. rewrite (contents_whole _ _ _ _ _ Hn).
    cbn [whole o_kind o_dims o_cells]. rewrite seq_length.
    fold (whole k d (length (s_heap K s)) (length v)).
    assert (A1 : nth_error (s_heap K s ++ [v]) (length (s_heap K s)) = Some v)
      by (rewrite nth_error_app2, Nat.sub_diag by lia; reflexivity).
    rewrite (mapInto_whole f _ k d _ v A1). eexists. split; [reflexivity|]. rewrite setAt_app.
    rewrite <- (map_length f v). apply rel_fresh; [exact R|].
    unfold sized in *. now rewrite map_length.
  Qed.

  Lemma rel_map : forall f vs s x k d v, rel vs s -> vs x = Some (k, d, v) ->
    exists s', doMap K kz f s x = Ok K s' /\ rel (put K vs x (Some (k, d, map f v))) s' /\ s_env K s' = s_env K s.
  Proof.
    intros f vs s x k d v R Hx. pose proof R as [R1 R2].
    destruct (R1 x k d v Hx) as (b & Hb & Hn & Hs). unfold doMap. rewrite Hb, (mapInto_whole f _ k d b v Hn).
    eexists. split; [reflexivity|]. split; [|reflexivity].
    apply (rel_rewrite vs s x k d v); auto. now rewrite map_length.
  Qed.

  Lemma rel_into : forall f vs s x y d r v, rel vs s -> vs x = Some (Rho, d, r) -> vs y = Some (Psi, d, v) ->
    exists s', doIntoRho K kz f s x y = Ok K s'
      /\ rel (put K vs x (Some (Rho, d, elementwise (fun a p => f a (fst p) (snd p)) r (list_prod v v)))) s'
      /\ s_env K s' = s_env K s.
  Proof.
    intros f vs s x y d r v R Hx Hy. pose proof R as [R1 R2].
    destruct (R1 x Rho d r Hx) as (b & Hb & Hn & Hs). destruct (R1 y Psi d v Hy) as (b' & Hb' & Hn' & Hs').
    assert (Hxy : x <> y) by (intros ->; congruence).
    assert (Hbb : b <> b') by exact (R2 x y _ _ _ _ Hxy Hx Hy Hb Hb').
    assert (Hl : length r = length v * length v) by (unfold sized in *; rewrite Hs, Hs', dims_size; reflexivity).
    unfold doIntoRho. rewrite Hb, Hb'. rewrite !contiguous_whole. cbn [whole o_kind o_dims]. rewrite dims_eqb_refl. cbn [andb].
    fold (whole Rho d b (length r)). fold (whole Psi d b' (length v)).
    rewrite (dyadInto_whole f _ Rho d b r Psi d b' v Hn Hn' Hl Hbb).
    eexists. split; [reflexivity|]. split; [|reflexivity].
    apply (rel_rewrite vs s x Rho d r); auto. apply elementwise_length. now rewrite prod_length.
  Qed.

  Lemma elementwise_dyad : forall (r : list K) v, length r = length v * length v ->
    elementwise (fun (_ : K) (p : K * K) => kmul (fst p) (kconj (snd p))) r (list_prod v v) = dyadOf K kmul kconj v.
  Proof.
    intros r v H. unfold elementwise, dyadOf.
    assert (L : length r = length (list_prod v v)) by now rewrite prod_length.
    clear H. revert L. generalize (list_prod v v). induction r as [|a r IH]; intros [|p l] L; cbn in *; try discriminate; auto.
    f_equal. apply IH. lia.
  Qed.

  (** one statement *)
  Lemma exec_step : forall vs s c vs', rel vs s -> step vs c vs' -> (forall t x y, c <> Swap K t x y) ->
    exists s', exec s c = Ok K s' /\ rel vs' s'.
  Proof.
    intros vs s c vs' R H NS. pose proof R as [R1 R2].
    destruct H as [x k d v Hv Hz | x k d v Hv | x y v Hy | x y v Hy | x y k d v w Hx Hy | x y k d v w Hx Hy
                  | x y k d v w Hx Hy | x y k d v w Hx Hy | x c k d v Hx | x c k d v Hx | x k d v w a b Hx
                  | x y z k d v w Hy Hz | x y z k d v w Hy Hz | x y c k d v Hy | x y c k d v Hy | x y d v Hy
                  | x y z d v e w Hy Hz | x y d v Hy | x y d r v Hx Hy | x y w d r v Hx Hy | t x y v w Hx Hy];
      cbn [AliasModel.exec].
    - unfold doNew. eexists. split; [reflexivity|]. rewrite (zeros_all v Hz) in *. unfold alloc.
      unfold sized in Hv. rewrite <- (zeros_all v Hz) in *.
      replace (zeros K kz (sizeOf k d)) with v. { now apply rel_fresh. }
      rewrite (zeros_all v Hz). f_equal. unfold sizeOf, shapeOf. exact Hv.
    - unfold doNew. assert (E : length v =? sizeOf k d = true) by (apply Nat.eqb_eq; exact Hv). rewrite E.
      eexists. split; [reflexivity|]. unfold alloc. now apply rel_fresh.
    - destruct v as [[k d] v]. destruct (R1 y k d v Hy) as (b & Hb & Hn & Hs). unfold doCopy. rewrite Hb.
      rewrite (contents_whole _ _ _ _ _ Hn). eexists. split; [reflexivity|]. unfold alloc. now apply rel_fresh.
    - destruct v as [[k d] v]. destruct (R1 y k d v Hy) as (b & Hb & Hn & Hs). unfold doShare. rewrite Hb.
      eexists. split; [reflexivity|]. unfold share. split; cbn [s_heap s_env].
      + intros z k' d' v' H. destruct (Nat.eq_dec z x) as [->|Hz].
        * rewrite put_same in H. injection H as <- <- <-. rewrite bind_same. now exists b.
        * rewrite put_other in H by exact Hz. destruct (Nat.eq_dec z y) as [->|Hzy]; [rewrite put_same in H; discriminate|].
          rewrite put_other in H by exact Hzy. rewrite bind_other by exact Hz. now apply R1.
      + assert (L : forall z g o, z <> x -> put K (put K vs y None) x (Some (k, d, v)) z = Some g ->
                    bindName (s_env K s) x (whole k d b (length v)) z = Some o -> o_blk o <> b).
        { intros z g o Hz H Ho. rewrite put_other in H by exact Hz.
          destruct (Nat.eq_dec z y) as [->|Hzy]; [rewrite put_same in H; discriminate|].
          rewrite put_other in H by exact Hzy. rewrite bind_other in Ho by exact Hz.
          exact (R2 z y _ _ _ _ Hzy H Hy Ho Hb). }
        intros z u g g' o o' Hn' H1 H2 E1 E2.
        destruct (Nat.eq_dec z x) as [->|Hz]; destruct (Nat.eq_dec u x) as [->|Hu]; try congruence.
        * rewrite bind_same in E1. injection E1 as <-. cbn [whole o_blk]. intro Q. exact (L u g' o' Hu H2 E2 (eq_sym Q)).
        * rewrite bind_same in E2. injection E2 as <-. cbn [whole o_blk]. exact (L z g o Hz H1 E1).
        * rewrite put_other in H1, H2 by assumption. rewrite bind_other in E1, E2 by assumption.
          destruct (Nat.eq_dec z y) as [->|Hzy]; [rewrite put_same in H1; discriminate|].
          destruct (Nat.eq_dec u y) as [->|Huy]; [rewrite put_same in H2; discriminate|].
          rewrite put_other in H1, H2 by assumption. exact (R2 z u _ _ _ _ Hn' H1 H2 E1 E2).
    - destruct (rel_zip (fun _ b => b) vs s x y k d v w R Hx Hy) as (s' & E & Rs & _). exists s'. split; [exact E|].
      rewrite elementwise_second in Rs; [exact Rs|]. destruct (R1 _ _ _ _ Hx) as (? & _ & _ & S1).
      destruct (R1 _ _ _ _ Hy) as (? & _ & _ & S2). unfold sized in *. congruence.
    - destruct (rel_zip (fun _ b => b) vs s x y k d v w R Hx Hy) as (s' & E & Rs & _). exists s'. split; [exact E|].
      rewrite elementwise_second in Rs.
      + destruct (Nat.eq_dec x y) as [->|Hxy].
        * destruct Rs as [Q1 Q2]. split.
          { intros z k' d' v' H. destruct (Nat.eq_dec z y) as [->|Hz].
            - rewrite put_same in H. injection H as <- <- <-. apply Q1. now rewrite put_same.
            - rewrite !put_other in H by exact Hz. apply Q1. now rewrite put_other. }
          { intros z u g g' o o' Hn H1 H2.
            assert (L : forall q h, put K (put K vs y None) y (Some (k, d, w)) q = Some h ->
                        put K vs y (Some (k, d, w)) q = Some h).
            { intros q h Hq. destruct (Nat.eq_dec q y) as [->|Hq'].
              - now rewrite put_same in *. - now rewrite !put_other in * by exact Hq'. }
            exact (Q2 z u g g' o o' Hn (L _ _ H1) (L _ _ H2)). }
        * apply (rel_forget _ _ y) in Rs. destruct Rs as [Q1 Q2].
          assert (L : forall q, put K (put K vs y None) x (Some (k, d, w)) q = put K (put K vs x (Some (k, d, w))) y None q).
          { intro q. unfold put. destruct (Nat.eqb_spec q x); destruct (Nat.eqb_spec q y); congruence. }
          split.
          { intros z k' d' v' H. apply Q1. now rewrite <- L. }
          { intros z u g g' o o' Hn H1 H2. rewrite L in H1, H2. now apply (Q2 z u g g'). }
      + destruct (R1 _ _ _ _ Hx) as (? & _ & _ & S1). destruct (R1 _ _ _ _ Hy) as (? & _ & _ & S2).
        unfold sized in *. congruence.
    - destruct (rel_zip kadd vs s x y k d v w R Hx Hy) as (s' & E & Rs & _). eauto.
    - destruct (rel_zip ksub vs s x y k d v w R Hx Hy) as (s' & E & Rs & _). eauto.
    - destruct (rel_map (fun a => kmul a c) vs s x k d v R Hx) as (s' & E & Rs & _). eauto.
    - destruct (rel_map (fun a => kdiv a c) vs s x k d v R Hx) as (s' & E & Rs & _). eauto.
    - destruct (R1 x k d _ Hx) as (p & Hb & Hn & Hs). unfold doWrite. rewrite Hb. cbn [whole o_cells o_blk].
      rewrite seq_length, app_length. cbn [length].
      assert (E : length v <? length v + S (length w) = true) by (apply Nat.ltb_lt; lia). rewrite E.
      rewrite seq_nth by lia. cbn [Nat.add]. unfold AliasModel.setCell. rewrite (nth_of_error _ _ _ _ [] Hn), setAt_app.
      eexists. split; [reflexivity|]. apply (rel_rewrite vs s x k d (v ++ a :: w)); auto.
      now rewrite !app_length.
    - destruct (rel_bin kadd vs s x y z k d v w R Hy Hz) as (s' & E & Rs). eauto.
    - destruct (rel_bin ksub vs s x y z k d v w R Hy Hz) as (s' & E & Rs). eauto.
    - destruct (rel_un (fun a => kmul a c) vs s x y k d v R Hy) as (s' & E & Rs). eauto.
    - destruct (rel_un (fun a => kdiv a c) vs s x y k d v R Hy) as (s' & E & Rs). eauto.
    - destruct (R1 y Rho d v Hy) as (b & Hb & Hn & Hs). unfold doNeg. rewrite Hb, (contents_whole _ _ _ _ _ Hn).
      cbn [whole o_kind o_dims]. eexists. split; [reflexivity|]. unfold alloc. apply rel_fresh; [exact R|].
      unfold sized in *. now rewrite map_length.
    - destruct (R1 y Psi d v Hy) as (b & Hb & Hn & Hs). destruct (R1 z Psi e w Hz) as (b' & Hb' & Hn' & Hs').
      unfold doDirect. rewrite Hb, Hb', (contents_whole _ _ _ _ _ Hn), (contents_whole _ _ _ _ _ Hn').
      cbn [whole o_kind o_dims]. eexists. split; [reflexivity|]. rewrite outer_spec. unfold alloc. apply rel_fresh; [exact R|].
      unfold sized in *. now rewrite map_length, prod_length, dims_size, Hs, Hs'.
    - destruct (R1 y Psi d v Hy) as (b & Hb & Hn & Hs).
      unfold doDyad. rewrite Hb, (contents_whole _ _ _ _ _ Hn).
      cbn [whole o_kind o_dims]. eexists. split; [reflexivity|]. rewrite outer_spec. unfold alloc. apply rel_fresh; [exact R|].
      unfold sized in *. now rewrite map_length, prod_length, dims_size, Hs.
    - destruct (rel_into (fun _ a b => kmul a (kconj b)) vs s x y d r v R Hx Hy) as (s' & E & Rs & _).
      exists s'. split; [exact E|]. rewrite elementwise_dyad in Rs; [exact Rs|].
      destruct (R1 _ _ _ _ Hx) as (? & _ & _ & S1). destruct (R1 _ _ _ _ Hy) as (? & _ & _ & S2).
      unfold sized in *. now rewrite S1, S2, dims_size.
    - destruct (rel_into (fun o a b => kadd o (kmul (kmul w a) (kconj b))) vs s x y d r v R Hx Hy) as (s' & E & Rs & _).
      eauto.
    - exfalso. now apply (NS t x y).
  Qed.

  Lemma rel_look : forall vs s x v, rel vs s -> vs x = Some v -> look K kz s x = Some v.
  Proof.
    intros vs s x [[k d] v] [R1 _] H. destruct (R1 x k d v H) as (b & Hb & Hn & _).
    unfold look. rewrite Hb, (contents_whole _ _ _ _ _ Hn). reflexivity.
  Qed.

  Lemma rel_start : rel (nothing K) (start K).
  Proof. split; unfold nothing; intros; discriminate. Qed.

  Lemma run_steps : forall p vs s vs', rel vs s -> steps vs p vs' -> noSwap K p ->
    exists s', run s p = Ok K s' /\ rel vs' s'.
  Proof.
    induction p as [|c p IH]; intros vs s vs' R H NS; inversion H; subst.
    - now exists s.
    - match goal with H1 : step _ _ _, H2 : steps _ _ _ |- _ =>
        destruct (exec_step _ s _ _ R H1) as (s1 & E1 & Rs1);
        [intros t x y ->; apply (NS t x y); now left|];
        destruct (IH _ s1 _ Rs1 H2) as (s2 & E2 & Rs2);
        [intros t x y Hin; apply (NS t x y); now right|] end.
      exists s2. cbn [AliasModel.run]. rewrite E1. cbn. auto.
  Qed.

  Lemma values_run : forall p vs, steps (nothing K) p vs -> noSwap K p ->
    exists s, run (start K) p = Ok K s /\ forall x v, vs x = Some v -> look K kz s x = Some v.
  Proof.
    intros p vs H NS. destruct (run_steps p _ _ _ rel_start H NS) as (s & E & R). exists s. split; [exact E|].
    intros x v Hx. now apply (rel_look vs).
  Qed.

  (** ** What runs, runs as a program with values *)

  Definition relE (vs : values) (s : state) : Prop := rel vs s /\ forall x, vs x = None -> s_env K s x = None.

  Lemma relE_env : forall vs s x o, relE vs s -> s_env K s x = Some o ->
    exists k d v b, vs x = Some (k, d, v) /\ o = whole k d b (length v) /\ nth_error (s_heap K s) b = Some v /\ sized K k d v.
  Proof.
    intros vs s x o [[R1 R2] N] H. destruct (vs x) as [[[k d] v]|] eqn:E; [|rewrite (N x E) in H; discriminate].
    destruct (R1 x k d v E) as (b & Hb & Hn & Hs). rewrite H in Hb. injection Hb as ->. now exists k, d, v, b.
  Qed.

  Lemma sameShape_inv : forall k d b n k' d' b' n',
    sameShape (whole k d b n) (whole k' d' b' n') = true -> k = k' /\ d = d'.
  Proof.
    intros k d b n k' d' b' n' H. unfold sameShape, whole in H. cbn in H. apply andb_prop in H.
    destruct H as [H1 H2]. split; [now apply kind_eqb_eq | now apply dims_eqb_eq].
  Qed.

  Lemma exec_has_step : forall vs s c s', relE vs s -> exec s c = Ok K s' -> noMove K c -> exists vs', step vs c vs'.
  Proof.
    intros vs s c s' R H M.
    destruct c as [x k d init | x y | x y | x y | x y dims pos | x y | x y | x y | x y | x a | x a | x i a | x y z | x y z
                  | x y a | x y a | x y | x y z | x y | x y | x y a | t x y]; cbn [noMove] in M; try contradiction;
      cbn [AliasModel.exec] in H.
    - unfold doNew in H. destruct init as [v|].
      + destruct (Nat.eqb_spec (length v) (sizeOf k d)) as [E|E]; [|discriminate].
        eexists. apply step_new. exact E.
      + eexists. apply (step_zero K kz kadd ksub kmul kdiv kneg kconj vs x k d (zeros K kz (sizeOf k d))).
        * unfold sized, zeros. now rewrite repeat_length.
        * apply Forall_forall. intros a Ha. now apply repeat_spec in Ha.
    - unfold doCopy in H. destruct (s_env K s y) as [o|] eqn:E; [|discriminate].
      destruct (relE_env _ _ _ _ R E) as (k & d & v & b & Hv & _). eexists. eapply step_copy. exact Hv.
    - unfold doZip in H. destruct (s_env K s x) as [o|] eqn:E; [|discriminate].
      destruct (s_env K s y) as [o'|] eqn:E'; [|discriminate].
      destruct (relE_env _ _ _ _ R E) as (k & d & v & b & Hv & -> & _).
      destruct (relE_env _ _ _ _ R E') as (k' & d' & v' & b' & Hv' & -> & _).
      destruct (sameShape _ _) eqn:Sh; [|discriminate]. apply sameShape_inv in Sh. destruct Sh as [<- <-].
      eexists. eapply step_assign; eassumption.
    - unfold doZip in H. destruct (s_env K s x) as [o|] eqn:E; [|discriminate].
      destruct (s_env K s y) as [o'|] eqn:E'; [|discriminate].
      destruct (relE_env _ _ _ _ R E) as (k & d & v & b & Hv & -> & _).
      destruct (relE_env _ _ _ _ R E') as (k' & d' & v' & b' & Hv' & -> & _).
      destruct (sameShape _ _) eqn:Sh; [|discriminate]. apply sameShape_inv in Sh. destruct Sh as [<- <-].
      eexists. eapply step_add; eassumption.
    - unfold doZip in H. destruct (s_env K s x) as [o|] eqn:E; [|discriminate].
      destruct (s_env K s y) as [o'|] eqn:E'; [|discriminate].
      destruct (relE_env _ _ _ _ R E) as (k & d & v & b & Hv & -> & _).
      destruct (relE_env _ _ _ _ R E') as (k' & d' & v' & b' & Hv' & -> & _).
      destruct (sameShape _ _) eqn:Sh; [|discriminate]. apply sameShape_inv in Sh. destruct Sh as [<- <-].
      eexists. eapply step_sub; eassumption.
    - unfold doMap in H. destruct (s_env K s x) as [o|] eqn:E; [|discriminate].
      destruct (relE_env _ _ _ _ R E) as (k & d & v & b & Hv & _). eexists. eapply step_mul. exact Hv.
    - unfold doMap in H. destruct (s_env K s x) as [o|] eqn:E; [|discriminate].
      destruct (relE_env _ _ _ _ R E) as (k & d & v & b & Hv & _). eexists. eapply step_div. exact Hv.
    - unfold doWrite in H. destruct (s_env K s x) as [o|] eqn:E; [|discriminate].
      destruct (relE_env _ _ _ _ R E) as (k & d & v & b & Hv & -> & _). cbn [whole o_cells] in H. rewrite seq_length in H.
      destruct (Nat.ltb_spec i (length v)) as [Hi|Hi]; [|discriminate].
      destruct (split_at _ v i Hi) as (v1 & a1 & w1 & -> & <-). eexists. eapply step_write. exact Hv.
    - unfold doBin in H. destruct (s_env K s y) as [o|] eqn:E; [|discriminate].
      destruct (s_env K s z) as [o'|] eqn:E'; [|discriminate].
      destruct (relE_env _ _ _ _ R E) as (k & d & v & b & Hv & -> & _).
      destruct (relE_env _ _ _ _ R E') as (k' & d' & v' & b' & Hv' & -> & _).
      destruct (sameShape _ _) eqn:Sh; [|discriminate]. apply sameShape_inv in Sh. destruct Sh as [<- <-].
      eexists. eapply step_plus; eassumption.
    - unfold doBin in H. destruct (s_env K s y) as [o|] eqn:E; [|discriminate].
      destruct (s_env K s z) as [o'|] eqn:E'; [|discriminate].
      destruct (relE_env _ _ _ _ R E) as (k & d & v & b & Hv & -> & _).
      destruct (relE_env _ _ _ _ R E') as (k' & d' & v' & b' & Hv' & -> & _).
      destruct (sameShape _ _) eqn:Sh; [|discriminate]. apply sameShape_inv in Sh. destruct Sh as [<- <-].
      eexists. eapply step_minus; eassumption.
    - unfold doUn in H. destruct (s_env K s y) as [o|] eqn:E; [|discriminate].
      destruct (relE_env _ _ _ _ R E) as (k & d & v & b & Hv & _). eexists. eapply step_times. exact Hv.
    - unfold doUn in H. destruct (s_env K s y) as [o|] eqn:E; [|discriminate].
      destruct (relE_env _ _ _ _ R E) as (k & d & v & b & Hv & _). eexists. eapply step_over. exact Hv.
    - unfold doNeg in H. destruct (s_env K s y) as [o|] eqn:E; [|discriminate].
      destruct (relE_env _ _ _ _ R E) as (k & d & v & b & Hv & -> & _). cbn [whole o_kind] in H. destruct k; [discriminate|].
      eexists. eapply step_neg. exact Hv.
    - unfold doDirect in H. destruct (s_env K s y) as [o|] eqn:E; [|discriminate].
      destruct (s_env K s z) as [o'|] eqn:E'; [|discriminate].
      destruct (relE_env _ _ _ _ R E) as (k & d & v & b & Hv & -> & _).
      destruct (relE_env _ _ _ _ R E') as (k' & d' & v' & b' & Hv' & -> & _).
      cbn [whole o_kind] in H. destruct k; [|discriminate]. destruct k'; [|discriminate].
      eexists. eapply step_direct; eassumption.
    - unfold doDyad in H. destruct (s_env K s y) as [o|] eqn:E; [|discriminate].
      destruct (relE_env _ _ _ _ R E) as (k & d & v & b & Hv & -> & _). cbn [whole o_kind] in H. destruct k; [|discriminate].
      eexists. eapply step_dyad. exact Hv.
    - unfold doIntoRho in H. destruct (s_env K s x) as [o|] eqn:E; [|discriminate].
      destruct (s_env K s y) as [o'|] eqn:E'; [|discriminate].
      destruct (relE_env _ _ _ _ R E) as (k & d & v & b & Hv & -> & _).
      destruct (relE_env _ _ _ _ R E') as (k' & d' & v' & b' & Hv' & -> & _).
      cbn [whole o_kind o_dims] in H. destruct k; [discriminate|]. destruct k'; [|discriminate].
      destruct (dims_eqb d d') eqn:Ed; [|discriminate]. apply dims_eqb_eq in Ed. subst d'.
      eexists. eapply step_assign_dyad; eassumption.
    - unfold doIntoRho in H. destruct (s_env K s x) as [o|] eqn:E; [|discriminate].
      destruct (s_env K s y) as [o'|] eqn:E'; [|discriminate].
      destruct (relE_env _ _ _ _ R E) as (k & d & v & b & Hv & -> & _).
      destruct (relE_env _ _ _ _ R E') as (k' & d' & v' & b' & Hv' & -> & _).
      cbn [whole o_kind o_dims] in H. destruct k; [discriminate|]. destruct k'; [|discriminate].
      destruct (dims_eqb d d') eqn:Ed; [|discriminate]. apply dims_eqb_eq in Ed. subst d'.
      eexists. eapply step_add_dyad; eassumption.
  Qed.

  (** the names which are bound *)
  Lemma exec_names : forall s c s' x, exec s c = Ok K s' -> ~ constructs K c x -> s_env K s' x = s_env K s x.
  Proof.
    intros s c s' x H N.
    destruct c as [z k d init | z y | z y | z y | z y dims pos | z y | z y | z y | z y | z a | z a | z i a | z y u | z y u
                  | z y a | z y a | z y | z y u | z y | z y | z y a | t z y]; cbn [constructs] in N; cbn [AliasModel.exec] in H.
    - unfold doNew in H. destruct init as [v|]; [destruct (_ =? _); [|discriminate]|]; injection H as <-;
        cbn [alloc s_env]; now apply bind_other.
    - unfold doCopy in H. destruct (s_env K s y); [|discriminate]. injection H as <-. cbn [alloc s_env]. now apply bind_other.
    - unfold doShare in H. destruct (s_env K s y); [|discriminate]. injection H as <-. cbn [share s_env]. now apply bind_other.
    - unfold doShare in H. destruct (s_env K s y); [|discriminate]. injection H as <-. cbn [share s_env]. now apply bind_other.
    - unfold doView in H. destruct (s_env K s y); [|discriminate]. destruct (_ && _); [|discriminate].
      injection H as <-. cbn [share s_env]. now apply bind_other.
    - unfold doZip in H. destruct (s_env K s z); [|discriminate]. destruct (s_env K s y); [|discriminate].
      destruct (sameShape _ _); [|discriminate]. now injection H as <-.
    - unfold doZip in H. destruct (s_env K s z); [|discriminate]. destruct (s_env K s y); [|discriminate].
      destruct (sameShape _ _); [|discriminate]. now injection H as <-.
    - unfold doZip in H. destruct (s_env K s z); [|discriminate]. destruct (s_env K s y); [|discriminate].
      destruct (sameShape _ _); [|discriminate]. now injection H as <-.
    - unfold doZip in H. destruct (s_env K s z); [|discriminate]. destruct (s_env K s y); [|discriminate].
      destruct (sameShape _ _); [|discriminate]. now injection H as <-.
    - unfold doMap in H. destruct (s_env K s z); [|discriminate]. now injection H as <-.
    - unfold doMap in H. destruct (s_env K s z); [|discriminate]. now injection H as <-.
    - unfold doWrite in H. destruct (s_env K s z); [|discriminate]. destruct (_ <? _); [|discriminate]. now injection H as <-.
    - unfold doBin in H. destruct (s_env K s y); [|discriminate]. destruct (s_env K s u); [|discriminate].
      destruct (sameShape _ _); [|discriminate]. injection H as <-. cbn [s_env]. now apply bind_other.
    - unfold doBin in H. destruct (s_env K s y); [|discriminate]. destruct (s_env K s u); [|discriminate].
      destruct (sameShape _ _); [|discriminate]. injection H as <-. cbn [s_env]. now apply bind_other.
    - unfold doUn in H. destruct (s_env K s y); [|discriminate]. injection H as <-. cbn [s_env]. now apply bind_other.
    - unfold doUn in H. destruct (s_env K s y); [|discriminate]. injection H as <-. cbn [s_env]. now apply bind_other.
    - unfold doNeg in H. destruct (s_env K s y) as [o|]; [|discriminate]. destruct (o_kind o); [discriminate|].
      injection H as <-. cbn [alloc s_env]. now apply bind_other.
    - unfold doDirect in H. destruct (s_env K s y) as [o|]; [|discriminate]. destruct (s_env K s u) as [o'|]; [|discriminate].
      destruct (o_kind o); [|discriminate]. destruct (o_kind o'); [|discriminate].
      injection H as <-. cbn [alloc s_env]. now apply bind_other.
    - unfold doDyad in H. destruct (s_env K s y) as [o|]; [|discriminate]. destruct (o_kind o); [|discriminate].
      injection H as <-. cbn [alloc s_env]. now apply bind_other.
    - unfold doIntoRho in H. destruct (s_env K s z) as [o|]; [|discriminate]. destruct (s_env K s y) as [o'|]; [|discriminate].
      destruct (o_kind o); [discriminate|]. destruct (o_kind o'); [|discriminate].
      destruct (_ && _); [|discriminate]. now injection H as <-.
    - unfold doIntoRho in H. destruct (s_env K s z) as [o|]; [|discriminate]. destruct (s_env K s y) as [o'|]; [|discriminate].
      destruct (o_kind o); [discriminate|]. destruct (o_kind o'); [|discriminate].
      destruct (_ && _); [|discriminate]. now injection H as <-.
    - unfold doSwap, andThen in H. destruct (doShare K s t z) as [s1|] eqn:E1; [|discriminate].
      destruct (doZip K kz _ s1 z y) as [s2|] eqn:E2; [|discriminate].
      transitivity (s_env K s1 x); [transitivity (s_env K s2 x)|].
      + clear - H. unfold doZip in H. destruct (s_env K s2 y); [|discriminate]. destruct (s_env K s2 t); [|discriminate].
        destruct (sameShape _ _); [|discriminate]. now injection H as <-.
      + clear - E2. unfold doZip in E2. destruct (s_env K s1 z); [|discriminate]. destruct (s_env K s1 y); [|discriminate].
        destruct (sameShape _ _); [|discriminate]. now injection E2 as <-.
      + clear - E1 N. unfold doShare in E1. destruct (s_env K s z); [|discriminate]. injection E1 as <-.
        cbn [share s_env]. now apply bind_other.
  Qed.

  Lemma step_none : forall vs c vs' x, step vs c vs' -> noMove K c -> vs' x = None -> vs x = None /\ ~ constructs K c x.
  Proof.
    intros vs c vs' x H M N.
    assert (P : forall y v, put K vs y (Some v) x = None -> vs x = None /\ x <> y).
    { intros y v E. unfold put in E. destruct (Nat.eqb_spec x y); [discriminate|auto]. }
    destruct H; cbn [noMove constructs] in *; try contradiction; apply P in N; tauto.
  Qed.

  Lemma run_values_from : forall p vs s s', relE vs s -> Forall (noMove K) p -> run s p = Ok K s' ->
    exists vs', steps vs p vs' /\ relE vs' s'.
  Proof.
    induction p as [|c p IH]; intros vs s s' R M H; cbn [AliasModel.run] in H.
    - injection H as <-. exists vs. split; [constructor | exact R].
    - unfold andThen in H. destruct (exec s c) as [s1|] eqn:E; [|discriminate].
      inversion M as [|? ? Mc Mp]; subst.
      destruct (exec_has_step vs s c s1 R E Mc) as [vs1 St].
      destruct R as [R N].
      destruct (exec_step vs s c vs1 R St) as (s1' & E' & R1).
      { intros t x y ->. exact Mc. }
      assert (s1' = s1) by congruence. subst s1'.
      assert (RE : relE vs1 s1).
      { split; [exact R1|]. intros x Hx. destruct (step_none _ _ _ _ St Mc Hx) as [Hv Hc].
        rewrite (exec_names s c s1 x E Hc). now apply N. }
      destruct (IH vs1 s1 s' RE Mp H) as (vs2 & Ss & R2). exists vs2. split; [econstructor; eassumption | exact R2].
  Qed.

  Lemma run_values : forall p s, Forall (noMove K) p -> run (start K) p = Ok K s ->
    exists vs, steps (nothing K) p vs /\ forall x, look K kz s x = vs x.
  Proof.
    intros p s M H. destruct (run_values_from p (nothing K) (start K) s) as (vs & Ss & R & N); auto.
    - split; [apply rel_start|]. reflexivity.
    - exists vs. split; [exact Ss|]. intro x. destruct (vs x) as [v|] eqn:E.
      + now apply (rel_look vs).
      + unfold look. now rewrite (N x E).
  Qed.

  (** ** Sharing *)

  Lemma run_names : forall p s s' x, run s p = Ok K s' -> Forall (fun c => ~ constructs K c x) p ->
    s_env K s' x = s_env K s x.
  Proof.
    induction p as [|c p IH]; intros s s' x H F; cbn [AliasModel.run] in H; [now injection H as <-|].
    unfold andThen in H. destruct (exec s c) as [s1|] eqn:E; [|discriminate]. inversion F; subst.
    rewrite (IH s1 s' x H) by assumption. now apply (exec_names s c).
  Qed.

  Lemma shared : forall s c x y s1 p s2, c = Ref K x y \/ c = Move K x y -> x <> y ->
    exec s c = Ok K s1 -> run s1 p = Ok K s2 ->
    Forall (fun c => ~ constructs K c x /\ ~ constructs K c y) p ->
    look K kz s2 x = look K kz s2 y /\ look K kz s2 y <> None.
  Proof.
    intros s c x y s1 p s2 Hc Hxy E H F.
    assert (Fx : Forall (fun c => ~ constructs K c x) p) by (eapply Forall_impl; [|exact F]; cbn; tauto).
    assert (Fy : Forall (fun c => ~ constructs K c y) p) by (eapply Forall_impl; [|exact F]; cbn; tauto).
    unfold look. rewrite (run_names p s1 s2 x H Fx), (run_names p s1 s2 y H Fy).
    assert (D : doShare K s x y = Ok K s1) by (destruct Hc as [-> | ->]; exact E).
    unfold doShare in D. destruct (s_env K s y) as [o|] eqn:Eo; [|discriminate]. injection D as <-.
    cbn [share s_env]. rewrite bind_same, bind_other by congruence. rewrite Eo. split; [reflexivity|discriminate].
  Qed.

  Lemma viewed : forall s x y dims pos s1 p s2, x <> y ->
    exec s (View K x y dims pos) = Ok K s1 -> run s1 p = Ok K s2 ->
    Forall (fun c => ~ constructs K c x /\ ~ constructs K c y) p ->
    exists k d v, look K kz s2 y = Some (k, d, v) /\ look K kz s2 x = Some (k, dims, map (fun i => nth i v kz) pos)
                  /\ forall i, In i pos -> i < length v.
  Proof.
    intros s x y dims pos s1 p s2 Hxy E H F.
    assert (Fx : Forall (fun c => ~ constructs K c x) p) by (eapply Forall_impl; [|exact F]; cbn; tauto).
    assert (Fy : Forall (fun c => ~ constructs K c y) p) by (eapply Forall_impl; [|exact F]; cbn; tauto).
    unfold look. rewrite (run_names p s1 s2 x H Fx), (run_names p s1 s2 y H Fy).
    cbn [AliasModel.exec] in E. unfold doView in E. destruct (s_env K s y) as [o|] eqn:Eo; [|discriminate].
    destruct (forallb _ pos) eqn:Ef; cbn [andb] in E; [|discriminate].
    destruct (_ =? _); [|discriminate]. injection E as <-.
    cbn [share s_env]. rewrite bind_same, bind_other by congruence. rewrite Eo.
    exists (o_kind o), (o_dims o), (contents K kz (s_heap K s2) o). split; [reflexivity|].
    assert (L : forall i, In i pos -> i < length (contents K kz (s_heap K s2) o)).
    { intros i Hi. unfold contents. rewrite map_length. rewrite forallb_forall in Ef. specialize (Ef i Hi).
      now apply Nat.ltb_lt in Ef. }
    split; [|exact L]. cbn [o_kind o_dims]. do 2 f_equal. unfold contents at 1. cbn [o_blk o_cells]. rewrite map_map.
    apply map_ext_in. intros i Hi. specialize (L i Hi). unfold contents in *. rewrite map_length in L.
    rewrite (nth_indep _ kz (cell (s_heap K s2) (o_blk o) 0)) by (rewrite map_length; exact L).
    now rewrite map_nth.
  Qed.

  (** ** Exchange *)

  Lemma swap_loses : forall p vs t x y k d v w, steps (nothing K) p vs -> noSwap K p ->
    vs x = Some (k, d, v) -> vs y = Some (k, d, w) -> x <> y -> t <> x -> t <> y ->
    exists s, run (start K) (p ++ [Swap K t x y]) = Ok K s
      /\ look K kz s x = Some (k, d, w) /\ look K kz s y = Some (k, d, w).
  Proof.
    intros p vs t x y k d v w H NS Hx Hy Hxy Htx Hty.
    destruct (run_steps p _ _ _ rel_start H NS) as (s & E & R).
    assert (App : forall q s0 s1 r, run s0 q = Ok K s1 -> run s0 (q ++ r) = run s1 r).
    { induction q as [|c q IH]; intros s0 s1 r Hr; cbn [app AliasModel.run] in *; [now injection Hr as <-|].
      unfold andThen in *. destruct (exec s0 c) as [s'|]; [|discriminate]. now apply IH. }
    rewrite (App p _ _ _ E). clear App. cbn [AliasModel.run]. cbn [AliasModel.exec]. unfold doSwap.
    pose proof R as [R1 R2]. destruct (R1 x k d v Hx) as (b & Hb & Hn & Hs). destruct (R1 y k d w Hy) as (b' & Hb' & Hn' & Hs').
    assert (Hbb : b <> b') by exact (R2 x y _ _ _ _ Hxy Hx Hy Hb Hb').
    assert (Hl : length v = length w) by (unfold sized in *; congruence).
    assert (Lt : b < length (s_heap K s)) by (apply nth_error_Some; now rewrite Hn).
    assert (Lt' : b' < length (s_heap K s)) by (apply nth_error_Some; now rewrite Hn').
    unfold doShare. rewrite Hb. cbn [andThen]. unfold doZip at 1. cbn [share s_env s_heap].
    rewrite !bind_other by congruence. rewrite Hb, Hb', sameShape_whole. cbn [andThen].
    rewrite (zipInto_whole _ _ k d b v k d b' w Hn Hn' Hl), (elementwise_second v w Hl).
    set (h1 := setAt (s_heap K s) b w).
    assert (B : nth_error h1 b = Some w) by now apply setAt_same.
    assert (B' : nth_error h1 b' = Some w) by (unfold h1; rewrite setAt_other by congruence; exact Hn').
    unfold doZip. cbn [s_env s_heap]. rewrite bind_other by congruence. rewrite bind_same, Hb', sameShape_whole. cbn [andThen].
    rewrite Hl, (zipInto_whole _ h1 k d b' w k d b w B' B eq_refl), (elementwise_second w w eq_refl).
    assert (C : setAt h1 b' w = h1) by now apply setAt_id. rewrite C.
    eexists. split; [reflexivity|]. unfold look. cbn [s_env s_heap]. rewrite !bind_other by congruence. rewrite Hb, Hb'. split.
    - rewrite Hl, (contents_whole _ _ _ _ _ B). reflexivity.
    - rewrite (contents_whole _ _ _ _ _ B'). reflexivity.
  Qed.

End AliasProofs.
