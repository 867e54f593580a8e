(** Reading trajectory files in Python. *)
From Coq Require Import String Ascii List Arith Bool Lia.
From Verif Require Import StateFileModel ParsModel OutputSpec OutputProofs CommentModel CommentSpec CommentProofs PyLoadModel PyLoadSpec.
Import ListNotations.
Local Open Scope nat_scope.

Definition flat (ls : list text) : text := flat_map (fun l => l ++ [EOL]) ls.
Lemma flat_app a b : flat (a ++ b) = flat a ++ flat b. Proof. apply flat_map_app. Qed.
Lemma join_flat ls : join (ls ++ [[]]) = flat ls.
Proof. induction ls as [|l ls IH]; [reflexivity|]. cbn [app]. rewrite join_cons by (destruct ls; discriminate). rewrite IH. cbn. now rewrite <- app_assoc. Qed.
Lemma join_end ls : ls <> [] -> join ls ++ [EOL] = flat ls.
Proof.
  induction ls as [|l ls IH]; intros N; [contradiction|]. destruct ls as [|m ls]; [cbn; now rewrite app_nil_r|]. rewrite join_cons by discriminate.
  change (flat (l :: m :: ls)) with ((l ++ [EOL]) ++ flat (m :: ls)). rewrite <- IH by discriminate. now rewrite <- !app_assoc.
Qed.
Lemma complete_flat t : complete t -> exists ls, (forall l, In l ls -> isLine l) /\ t = flat ls.
Proof.
  intros [->|(t' & ->)]; [now exists []|]. destruct (text_lines t') as (ls & N & H & ->). exists ls. split; auto. now apply join_end.
Qed.
Lemma marked_flat ls d texts : (forall l, In l ls -> isLine l) -> concat texts = flat ls -> dest (writes (newStream d) texts) = d ++ flat (map mark ls).
Proof.
  intros H E. rewrite (marked texts (ls ++ [[]]) d).
  - rewrite map_app. cbn [map mark]. now rewrite join_flat.
  - intros l I. apply in_app_or in I as [I|[<-|[]]]; auto. intros [].
  - now rewrite join_flat.
Qed.
(** what the lines of a piece are *)
Definition chunk (p : piece) (c : list text) : Prop :=
  match p with
  | Commentary texts => exists ls, (forall l, In l ls -> isLine l) /\ concat texts = flat ls /\ c = map mark ls
  | Shown l => exists l', l = l' ++ [EOL] /\ isLine l' /\ ~ In commentChar l' /\ c = [l']
  end.
Lemma chunk_exists p : proper p -> exists c, chunk p c.
Proof.
  destruct p as [texts|l]; cbn.
  - intros H. destruct (complete_flat _ H) as (ls & H1 & H2). now exists (map mark ls), ls.
  - intros (l' & H1 & H2 & H3). now exists [l'], l'.
Qed.
Lemma chunks_exist ps : (forall p, In p ps -> proper p) -> exists cs, Forall2 chunk ps cs.
Proof.
  induction ps as [|p ps IH]; intros H; [exists []; constructor|]. destruct (chunk_exists p) as (c & Hc); [apply H; now left|]. destruct IH as (cs & Hcs); [intros q Hq; apply H; now right|].
  exists (c :: cs). now constructor.
Qed.
Lemma append_chunk p c d : chunk p c -> append d p = d ++ flat c.
Proof.
  destruct p as [texts|l]; cbn.
  - intros (ls & H & E & ->). now apply marked_flat.
  - intros (l' & -> & _ & _ & ->). cbn. now rewrite app_nil_r.
Qed.
Lemma written_from ps cs : Forall2 chunk ps cs -> forall d, fold_left append ps d = d ++ flat (concat cs).
Proof.
  induction 1 as [|p c ps cs H _ IH]; intros d; cbn [fold_left concat]; [cbn; now rewrite app_nil_r|]. rewrite IH, (append_chunk p c d H), flat_app. now rewrite app_assoc.
Qed.
Lemma written_flat ps cs : Forall2 chunk ps cs -> written ps = flat (concat cs).
Proof. intros H. apply (written_from ps cs H []). Qed.
Lemma chunk_lines p c : chunk p c -> forall l, In l c -> isLine l.
Proof.
  destruct p as [texts|l0]; cbn.
  - intros (ls & H & _ & ->) l I. apply in_map_iff in I as (l' & <- & I). apply mark_line. auto.
  - intros (l' & _ & H & _ & ->) l [<-|[]]. exact H.
Qed.
Lemma chunks_lines ps cs : Forall2 chunk ps cs -> forall l, In l (concat cs) -> isLine l.
Proof. induction 1 as [|p c ps cs H _ IH]; intros l I; cbn in I; [contradiction|]. apply in_app_or in I as [I|I]; [eapply chunk_lines; eauto|auto]. Qed.
Lemma pyLines_line l : isLine l -> forall cur r, pyLinesFrom cur (l ++ EOL :: r) = (cur ++ l ++ [EOL]) :: pyLinesFrom [] r.
Proof.
  induction l as [|a l IH]; intros H cur r; [reflexivity|]. cbn [app pyLinesFrom]. destruct (Ascii.eqb_spec a EOL) as [->|N]; [exfalso; apply H; now left|].
  rewrite IH by (intros I; apply H; now right). now rewrite <- !app_assoc.
Qed.
Lemma pyLines_flat ls : (forall l, In l ls -> isLine l) -> pyLines (flat ls) = map (fun l => l ++ [EOL]) ls.
Proof.
  unfold pyLines. induction ls as [|l ls IH]; intros H; [reflexivity|]. change (flat (l :: ls)) with ((l ++ [EOL]) ++ flat ls). rewrite <- app_assoc. cbn [app].
  rewrite pyLines_line by (apply H; now left). cbn [map app]. f_equal. apply IH. intros m Hm. apply H. now right.
Qed.
Lemma cut_none c l : ~ In c l -> cut c l = l.
Proof. induction l as [|a l IH]; intros H; [reflexivity|]. cbn. destruct (Ascii.eqb_spec a c) as [->|N]; [exfalso; apply H; now left|]. rewrite IH; [reflexivity|]. intros I. apply H. now right. Qed.
Definition nonempty (ws : list text) : bool := negb (length ws =? 0).
Lemma marked_skipped ls : filter nonempty (map (splitLine (Some commentChar)) (map (fun l => l ++ [EOL]) (map mark ls))) = [].
Proof. induction ls as [|l ls IH]; [reflexivity|]. cbn [map filter]. replace (splitLine (Some commentChar) (mark l ++ [EOL])) with (@nil text) by (destruct l; reflexivity). exact IH. Qed.
Lemma evs_words ps cs : Forall2 chunk ps cs -> filter nonempty (map (splitLine (Some commentChar)) (map (fun l => l ++ [EOL]) (concat cs))) = filter nonempty (map words (shown ps)).
Proof.
  induction 1 as [|p c ps cs H _ IH]; [reflexivity|]. cbn [concat]. unfold shown. cbn [flat_map]. fold (shown ps). rewrite !map_app, !filter_app, IH. f_equal.
  destruct p as [texts|l]; cbn in H.
  - destruct H as (ls & _ & _ & ->). cbn [map filter]. apply marked_skipped.
  - destruct H as (l' & -> & H1 & H2 & ->). cbn [map]. unfold splitLine. rewrite cut_none; [reflexivity|]. intros I. apply in_app_or in I as [I|[I|[]]]; [auto|discriminate I].
Qed.
Lemma filter_all {B} (f : B -> bool) l : (forall x, In x l -> f x = true) -> filter f l = l.
Proof. induction l as [|a l IH]; intros H; [reflexivity|]. cbn. rewrite (H a) by now left. rewrite IH; [reflexivity|]. intros x I. apply H. now right. Qed.
Lemma allSome_map {B} (l : list B) : allSome (map Some l) = Some l.
Proof. induction l as [|a l IH]; [reflexivity|]. cbn. now rewrite IH. Qed.
Lemma allSome_none {B} (l : list (option B)) : In None l -> allSome l = None.
Proof. induction l as [|[a|] l IH]; intros H; [contradiction| |reflexivity]. destruct H as [H|H]; [discriminate|]. cbn. now rewrite IH. Qed.
Lemma allSome_exists {B C} (f : B -> option C) l : (forall x, In x l -> exists c, f x = Some c) -> exists r, allSome (map f l) = Some r /\ length r = length l /\ forall i x, nth_error l i = Some x -> nth_error r i = f x.
Proof.
  induction l as [|a l IH]; intros H; [exists []; repeat split; auto; now intros [|]|]. destruct (H a) as (c & Hc); [now left|]. destruct IH as (r & E & L & N); [intros x I; apply H; now right|].
  exists (c :: r). cbn [map allSome]. rewrite Hc, E. repeat split; [cbn; now rewrite L|]. intros [|i] x Hx; cbn in *; [injection Hx as ->; now symmetry|now apply N].
Qed.
Section Num.
Context {A : Type}.
Variable number : text -> option A.
Lemma load_rows lines (rows : list (list A)) n : 1 <= n -> (forall r, In r rows -> length r = n) -> Forall2 (fun ws r => map number ws = map Some r) lines rows ->
  forallb (fun ws => length ws =? length (hd [] lines)) lines = true /\ allSome (map (fun ws => allSome (map number ws)) lines) = Some rows /\ filter nonempty lines = lines.
Proof.
  intros Hn Hr H. assert (L : forall ws, In ws lines -> length ws = n).
  { clear Hn. induction H as [|w r ls rs E _ IH]; intros ws I; [contradiction|]. destruct I as [<-|I]; [|apply IH; auto; intros x Hx; apply Hr; now right].
    apply (f_equal (@length _)) in E. rewrite !map_length in E. rewrite E. apply Hr. now left. }
  split; [|split].
  - apply forallb_forall. intros ws I. apply Nat.eqb_eq. rewrite (L ws I). destruct lines as [|w ls]; [contradiction|]. cbn. symmetry. apply L. now left.
  - clear L Hr. induction H as [|w r ls rs E _ IH]; [reflexivity|]. cbn [map allSome]. rewrite E, allSome_map, IH. reflexivity.
  - apply filter_all. intros ws I. unfold nonempty. rewrite (L ws I). destruct n; [lia|reflexivity].
Qed.
Lemma evs_loaded ps (rows : list (list A)) n : (forall p, In p ps -> proper p) -> Forall2 (reads number) (shown ps) rows -> (forall r, In r rows -> length r = n) -> 1 <= n ->
  loadtxt number (pyLines (written ps)) (Some commentChar) None = Some (squeeze rows).
Proof.
  intros Hp H Hr Hn. destruct (chunks_exist ps Hp) as (cs & Hc). rewrite (written_flat ps cs Hc), pyLines_flat by (eapply chunks_lines; eauto). unfold loadtxt. cbv zeta. fold nonempty. rewrite (evs_words ps cs Hc).
  assert (H' : Forall2 (fun ws r => map number ws = map Some r) (map words (shown ps)) rows) by (clear -H; induction H; cbn; constructor; auto).
  destruct (load_rows _ rows n Hn Hr H') as (E1 & E2 & E3). rewrite E3. unfold pick. rewrite allSome_map, E1, E2. reflexivity.
Qed.
Lemma squeeze_two (rows : list (list A)) n : 2 <= n -> 2 <= length rows -> (forall r, In r rows -> length r = n) -> squeeze rows = Dim2 rows.
Proof.
  intros Hn H Hr. destruct rows as [|r [|s rows]]; cbn in H; try lia. unfold squeeze. cbn [forallb]. rewrite (Hr r) by now left. destruct (Nat.eqb_spec n 1); [lia|]. cbn [andb]. destruct r as [|a [|b r]]; reflexivity.
Qed.
Lemma evs_columns ps (rows : list (list A)) n : (forall p, In p ps -> proper p) -> Forall2 (reads number) (shown ps) rows -> (forall r, In r rows -> length r = n) -> 2 <= n -> 2 <= length rows ->
  exists cols, loadEvs number (written ps) = Some cols /\ columns rows n cols.
Proof.
  intros Hp H Hr Hn Hl. unfold loadEvs. rewrite (evs_loaded ps rows n) by (auto; lia). rewrite (squeeze_two rows n) by auto.
  replace (length (hd [] rows)) with n by (destruct rows as [|r rows]; [cbn in Hl; lia|]; symmetry; apply Hr; now left).
  assert (C : forall j, j < n -> exists c, allSome (map (fun r => nth_error r j) rows) = Some c /\ length c = length rows /\ forall i r, nth_error rows i = Some r -> nth_error c i = nth_error r j).
  { intros j Hj. apply (allSome_exists (fun r : list A => nth_error r j)). intros r I. destruct (nth_error r j) as [x|] eqn:E; [now exists x|]. apply nth_error_None in E. rewrite (Hr r I) in E. lia. }
  destruct (allSome_exists (fun j => allSome (map (fun r : list A => nth_error r j) rows)) (seq 0 n)) as (cols & E & L & N).
  { intros j I. apply in_seq in I. destruct (C j) as (c & Ec & _); [lia|]. now exists c. }
  exists cols. split; [exact E|]. split; [now rewrite L, seq_length|]. intros j Hj. destruct (C j Hj) as (c & Ec & Lc & Nc). exists c. split; [|auto].
  rewrite (N j j), Ec; [reflexivity|]. rewrite (nth_error_nth' (seq 0 n) 0) by now rewrite seq_length. now rewrite seq_nth.
Qed.
Lemma evs_single ps (rows : list (list A)) n : (forall p, In p ps -> proper p) -> Forall2 (reads number) (shown ps) rows -> (forall r, In r rows -> length r = n) -> 2 <= n -> length rows = 1 ->
  loadEvs number (written ps) = None.
Proof.
  intros Hp H Hr Hn Hl. unfold loadEvs. rewrite (evs_loaded ps rows n) by (auto; lia). destruct rows as [|r [|s rows]]; cbn in Hl; try lia. specialize (Hr r (or_introl eq_refl)). destruct r as [|a [|b r]]; cbn in Hr; try lia. reflexivity.
Qed.
End Num.
