From Coq Require Import Ascii List Bool Lia.
From Verif Require Import CommentModel CommentSpec.
Import ListNotations.

Lemma write_app f a b : write f (a ++ b) = write (write f a) b.
Proof. apply fold_left_app. Qed.
Lemma writes_concat : forall texts f, writes f texts = write f (concat texts).
Proof. induction texts as [|a l IH]; intros f; [reflexivity|]. cbn [concat]. rewrite write_app, <- IH. reflexivity. Qed.
Lemma write_within : forall l d, isLine l -> write (mkStream withinLine d) l = mkStream withinLine (d ++ l).
Proof.
  induction l as [|c l IH]; intros d H; cbn; [now rewrite app_nil_r|].
  assert (E : put (mkStream withinLine d) c = mkStream withinLine (d ++ [c])).
  { unfold put. cbn. destruct (Ascii.eqb_spec c EOL) as [->|N]; [exfalso; apply H; now left|reflexivity]. }
  rewrite E. unfold write in IH. rewrite IH; [rewrite <- app_assoc; reflexivity|]. intros I. apply H. now right.
Qed.
Lemma write_line l d : isLine l -> write (newStream d) l = mkStream (match l with [] => lineBegin | _ => withinLine end) (d ++ mark l).
Proof.
  intros H. destruct l as [|c l]; cbn; [unfold newStream; now rewrite app_nil_r|].
  assert (E : put (newStream d) c = mkStream withinLine (d ++ [commentChar; blank; c])).
  { unfold put. cbn. destruct (Ascii.eqb_spec c EOL) as [->|N]; [exfalso; apply H; now left|reflexivity]. }
  rewrite E. pose proof (write_within l (d ++ [commentChar; blank; c])) as W. unfold write in W. rewrite W; [|intros I; apply H; now right].
  now rewrite <- app_assoc.
Qed.
Lemma write_eol s d : write (mkStream s d) [EOL] = newStream (d ++ [EOL]).
Proof. destruct s; reflexivity. Qed.
Lemma join_cons l ls : ls <> [] -> join (l :: ls) = l ++ EOL :: join ls.
Proof. destruct ls; [contradiction|reflexivity]. Qed.

Lemma write_lines : forall lines d, (forall l, In l lines -> isLine l) -> dest (write (newStream d) (join lines)) = d ++ join (map mark lines).
Proof.
  induction lines as [|l ls IH]; intros d H.
  - cbn. now rewrite app_nil_r.
  - destruct ls as [|l2 ls].
    + cbn [join map]. rewrite write_line by (apply H; now left). reflexivity.
    + rewrite join_cons by discriminate. change (map mark (l :: l2 :: ls)) with (mark l :: map mark (l2 :: ls)).
      rewrite (join_cons (mark l)) by discriminate.
      change (l ++ EOL :: join (l2 :: ls)) with (l ++ [EOL] ++ join (l2 :: ls)).
      rewrite !write_app, write_line by (apply H; now left). rewrite write_eol, IH by (intros x Hx; apply H; now right).
      rewrite <- !app_assoc. reflexivity.
Qed.

Lemma text_lines : forall t, exists lines, lines <> [] /\ (forall l, In l lines -> isLine l) /\ t = join lines.
Proof.
  induction t as [|c t [lines (N & H & ->)]].
  - exists [[]]. split; [discriminate|]. split; [|reflexivity]. intros l [<-|[]]. intros [].
  - destruct (ascii_dec c EOL) as [->|D].
    + exists ([] :: lines). split; [discriminate|]. split; [intros l [<-|I]; auto; intros []|]. now rewrite join_cons.
    + destruct lines as [|l ls]; [contradiction|]. exists ((c :: l) :: ls). split; [discriminate|]. split.
      * intros x [<-|I]; [|apply H; now right]. intros [E|I]; [now apply D|]. exact (H l (or_introl eq_refl) I).
      * destruct ls; reflexivity.
Qed.

Lemma mark_line l : isLine l -> isLine (mark l).
Proof. destruct l as [|c l]; intros H; cbn; auto. intros [E|[E|I]]; [discriminate E|discriminate E|auto]. Qed.
Lemma unmark_mark l : unmark (mark l) = l.
Proof. now destruct l. Qed.

Lemma join_inj : forall a b, a <> [] -> b <> [] -> (forall l, In l a -> isLine l) -> (forall l, In l b -> isLine l) -> join a = join b -> a = b.
Proof.
  assert (S : forall l l' r r', isLine l -> isLine l' -> l ++ EOL :: r = l' ++ EOL :: r' -> l = l' /\ r = r').
  { induction l as [|c l IH]; intros l' r r' H H' E; destruct l' as [|c' l'].
    - injection E. auto.
    - injection E as <- _. exfalso. apply H'. now left.
    - injection E as -> _. exfalso. apply H. now left.
    - injection E as <- E. destruct (IH l' r r') as [-> ->]; auto; intros I; [apply H|apply H']; now right. }
  assert (T : forall l l' r, isLine l -> l = l' ++ EOL :: r -> False).
  { intros l l' r H ->. apply H. apply in_or_app. right. now left. }
  induction a as [|x a IH]; intros b Na Nb Ha Hb E; [contradiction|]. destruct b as [|y b]; [contradiction|].
  destruct a as [|x2 a]; destruct b as [|y2 b].
  - cbn in E. now subst.
  - rewrite (join_cons y) in E by discriminate. exfalso. exact (T _ _ _ (Ha x (or_introl eq_refl)) E).
  - rewrite (join_cons x) in E by discriminate. exfalso. exact (T _ _ _ (Hb y (or_introl eq_refl)) (eq_sym E)).
  - rewrite !join_cons in E by discriminate. apply S in E; [|apply Ha; now left|apply Hb; now left]. destruct E as [-> E].
    f_equal. apply IH; try discriminate; auto; intros l I; [apply Ha|apply Hb]; now right.
Qed.

Lemma recovered t t' d : dest (write (newStream d) t) = dest (write (newStream d) t') -> t = t'.
Proof.
  destruct (text_lines t) as [a (Na & Ha & ->)], (text_lines t') as [b (Nb & Hb & ->)]. rewrite !write_lines by auto.
  intros E. apply app_inv_head in E. f_equal.
  assert (M : map mark a = map mark b).
  { apply join_inj; auto; try (intros C; apply map_eq_nil in C; contradiction).
    - intros l I. apply in_map_iff in I. destruct I as [x [<- I]]. apply mark_line; auto.
    - intros l I. apply in_map_iff in I. destruct I as [x [<- I]]. apply mark_line; auto. }
  assert (U : forall x, map unmark (map mark x) = x).
  { intros x. rewrite map_map. rewrite <- (map_id x) at 2. apply map_ext, unmark_mark. }
  rewrite <- (U a), <- (U b), M. reflexivity.
Qed.

Lemma chunks_irrelevant f texts texts' : concat texts = concat texts' -> writes f texts = writes f texts'.
Proof. intros E. now rewrite !writes_concat, E. Qed.
Lemma marked texts lines d : (forall l, In l lines -> isLine l) -> concat texts = join lines ->
  dest (writes (newStream d) texts) = d ++ join (map mark lines).
Proof. intros H E. rewrite writes_concat, E. now apply write_lines. Qed.
