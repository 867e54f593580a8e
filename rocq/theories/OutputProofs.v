From Coq Require Import String Ascii List Arith ZArith Bool Lia.
From Verif Require Import StateFileModel ParsModel OutputModel OutputSpec.
Import ListNotations.
Local Open Scope nat_scope.

Lemma dropZeros_len : forall ds, length (dropZeros ds) <= length ds.
Proof. induction ds as [|d ds IH]; cbn; [lia|]. destruct (dropZeros ds); cbn in *; [destruct (d =? 0); cbn; lia|lia]. Qed.
Lemma dropZeros_in : forall ds d, In d (dropZeros ds) -> In d ds.
Proof.
  induction ds as [|d ds IH]; intros e H; cbn in *; [contradiction|].
  destruct (dropZeros ds) as [|r rs] eqn:E.
  - destruct (d =? 0); cbn in H; [contradiction|]. tauto.
  - destruct H as [H|H]; [now left|]. right. now apply IH.
Qed.
Lemma fraction_len ds : length (fraction ds) <= match ds with [] => 0 | _ => 1 + length ds end.
Proof.
  unfold fraction. pose proof (dropZeros_len ds) as H. destruct (dropZeros ds) as [|r rs]; cbn [length]; [destruct ds; lia|].
  rewrite map_length. destruct ds; cbn in *; lia.
Qed.
Lemma exponent_len X : length (exponent X) <= 5.
Proof. unfold exponent, exponentDigits. destruct (_ <? 100); cbn; lia. Qed.
Definition body (precision : nat) (ds : list nat) (X : Z) : text :=
  if ((X <? -4) || (Z.of_nat (digitsOf precision) <=? X))%Z
  then match ds with [] => [] | d :: ds' => digit d :: fraction ds' end ++ exponent X
  else if (X <? 0)%Z then digit 0 :: fraction (repeat 0 (Z.abs_nat X - 1) ++ ds)
  else map digit (firstn (Z.to_nat X + 1) ds) ++ fraction (skipn (Z.to_nat X + 1) ds).
Lemma body_len precision ds X : length ds = digitsOf precision -> length (body precision ds X) <= precision + 6.
Proof.
  intros L. unfold body. destruct ((X <? -4) || _)%Z eqn:E.
  - rewrite app_length. pose proof (exponent_len X). destruct ds as [|d ds]; [cbn [length]; lia|]. cbn [length] in *. pose proof (fraction_len ds) as F.
    unfold digitsOf in L. destruct precision; destruct ds; cbn [length] in *; lia.
  - apply orb_false_elim in E. destruct E as [E1 E2]. apply Z.ltb_ge in E1. apply Z.leb_gt in E2. destruct (Z.ltb_spec X 0) as [N|N].
    + cbn [length]. pose proof (fraction_len (repeat 0 (Z.abs_nat X - 1) ++ ds)) as F.
      assert (Z.abs_nat X - 1 <= 3) by lia.
      assert (length (repeat 0 (Z.abs_nat X - 1) ++ ds) <= 3 + digitsOf precision) by (rewrite app_length, repeat_length; lia).
      unfold digitsOf in *. destruct (repeat 0 (Z.abs_nat X - 1) ++ ds); destruct precision; cbn [length] in *; lia.
    + rewrite app_length, map_length, firstn_length. pose proof (fraction_len (skipn (Z.to_nat X + 1) ds)) as F. rewrite skipn_length in F.
      unfold digitsOf in *. destruct (skipn (Z.to_nat X + 1) ds); destruct precision; cbn [length] in *; lia.
Qed.
Lemma writeG_len precision v : isDouble precision v -> length (writeG precision v) <= precision + 7.
Proof.
  destruct v as [neg ds X|neg|neg]; intros D.
  - cbn [writeG]. fold (body precision ds X). rewrite app_length. destruct D as (L & _). pose proof (body_len precision ds X L). destruct neg; cbn; lia.
  - destruct neg; cbn; lia.
  - destruct neg; cbn; lia.
Qed.
Lemma writeG_len_pos precision v : isDouble precision v -> nonNegative v -> length (writeG precision v) <= precision + 6.
Proof.
  destruct v as [neg ds X|neg|neg]; intros D N; cbn in N; subst neg.
  - cbn [writeG sign app]. fold (body precision ds X). destruct D as (L & _). now apply body_len.
  - cbn; lia.
  - cbn; lia.
Qed.

Definition solid (l : text) : Prop := forall c, In c l -> isSpace c = false.
Lemma solid_app a b : solid a -> solid b -> solid (a ++ b).
Proof. intros A B c I. apply in_app_or in I. destruct I; auto. Qed.
Lemma solid_cons c l : isSpace c = false -> solid l -> solid (c :: l).
Proof. intros A B x [<-|I]; auto. Qed.
Lemma solid_nil : solid []. Proof. intros c []. Qed.
Lemma digit_solid d : d < 10 -> isSpace (digit d) = false.
Proof. intros H. do 10 (destruct d as [|d]; [reflexivity|]). lia. Qed.
Lemma digits_solid ds : (forall d, In d ds -> d < 10) -> solid (map digit ds).
Proof. intros H c I. apply in_map_iff in I. destruct I as (d & <- & I). apply digit_solid. now apply H. Qed.
Lemma fraction_solid ds : (forall d, In d ds -> d < 10) -> solid (fraction ds).
Proof.
  intros H. unfold fraction. assert (K : forall d, In d (dropZeros ds) -> d < 10) by (intros d I; apply H; now apply dropZeros_in).
  destruct (dropZeros ds) as [|r rs]; [exact solid_nil|]. apply solid_cons; [reflexivity|]. now apply digits_solid.
Qed.
Lemma exponent_solid X : (-324 <= X <= 309)%Z -> solid (exponent X).
Proof.
  intros H. assert (N : Z.abs_nat X < 1000) by lia. unfold exponent. apply solid_cons; [reflexivity|]. apply solid_cons; [destruct (X <? 0)%Z; reflexivity|].
  set (n := Z.abs_nat X) in *. assert (M : forall k, k mod 10 < 10) by (intros k; apply Nat.mod_upper_bound; lia). unfold exponentDigits. destruct (Nat.ltb_spec n 100).
  - assert (n / 10 < 10) by (apply Nat.div_lt_upper_bound; lia). repeat apply solid_cons; try apply digit_solid; auto. exact solid_nil.
  - assert (n / 100 < 10) by (apply Nat.div_lt_upper_bound; lia). repeat apply solid_cons; try apply digit_solid; auto. exact solid_nil.
Qed.
Lemma sign_solid neg : solid (sign neg).
Proof. destruct neg; [apply solid_cons; [reflexivity|]|]; exact solid_nil. Qed.
Lemma writeG_solid precision v : isDouble precision v -> solid (writeG precision v).
Proof.
  destruct v as [neg ds X|neg|neg]; intros D; cbn [writeG]; apply solid_app; try apply sign_solid.
  - destruct D as (L & D & HX). destruct ((X <? -4) || _)%Z.
    + apply solid_app; [|now apply exponent_solid]. destruct ds as [|d ds]; [exact solid_nil|]. apply solid_cons; [apply digit_solid, D; now left|].
      apply fraction_solid. intros e I. apply D. now right.
    + destruct (X <? 0)%Z.
      * apply solid_cons; [reflexivity|]. apply fraction_solid. intros e I. apply in_app_or in I. destruct I as [I|I]; [apply repeat_spec in I; lia|now apply D].
      * assert (Q : forall d, In d (firstn (Z.to_nat X + 1) ds) \/ In d (skipn (Z.to_nat X + 1) ds) -> d < 10).
        { intros d I. apply D. rewrite <- (firstn_skipn (Z.to_nat X + 1) ds). apply in_or_app. exact I. }
        apply solid_app; [apply digits_solid|apply fraction_solid]; auto.
  - repeat (apply solid_cons; [reflexivity|]); exact solid_nil.
  - repeat (apply solid_cons; [reflexivity|]); exact solid_nil.
Qed.
Lemma writeG_nonempty precision v : isDouble precision v -> writeG precision v <> [].
Proof.
  destruct v as [neg ds X|neg|neg]; intros D; cbn [writeG].
  - destruct D as (L & _). intros H. apply app_eq_nil in H. destruct H as [_ H]. destruct ((X <? -4) || _)%Z.
    + apply app_eq_nil in H. destruct H as [_ H]. discriminate H.
    + destruct (X <? 0)%Z; [discriminate H|]. destruct ds as [|d ds]; [destruct precision; discriminate L|]. rewrite Nat.add_1_r in H. discriminate H.
  - destruct neg; discriminate.
  - destruct neg; discriminate.
Qed.

(** words *)
Lemma wordsFrom_solid : forall w cur l, solid w -> wordsFrom cur (w ++ l) = wordsFrom (cur ++ w) l.
Proof.
  induction w as [|c w IH]; intros cur l S; [now rewrite app_nil_r|]. cbn [app wordsFrom]. rewrite (S c) by now left.
  rewrite IH by (intros x I; apply S; now right). now rewrite <- app_assoc.
Qed.
Lemma words_blank : forall k l, words (repeat " "%char k ++ l) = words l.
Proof. induction k as [|k IH]; intros l; [reflexivity|]. cbn [repeat app]. unfold words in *. cbn [wordsFrom]. change (isSpace " "%char) with true. cbn iota. exact (IH l). Qed.
Lemma words_word w c l : solid w -> w <> [] -> isSpace c = true -> words (w ++ c :: l) = w :: words l.
Proof.
  intros S N C. unfold words. rewrite wordsFrom_solid by exact S. cbn [app wordsFrom]. rewrite C. destruct w; [contradiction|reflexivity].
Qed.
Lemma words_space c l : isSpace c = true -> words (c :: l) = words l.
Proof. intros C. unfold words. cbn [wordsFrom]. now rewrite C. Qed.
Lemma words_padded w k l : solid w -> w <> [] -> 0 < k -> words ((w ++ repeat " "%char k) ++ l) = w :: words l.
Proof.
  intros S N K. destruct k; [lia|]. cbn [repeat]. rewrite <- app_assoc. cbn [app]. rewrite words_word by auto. now rewrite words_blank.
Qed.
Lemma words_bound f v l : isDouble (fdPrecision f) v -> length (writeG (fdPrecision f) v) < fdWidth f -> words (bound f v ++ l) = writeG (fdPrecision f) v :: words l.
Proof. intros D L. unfold bound. apply words_padded; [now apply writeG_solid|now apply writeG_nonempty|lia]. Qed.
Lemma words_any p v l : isDouble p v -> words (bound (formAny p) v ++ l) = writeG p v :: words l.
Proof. intros D. apply (words_bound (formAny p) v l D). cbn. pose proof (writeG_len p v D). unfold widthAny, widthPositive, maxExponentDigits. lia. Qed.
Lemma words_pos p v l : isDouble (actualPrecision p) v -> nonNegative v -> words (bound (formPositive p) v ++ l) = writeG (actualPrecision p) v :: words l.
Proof. intros D N. apply (words_bound (formPositive p) v l D). unfold formPositive. cbn [fdPrecision fdWidth]. pose proof (writeG_len_pos (actualPrecision p) v D N). unfold widthPositive, maxExponentDigits. lia. Qed.
Lemma words_anys p : forall vs l, (forall v, In v vs -> isDouble p v) -> words (flat_map (bound (formAny p)) vs ++ l) = map (writeG p) vs ++ words l.
Proof.
  induction vs as [|v vs IH]; intros l D; [reflexivity|]. cbn [flat_map map]. rewrite <- app_assoc. rewrite words_any by (apply D; now left).
  cbn [app]. f_equal. apply IH. intros u I. apply D. now right.
Qed.
Lemma words_groups p : forall gs l, (forall g v, In g gs -> In v g -> isDouble p v) -> words (flat_map (streamAverages p) gs ++ l) = map (writeG p) (concat gs) ++ words l.
Proof.
  induction gs as [|g gs IH]; intros l D; [reflexivity|]. cbn [flat_map concat]. rewrite map_app, <- !app_assoc. unfold streamAverages at 1. cbn [app].
  rewrite words_space by reflexivity. rewrite words_anys by (intros v I; apply (D g); [now left|exact I]). f_equal. apply IH. intros g' v I J. apply (D g'); [now right|exact J].
Qed.
Lemma words_measures p : forall ms l, (forall v, In v ms -> isDouble p v) -> words (streamMeasures p ms ++ l) = map (writeG p) ms ++ words l.
Proof.
  unfold streamMeasures. induction ms as [|m ms IH]; intros l D; [reflexivity|]. cbn [flat_map map app]. rewrite words_space by reflexivity. rewrite <- app_assoc.
  rewrite words_any by (apply D; now left). f_equal. apply IH. intros v I. apply D. now right.
Qed.
Lemma line_words p t dt gs ms : isDouble (actualPrecision p) t -> nonNegative t -> isDouble (actualPrecision p) dt -> nonNegative dt ->
  (forall g v, In g gs -> In v g -> isDouble p v) -> (forall v, In v ms -> isDouble p v) ->
  words (streamLine p t dt gs ms) = writeG (actualPrecision p) t :: writeG (actualPrecision p) dt :: map (writeG p) (concat gs ++ ms).
Proof.
  intros. unfold streamLine. rewrite words_pos by auto. rewrite words_pos by auto. rewrite words_groups by auto. rewrite words_measures by auto.
  rewrite map_app. cbn. now rewrite app_nil_r.
Qed.
Lemma simulated_words p t dt xs : isDouble (actualPrecision p) t -> nonNegative t -> isDouble (actualPrecision p) dt -> nonNegative dt -> (forall v, In v xs -> isDouble p v) ->
  words (streamSimulated p t dt xs) = writeG (actualPrecision p) t :: writeG (actualPrecision p) dt :: map (writeG p) xs.
Proof.
  intros A B C E D. unfold streamSimulated. rewrite words_pos by auto. rewrite words_pos by auto. do 2 f_equal.
  revert D. clear. induction xs as [|x xs IH]; intros D; [reflexivity|]. cbn [flat_map map]. rewrite <- !app_assoc. rewrite words_any by (apply D; now left).
  f_equal. cbn [app]. rewrite words_space by reflexivity. apply IH. intros v I. apply D. now right.
Qed.
(** the width is the least possible: with one less, neighbouring columns of the longest numbers run together *)
Lemma width_least p : 1 < p -> exists v, isDouble p v /\ words (bound (mkFD p (widthAny p - 1)) v ++ bound (formAny p) v) = [writeG p v ++ writeG p v].
Proof.
  intros P. set (v := Finite true (repeat 1 p) (-300)). exists v.
  assert (D : isDouble p v). { split; [|split; [|lia]]. - rewrite repeat_length. destruct p; [lia|reflexivity]. - intros d I. apply repeat_spec in I. lia. }
  split; [exact D|].
  assert (DZ : forall k, dropZeros (repeat 1 k) = repeat 1 k). { induction k as [|k IH]; [reflexivity|]. cbn [repeat dropZeros]. rewrite IH. destruct k; reflexivity. }
  assert (L : length (writeG p v) = p + 7).
  { cbn [writeG v]. rewrite app_length. change (-300 <? -4)%Z with true. cbn [orb]. destruct p as [|[|p]]; [lia|lia|].
    cbn [repeat]. cbv beta iota. change (1 :: repeat 1 p) with (repeat 1 (S p)). unfold fraction. rewrite DZ. cbn [repeat map app length]. rewrite app_length, map_length, repeat_length.
    change (length (exponent (-300))) with 5. change (length (sign true)) with 1. lia. }
  unfold bound at 1. cbn [fdPrecision fdWidth]. rewrite L. unfold widthAny, widthPositive, maxExponentDigits. replace (2 + 1 + p + 4 + 1 - 1 - (p + 7)) with 0 by lia. cbn [repeat]. rewrite app_nil_r.
  unfold words. rewrite wordsFrom_solid by (now apply writeG_solid). cbn [app]. unfold bound. cbn [fdPrecision formAny]. rewrite wordsFrom_solid by (now apply writeG_solid).
  unfold formAny, fdWidth. rewrite L. unfold widthAny, widthPositive, maxExponentDigits. replace (2 + 1 + p + 4 + 1 - (p + 7)) with 1 by lia. cbn [repeat wordsFrom]. change (isSpace " "%char) with true. cbn iota.
  pose proof (writeG_nonempty p v D). destruct (writeG p v); [contradiction|]. reflexivity.
Qed.
