(** Operators which rotate in the interaction picture. *)
From Coq Require Import List Arith Bool Lia Reals Lra.
From Verif Require Import Star CReal Arr TriModel TriSpec TriProofs TriPropagate TriLemmas ElementSpec ModeModel ModeProofs ParticleModel.
Import ListNotations.
Add Ring CRRo : (k_ring CR).
Local Open Scope nat_scope.
Notation triC := (tri CR R).
Notation lop := (list nat -> list nat -> CR).

Definition present (t : triC) (dg : list nat) : Prop := nonempty (diags t (code dg)) = true \/ nonempty (diags t (code (map flipd dg))) = true.
(** frequencies, where there are any, are those of D; where there are none though there are elements, D does not change *)
Definition freqRight (t : triC) (D : list nat -> CR) : Prop := forall dg y c n, inr (repeat 3 (rankOf t)) dg -> inr (dims t) y -> inr (dims t) c ->
  place (diffs t) dg y c = Some n -> nonempty (freqs t (code dg)) = true -> av (freqs t (code dg)) n = ksub (D y) (D c).
Definition still (t : triC) (D : list nat -> CR) : Prop := forall dg y c n, inr (repeat 3 (rankOf t)) dg -> inr (dims t) y -> inr (dims t) c ->
  place (diffs t) dg y c = Some n -> present t dg -> nonempty (freqs t (code dg)) = false -> D y = D c.
Definition unif (b : bool) (t : triC) : Prop :=
  if b then forall dg, inr (repeat 3 (rankOf t)) dg -> present t dg -> nonempty (freqs t (code dg)) = true else noFreqs t.
Definition rots (sh : list nat) (D : list nat -> CR) (t : triC) (M : lop) : Prop :=
  wf t /\ wf_freqs t /\ time t = 0%R /\ dims t = sh /\ freqRight t D /\ still t D /\ forall y x, inr sh y -> inr sh x -> tmat t y x = M y x.
Definition rot (b : bool) (sh : list nat) (D : list nat -> CR) (t : triC) (M : lop) : Prop := rots sh D t M /\ unif b t.

Lemma rots_ext sh D t M M' : (forall y x, inr sh y -> inr sh x -> M y x = M' y x) -> rots sh D t M -> rots sh D t M'.
Proof. intros H (A1 & A2 & A3 & A4 & A5 & A6 & A7). repeat (split; [assumption|]). intros. rewrite A7 by auto. auto. Qed.
Lemma rot_ext b sh D t M M' : (forall y x, inr sh y -> inr sh x -> M y x = M' y x) -> rot b sh D t M -> rot b sh D t M'.
Proof. intros H [A B]. split; [now apply (rots_ext _ _ _ M)|exact B]. Qed.
Lemma rots_D sh D D' t M : (forall y, inr sh y -> D y = D' y) -> rots sh D t M -> rots sh D' t M.
Proof.
  intros H (A1 & A2 & A3 & A4 & A5 & A6 & A7). split; [exact A1|]. split; [exact A2|]. split; [exact A3|]. split; [exact A4|]. split; [|split; [|exact A7]].
  - intros dg y c n Hd Hy Hc Hp Hn. rewrite (A5 dg y c n Hd Hy Hc Hp Hn). now rewrite !H by congruence.
  - intros dg y c n Hd Hy Hc Hp Hn Hf. rewrite <- !H by congruence. exact (A6 dg y c n Hd Hy Hc Hp Hn Hf).
Qed.
Lemma rot_D b sh D D' t M : (forall y, inr sh y -> D y = D' y) -> rot b sh D t M -> rot b sh D' t M.
Proof. intros H [A B]. split; [now apply (rots_D _ D)|exact B]. Qed.
Lemma present_flip t dg : present t (map flipd dg) <-> present t dg.
Proof. unfold present. rewrite flip_invol. tauto. Qed.
Lemma rots_generated sh D t M : rots sh D t M -> generated t D.
Proof.
  intros (A1 & A2 & A3 & A4 & A5 & A6 & A7) dg y c n Hd Hy Hc Hp Hn.
  assert (P : present t dg) by now left.
  pose proof (A5 dg y c n Hd Hy Hc Hp) as X5. pose proof (A6 dg y c n Hd Hy Hc Hp P) as X6. destruct A2 as [A2 _]. destruct (code dg) as [|i].
  - apply X6. exact A2.
  - destruct (nonempty (freqs t (S i))); [left|right]; auto.
Qed.
Lemma rots_time sh D t M s y x : rots sh D t M -> inr sh y -> inr sh x ->
  tmat (propagate s t) y x = kmul (kmul (cexp (kmul (RC s) (D y))) (M y x)) (cexp (kopp (kmul (RC s) (D x)))).
Proof.
  intros H Hy Hx. pose proof (rots_generated _ _ _ _ H) as G. destruct H as (A1 & A2 & A3 & A4 & A5 & A6 & A7).
  rewrite (propagate_generated t D s y x G) by congruence. rewrite A3, Rminus_0_r, A7 by auto. reflexivity.
Qed.

Lemma rots_scale sh D t M z : rots sh D t M -> rots sh D (scale z t) (fun y x => kmul z (M y x)).
Proof.
  intros (A1 & A2 & A3 & A4 & A5 & A6 & A7). split; [now apply wf_scale|]. split; [exact A2|]. split; [exact A3|]. split; [exact A4|]. split; [exact A5|]. split.
  - intros dg y c n Hd Hy Hc Hp Hn Hf. apply (A6 dg y c n); auto.
  - intros y x Hy Hx. now rewrite scale_matrix, A7.
Qed.
Lemma rot_scale b sh D t M z : rot b sh D t M -> rot b sh D (scale z t) (fun y x => kmul z (M y x)).
Proof.
  intros [A B]. split; [now apply rots_scale|]. destruct b; [|exact B]. intros dg Hd Hn. apply B; [exact Hd|]. unfold present in *. cbn [scale diags] in Hn. now rewrite !nonempty_amap in Hn.
Qed.
Lemma rot_neg b sh D t M : rot b sh D t M -> rot b sh D (neg t) (fun y x => kopp (M y x)).
Proof.
  intros [(A1 & A2 & A3 & A4 & A5 & A6 & A7) B].
  assert (P : forall dg, present (neg t) dg -> present t dg) by (intros dg; unfold present; cbn [neg diags]; now rewrite !nonempty_amap).
  split; [split; [now apply wf_neg|]; split; [exact A2|]; split; [exact A3|]; split; [exact A4|]; split; [exact A5|]; split|].
  - intros dg y c n Hd Hy Hc Hp Hn Hf. apply (A6 dg y c n); auto.
  - intros y x Hy Hx. now rewrite neg_matrix, A7.
  - destruct b; [|exact B]. intros dg Hd Hn. apply B; auto.
Qed.
Lemma rot_dagger b sh D t M : rot b sh D t M -> rot b sh D (dagger t) (fun y x => kconj (M x y)).
Proof.
  intros [(A1 & A2 & A3 & A4 & A5 & A6 & A7) B].
  assert (P : forall dg, inr (repeat 3 (rankOf t)) dg -> present (dagger t) dg -> present t dg).
  { intros dg Hd. unfold present. assert (Hf : inr (repeat 3 (rankOf t)) (map flipd dg)).
    { apply inr_rep3. apply inr_rep3 in Hd. rewrite map_length. destruct Hd. split; auto using flip_F. }
    rewrite !dagger_diags by auto. rewrite !nonempty_amap, flip_invol. tauto. }
  split; [split; [now apply wf_dagger|]; split; [exact A2|]; split; [exact A3|]; split; [exact A4|]; split; [exact A5|]; split|].
  - intros dg y c n Hd Hy Hc Hp Hn Hf. apply (A6 dg y c n); auto.
  - intros y x Hy Hx. now rewrite dagger_matrix, A7.
  - destruct b; [|exact B]. intros dg Hd Hn. apply B; auto.
Qed.
Lemma addF_ne (a b : arr CR) : nonempty (addFreq a b) = nonempty a || nonempty b.
Proof. unfold addFreq. destruct (nonempty a) eqn:E; [now rewrite E|reflexivity]. Qed.
Lemma addD_ne (a b : arr CR) : nonempty (addDiag a b) = nonempty a || nonempty b.
Proof. unfold addDiag. destruct (nonempty a) eqn:E, (nonempty b) eqn:F; cbn [negb orb]; auto. Qed.
(** sum of operators of the same structure *)
Lemma rots_add b sh D t1 t2 t M1 M2 : rot b sh D t1 M1 -> rot b sh D t2 M2 -> diffs t2 = diffs t1 -> add CReqb t1 t2 = Ok t ->
  rot b sh D t (fun y x => kadd (M1 y x) (M2 y x)).
Proof.
  intros [(A1 & A2 & A3 & A4 & A5 & A6 & A7) U1] [(B1 & B2 & B3 & B4 & B5 & B6 & B7) U2] Ed E.
  destruct (add_matrix CReqb t1 t2 t A1 B1 ltac:(congruence) E) as (W & Dm & HM).
  unfold add in E. rewrite Ed, mergeDiffs_refl in E. destruct (existsb _ _); [discriminate|]. destruct (existsb _ _); [discriminate|].
  apply Ok_inj in E. symmetry in E.
  assert (Er : rankOf t2 = rankOf t1) by (unfold rankOf; congruence).
  assert (Erk : rankOf t = rankOf t1) by (unfold rankOf; congruence).
  assert (Ek : diffs t = diffs t1) by now subst.
  assert (Ef : forall i, freqs t i = addFreq (freqs t2 i) (freqs t1 i)) by (intros; now subst).
  assert (Eg : forall i, diags t i = addDiag (diags t2 i) (diags t1 i)) by (intros; now subst).
  assert (P : forall dg, present t dg -> present t1 dg \/ present t2 dg).
  { intros dg. unfold present. rewrite !Eg, !addD_ne, !orb_true_iff. tauto. }
  assert (Tm : time t = 0%R) by now subst. clear E.
  split; [split; [exact W|]; split; [|split; [exact Tm|]; split; [congruence|]; split; [|split]]|].
  - split; [rewrite Ef, addF_ne; destruct A2 as [-> _], B2 as [-> _]; reflexivity|]. intros dg Hd Hn. rewrite Erk in Hd. rewrite Dm, Ek, Ef in *. unfold addFreq in *.
    destruct (nonempty (freqs t2 (code dg))) eqn:E2.
    + destruct B2 as [_ B2]. rewrite (B2 dg) by (auto; congruence). congruence.
    + destruct A2 as [_ A2]. rewrite (A2 dg) by auto. reflexivity.
  - intros dg y c n Hd Hy Hc Hp. rewrite Erk in Hd. rewrite Dm in Hy, Hc. rewrite Ek in Hp. rewrite Ef. unfold addFreq. intros Hn.
    destruct (nonempty (freqs t2 (code dg))) eqn:E2.
    + apply (B5 dg y c n); auto; congruence.
    + apply (A5 dg y c n); auto.
  - intros dg y c n Hd Hy Hc Hp Hpr. rewrite Erk in Hd. rewrite Dm in Hy, Hc. rewrite Ek in Hp. rewrite Ef, addF_ne, orb_false_iff. intros [F2 F1].
    destruct (P dg Hpr).
    + apply (A6 dg y c n); auto.
    + apply (B6 dg y c n); auto; congruence.
  - intros y x Hy Hx. rewrite HM, A7, B7 by auto. reflexivity.
  - destruct b.
    + intros dg Hd Hpr. rewrite Erk in Hd. rewrite Ef, addF_ne. destruct (P dg Hpr) as [H|H].
      * rewrite (U1 dg Hd H). apply orb_true_r.
      * rewrite (U2 dg) by (auto; congruence). reflexivity.
    + intros i. rewrite Ef, addF_ne, U1, U2. reflexivity.
Qed.
Lemma rot_plusHC b sh D t M : rot b sh D t M -> exists m, plusHC CReqb t = Ok m /\ rot b sh D m (fun y x => kadd (M y x) (kconj (M x y))).
Proof.
  intros H. destruct (HC_ok CReqb t CReqb_refl (proj1 (proj1 H))) as [_ [m E]]. exists m. split; [exact E|].
  exact (rots_add b sh D t (dagger t) m M _ H (rot_dagger _ _ _ _ _ H) eq_refl E).
Qed.
Lemma rot_minusHC b sh D t M : rot b sh D t M -> exists m, minusHC CReqb t = Ok m /\ rot b sh D m (fun y x => ksub (M y x) (kconj (M x y))).
Proof.
  intros H. destruct (HC_ok CReqb t CReqb_refl (proj1 (proj1 H))) as [[m E] _]. exists m. split; [exact E|].
  eapply rot_ext; [|exact (rots_add b sh D t (neg (dagger t)) m M _ H (rot_neg _ _ _ _ _ (rot_dagger _ _ _ _ _ H)) eq_refl E)]. intros. cbn beta. ring.
Qed.

(** ** products *)
Definition dsum (n : nat) (D1 D2 : list nat -> CR) : list nat -> CR := fun y => kadd (D1 (firstn n y)) (D2 (skipn n y)).
Definition tensor (n : nat) (A B : lop) : lop := fun y x => kmul (A (firstn n y) (firstn n x)) (B (skipn n y) (skipn n x)).
Lemma inr_split sh1 sh2 y : inr (sh1 ++ sh2) y -> exists y1 y2, y = y1 ++ y2 /\ inr sh1 y1 /\ inr sh2 y2 /\ length y1 = length sh1.
Proof.
  intros H. exists (firstn (length sh1) y), (skipn (length sh1) y). split; [symmetry; apply firstn_skipn|].
  pose proof (inr_length _ _ H) as L. rewrite app_length in L.
  assert (L1 : length (firstn (length sh1) y) = length sh1) by (rewrite firstn_length; lia).
  rewrite <- (firstn_skipn (length sh1) y) in H. apply inr_app in H; [|exact L1]. tauto.
Qed.
Lemma flip_app d1 d2 : map flipd (d1 ++ d2) = map flipd d1 ++ map flipd d2. Proof. apply map_app. Qed.
Lemma dshape_len ds ks dg : length ks = length ds -> length dg = length ds -> length (dshape ds ks dg) = length ds.
Proof. revert ks dg. induction ds as [|d ds IH]; intros [|k ks] [|g dg]; cbn; try easy. intros. rewrite IH; lia. Qed.
Lemma dshape_app d1 k1 g1 d2 k2 g2 : length k1 = length d1 -> length g1 = length d1 -> dshape (d1 ++ d2) (k1 ++ k2) (g1 ++ g2) = dshape d1 k1 g1 ++ dshape d2 k2 g2.
Proof. revert k1 g1. induction d1 as [|d d1 IH]; intros [|k k1] [|g g1]; cbn; try easy. intros. rewrite IH; auto; lia. Qed.
Lemma firstn_len {A} (a b : list A) n : length a = n -> firstn n (a ++ b) = a.
Proof. intros <-. rewrite firstn_app, Nat.sub_diag, firstn_all, firstn_O. apply app_nil_r. Qed.
Lemma skipn_len {A} (a b : list A) n : length a = n -> skipn n (a ++ b) = b.
Proof. intros <-. rewrite skipn_app, Nat.sub_diag, skipn_all. reflexivity. Qed.

Lemma rot_direct b sh1 sh2 D1 D2 t1 t2 M1 M2 : rot b sh1 D1 t1 M1 -> rot b sh2 D2 t2 M2 ->
  exists t, prod t1 t2 = Ok t /\ rot b (sh1 ++ sh2) (dsum (length sh1) D1 D2) t (tensor (length sh1) M1 M2).
Proof.
  intros [(A1 & A2 & A3 & A4 & A5 & A6 & A7) U1] [(B1 & B2 & B3 & B4 & B5 & B6 & B7) U2].
  assert (E : exists t, prod t1 t2 = Ok t).
  { unfold prod, direct, Reqb. rewrite A3, B3. destruct (Req_EM_T 0 0); [eauto|congruence]. }
  destruct E as [t E]. exists t. split; [exact E|]. unfold prod in E. pose proof (wf_direct Reqb t1 t2 t A1 B1 E) as W. pose proof (direct_dims Reqb t1 t2 t E) as Dm.
  pose proof (fun y1 y2 x1 x2 => direct_matrix Reqb t1 t2 t y1 y2 x1 x2 A1 B1 E) as HM.
  unfold direct in E. destruct (Reqb _ _); [|discriminate]. apply Ok_inj in E. symmetry in E.
  assert (Tm : time t = 0%R) by now subst. assert (Ek : diffs t = diffs t1 ++ diffs t2) by now subst.
  assert (Fq : freqs t = directDiagonals kadd (rankOf t2) (freqs t1) (freqs t2)) by now subst.
  assert (R1 : rankOf t1 = length sh1) by (unfold rankOf; congruence). assert (R2 : rankOf t2 = length sh2) by (unfold rankOf; congruence).
  assert (Rt : rankOf t = rankOf t1 + rankOf t2) by (unfold rankOf; rewrite Dm; apply app_length).
  destruct A1 as (N1 & L1 & W1). destruct B1 as (N2 & L2 & W2).
  assert (Sp : forall dg, inr (repeat 3 (rankOf t)) dg -> exists d1 d2, dg = d1 ++ d2 /\ inr (repeat 3 (rankOf t1)) d1 /\ inr (repeat 3 (rankOf t2)) d2 /\ length d1 = rankOf t1).
  { intros dg Hd. rewrite Rt, rep_app in Hd. destruct (inr_split _ _ _ Hd) as (d1 & d2 & H1 & H2 & H3 & H4). exists d1, d2. rewrite repeat_length in H4. auto. }
  assert (Fd : forall d1 d2, inr (repeat 3 (rankOf t1)) d1 -> inr (repeat 3 (rankOf t2)) d2 -> freqs t (code (d1 ++ d2)) = doDirect kadd (freqs t1 (code d1)) (freqs t2 (code d2))).
  { intros d1 d2 H1 H2. subst t. apply (directDiagonals_code kadd (rankOf t1) (rankOf t2)); auto. }
  assert (Gd : forall d1 d2, inr (repeat 3 (rankOf t1)) d1 -> inr (repeat 3 (rankOf t2)) d2 -> diags t (code (d1 ++ d2)) = doDirect kmul (diags t1 (code d1)) (diags t2 (code d2))).
  { intros d1 d2 H1 H2. subst t. apply (directDiagonals_code kmul (rankOf t1) (rankOf t2)); auto. }
  assert (Fl : forall r dg, inr (repeat 3 r) dg -> inr (repeat 3 r) (map flipd dg)).
  { intros r dg Hd. apply inr_rep3. apply inr_rep3 in Hd. rewrite map_length. destruct Hd. split; auto using flip_F. }
  assert (Pr : forall d1 d2, inr (repeat 3 (rankOf t1)) d1 -> inr (repeat 3 (rankOf t2)) d2 -> present t (d1 ++ d2) -> present t1 d1 /\ present t2 d2).
  { intros d1 d2 H1 H2. unfold present. rewrite flip_app, !Gd by auto. rewrite !nonempty_direct, !andb_true_iff. tauto. }
  assert (Pl : forall d1 d2 y1 y2 c1 c2 n, length d1 = rankOf t1 -> length y1 = rankOf t1 -> length c1 = rankOf t1 ->
     place (diffs t) (d1 ++ d2) (y1 ++ y2) (c1 ++ c2) = Some n -> exists n1 n2, n = n1 ++ n2 /\ place (diffs t1) d1 y1 c1 = Some n1 /\ place (diffs t2) d2 y2 c2 = Some n2).
  { intros d1 d2 y1 y2 c1 c2 n H1 H2 H3. rewrite Ek, place_app by congruence. destruct (place (diffs t1) d1 y1 c1) as [n1|]; [|discriminate].
    destruct (place (diffs t2) d2 y2 c2) as [n2|]; [|discriminate]. intros H. injection H as <-. eauto. }
  clear E. split; [split; [exact W|]; split; [|split; [exact Tm|]; split; [congruence|]; split; [|split]]|].
  - split.
    + assert (H0 : forall r, inr (repeat 3 r) (repeat 0 r)) by (induction r; constructor; auto; lia).
      assert (C0 : forall r, code (repeat 0 r) = 0) by (induction r; cbn; auto).
      pose proof (Fd _ _ (H0 (rankOf t1)) (H0 (rankOf t2))) as F. rewrite <- rep_app, !C0 in F. rewrite F, nonempty_direct. destruct A2 as [-> _]. reflexivity.
    + intros dg Hd Hn. destruct (Sp dg Hd) as (d1 & d2 & -> & H1 & H2 & H3). rewrite Fd in Hn |- * by auto. rewrite nonempty_direct, andb_true_iff in Hn.
      destruct Hn as [Hn1 Hn2]. destruct A2 as [_ A2], B2 as [_ B2]. cbn [doDirect ash]. rewrite (A2 d1), (B2 d2) by auto. rewrite Dm, Ek. symmetry. apply dshape_app; auto.
  - intros dg y c n Hd Hy Hc Hp Hn. destruct (Sp dg Hd) as (d1 & d2 & -> & H1 & H2 & H3). rewrite Dm, A4, B4 in Hy, Hc.
    destruct (inr_split _ _ _ Hy) as (y1 & y2 & -> & Y1 & Y2 & Y3). destruct (inr_split _ _ _ Hc) as (c1 & c2 & -> & C1 & C2 & C3).
    destruct (Pl d1 d2 y1 y2 c1 c2 n) as (n1 & n2 & -> & P1 & P2); try congruence.
    rewrite Fd in Hn |- * by auto. rewrite nonempty_direct, andb_true_iff in Hn. destruct Hn as [Hn1 Hn2]. cbn [doDirect av].
    assert (La : length (ash (freqs t1 (code d1))) = length n1).
    { destruct A2 as [_ A2]. rewrite (A2 d1 H1 Hn1), dshape_len by (unfold rankOf in *; congruence). rewrite (place_length _ _ _ _ _ P1). unfold rankOf in *. congruence. }
    rewrite La, firstn_len, skipn_len by reflexivity. unfold dsum. rewrite !firstn_len, !skipn_len by congruence.
    rewrite (A5 d1 y1 c1 n1), (B5 d2 y2 c2 n2) by (auto; congruence). ring.
  - intros dg y c n Hd Hy Hc Hp Hpr Hf. destruct (Sp dg Hd) as (d1 & d2 & -> & H1 & H2 & H3). rewrite Dm, A4, B4 in Hy, Hc.
    destruct (inr_split _ _ _ Hy) as (y1 & y2 & -> & Y1 & Y2 & Y3). destruct (inr_split _ _ _ Hc) as (c1 & c2 & -> & C1 & C2 & C3).
    destruct (Pl d1 d2 y1 y2 c1 c2 n) as (n1 & n2 & -> & P1 & P2); try congruence.
    destruct (Pr d1 d2 H1 H2 Hpr) as [Q1 Q2]. rewrite Fd, nonempty_direct in Hf by auto. unfold dsum. rewrite !firstn_len, !skipn_len by congruence.
    assert (F : nonempty (freqs t1 (code d1)) = false /\ nonempty (freqs t2 (code d2)) = false).
    { destruct b; [rewrite (U1 d1 H1 Q1), (U2 d2 H2 Q2) in Hf; discriminate|]. split; [apply U1|apply U2]. }
    rewrite (A6 d1 y1 c1 n1), (B6 d2 y2 c2 n2) by (auto; try tauto; congruence). reflexivity.
  - intros y x Hy Hx. destruct (inr_split _ _ _ Hy) as (y1 & y2 & -> & Y1 & Y2 & Y3). destruct (inr_split _ _ _ Hx) as (x1 & x2 & -> & X1 & X2 & X3).
    rewrite HM by congruence. unfold tensor. rewrite !firstn_len, !skipn_len by congruence. now rewrite A7, B7.
  - destruct b.
    + intros dg Hd Hpr. destruct (Sp dg Hd) as (d1 & d2 & -> & H1 & H2 & H3). destruct (Pr d1 d2 H1 H2 Hpr) as [Q1 Q2].
      rewrite Fd, nonempty_direct by auto. now rewrite (U1 d1 H1 Q1), (U2 d2 H2 Q2).
    + intros i. rewrite Fq. unfold directDiagonals. rewrite nonempty_direct, U1. reflexivity.
Qed.
