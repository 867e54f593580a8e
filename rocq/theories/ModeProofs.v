From Coq Require Import List Arith Bool Lia Reals Lra.
From Verif Require Import Star CReal Arr PureModel PureProofs TriModel TriSpec TriProofs TriPropagate TriLemmas FreeExactModel FreeExactSpec FreeExactProofs
  ElementModel ElementSpec ElementProofs ElementLemmas ModeModel ModeSpec.
Import ListNotations.
Add Ring CRMo : (k_ring CR).

(** ** unary operators without frequencies, as matrices *)
Definition noFreqs (t : tri CR R) : Prop := forall i, nonempty (freqs t i) = false.
Definition good (dim : nat) (t : tri CR R) (k : nat) (M : mat) : Prop :=
  wf t /\ noFreqs t /\ time t = 0%R /\ dims t = [dim] /\ diffs t = [k] /\ forall y x, tmat t [y] [x] = M y x.
Lemma good_ext dim t k M M' : (forall y x, M y x = M' y x) -> good dim t k M -> good dim t k M'.
Proof. intros H (A & B & C & D & E & F). repeat (split; [assumption|]). intros. now rewrite F. Qed.
Lemma noFreqs_wf t : noFreqs t -> wf_freqs t.
Proof. intros H. split; [apply H|]. intros dg _ Hn. rewrite H in Hn. discriminate. Qed.
Lemma empty_noFreq : nonempty (noDiag) = false. Proof. reflexivity. Qed.
Lemma CReqb_refl z : CReqb z z = true.
Proof. unfold CReqb, Reqb. destruct (Req_EM_T (fst z) (fst z)), (Req_EM_T (snd z) (snd z)); congruence || reflexivity. Qed.
Lemma CReqb_eq z w : CReqb z w = true <-> z = w.
Proof.
  split; [|intros ->; apply CReqb_refl]. unfold CReqb, Reqb. destruct (Req_EM_T (fst z) (fst w)), (Req_EM_T (snd z) (snd w)); try discriminate.
  intros _. now apply cr_eq.
Qed.
Lemma isNonZero_spec z : isNonZero z = true <-> z <> k0.
Proof. unfold isNonZero. rewrite negb_true_iff. rewrite <- (CReqb_eq z k0). destruct (CReqb z k0); split; congruence. Qed.
Lemma isNonZero_false z : isNonZero z = false <-> z = k0.
Proof. unfold isNonZero. rewrite negb_false_iff. apply CReqb_eq. Qed.

Lemma existsb_false {A} (f : A -> bool) l : (forall x, In x l -> f x = false) -> existsb f l = false.
Proof. induction l as [|x l IH]; intros H; cbn; auto. rewrite H by now left. apply IH. intros. apply H. now right. Qed.

Lemma add_good dim to from k1 k2 M1 M2 : good dim to k1 M1 -> good dim from k2 M2 -> (k1 = 0 \/ k2 = 0 \/ k1 = k2)%nat ->
  exists t, add CReqb to from = Ok t /\ good dim t (if k1 =? 0 then k2 else k1) (fun y x => kadd (M1 y x) (M2 y x)).
Proof.
  intros (A1 & A2 & A3 & A4 & A5 & A6) (B1 & B2 & B3 & B4 & B5 & B6) Hk.
  assert (Ed : dims from = dims to) by congruence.
  assert (Em : mergeDiffs (diffs from) (diffs to) = Some [if k1 =? 0 then k2 else k1]).
  { rewrite A5, B5. cbn. destruct (Nat.eqb_spec k1 0), (Nat.eqb_spec k2 0), (Nat.eqb_spec k1 k2); cbn; auto; lia. }
  pose proof (add_no_ub CReqb to from A1 B1 Ed) as Hub. unfold add in Hub. rewrite Em in Hub.
  destruct (existsb (fun i => shapesClash (diags from i) (diags to i)) (seq 0 (3 ^ rankOf to))) eqn:Es; [congruence|].
  assert (Ef : existsb (fun i => freqClash CReqb (freqs from i) (freqs to i)) (seq 0 (3 ^ rankOf to)) = false).
  { apply existsb_false. intros i _. unfold freqClash. now rewrite (B2 i). }
  eexists. assert (E : add CReqb to from = Ok (mkTri (dims to) [if k1 =? 0 then k2 else k1] (fun i => addDiag (diags from i) (diags to i)) (time to)
                     (fun i => addFreq (freqs from i) (freqs to i)))).
  { unfold add. now rewrite Em, Es, Ef. }
  split; [exact E|]. destruct (add_matrix CReqb to from _ A1 B1 Ed E) as (W & D & Mt).
  split; [exact W|]. split; [|split; [exact A3|split; [exact A4|split; [reflexivity|]]]].
  - intros i. cbn [freqs]. unfold addFreq. rewrite (B2 i). apply A2.
  - intros y x. now rewrite Mt, A6, B6.
Qed.
Lemma scale_good dim t k M c : good dim t k M -> good dim (scale c t) k (fun y x => kmul c (M y x)).
Proof.
  intros (A1 & A2 & A3 & A4 & A5 & A6). split; [now apply wf_scale|]. repeat (split; [assumption|]). intros. now rewrite scale_matrix, A6.
Qed.
Lemma neg_good dim t k M : good dim t k M -> good dim (neg t) k (fun y x => kopp (M y x)).
Proof.
  intros (A1 & A2 & A3 & A4 & A5 & A6). split; [now apply wf_neg|]. repeat (split; [assumption|]). intros. now rewrite neg_matrix, A6.
Qed.
Lemma dagger_good dim t k M : good dim t k M -> good dim (dagger t) k (fun y x => kconj (M x y)).
Proof.
  intros (A1 & A2 & A3 & A4 & A5 & A6). split; [now apply wf_dagger|]. repeat (split; [assumption|]). intros. now rewrite dagger_matrix, A6.
Qed.
Lemma minusHC_good dim t k M : good dim t k M -> exists m, minusHC CReqb t = Ok m /\ good dim m k (fun y x => ksub (M y x) (kconj (M x y))).
Proof.
  intros H. destruct (add_good dim t (neg (dagger t)) k k M _ H (neg_good _ _ _ _ (dagger_good _ _ _ _ H))) as [m [E G]]; auto.
  exists m. split; [exact E|]. replace (if k =? 0 then k else k) with k in G by (destruct (k =? 0); auto).
  eapply good_ext; [|exact G]. intros. cbn beta. ring.
Qed.
Lemma plusHC_good dim t k M : good dim t k M -> exists m, plusHC CReqb t = Ok m /\ good dim m k (fun y x => kadd (M y x) (kconj (M x y))).
Proof.
  intros H. destruct (add_good dim t (dagger t) k k M _ H (dagger_good _ _ _ _ H)) as [m [E G]]; auto.
  exists m. split; [exact E|]. now replace (if k =? 0 then k else k) with k in G by (destruct (k =? 0); auto).
Qed.

Definition diagM (dim : nat) (f : nat -> CR) : mat := fun y x => if andb (y =? x) (0 <? dim) then f y else k0.
Lemma elem_vecOf n f i : elem (vecOf n f) i = if n =? 0 then k0 else f i.
Proof. unfold elem, vecOf, nonempty, asize. cbn [ash fold_right av nth]. rewrite Nat.mul_1_r. destruct (n =? 0); reflexivity. Qed.
Lemma unary_noFreqs z k mi pl (t : tri CR R) : unary 0%R z k mi pl false = Ok t -> noFreqs t.
Proof. unfold unary. cbn match. destruct (_ || _)%bool; [discriminate|]. intros E. apply Ok_inj in E. subst t. intros i. reflexivity. Qed.

Lemma ofDiagonal_good dim f : (0 < dim)%nat -> exists t, ofDiagonal (vecOf dim f) = Ok t /\ good dim t 0 (fun y x => if y =? x then f y else k0).
Proof.
  intros Hd. assert (E : exists t, ofDiagonal (vecOf dim f) = Ok t).
  { unfold ofDiagonal, unary. unfold compatible. cbn [nonempty negb asize noDiag emptyArr ash repeat fold_right Nat.mul Nat.eqb orb andb].
    rewrite !orb_true_r. cbn. eauto. }
  destruct E as [t E]. exists t. split; [exact E|].
  destruct (unary_wf 0%R (vecOf dim f) 0 noDiag noDiag dim 0 0 t eq_refl eq_refl eq_refl) as (W & Wf & Tm & Df & Dm & Mt); [lia|exact E|].
  split; [exact W|]. split; [now apply (unary_noFreqs _ _ _ _ _ E)|]. split; [exact Tm|].
  split; [rewrite Dm; destruct (Nat.eqb_spec dim 0); [lia|reflexivity]|]. split; [exact Df|].
  intros y x. rewrite Mt, elem_vecOf. destruct (Nat.eqb_spec dim 0); [lia|]. cbn [elem noDiag emptyArr nonempty].
  unfold elem. rewrite empty_noFreq. destruct (y =? x), (y =? x + 0), (x =? y + 0); ring.
Qed.

(** the elements of aop on the levels *)
Definition annihM (dim : nat) : mat := fun y x => if andb (x =? y + 1) (1 <? dim) then RC (sqrt (INR y + 1)) else k0.
Lemma aop_good dim : (0 < dim)%nat -> exists t, aop dim = Ok t /\ good dim t 1 (annihM dim).
Proof.
  intros Hd. assert (E : exists t, aop dim = Ok t).
  { unfold aop, unary, compatible. cbn [nonempty negb asize noDiag emptyArr ash repeat fold_right Nat.mul Nat.eqb orb andb].
    rewrite andb_false_r. cbn. eauto. }
  destruct E as [t E]. exists t. split; [exact E|].
  destruct (unary_wf 0%R noDiag 1 noDiag (vecOf (dim - 1) (fun i => RC (sqrt (INR i + 1)))) 0 0 (dim - 1) t eq_refl eq_refl eq_refl) as (W & Wf & Tm & Df & Dm & Mt); [lia|exact E|].
  split; [exact W|]. split; [now apply (unary_noFreqs _ _ _ _ _ E)|]. split; [exact Tm|].
  split; [rewrite Dm; cbn [Nat.eqb]; f_equal; lia|]. split; [exact Df|].
  intros y x. rewrite Mt, elem_vecOf. unfold elem. rewrite empty_noFreq. unfold annihM.
  destruct (Nat.eqb_spec (dim - 1) 0), (Nat.ltb_spec 1 dim); try lia; destruct (y =? x), (y =? x + 1), (x =? y + 1); cbn [andb]; ring.
Qed.
Lemma annihM_spec dim y x : (x < dim)%nat -> annihM dim y x = annihilation y x.
Proof.
  intros H. unfold annihM, annihilation. destruct (Nat.eqb_spec x (y + 1)) as [->|]; cbn [andb]; [|reflexivity].
  replace (1 <? dim) with (0 <? dim - 1) by (destruct (Nat.ltb_spec 1 dim), (Nat.ltb_spec 0 (dim - 1)); auto; lia).
  destruct (Nat.ltb_spec 0 (dim - 1)); [|lia]. rewrite plus_INR. reflexivity.
Qed.
Lemma annihilation_conj y x : kconj (annihilation x y) = creation y x.
Proof. unfold annihilation, creation. destruct (y =? x + 1); [apply RC_conj|apply kconj_0]. Qed.
Lemma creation_conj y x : kconj (creation x y) = annihilation y x.
Proof. unfold annihilation, creation. destruct (x =? y + 1); [apply RC_conj|apply kconj_0]. Qed.

Definition pumpM (eta : CR) : mat := fun y x => ksub (kmul eta (creation y x)) (kmul (kconj eta) (annihilation y x)).
(** equal on the levels *)
Definition goodIn (dim : nat) (t : tri CR R) (k : nat) (M : mat) : Prop :=
  exists M', good dim t k M' /\ forall y x, (y < dim)%nat -> (x < dim)%nat -> M' y x = M y x.
Lemma pumping_good dim eta : (0 < dim)%nat -> exists t, pumping eta dim = Ok t /\ goodIn dim t 1 (pumpM eta).
Proof.
  intros Hd. destruct (aop_good dim Hd) as [a [Ea Ga]]. unfold pumping. rewrite Ea. cbn [bind].
  destruct (minusHC_good dim _ 1 _ (scale_good _ _ _ _ eta (dagger_good _ _ _ _ Ga))) as [m [Em Gm]].
  exists m. split; [exact Em|]. eexists. split; [exact Gm|]. intros y x Hy Hx. cbn beta.
  rewrite !annihM_spec by auto. unfold pumpM. rewrite annihilation_conj, kconj_mul. rewrite annihilation_conj, creation_conj. ring.
Qed.
Definition mainM (z : CR) (o : R) (i : nat) : CR := kadd (kmul (RC (INR i)) z) (kerrElem o i).
Definition hOverIM (z eta : CR) (o : R) : mat :=
  fun y x => kadd (if y =? x then mainM (kopp z) o y else k0) (pumpM eta y x).
Lemma pumpM_0 y x : pumpM k0 y x = k0.
Proof. unfold pumpM. rewrite kconj_0. ring. Qed.
Lemma hOverI_good z eta o dim : (0 < dim)%nat -> z <> k0 \/ eta <> k0 ->
  exists t k, hOverI z eta o dim = Ok t /\ (k <= 1)%nat /\
    goodIn dim t k (hOverIM z eta (if isNonZero z then o else 0%R)).
Proof.
  intros Hd H. unfold hOverI. destruct (isNonZero z) eqn:Ez.
  - destruct (ofDiagonal_good dim (mainM (kopp z) o) Hd) as [d [Ed Gd]].
    change (mainDiagonal (kopp z) o dim) with (vecOf dim (mainM (kopp z) o)). rewrite Ed. cbn [bind].
    destruct (isNonZero eta) eqn:Ee.
    + destruct (pumping_good dim eta Hd) as [p [Ep [Mp [Gp Hp]]]]. rewrite Ep. cbn [bind].
      destruct (add_good dim d p 0 1 _ _ Gd Gp) as [t [Et Gt]]; [auto|]. cbn [Nat.eqb] in Gt.
      exists t, 1%nat. split; [exact Et|]. split; [lia|]. eexists. split; [exact Gt|]. intros y x Hy Hx. cbn beta. unfold hOverIM. now rewrite Hp.
    + exists d, 0%nat. split; [reflexivity|]. split; [lia|]. eexists. split; [exact Gd|]. intros y x _ _. unfold hOverIM.
      apply isNonZero_false in Ee. subst eta. rewrite pumpM_0. ring.
  - apply isNonZero_false in Ez. destruct H as [H|H]; [congruence|]. apply isNonZero_spec in H. rewrite H.
    destruct (pumping_good dim eta Hd) as [p [Ep [Mp [Gp Hp]]]]. exists p, 1%nat. split; [exact Ep|]. split; [lia|].
    exists Mp. split; [exact Gp|]. intros y x Hy Hx. rewrite Hp by auto. unfold hOverIM, mainM, kerrElem. subst z.
    replace (kmul (RC ((INR y - 1) * INR y)) (kmul (RC 0) (kopp CI))) with (k0 : CR) by (apply cr_eq; cbn; ring).
    destruct (y =? x); ring.
Qed.
Lemma emptyTri_spec : exists t, emptyTri = Ok t /\ dims t = [0%nat] /\ diffs t = [0%nat].
Proof. unfold emptyTri, ofDiagonal, unary. cbn. eexists. repeat split. Qed.
Lemma hOverI_empty o dim : exists t, hOverI k0 k0 o dim = Ok t /\ dims t = [0%nat] /\ diffs t = [0%nat].
Proof. unfold hOverI. replace (isNonZero k0) with false by (symmetry; now apply isNonZero_false). apply emptyTri_spec. Qed.
Lemma kerr_good dim o : (0 < dim)%nat -> exists t, kerrTerm o dim = Ok t /\ good dim t 0 (fun y x => if y =? x then kerrElem o y else k0).
Proof. apply ofDiagonal_good. Qed.

(** ** action of a list of tridiagonals *)
Lemma isum1 dim (f : list nat -> CR) : isum [dim] f = lsum dim (fun n => f [n]).
Proof. rewrite isum_cons. apply ksum_ext. intros n _. apply isum_nil. Qed.
Lemma inr1 dim m : (m < dim)%nat -> inr [dim] [m].
Proof. intros H. constructor; [exact H|constructor]. Qed.
Lemma apply1 (t : tri CR R) dim k M psi d m : dims t = [dim] -> diffs t = [k] -> (forall y x, (y < dim)%nat -> (x < dim)%nat -> tmat t [y] [x] = M y x) ->
  (m < dim)%nat -> apply t psi d [m] = kadd (d [m]) (lsum dim (fun n => kmul (M m n) (psi [n]))).
Proof.
  intros E1 E2 HM Hm. rewrite apply_matrix; [|unfold rankOf; now rewrite E1, E2|rewrite E1; now apply inr1].
  rewrite E1, isum1. apply (f_equal (kadd (d [m]))). apply lsum_ext. intros n Hn. now rewrite HM.
Qed.
Lemma apply_empty (t : tri CR R) psi d m : dims t = [0%nat] -> apply t psi d [m] = d [m].
Proof. intros E. apply apply_outside. rewrite E. intros H. inversion H as [|? ? ? ? H1]. lia. Qed.

(** the list after earlier calls *)
Lemma after_td ts : forall hs, afterCalls true ts hs = map (fun h => fold_left (fun x s => propagate s x) ts h) hs.
Proof.
  induction ts as [|t ts IH]; intros hs; [cbn; now rewrite map_id|].
  unfold afterCalls in *. cbn [fold_left]. rewrite IH. cbn [addContribution fst]. rewrite map_map. reflexivity.
Qed.
Lemma after_const ts : forall hs, afterCalls false ts hs = hs.
Proof. induction ts as [|t ts IH]; intros hs; [reflexivity|]. unfold afterCalls in *. cbn [fold_left addContribution fst]. apply IH. Qed.

(** ** propagation *)
Lemma noFreqs_propagate (x : tri CR R) t y c : noFreqs x -> tmat (propagate t x) y c = tmat x y c.
Proof.
  intros H. apply tmat_ext; auto.
  - intros i. apply propagate_diag.
  - intros i n. destruct (propagate_diag t x i) as (_ & _ & E). rewrite E. unfold pfac. destruct i; [ring|]. rewrite (H (S i)), andb_false_r. ring.
Qed.
Lemma furnish_good dim t k M D : goodIn dim t k M -> (k <= dim)%nat -> ash D = [dim] -> (0 < dim)%nat ->
  exists t', furnish t D = Ok t' /\ dims t' = [dim] /\ diffs t' = [k] /\
    forall s y x, (y < dim)%nat -> (x < dim)%nat ->
      tmat (propagate s t') [y] [x] = kmul (kmul (cexp (kmul (RC s) (av D [y]))) (M y x)) (cexp (kopp (kmul (RC s) (av D [x])))).
Proof.
  intros [M' [(A1 & A2 & A3 & A4 & A5 & A6) HM]] Hk HD Hd.
  assert (E : exists t', furnish t D = Ok t').
  { unfold furnish. rewrite A4, A5. cbn [nth]. destruct (Nat.ltb_spec dim k); [lia|]. destruct (dim - k =? 0); [eauto|].
    unfold asize. rewrite HD. cbn [fold_right]. rewrite Nat.mul_1_r, Nat.ltb_irrefl. eauto. }
  destruct E as [t' E]. exists t'. split; [exact E|].
  destruct (furnish_spec t t' dim k D A4 A5 (noFreqs_wf _ A2) E) as (B1 & B2 & _).
  split; [congruence|]. split; [congruence|]. intros s y x Hy Hx.
  rewrite (furnish_interaction_picture t t' dim k D s y x A4 A5 A1 (noFreqs_wf _ A2) E Hy Hx).
  rewrite A3, Rminus_0_r, A6, HM by auto. reflexivity.
Qed.

Lemma uDiag_spec dim z t m : (m < dim)%nat -> uDiag dim z t m = cexp (kmul (RC t) (eigenvalue (EMode z) m)).
Proof.
  intros H. unfold uDiag, modeUpdateU. replace (m <? dim) with true by (symmetry; now apply Nat.ltb_lt). f_equal. unfold eigenvalue.
  destruct z as [a b]. apply cr_eq; cbn; ring.
Qed.
Lemma cexp_inv z : kmul (cexp z) (cexp (kopp z)) = k1.
Proof. rewrite <- cexp_add. replace (kadd z (kopp z)) with (k0 : CR) by ring. apply cexp_0. Qed.

(** the two terms of a Hamiltonian: the action at time t, after earlier calls *)
Lemma ip_action h k dim d0 d1 A B ts t psi m :
  dims h = [dim] -> diffs h = [d0] -> dims k = [dim] -> diffs k = [d1] -> (m < dim)%nat ->
  (forall y x, (y < dim)%nat -> (x < dim)%nat -> tmat (propagate t h) [y] [x] = A y x) ->
  (forall y x, (y < dim)%nat -> (x < dim)%nat -> tmat (propagate t k) [y] [x] = B y x) ->
  hAction true (afterCalls true ts [h; k]) t psi m = lsum dim (fun n => kmul (kadd (A m n) (B m n)) (psi n)).
Proof.
  intros E1 E2 E3 E4 Hm HA HB. unfold hAction. rewrite after_td. cbn [map addContribution snd fold_left].
  assert (S1 : forall x, dims (propagate t (fold_left (fun x s => propagate s x) ts x)) = dims x /\
                         diffs (propagate t (fold_left (fun x s => propagate s x) ts x)) = diffs x).
  { intros x. destruct (propagate_path ts t x) as (P1 & P2 & _). split; [exact P1|exact P2]. }
  rewrite (apply1 _ dim d1 B); [|rewrite (proj1 (S1 k)); exact E3|rewrite (proj2 (S1 k)); exact E4| |exact Hm].
  - rewrite (apply1 _ dim d0 A); [|rewrite (proj1 (S1 h)); exact E1|rewrite (proj2 (S1 h)); exact E2| |exact Hm].
    + unfold lsum. transitivity (kadd (ksum (fun n => kmul (A m n) (psi n)) (seq 0 dim)) (ksum (fun n => kmul (B m n) (psi n)) (seq 0 dim))).
      * cbn [nth]. ring.
      * rewrite <- ksum_add. apply ksum_ext. intros n _. ring.
    + intros y x Hy Hx. rewrite (eqt_tmat _ _ _ _ (propagate_path ts t h)). now apply HA.
  - intros y x Hy Hx. rewrite (eqt_tmat _ _ _ _ (propagate_path ts t k)). now apply HB.
Qed.
Lemma sch_action h k dim d0 d1 A B ts t psi m :
  dims h = [dim] -> diffs h = [d0] -> dims k = [dim] -> diffs k = [d1] -> (m < dim)%nat ->
  (forall y x, (y < dim)%nat -> (x < dim)%nat -> tmat h [y] [x] = A y x) ->
  (forall y x, (y < dim)%nat -> (x < dim)%nat -> tmat k [y] [x] = B y x) ->
  hAction false (afterCalls false ts [h; k]) t psi m = lsum dim (fun n => kmul (kadd (A m n) (B m n)) (psi n)).
Proof.
  intros E1 E2 E3 E4 Hm HA HB. unfold hAction. rewrite after_const. cbn [addContribution snd fold_left].
  rewrite (apply1 _ dim d1 B) by auto. rewrite (apply1 _ dim d0 A) by auto.
  unfold lsum. transitivity (kadd (ksum (fun n => kmul (A m n) (psi n)) (seq 0 dim)) (ksum (fun n => kmul (B m n) (psi n)) (seq 0 dim))).
  - cbn [nth]. ring.
  - rewrite <- ksum_add. apply ksum_ext. intros n _. ring.
Qed.
Definition kerrM (o : R) : mat := fun y x => if y =? x then kerrElem o y else k0.

(** what the Hamiltonians of the interaction picture are *)
Lemma emptyTri_furnish D : exists t, bind emptyTri (fun h => furnish h D) = Ok t /\ dims t = [0%nat] /\ diffs t = [0%nat].
Proof. unfold emptyTri, ofDiagonal, unary. cbn. eexists. repeat split. Qed.
Lemma hOverIM_0 m n : hOverIM k0 k0 0 m n = k0.
Proof.
  unfold hOverIM, mainM, kerrElem. rewrite pumpM_0.
  replace (kadd (kmul (RC (INR m)) (kopp k0)) (kmul (RC ((INR m - 1) * INR m)) (kmul (RC 0) (kopp CI)))) with (k0 : CR) by (apply cr_eq; cbn; ring).
  destruct (m =? n); ring.
Qed.
Lemma isNonZero_0 : isNonZero (k0 : CR) = false. Proof. now apply isNonZero_false. Qed.
Lemma hamiltonianIP_ok zSch zI eta o o' dim : (0 < dim)%nat ->
  exists hs, hamiltonianIP zSch zI eta o o' dim = Ok hs /\
    forall ts t psi m, (m < dim)%nat -> hAction true (afterCalls true ts hs) t psi m =
      lsum dim (fun n => kmul (kadd (kmul (kmul (cexp (kmul (RC t) (mainM zI o m))) (hOverIM zSch eta (if isNonZero zSch then o else 0%R) m n))
                                          (cexp (kopp (kmul (RC t) (mainM zI o n))))) (kerrM o' m n)) (psi n)).
Proof.
  intros Hd. destruct (kerr_good dim o' Hd) as (kt & Ek & Gk). pose proof Gk as (K1 & K2 & K3 & K4 & K5 & K6).
  destruct (isNonZero zSch || isNonZero eta)%bool eqn:Enz.
  - assert (Hz : zSch <> k0 \/ eta <> k0) by (apply orb_true_iff in Enz; rewrite !isNonZero_spec in Enz; exact Enz).
    destruct (hOverI_good zSch eta o dim Hd Hz) as (h & k & Eh & Hk & Gh).
    destruct (furnish_good dim h k _ (mainDiagonal zI o dim) Gh ltac:(lia) eq_refl Hd) as (h' & Ef & Dh & Fh & Mh).
    exists [h'; kt]. split.
    + unfold hamiltonianIP. rewrite Eh. cbn [bind]. rewrite Ef. cbn [bind]. rewrite Ek. reflexivity.
    + intros ts t psi m Hm.
      rewrite (ip_action h' kt dim k 0 (fun m n => kmul (kmul (cexp (kmul (RC t) (mainM zI o m))) (hOverIM zSch eta (if isNonZero zSch then o else 0%R) m n))
                                            (cexp (kopp (kmul (RC t) (mainM zI o n))))) (kerrM o')); auto.
      * intros y x Hy Hx. now apply Mh.
      * intros y x Hy Hx. rewrite noFreqs_propagate by exact K2. apply K6.
  - apply orb_false_iff in Enz. destruct Enz as [Ez Ee]. apply isNonZero_false in Ez, Ee. subst zSch eta. rewrite isNonZero_0.
    destruct (emptyTri_furnish (mainDiagonal zI o dim)) as (h & Eh & D1 & D2).
    exists [h; kt]. split.
    + unfold hamiltonianIP, hOverI. rewrite isNonZero_0. destruct emptyTri as [e| | | | |]; try discriminate Eh. cbn [bind] in *. rewrite Eh. cbn [bind]. rewrite Ek. reflexivity.
    + intros ts t psi m Hm. unfold hAction. rewrite after_td. cbn [map addContribution snd fold_left].
      assert (S1 : forall x, dims (propagate t (fold_left (fun x s => propagate s x) ts x)) = dims x /\
                         diffs (propagate t (fold_left (fun x s => propagate s x) ts x)) = diffs x).
      { intros x. destruct (propagate_path ts t x) as (P1 & P2 & _). split; [exact P1|exact P2]. }
      rewrite (apply1 _ dim 0 (kerrM o')); [|rewrite (proj1 (S1 kt)); exact K4|rewrite (proj2 (S1 kt)); exact K5| |exact Hm].
      * rewrite apply_empty by (rewrite (proj1 (S1 h)); exact D1). cbn [nth].
        transitivity (lsum dim (fun n => kmul (kerrM o' m n) (psi n))); [ring|]. apply lsum_ext. intros n Hn. rewrite hOverIM_0. ring.
      * intros y x Hy Hx. rewrite (eqt_tmat _ _ _ _ (propagate_path ts t kt)). rewrite noFreqs_propagate by exact K2. apply K6.
Qed.
Lemma hamiltonianSch_ok z eta o o' dim : (0 < dim)%nat ->
  exists hs, hamiltonianSch z eta o o' dim = Ok hs /\
    forall ts t psi m, (m < dim)%nat -> hAction false (afterCalls false ts hs) t psi m =
      lsum dim (fun n => kmul (kadd (hOverIM z eta (if isNonZero z then o else 0%R) m n) (kerrM o' m n)) (psi n)).
Proof.
  intros Hd. destruct (kerr_good dim o' Hd) as (kt & Ek & (K1 & K2 & K3 & K4 & K5 & K6)).
  destruct (isNonZero z || isNonZero eta)%bool eqn:Enz.
  - assert (Hz : z <> k0 \/ eta <> k0) by (apply orb_true_iff in Enz; rewrite !isNonZero_spec in Enz; exact Enz).
    destruct (hOverI_good z eta o dim Hd Hz) as (h & k & Eh & Hk & [M [(A1 & A2 & A3 & A4 & A5 & A6) HM]]).
    exists [h; kt]. split; [unfold hamiltonianSch; rewrite Eh; cbn [bind]; rewrite Ek; reflexivity|].
    intros ts t psi m Hm. apply (sch_action h kt dim k 0); auto.
    + intros y x Hy Hx. rewrite A6. now apply HM.
    + intros y x Hy Hx. apply K6.
  - apply orb_false_iff in Enz. destruct Enz as [Ez Ee]. rewrite Ez. apply isNonZero_false in Ez, Ee. subst z eta.
    destruct (hOverI_empty o dim) as (h & Eh & D1 & D2).
    exists [h; kt]. split; [unfold hamiltonianSch; rewrite Eh; cbn [bind]; rewrite Ek; reflexivity|].
    intros ts t psi m Hm. unfold hAction. rewrite after_const. cbn [addContribution snd fold_left].
    rewrite (apply1 _ dim 0 (kerrM o')) by (auto; intros; apply K6). rewrite apply_empty by exact D1. cbn [nth].
    unfold hOverIM, mainM, kerrElem.
    transitivity (lsum dim (fun n => kmul (kerrM o' m n) (psi n))); [ring|]. apply lsum_ext. intros n Hn. rewrite pumpM_0.
    replace (kadd (kmul (RC (INR m)) (kopp k0)) (kmul (RC ((INR m - 1) * INR m)) (kmul (RC 0) (kopp CI)))) with (k0 : CR) by (apply cr_eq; cbn; ring).
    destruct (m =? n); ring.
Qed.
