From Coq Require Import List Arith Bool ZArith Lia Reals Lra.
From Verif Require Import Star CReal Arr TriModel TriSpec TriProofs TriPropagate TriLemmas ElementSpec ModeModel ModeProofs ParticleModel.
Import ListNotations.
Add Ring CRPp : (k_ring CR).

(** ** unary operators in the interaction picture of the diagonal D *)
Definition fv (dim : nat) (D : nat -> CR) (k : nat) (t : tri CR R) : Prop :=
  (nonempty (freqs t 1) = true -> ash (freqs t 1) = [dim - k] /\ forall n, (n + k < dim)%nat -> av (freqs t 1) [n] = ksub (D (n + k)) (D n)) /\
  (nonempty (freqs t 2) = true -> ash (freqs t 2) = [dim - k] /\ forall n, (n + k < dim)%nat -> av (freqs t 2) [n] = ksub (D n) (D (n + k))).
Definition pop (dim : nat) (D : nat -> CR) (t : tri CR R) (k : nat) (M : mat) : Prop :=
  wf t /\ time t = 0%R /\ dims t = [dim] /\ diffs t = [k] /\ nonempty (freqs t 0) = false /\ fv dim D k t /\
  generated t (fun y => D (nth 0 y 0%nat)) /\ forall y x, (y < dim)%nat -> (x < dim)%nat -> tmat t [y] [x] = M y x.
Lemma pop_ext dim D t k M M' : (forall y x, (y < dim)%nat -> (x < dim)%nat -> M y x = M' y x) -> pop dim D t k M -> pop dim D t k M'.
Proof. intros H (A1 & A2 & A3 & A4 & A5 & A6 & A7 & A8). repeat (split; [assumption|]). intros. rewrite A8 by auto. auto. Qed.
Lemma pop_time dim D t k M s y x : pop dim D t k M -> (y < dim)%nat -> (x < dim)%nat ->
  tmat (propagate s t) [y] [x] = kmul (kmul (cexp (kmul (RC s) (D y))) (M y x)) (cexp (kopp (kmul (RC s) (D x)))).
Proof.
  intros (A1 & A2 & A3 & A4 & A5 & A6 & A7 & A8) Hy Hx. rewrite (propagate_generated t _ s [y] [x] A7); [|rewrite A3; now apply inr1|rewrite A3; now apply inr1].
  rewrite A2, Rminus_0_r, A8 by auto. reflexivity.
Qed.

Lemma place1 k g i j n : place [k] [g] [i] [j] = Some n ->
  match g with 0 => i = j /\ n = [i] | 1 => i = j + k /\ n = [j] | _ => j = i + k /\ n = [i] end.
Proof.
  cbn. destruct g as [|[|g]].
  - destruct (Nat.eqb_spec i j); [|discriminate]. intros H. injection H as <-. auto.
  - destruct (Nat.eqb_spec i (j + k)); [|discriminate]. intros H. injection H as <-. auto.
  - destruct (Nat.eqb_spec j (i + k)); [|discriminate]. intros H. injection H as <-. auto.
Qed.
(** [generated] for unary operators *)
Definition gen1 (dim : nat) (D : nat -> CR) (k : nat) (t : tri CR R) : Prop :=
  forall j, (j + k < dim)%nat ->
    (nonempty (diags t 1) = true -> (nonempty (freqs t 1) = true /\ av (freqs t 1) [j] = ksub (D (j + k)) (D j)) \/ (nonempty (freqs t 1) = false /\ D (j + k) = D j)) /\
    (nonempty (diags t 2) = true -> (nonempty (freqs t 2) = true /\ av (freqs t 2) [j] = ksub (D j) (D (j + k))) \/ (nonempty (freqs t 2) = false /\ D j = D (j + k))).
Lemma generated1 dim D k t : dims t = [dim] -> diffs t = [k] -> (generated t (fun y => D (nth 0 y 0)) <-> gen1 dim D k t).
Proof.
  intros E1 E2. unfold generated, rankOf. rewrite E1, E2. cbn [length]. split.
  - intros H j Hj. split; intros Hn.
    + specialize (H [1] [j + k] [j] [j]). apply H; [constructor; [lia|constructor]|apply inr1; lia|apply inr1; lia| |exact Hn].
      cbn. now rewrite Nat.eqb_refl.
    + specialize (H [2] [j] [j + k] [j]). apply H; [constructor; [lia|constructor]|apply inr1; lia|apply inr1; lia| |exact Hn].
      cbn. now rewrite Nat.eqb_refl.
  - intros H dg y c n Hdg Hy Hc Hp Hn. inversion Hy as [|i ? y' ? Hi Hy']; subst. inversion Hy'; subst.
    inversion Hc as [|j ? c' ? Hj Hc']; subst. inversion Hc'; subst. cbn [nth].
    destruct (digits1 dg Hdg) as [->|[->| ->]]; apply place1 in Hp; cbn [code length Nat.pow Nat.mul Nat.add] in *; destruct Hp as [-> ->]; auto; apply H; auto.
Qed.

Lemma allDiffer_false (a b : arr CR) n : ash a = [n] -> (0 < n)%nat -> av a [0] = av b [0] -> allDiffer CReqb a b = false.
Proof.
  intros E Hn Ev. unfold allDiffer. rewrite E. destruct n; [lia|]. cbn [indices seq flat_map map app forallb]. rewrite Ev, CReqb_refl. reflexivity.
Qed.
Lemma nonempty_pos (a : arr CR) n : ash a = [n] -> nonempty a = true -> (0 < n)%nat.
Proof. intros E H. destruct (nonempty1 a n E) as [H1 _]. apply H1 in H. lia. Qed.
Lemma addFreq_nonempty (a b : arr CR) : nonempty (addFreq a b) = nonempty a || nonempty b.
Proof. unfold addFreq. destruct (nonempty a) eqn:E; [now rewrite E|reflexivity]. Qed.
Lemma addDiag_nonempty (a b : arr CR) : nonempty (addDiag a b) = nonempty a || nonempty b.
Proof. unfold addDiag. destruct (nonempty a) eqn:E; [|reflexivity]. destruct (nonempty b) eqn:E'; cbn [negb]; [exact E'|exact E]. Qed.
Lemma offdiag_k (t : tri CR R) k : wf t -> diffs t = [k] -> rankOf t = 1%nat -> nonempty (diags t 1) = true \/ nonempty (diags t 2) = true -> (0 < k)%nat.
Proof.
  intros (_ & _ & W) E R [H|H].
  - destruct (W [1]) as [_ O]; [rewrite R; constructor; [lia|constructor]|exact H|]. rewrite E in O. cbn in O. apply O. lia.
  - destruct (W [2]) as [_ O]; [rewrite R; constructor; [lia|constructor]|exact H|]. rewrite E in O. cbn in O. apply O. lia.
Qed.

Lemma pop_add dim D to from k1 k2 M1 M2 : pop dim D to k1 M1 -> pop dim D from k2 M2 ->
  (k1 = k2 \/ (k1 = 0 /\ noFreqs to) \/ (k2 = 0 /\ noFreqs from))%nat ->
  exists t, add CReqb to from = Ok t /\ pop dim D t (if k1 =? 0 then k2 else k1) (fun y x => kadd (M1 y x) (M2 y x)).
Proof.
  intros (A1 & A2 & A3 & A4 & A5 & A6 & A7 & A8) (B1 & B2 & B3 & B4 & B5 & B6 & B7 & B8) Hk.
  assert (Ed : dims from = dims to) by congruence.
  set (k := if k1 =? 0 then k2 else k1).
  assert (Em : mergeDiffs (diffs from) (diffs to) = Some [k]).
  { rewrite A4, B4. unfold k. cbn. destruct (Nat.eqb_spec k1 0), (Nat.eqb_spec k2 0), (Nat.eqb_spec k1 k2); cbn; auto; lia. }
  pose proof (add_no_ub CReqb to from A1 B1 Ed) as Hub. unfold add in Hub. rewrite Em in Hub.
  destruct (existsb (fun i => shapesClash (diags from i) (diags to i)) (seq 0 (3 ^ rankOf to))) eqn:Es; [congruence|].
  assert (Rt : rankOf to = 1%nat) by (unfold rankOf; now rewrite A3).
  assert (Rf : rankOf from = 1%nat) by (unfold rankOf; now rewrite B3).
  assert (Ek : forall i, nonempty (freqs to i) = true -> nonempty (freqs from i) = true -> k1 = k2).
  { intros i H1 H2. destruct Hk as [H|[[_ H]|[_ H]]]; auto; rewrite H in *; discriminate. }
  assert (Ef : existsb (fun i => freqClash CReqb (freqs from i) (freqs to i)) (seq 0 (3 ^ rankOf to)) = false).
  { rewrite Rt. apply existsb_false. intros i Hi. unfold freqClash. destruct (nonempty (freqs from i)) eqn:Hf; [|reflexivity].
    destruct (nonempty (freqs to i)) eqn:Ht; [|reflexivity]. cbn [andb]. pose proof (Ek i Ht Hf) as <-. cbn in Hi.
    destruct Hi as [<-|[<-|[<-|[]]]]; [congruence| |].
    - destruct A6 as [A6 _], B6 as [B6 _]. destruct (A6 Ht) as [S1 V1], (B6 Hf) as [S2 V2]. pose proof (nonempty_pos _ _ S1 Ht).
      apply (allDiffer_false _ _ (dim - k1)); auto. rewrite V1, V2 by lia. reflexivity.
    - destruct A6 as [_ A6], B6 as [_ B6]. destruct (A6 Ht) as [S1 V1], (B6 Hf) as [S2 V2]. pose proof (nonempty_pos _ _ S1 Ht).
      apply (allDiffer_false _ _ (dim - k1)); auto. rewrite V1, V2 by lia. reflexivity. }
  eexists. assert (E : add CReqb to from = Ok (mkTri (dims to) [k] (fun i => addDiag (diags from i) (diags to i)) (time to)
                     (fun i => addFreq (freqs from i) (freqs to i)))).
  { unfold add. now rewrite Em, Es, Ef. }
  split; [exact E|]. destruct (add_matrix CReqb to from _ A1 B1 Ed E) as (W & Dd & Mt).
  assert (Hto : forall i, nonempty (freqs to i) = true -> k = k1).
  { intros i H. unfold k. destruct (Nat.eqb_spec k1 0) as [->|]; auto. destruct Hk as [Hk|[[_ Hk]|[Hk _]]]; auto. rewrite Hk in H. discriminate. }
  assert (Hfr : forall i, nonempty (freqs from i) = true -> k = k2).
  { intros i H. unfold k. destruct (Nat.eqb_spec k1 0) as [->|]; auto. destruct Hk as [Hk|[[Hk _]|[_ Hk]]]; [auto|lia|]. rewrite Hk in H. discriminate. }
  split; [exact W|]. split; [exact A2|]. split; [exact A3|]. split; [reflexivity|]. split; [|split; [|split]].
  - cbn [freqs]. rewrite addFreq_nonempty, A5, B5. reflexivity.
  - split; cbn [freqs]; intros H; unfold addFreq in *.
    + destruct (nonempty (freqs from 1)) eqn:Hf.
      * rewrite (Hfr 1%nat Hf). now apply B6.
      * rewrite (Hto 1%nat H). now apply A6.
    + destruct (nonempty (freqs from 2)) eqn:Hf.
      * rewrite (Hfr 2%nat Hf). now apply B6.
      * rewrite (Hto 2%nat H). now apply A6.
  - apply (generated1 dim D k); [exact A3|reflexivity|]. apply (generated1 dim D k1 to A3 A4) in A7. apply (generated1 dim D k2 from B3 B4) in B7.
    assert (Kt : nonempty (diags to 1) = true \/ nonempty (diags to 2) = true -> k = k1).
    { intros H. apply (offdiag_k to k1 A1 A4 Rt) in H. unfold k. destruct (Nat.eqb_spec k1 0); lia. }
    assert (Kf : nonempty (diags from 1) = true \/ nonempty (diags from 2) = true -> k = k2).
    { intros H. apply (offdiag_k from k2 B1 B4 Rf) in H. unfold k. destruct (Nat.eqb_spec k1 0); [auto|]. lia. }
    intros j Hj. cbn [diags freqs]. rewrite !addDiag_nonempty, !addFreq_nonempty. unfold addFreq.
    destruct A6 as [A61 A62], B6 as [B61 B62]. split; intros H.
    + destruct (nonempty (freqs from 1)) eqn:Hf.
      { left. split; auto. destruct (B61 eq_refl) as [_ V]. rewrite (Hfr 1%nat Hf) in *. now apply V. }
      destruct (nonempty (freqs to 1)) eqn:Ht.
      { left. split; auto. destruct (A61 eq_refl) as [_ V]. rewrite (Hto 1%nat Ht) in *. now apply V. }
      right. split; auto. apply orb_true_iff in H. destruct H as [H|H].
      * rewrite Kf in * by auto. destruct (B7 j Hj) as [G _]. destruct (G H) as [[C _]|[_ C]]; [congruence|exact C].
      * rewrite Kt in * by auto. destruct (A7 j Hj) as [G _]. destruct (G H) as [[C _]|[_ C]]; [congruence|exact C].
    + destruct (nonempty (freqs from 2)) eqn:Hf.
      { left. split; auto. destruct (B62 eq_refl) as [_ V]. rewrite (Hfr 2%nat Hf) in *. now apply V. }
      destruct (nonempty (freqs to 2)) eqn:Ht.
      { left. split; auto. destruct (A62 eq_refl) as [_ V]. rewrite (Hto 2%nat Ht) in *. now apply V. }
      right. split; auto. apply orb_true_iff in H. destruct H as [H|H].
      * rewrite Kf in * by auto. destruct (B7 j Hj) as [_ G]. destruct (G H) as [[C _]|[_ C]]; [congruence|exact C].
      * rewrite Kt in * by auto. destruct (A7 j Hj) as [_ G]. destruct (G H) as [[C _]|[_ C]]; [congruence|exact C].
  - intros y x Hy Hx. rewrite Mt, A8, B8 by auto. reflexivity.
Qed.
Lemma pop_scale dim D t k M c : pop dim D t k M -> pop dim D (scale c t) k (fun y x => kmul c (M y x)).
Proof.
  intros (A1 & A2 & A3 & A4 & A5 & A6 & A7 & A8). split; [now apply wf_scale|]. repeat (split; [assumption|]).
  intros. rewrite scale_matrix, A8 by auto. reflexivity.
Qed.
Lemma pop_neg dim D t k M : pop dim D t k M -> pop dim D (neg t) k (fun y x => kopp (M y x)).
Proof.
  intros (A1 & A2 & A3 & A4 & A5 & A6 & A7 & A8). split; [now apply wf_neg|]. repeat (split; [assumption|]).
  intros. rewrite neg_matrix, A8 by auto. reflexivity.
Qed.
Lemma pop_sub dim D to from k1 k2 M1 M2 : pop dim D to k1 M1 -> pop dim D from k2 M2 ->
  (k1 = k2 \/ (k1 = 0 /\ noFreqs to) \/ (k2 = 0 /\ noFreqs from))%nat ->
  exists t, sub CReqb to from = Ok t /\ pop dim D t (if k1 =? 0 then k2 else k1) (fun y x => ksub (M1 y x) (M2 y x)).
Proof.
  intros H1 H2 Hk. destruct (pop_add dim D to (neg from) k1 k2 _ _ H1 (pop_neg _ _ _ _ _ H2)) as [t [E P]].
  - destruct Hk as [Hk|[Hk|[Hk Hn]]]; auto.
  - exists t. split; [exact E|]. eapply pop_ext; [|exact P]. intros. cbn beta. ring.
Qed.

(** ** the elementary operators *)
Definition waveM (L : Z) : mat := fun i j => if Z.eqb (Z.of_nat i) (Z.of_nat j + L) then k1 else k0.
(** an operator without content *)
Definition mute (t : tri CR R) : Prop := dims t = [0%nat] /\ diffs t = [0%nat] /\ noFreqs t /\ time t = 0%R /\ forall i, nonempty (diags t i) = false.
Lemma empty_mute : exists t, emptyTri = Ok t /\ mute t.
Proof.
  unfold emptyTri, ofDiagonal, unary. cbn. eexists. split; [reflexivity|]. repeat split.
  intros [|[|[|i]]]; reflexivity.
Qed.
Lemma gen_noFreqs0 dim k t : dims t = [dim] -> diffs t = [k] -> noFreqs t -> generated t (fun y => (fun _ => k0) (nth 0 y 0%nat)).
Proof. intros E1 E2 H. apply (generated1 dim (fun _ => k0) k); auto. intros j _. rewrite !H. split; intros _; right; auto. Qed.

Lemma exp0_pop dim nK : (0 < dim)%nat -> (Z.abs nK <= Z.of_nat dim)%Z ->
  exists t, expINKX0 dim nK = Ok t /\ noFreqs t /\ pop dim (fun _ => k0) t (Z.to_nat (Z.abs nK)) (waveM nK).
Proof.
  intros Hd Hn. unfold expINKX0.
  assert (EA : (if (0 <? nK)%Z then nK else (- nK)%Z) = Z.abs nK) by (destruct (Z.ltb_spec 0 nK); lia).
  rewrite EA. destruct (Z.ltb_spec (Z.of_nat dim - Z.abs nK) 0) as [|_]; [lia|].
  set (kk := Z.to_nat (Z.abs nK)). replace (Z.to_nat (Z.of_nat dim - Z.abs nK)) with (dim - kk)%nat by lia.
  assert (Sh : ash (vecOf (dim - kk) (fun _ => k1)) = [(dim - kk)%nat]) by reflexivity.
  assert (El : forall i, elem (vecOf (dim - kk) (fun _ => k1)) i = if dim - kk =? 0 then k0 else k1) by (intros; apply elem_vecOf).
  assert (Fin : forall t z mi pl n m q, unary 0%R z kk mi pl false = Ok t -> ash z = [n] -> ash mi = [m] -> ash pl = [q] -> (n = 0 \/ kk <= n)%nat ->
            (if Nat.eqb n 0 then (Nat.max m q + kk)%nat else n) = dim ->
            (forall y x, (y < dim)%nat -> (x < dim)%nat -> kadd (kadd (if Nat.eqb y x then elem z y else k0) (if Nat.eqb y (x + kk) then elem mi x else k0)) (if Nat.eqb x (y + kk) then elem pl y else k0) = waveM nK y x) ->
            noFreqs t /\ pop dim (fun _ => k0) t kk (waveM nK)).
  { intros t z mi pl n m q E E1 E2 E3 Hn' Hdim HM. destruct (unary_wf 0%R z kk mi pl n m q t E1 E2 E3 Hn' E) as (W & Wf & Tm & Df & Dm & Mt).
    rewrite Hdim in Dm. pose proof (unary_noFreqs _ _ _ _ _ E) as NF. split; [exact NF|]. split; [exact W|]. split; [exact Tm|]. split; [exact Dm|]. split; [exact Df|].
    split; [apply NF|]. split; [split; rewrite NF; discriminate|]. split; [now apply (gen_noFreqs0 dim kk)|]. intros y x Hy Hx. rewrite Mt. now apply HM. }
  assert (K0 : (0 < nK)%Z \/ (nK < 0)%Z -> (kk =? 0) = false) by (intros; apply Nat.eqb_neq; unfold kk; lia).
  destruct (Z.ltb_spec 0 nK) as [Hp|Hp]; [|destruct (Z.eqb_spec nK 0) as [->|Hz]].
  - fold kk. assert (E : exists t, unary 0%R noDiag (Z.to_nat nK) (vecOf (dim - kk) (fun _ => k1)) noDiag false = Ok t).
    { unfold unary, compatible. rewrite empty_noFreq. cbn [negb orb]. rewrite !orb_true_r. cbn [negb orb].
      destruct (Nat.eqb_spec (Z.to_nat nK) 0); [lia|]. rewrite andb_false_r. eauto. }
    destruct E as [t E]. exists t. split; [exact E|]. replace (Z.to_nat nK) with kk in E by (unfold kk; f_equal; lia).
    apply (Fin t _ _ _ 0%nat (dim - kk)%nat 0%nat E); auto; [cbn; lia|]. intros y x Hy Hx. rewrite El. unfold elem. rewrite empty_noFreq. unfold waveM.
    destruct (Z.eqb_spec (Z.of_nat y) (Z.of_nat x + nK)), (Nat.eqb_spec y (x + kk)), (Nat.eqb_spec (dim - kk) 0), (y =? x), (x =? y + kk); try lia; ring.
  - assert (E : exists t, ofDiagonal (vecOf (dim - kk) (fun _ => k1)) = Ok t).
    { unfold ofDiagonal, unary, compatible. rewrite empty_noFreq. cbn [negb orb andb]. rewrite !orb_true_r. cbn. eauto. }
    destruct E as [t E]. exists t. split; [exact E|]. assert (Ek : kk = 0%nat) by reflexivity.
    change (unary 0%R (vecOf (dim - kk) (fun _ => k1)) kk noDiag noDiag false = Ok t) in E.
    apply (Fin t _ _ _ (dim - kk)%nat 0%nat 0%nat E); auto; [right; lia|rewrite Ek, Nat.sub_0_r; destruct (Nat.eqb_spec dim 0); lia|]. intros y x Hy Hx. rewrite El. unfold elem. rewrite empty_noFreq. unfold waveM.
    destruct (Z.eqb_spec (Z.of_nat y) (Z.of_nat x + 0)), (Nat.eqb_spec y x), (Nat.eqb_spec (dim - kk) 0), (y =? x + kk), (x =? y + kk); try lia; ring.
  - fold kk. assert (E : exists t, unary 0%R noDiag (Z.to_nat (- nK)) noDiag (vecOf (dim - kk) (fun _ => k1)) false = Ok t).
    { unfold unary, compatible. rewrite empty_noFreq. cbn [negb orb]. destruct (Nat.eqb_spec (Z.to_nat (- nK)) 0); [lia|]. rewrite andb_false_r. eauto. }
    destruct E as [t E]. exists t. split; [exact E|]. replace (Z.to_nat (- nK)) with kk in E by (unfold kk; f_equal; lia).
    apply (Fin t _ _ _ 0%nat 0%nat (dim - kk)%nat E); auto; [cbn; lia|]. intros y x Hy Hx. rewrite El. unfold elem. rewrite empty_noFreq. unfold waveM.
    destruct (Z.eqb_spec (Z.of_nat y) (Z.of_nat x + nK)), (Nat.eqb_spec x (y + kk)), (Nat.eqb_spec (dim - kk) 0), (y =? x), (y =? x + kk); try lia; ring.
Qed.
Lemma exp0_mute dim nK : (Z.of_nat dim < Z.abs nK)%Z -> exists t, expINKX0 dim nK = Ok t /\ mute t.
Proof.
  intros H. unfold expINKX0. destruct (Z.ltb_spec (Z.of_nat dim - (if (0 <? nK)%Z then nK else (- nK)%Z)) 0) as [_|C]; [apply empty_mute|].
  destruct (Z.ltb_spec 0 nK); lia.
Qed.
Lemma furnish_pop dim t k M f : pop dim (fun _ => k0) t k M -> noFreqs t -> (k <= dim)%nat -> (0 < dim)%nat ->
  exists t', furnish t (vecOf dim f) = Ok t' /\ pop dim f t' k M.
Proof.
  intros (A1 & A2 & A3 & A4 & A5 & A6 & A7 & A8) NF Hk Hd.
  assert (E : exists t', furnish t (vecOf dim f) = Ok t').
  { unfold furnish. rewrite A3, A4. cbn [nth]. destruct (Nat.ltb_spec dim k); [lia|]. destruct (dim - k =? 0); [eauto|].
    unfold asize, vecOf. cbn [ash fold_right]. rewrite Nat.mul_1_r, Nat.ltb_irrefl. eauto. }
  destruct E as [t' E]. exists t'. split; [exact E|].
  destruct (furnish_spec t t' dim k (vecOf dim f) A3 A4 (noFreqs_wf _ NF) E) as (B1 & B2 & B3 & B4 & B5 & B6).
  pose proof (furnish_generated t t' dim k (vecOf dim f) A3 A4 A1 (noFreqs_wf _ NF) E) as G.
  split; [|split; [congruence|split; [congruence|split; [congruence|split; [apply B5|split; [|split]]]]]].
  - destruct A1 as (W1 & W2 & W3). split; [now rewrite B1|]. unfold rankOf. rewrite B1, B2, B3. split; [exact W2|exact W3].
  - assert (S : forall i, (i < 3)%nat -> nonempty (freqs t' i) = true -> ash (freqs t' i) = [match i with 0 => dim | _ => dim - k end]%nat).
    { intros i Hi Hn. destruct B5 as [_ B5]. specialize (B5 [i]). unfold rankOf in B5. rewrite B1, B2, A3, A4 in B5. cbn [length repeat code Nat.pow Nat.mul] in B5.
      rewrite Nat.mul_1_r, Nat.add_0_r in B5. cbn [dshape] in B5. apply B5; auto. constructor; [lia|constructor]. }
    split; intros H.
    + split; [apply (S 1%nat); auto|]. intros n Hn. destruct B6 as (_ & _ & V & _); [lia|]. apply V.
    + split; [apply (S 2%nat); auto|]. intros n Hn. destruct B6 as (_ & _ & _ & V); [lia|]. apply V.
  - exact G.
  - intros y x Hy Hx. rewrite <- A8 by auto. apply tmat_ext; auto; intros; now rewrite B3.
Qed.
Lemma furnish_mute t D : mute t -> exists t', furnish t D = Ok t' /\ mute t'.
Proof. intros H. destruct H as (H1 & H2 & H3). exists t. split; [|now split]. unfold furnish. rewrite H1, H2. reflexivity. Qed.

(** the diagonal of the interaction picture of a particle *)
Definition rotOf (p : particle) (i : nat) : CR :=
  match pExact p with Some omrec => kmul (kmul CI (RC omrec)) (RC (pK p i * pK p i)) | None => k0 end.
Lemma pDim_pos p : (0 < pDim p)%nat.
Proof. unfold pDim. pose proof (Nat.pow_nonzero 2 (pFin p)). lia. Qed.
Lemma exp_pop p nK : (Z.abs nK <= Z.of_nat (pDim p))%Z ->
  exists t, expINKX p nK = Ok t /\ pop (pDim p) (rotOf p) t (Z.to_nat (Z.abs nK)) (waveM nK).
Proof.
  intros H. destruct (exp0_pop (pDim p) nK (pDim_pos p) H) as [t [E [NF P]]]. unfold expINKX. rewrite E. cbn [bind].
  unfold rotOf. destruct (pExact p) as [omrec|]; [|now exists t].
  apply (furnish_pop (pDim p) t _ _ (fun i => kmul (kmul CI (RC omrec)) (RC (pK p i * pK p i))) P NF); [lia|apply pDim_pos].
Qed.
Lemma exp_mute p nK : (Z.of_nat (pDim p) < Z.abs nK)%Z -> exists t, expINKX p nK = Ok t /\ mute t.
Proof.
  intros H. destruct (exp0_mute _ _ H) as [t [E P]]. unfold expINKX. rewrite E. cbn [bind].
  destruct (pExact p); [now apply furnish_mute|now exists t].
Qed.
Lemma identity_pop dim D : (0 < dim)%nat -> exists t, identityTri 0%R dim = Ok t /\ noFreqs t /\ pop dim D t 0 (waveM 0).
Proof.
  intros Hd. assert (E : exists t : tri CR R, identityTri 0%R dim = Ok t).
  { unfold identityTri, unary, compatible. change (nonempty (emptyArr 1)) with false. cbn [negb orb andb]. rewrite !orb_true_r. cbn. eauto. }
  destruct E as [t E]. exists t. split; [exact E|]. unfold identityTri in E.
  destruct (unary_wf 0%R (mkArr [dim] (fun _ => k1)) 0 (emptyArr 1) (emptyArr 1) dim 0 0 t eq_refl eq_refl eq_refl (or_intror (Nat.le_0_l _)) E) as (W & Wf & Tm & Df & Dm & Mt).
  pose proof (unary_noFreqs _ _ _ _ _ E) as NF. split; [exact NF|]. split; [exact W|]. split; [exact Tm|].
  assert (Edim : dims t = [dim]) by (rewrite Dm; destruct (Nat.eqb_spec dim 0); [lia|reflexivity]).
  split; [exact Edim|]. split; [exact Df|]. split; [apply NF|]. split; [split; rewrite NF; discriminate|]. split.
  - apply (generated1 dim D 0); auto. intros j _. rewrite Nat.add_0_r, !NF. split; intros _; right; auto.
  - intros y x Hy Hx. rewrite Mt. unfold elem, nonempty, asize. cbn [ash emptyArr repeat fold_right av Nat.mul Nat.eqb negb]. rewrite Nat.mul_1_r.
    destruct (Nat.eqb_spec dim 0); [lia|]. cbn [negb]. unfold waveM.
    destruct (Nat.eqb_spec y x), (Z.eqb_spec (Z.of_nat y) (Z.of_nat x + 0)), (y =? x + 0), (x =? y + 0); try lia; ring.
Qed.
Lemma mute_scale c t : mute t -> mute (scale c t).
Proof. intros (H1 & H2 & H3 & H4 & H5). repeat (split; [assumption|]). intros i. cbn [scale diags]. now rewrite nonempty_amap. Qed.
Lemma mute_neg t : mute t -> mute (neg t).
Proof. intros (H1 & H2 & H3 & H4 & H5). repeat (split; [assumption|]). intros i. cbn [neg diags]. now rewrite nonempty_amap. Qed.
Lemma mute_add a b : mute a -> mute b -> exists t, add CReqb a b = Ok t /\ mute t.
Proof.
  intros (H1 & H2 & H3 & H4 & H5) (G1 & G2 & G3 & G4 & G5). unfold add. rewrite H2, G2. cbn [mergeDiffs Nat.eqb option_map].
  rewrite existsb_false by (intros i _; unfold shapesClash; now rewrite G5). rewrite existsb_false by (intros i _; unfold freqClash; now rewrite G3).
  eexists. split; [reflexivity|]. split; [exact H1|]. split; [reflexivity|]. split; [|split; [exact H4|]].
  - intros i. cbn [freqs]. now rewrite addFreq_nonempty, H3, G3.
  - intros i. cbn [diags]. now rewrite addDiag_nonempty, H5, G5.
Qed.
Lemma mute_tmat t y x : mute t -> tmat t [y] [x] = k0.
Proof.
  intros (H1 & H2 & H3 & H4 & H5). rewrite (unary_tmat t 0); [|unfold rankOf; now rewrite H1|exact H2]. unfold elem. rewrite !H5.
  destruct (y =? x), (y =? x + 0), (x =? y + 0); ring.
Qed.

(** ** what these operators do: at time zero, and at later times *)
Definition acts (dim : nat) (D : nat -> CR) (t : tri CR R) (M : mat) : Prop :=
  forall y x, (y < dim)%nat -> (x < dim)%nat -> tmat t [y] [x] = M y x /\
    forall s, tmat (propagate s t) [y] [x] = kmul (kmul (cexp (kmul (RC s) (D y))) (M y x)) (cexp (kopp (kmul (RC s) (D x)))).
Lemma pop_acts dim D t k M : pop dim D t k M -> acts dim D t M.
Proof. intros H y x Hy Hx. split; [now apply H|]. intros s. now apply (pop_time dim D t k M). Qed.
Lemma acts_ext dim D t M M' : (forall y x, (y < dim)%nat -> (x < dim)%nat -> M y x = M' y x) -> acts dim D t M -> acts dim D t M'.
Proof. intros H A y x Hy Hx. rewrite <- H by auto. now apply A. Qed.
Lemma mute_acts dim D t : mute t -> acts dim D t (fun _ _ => k0).
Proof.
  intros H y x _ _. split; [now apply mute_tmat|]. intros s. rewrite noFreqs_propagate by apply H. rewrite mute_tmat by exact H. ring.
Qed.
(** operators with only a main diagonal *)
Definition plain (t : tri CR R) : Prop := length (dims t) = 1%nat /\ diffs t = [0%nat] /\ noFreqs t /\ nonempty (diags t 1) = false /\ nonempty (diags t 2) = false.
Lemma identity_plain dim t : identityTri 0%R dim = Ok t -> plain t.
Proof.
  intros E. unfold identityTri in E. pose proof (unary_noFreqs _ _ _ _ _ E) as NF. unfold unary in E. cbn match in E.
  destruct (_ || _)%bool; [discriminate|]. apply Ok_inj in E. subst t. repeat split; auto.
Qed.
Lemma plain_neg t : plain t -> plain (neg t).
Proof. intros (H1 & H2 & H3 & H4 & H5). repeat (split; [assumption|]). cbn [neg diags]. now rewrite !nonempty_amap. Qed.
Lemma plain_acts dim D t M : plain t -> (forall y x, (y < dim)%nat -> (x < dim)%nat -> tmat t [y] [x] = M y x) -> acts dim D t M.
Proof.
  intros (H1 & H2 & H3 & H4 & H5) HM y x Hy Hx. split; [auto|]. intros s. rewrite noFreqs_propagate by exact H3. rewrite <- HM by auto.
  destruct (Nat.eq_dec y x) as [->|Hne].
  - pose proof (cexp_inv (kmul (RC s) (D x))) as Hi. transitivity (kmul (tmat t [x] [x]) (kmul (cexp (kmul (RC s) (D x))) (cexp (kopp (kmul (RC s) (D x)))))); [rewrite Hi|]; ring.
  - rewrite (unary_tmat t 0) by auto. unfold elem. rewrite H4, H5. destruct (Nat.eqb_spec y x); [congruence|]. destruct (y =? x + 0), (x =? y + 0); ring.
Qed.
Lemma plain_add_mute a b : plain a -> mute b -> exists t, add CReqb a b = Ok t /\ plain t /\ forall y x, tmat t [y] [x] = tmat a [y] [x].
Proof.
  intros (H1 & H2 & H3 & H4 & H5) (G1 & G2 & G3 & G4 & G5). unfold add. rewrite H2, G2. cbn [mergeDiffs Nat.eqb option_map].
  rewrite existsb_false by (intros i _; unfold shapesClash; now rewrite G5). rewrite existsb_false by (intros i _; unfold freqClash; now rewrite G3).
  eexists. split; [reflexivity|]. split.
  - split; [exact H1|]. split; [reflexivity|]. split; [intros i; cbn [freqs]; now rewrite addFreq_nonempty, H3, G3|].
    cbn [diags]. now rewrite !addDiag_nonempty, H4, H5, !G5.
  - intros y x. apply tmat_ext; auto; intros i; cbn [diags]; unfold addDiag; now rewrite G5.
Qed.
Lemma mute_add_plain a b : mute a -> plain b -> exists t, add CReqb a b = Ok t /\ plain t /\ forall y x, tmat t [y] [x] = tmat b [y] [x].
Proof.
  intros (G1 & G2 & G3 & G4 & G5) (H1 & H2 & H3 & H4 & H5). unfold add. rewrite H2, G2. cbn [mergeDiffs Nat.eqb option_map].
  rewrite existsb_false by (intros i _; unfold shapesClash; rewrite G5; now rewrite andb_false_r). rewrite existsb_false by (intros i _; unfold freqClash; now rewrite H3).
  eexists. split; [reflexivity|]. split.
  - split; [cbn; now rewrite G1|]. split; [reflexivity|]. split; [intros i; cbn [freqs]; now rewrite addFreq_nonempty, H3, G3|].
    cbn [diags]. now rewrite !addDiag_nonempty, H4, H5, !G5.
  - intros y x. rewrite !(unary_tmat _ 0) by (auto; unfold rankOf; cbn; now rewrite ?G1). cbn [diags]. unfold elem. rewrite !addDiag_nonempty, !G5, !orb_false_r. unfold addDiag.
    rewrite !G5. cbn [negb]. destruct (nonempty (diags b 0)), (nonempty (diags b 1)), (nonempty (diags b 2)); reflexivity.
Qed.
Lemma acts_scale dim D t M c : acts dim D t M -> acts dim D (scale c t) (fun y x => kmul c (M y x)).
Proof.
  intros H y x Hy Hx. destruct (H y x Hy Hx) as [H1 H2]. split; [rewrite scale_matrix, H1; reflexivity|]. intros s.
  assert (E : tmat (propagate s (scale c t)) [y] [x] = tmat (scale c (propagate s t)) [y] [x]).
  { apply tmat_ext; auto.
    - intros i. destruct (propagate_diag s (scale c t) i) as (_ & -> & _). cbn [scale diags]. rewrite !nonempty_amap. destruct (propagate_diag s t i) as (_ & -> & _). reflexivity.
    - intros i n. destruct (propagate_diag s (scale c t) i) as (_ & _ & ->). cbn [scale diags]. cbn [amap av]. destruct (propagate_diag s t i) as (_ & _ & ->).
      unfold pfac. cbn [scale diags time freqs]. rewrite nonempty_amap. ring. }
  rewrite E, scale_matrix, H2. ring.
Qed.
Lemma acts_0 dim D t : acts dim D t (fun _ _ => k0) -> forall M, (forall y x, (y < dim)%nat -> (x < dim)%nat -> M y x = k0) -> acts dim D t M.
Proof. intros H M HM. eapply acts_ext; [|exact H]. intros. cbn beta. now rewrite HM. Qed.
Lemma waveM_big dim L : (Z.of_nat dim <= Z.abs L)%Z -> forall y x, (y < dim)%nat -> (x < dim)%nat -> waveM L y x = k0.
Proof. intros H y x Hy Hx. unfold waveM. destruct (Z.eqb_spec (Z.of_nat y) (Z.of_nat x + L)); [lia|reflexivity]. Qed.
Lemma waveM_0 y x : waveM 0 y x = if y =? x then k1 else k0.
Proof. unfold waveM. destruct (Z.eqb_spec (Z.of_nat y) (Z.of_nat x + 0)), (Nat.eqb_spec y x); auto; lia. Qed.
