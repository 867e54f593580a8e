(** Proofs for TriHeapProperties.v *)
From Coq Require Import List Arith Bool Lia.
From Verif Require Import Star Arr TriModel TriHeapModel TriHeapSpec.
Import ListNotations.

Section P.
Context {K : StarRing} {T : Type}.
Variable keq : K -> K -> bool.
Variable teq : T -> T -> bool.
Variable t0 : T.
Variable evolved : T -> T -> nat -> arr K -> arr K -> arr K.
Notation memory := (@memory K).
Notation htri := (htri T).
Notation get := (@get K).
Notation put := (@put K).

Lemma length_put : forall (m : memory) x a, length (put m x a) = length m.
Proof. induction m as [|b m IH]; intros [|x] a; cbn; auto. Qed.
Lemma get_put_same : forall (m : memory) x a, x < length m -> get (put m x a) x = a.
Proof. induction m as [|b m IH]; intros [|x] a H; cbn in *; try lia; [reflexivity|]. apply IH. lia. Qed.
Lemma get_put_other : forall (m : memory) x y a, x <> y -> get (put m x a) y = get m y.
Proof. induction m as [|b m IH]; intros [|x] [|y] a H; cbn; try reflexivity; try lia. apply IH. lia. Qed.
Lemma get_app_old (m l : memory) x : x < length m -> get (m ++ l) x = get m x.
Proof. intros H. unfold TriHeapModel.get. now apply app_nth1. Qed.
Lemma get_app_new (m : memory) a : get (m ++ [a]) (length m) = a.
Proof. unfold TriHeapModel.get. rewrite app_nth2 by lia. now rewrite Nat.sub_diag. Qed.
Lemma get_new (m : memory) n g i : i < n -> get (m ++ map g (seq 0 n)) (length m + i) = g i.
Proof.
  intros H. unfold TriHeapModel.get. rewrite app_nth2 by lia. replace (length m + i - length m) with i by lia.
  rewrite (nth_indep _ _ (g 0)) by (rewrite map_length, seq_length; lia). rewrite map_nth, seq_nth by lia. reflexivity.
Qed.
Lemma rebind_same D i x : rebind D i x i = x. Proof. unfold rebind. now rewrite Nat.eqb_refl. Qed.
Lemma rebind_other D i x j : j <> i -> rebind D i x j = D j. Proof. intros H. unfold rebind. now rewrite (proj2 (Nat.eqb_neq j i) H). Qed.
Lemma existsb_same {A} (f g : A -> bool) l : (forall x, In x l -> f x = g x) -> existsb f l = existsb g l.
Proof. induction l as [|x l IH]; intros H; cbn; [reflexivity|]. rewrite (H x (or_introl eq_refl)), IH; auto. intros y Hy. apply H. now right. Qed.

Lemma loop_spec bad keep (f : nat -> arr K -> arr K -> arr K) S : forall n k D (m : memory),
  (forall i, k <= i < k + n -> D i < length m) -> (forall i j, k <= i < k + n -> k <= j < k + n -> D i = D j -> i = j) ->
  (forall i, k <= i < k + n -> S i < length m) -> (forall i j, k <= j < i -> i < k + n -> S i <> D j) ->
  forall D' m' b, loop bad keep f S (seq k n) D m = (D', m', b) ->
  length m <= length m' /\ (forall i, ~ k <= i < k + n -> D' i = D i) /\
  (forall x, x < length m -> (forall i, k <= i < k + n -> x <> D i) -> get m' x = get m x) /\
  (forall i, k <= i < k + n -> (D' i = D i \/ length m <= D' i) /\ D' i < length m') /\
  (forall i j, k <= i < k + n -> k <= j < k + n -> D' i = D' j -> i = j) /\
  b = negb (existsb (fun i => bad i (get m (S i)) (get m (D i))) (seq k n)) /\
  (b = true -> forall i, k <= i < k + n -> get m' (D' i) = f i (get m (S i)) (get m (D i))).
Proof.
  induction n as [|n IH]; intros k D m HD HI HS HSD D' m' b E.
  - injection E as <- <- <-. repeat split; auto; intros; lia.
  - cbn [seq loop] in E. cbn [seq existsb]. destruct (bad k (get m (S k)) (get m (D k))) eqn:Bk; [|destruct (keep k (get m (S k)) (get m (D k)))].
    + injection E as <- <- <-. split; [lia|]. split; [auto|]. split; [auto|]. split; [intros i Hi; split; [now left|auto]|]. split; [exact HI|]. split; [reflexivity|]. discriminate.
    + set (c := f k _ _) in E. set (m1 := put m (D k) c) in E. assert (L : length m1 = length m) by apply length_put.
      assert (O : forall i, k < i < k + Datatypes.S n -> D i <> D k) by (intros i Hi X; apply HI in X; lia).
      assert (GS : forall i, k < i < k + Datatypes.S n -> get m1 (S i) = get m (S i)) by (intros i Hi; apply get_put_other; intros X; symmetry in X; revert X; apply HSD; lia).
      assert (GD : forall i, k < i < k + Datatypes.S n -> get m1 (D i) = get m (D i)) by (intros i Hi; apply get_put_other; intros X; apply (O i Hi); now symmetry).
      destruct (IH (Datatypes.S k) D m1) with (D' := D') (m' := m') (b := b) as (A1 & A2 & A3 & A4 & A5 & A6 & A7); auto.
      { intros i Hi. rewrite L. apply HD. lia. } { intros i j Hi Hj. apply HI; lia. } { intros i Hi. rewrite L. apply HS. lia. } { intros i j Hj Hi. apply HSD; lia. }
      assert (Dk : D' k = D k) by (apply A2; lia).
      assert (Gk : get m' (D k) = c). { rewrite A3; [apply get_put_same, HD; lia|rewrite L; apply HD; lia|]. intros i Hi X. apply (O i); [lia|now symmetry]. }
      split; [lia|]. split; [intros i Hi; apply A2; lia|]. split; [|split; [|split; [|split]]].
      * intros x Hx N. rewrite A3; [|lia|intros i Hi; apply N; lia]. apply get_put_other. intros X. apply (N k); [lia|now symmetry].
      * intros i Hi. destruct (Nat.eq_dec i k) as [->|Ni]; [rewrite Dk; split; [now left|]; specialize (HD k ltac:(lia)); lia|]. rewrite <- L. apply A4. lia.
      * assert (Z : forall i, k < i < k + Datatypes.S n -> D' i <> D' k). { intros i Hi X. rewrite Dk in X. destruct (A4 i ltac:(lia)) as [[Y|Y] _]; [apply (O i Hi); congruence|]. specialize (HD k ltac:(lia)). lia. }
        intros i j Hi Hj X. destruct (Nat.eq_dec i k) as [->|Ni], (Nat.eq_dec j k) as [->|Nj]; [reflexivity|exfalso; apply (Z j); [lia|now symmetry]|exfalso; apply (Z i); [lia|exact X]|]. apply A5; [lia|lia|exact X].
      * rewrite A6. cbn [orb]. f_equal. apply existsb_same. intros i Hi. apply in_seq in Hi. rewrite GS, GD by lia. reflexivity.
      * intros Hb i Hi. destruct (Nat.eq_dec i k) as [->|Ni]; [rewrite Dk; exact Gk|]. rewrite A7 by (auto; lia). rewrite GS, GD by lia. reflexivity.
    + set (c := f k _ _) in E. set (m1 := m ++ [c]) in E. assert (L : length m1 = length m + 1) by (unfold m1; rewrite app_length; reflexivity). set (D1 := rebind D k (length m)) in E.
      assert (D1o : forall i, i <> k -> D1 i = D i) by (intros; now apply rebind_other). assert (D1k : D1 k = length m) by apply rebind_same.
      assert (GS : forall i, k < i < k + Datatypes.S n -> get m1 (S i) = get m (S i)) by (intros i Hi; apply get_app_old, HS; lia).
      assert (GD : forall i, k < i < k + Datatypes.S n -> get m1 (D1 i) = get m (D i)) by (intros i Hi; rewrite D1o by lia; apply get_app_old, HD; lia).
      destruct (IH (Datatypes.S k) D1 m1) with (D' := D') (m' := m') (b := b) as (A1 & A2 & A3 & A4 & A5 & A6 & A7); auto.
      { intros i Hi. rewrite L, D1o by lia. specialize (HD i ltac:(lia)). lia. } { intros i j Hi Hj. rewrite !D1o by lia. apply HI; lia. } { intros i Hi. rewrite L. specialize (HS i ltac:(lia)). lia. }
      { intros i j Hj Hi. rewrite D1o by lia. apply HSD; lia. }
      assert (Dk : D' k = length m) by (rewrite <- D1k; apply A2; lia).
      assert (Gk : get m' (length m) = c). { rewrite A3; [apply get_app_new|lia|]. intros i Hi X. rewrite D1o in X by lia. specialize (HD i ltac:(lia)). lia. }
      split; [lia|]. split; [intros i Hi; rewrite A2, D1o by lia; reflexivity|]. split; [|split; [|split; [|split]]].
      * intros x Hx N. rewrite A3; [now apply get_app_old|lia|]. intros i Hi. rewrite D1o by lia. apply N. lia.
      * intros i Hi. destruct (Nat.eq_dec i k) as [->|Ni]; [rewrite Dk; split; [right|]; lia|]. destruct (A4 i ltac:(lia)) as [[Y|Y] Y']; [rewrite D1o in Y by lia; auto|split; [right; lia|exact Y']].
      * assert (Z : forall i, k < i < k + Datatypes.S n -> D' i <> D' k). { intros i Hi X. rewrite Dk in X. destruct (A4 i ltac:(lia)) as [[Y|Y] _]; [rewrite D1o in Y by lia; specialize (HD i ltac:(lia)); lia|lia]. }
        intros i j Hi Hj X. destruct (Nat.eq_dec i k) as [->|Ni], (Nat.eq_dec j k) as [->|Nj]; [reflexivity|exfalso; apply (Z j); [lia|now symmetry]|exfalso; apply (Z i); [lia|exact X]|]. apply A5; [lia|lia|exact X].
      * rewrite A6. cbn [orb]. f_equal. apply existsb_same. intros i Hi. apply in_seq in Hi. rewrite GS, GD by lia. reflexivity.
      * intros Hb i Hi. destruct (Nat.eq_dec i k) as [->|Ni]; [rewrite Dk; exact Gk|]. rewrite A7 by (auto; lia). rewrite GS, GD by lia. reflexivity.
Qed.

(** addresses *)
Definition uses (h : htri) (x : nat) : Prop := exists i, i < hLength h /\ (x = hD h i \/ x = hF h i).
Definition apart (h : htri) : Prop :=
  (forall i j, i < hLength h -> j < hLength h -> hD h i = hD h j -> i = j) /\ (forall i j, i < hLength h -> j < hLength h -> hF h i = hF h j -> i = j) /\ (forall i j, i < hLength h -> j < hLength h -> hD h i <> hF h j).
Definition within (m : memory) (h : htri) : Prop := forall x, uses h x -> x < length m.
Definition grows (m : memory) (old : nat -> Prop) (m' : memory) : Prop := length m <= length m' /\ forall x, x < length m -> ~ old x -> get m' x = get m x.
Definition placed (m : memory) (old : nat -> Prop) (h : htri) (m' : memory) : Prop := apart h /\ forall x, uses h x -> x < length m' /\ (length m <= x \/ old x).
Definition none (x : nat) : Prop := False.
Lemma uses_D h i : i < hLength h -> uses h (hD h i). Proof. intros H. exists i. auto. Qed.
Lemma uses_F h i : i < hLength h -> uses h (hF h i). Proof. intros H. exists i. auto. Qed.

Lemma rep (m : memory) (h : htri) (x : tri K T) : hDims h = dims x -> hDiffs h = diffs x -> hTime h = time x -> (forall i, i < hLength h -> get m (hD h i) = diags x i /\ get m (hF h i) = freqs x i) -> represents m h x.
Proof. intros A B C D. split; [exact A|]. split; [exact B|]. split; [exact C|]. rewrite <- A. exact D. Qed.
Lemma rep_at (m : memory) (h : htri) (x : tri K T) i : represents m h x -> i < hLength h -> get m (hD h i) = diags x i /\ get m (hF h i) = freqs x i.
Proof. intros (A & B & C & D) H. apply D. rewrite <- A. exact H. Qed.

Lemma construct_spec ds ks D t F (m : memory) : (forall i, i < 3 ^ length ds -> D i < length m /\ F i < length m) -> forall h m', construct ds ks D t F m = (h, m') ->
  hDims h = ds /\ hDiffs h = ks /\ hTime h = t /\ grows m none m' /\ placed m none h m' /\ forall i, i < 3 ^ length ds -> get m' (hD h i) = get m (D i) /\ get m' (hF h i) = get m (F i).
Proof.
  intros H h m' E. unfold construct, deepCopy, newArrays in E. injection E as <- <-. set (n := 3 ^ length ds) in *. cbn [hDims hDiffs hTime hD hF].
  set (m1 := m ++ map (fun i => get m (D i)) (seq 0 n)). assert (L1 : length m1 = length m + n) by (unfold m1; rewrite app_length, map_length, seq_length; reflexivity).
  set (m2 := m1 ++ _). assert (L2 : length m2 = length m + n + n) by (unfold m2; rewrite app_length, map_length, seq_length, L1; reflexivity).
  split; [reflexivity|]. split; [reflexivity|]. split; [reflexivity|]. split; [|split].
  - split; [lia|]. intros x Hx _. unfold m2. rewrite get_app_old by lia. unfold m1. now apply get_app_old.
  - split; [unfold apart, hLength; cbn [hD hF hDims]; fold n; repeat split; intros; lia|]. intros x (i & Hi & [->| ->]); unfold hLength in Hi; cbn [hD hF hDims] in *; fold n in Hi; lia.
  - intros i Hi. destruct (H i Hi) as [H1 H2]. split; [unfold m2; rewrite get_app_old by lia; unfold m1; now apply (get_new m n (fun i => get m (D i)))|].
    unfold m2. rewrite (get_new m1 n (fun i => get m1 (F i))) by exact Hi. unfold m1. now apply get_app_old.
Qed.
Lemma copy_spec h (m : memory) x : within m h -> represents m h x -> forall h' m', hCopy h m = (h', m') -> grows m none m' /\ placed m none h' m' /\ represents m' h' x.
Proof.
  intros W (R1 & R2 & R3 & R4) h' m' E. unfold hCopy in E. destruct (construct_spec _ _ _ _ _ _ (fun i Hi => conj (W _ (uses_D h i Hi)) (W _ (uses_F h i Hi))) _ _ E) as (A1 & A2 & A3 & A4 & A5 & A6).
  split; [exact A4|]. split; [exact A5|]. apply rep; try congruence. intros i Hi. unfold hLength in Hi. rewrite A1 in Hi. destruct (A6 i Hi) as [B C]. rewrite R1 in Hi. destruct (R4 i Hi) as [B' C']. split; congruence.
Qed.
(** a loop over the diagonals of an object alone *)
Lemma own_loop h (m : memory) f S : apart h -> within m h -> (forall i, i < hLength h -> S i < length m) -> (forall i j, i < hLength h -> j < hLength h -> j < i -> S i <> hD h j) ->
  forall D m' b, loop never always f S (seq 0 (hLength h)) (hD h) m = (D, m', b) -> forall ks t,
  let h' := mkH (hDims h) ks D t (hF h) in
  grows m (uses h) m' /\ placed m (uses h) h' m' /\ forall i, i < hLength h -> get m' (D i) = f i (get m (S i)) (get m (hD h i)) /\ get m' (hF h i) = get m (hF h i).
Proof.
  intros (P1 & P2 & P3) W HS HSD D m' b E ks t h'. destruct (loop_spec never always f S (hLength h) 0 (hD h) m) with (D' := D) (m' := m') (b := b) as (A1 & A2 & A3 & A4 & A5 & A6 & A7); auto.
  { intros i Hi. apply W, uses_D. lia. } { intros i j Hi Hj. apply P1; lia. } { intros i Hi. apply HS. lia. } { intros i j Hj Hi. apply HSD; lia. }
  assert (B : b = true). { rewrite A6. clear. generalize (seq 0 (hLength h)). intros l. induction l; cbn; auto. }
  split; [|split].
  - split; [exact A1|]. intros x Hx N. apply A3; [exact Hx|]. intros i Hi X. apply N. rewrite X. apply uses_D. lia.
  - split; [split; [|split]|].
    + intros i j Hi Hj. unfold hLength in *. cbn [hDims hD h'] in *. intros X. apply A5; lia || exact X.
    + exact P2.
    + intros i j Hi Hj. unfold h', hLength in *. cbn [hDims hD hF] in *. destruct (A4 i ltac:(unfold hLength; lia)) as [[X|X] _]; [rewrite X; now apply P3|]. specialize (W _ (uses_F h j Hj)). lia.
    + intros x (i & Hi & [->| ->]); unfold h', hLength in *; cbn [hDims hD hF] in *.
      * destruct (A4 i ltac:(unfold hLength; lia)) as [[X|X] Y]; (split; [exact Y|]); [right; rewrite X; now apply uses_D|now left].
      * split; [specialize (W _ (uses_F h i Hi)); lia|right; now apply uses_F].
  - intros i Hi. split; [apply A7; [exact B|lia]|]. apply A3; [apply W; now apply uses_F|]. intros j Hj X. apply (P3 j i); [lia|exact Hi|now symmetry].
Qed.
Lemma scale_spec c h (m : memory) x : apart h -> within m h -> represents m h x -> forall h' m', hScale c h m = (h', m') -> grows m (uses h) m' /\ placed m (uses h) h' m' /\ represents m' h' (scale c x).
Proof.
  intros P W (R1 & R2 & R3 & R4) h' m' E. unfold hScale in E. destruct (loop never always _ _ _ _ m) as [[D m1] b] eqn:EL. injection E as <- <-.
  destruct (own_loop h m _ _ P W (fun i Hi => W _ (uses_D h i Hi)) (fun i j Hi Hj Hij X => ltac:(apply P in X; lia)) _ _ _ EL (hDiffs h) (hTime h)) as (A & B & C).
  split; [exact A|]. split; [exact B|]. apply rep; auto. intros i Hi. destruct (C i Hi) as [C1 C2]. unfold hLength in Hi. cbn [hD hF hDims] in *. rewrite R1 in Hi. destruct (R4 i Hi) as [R5 R6]. cbn [diags freqs scale]. split; congruence.
Qed.
Lemma propagate_spec t h (m : memory) x : apart h -> within m h -> represents m h x -> forall h' m', hPropagate evolved t h m = (h', m') -> grows m (uses h) m' /\ placed m (uses h) h' m' /\ represents m' h' (evolve evolved t x).
Proof.
  intros P W (R1 & R2 & R3 & R4) h' m' E. unfold hPropagate in E. destruct (loop never always _ _ _ _ m) as [[D m1] b] eqn:EL. injection E as <- <-.
  destruct (own_loop h m _ _ P W (fun i Hi => W _ (uses_F h i Hi)) (fun i j Hi Hj Hij X => ltac:(symmetry in X; apply P in X; auto)) _ _ _ EL (hDiffs h) t) as (A & B & C).
  split; [exact A|]. split; [exact B|]. apply rep; auto. intros i Hi. destruct (C i Hi) as [C1 C2]. unfold hLength in Hi. cbn [hD hF hDims] in *. rewrite R1 in Hi. destruct (R4 i Hi) as [R5 R6]. cbn [diags freqs evolve]. split; congruence.
Qed.
Lemma grows_trans m m1 m2 old : grows m old m1 -> grows m1 old m2 -> grows m old m2.
Proof. intros [A B] [C D]. split; [lia|]. intros x Hx N. rewrite D, B; auto. lia. Qed.
Lemma neg_spec h (m : memory) x : apart h -> within m h -> represents m h x -> forall h' m', hNeg h m = (h', m') -> grows m none m' /\ placed m none h' m' /\ represents m' h' (neg x).
Proof.
  intros P W (R1 & R2 & R3 & R4) h' m' E. unfold hNeg, deepCopy, newArrays in E. set (n := hLength h) in *. set (m1 := m ++ map (fun i => get m (hD h i)) (seq 0 n)) in E.
  assert (L1 : length m1 = length m + n) by (unfold m1; rewrite app_length, map_length, seq_length; reflexivity).
  destruct (loop never always _ _ _ _ m1) as [[R m2] b] eqn:EL.
  destruct (loop_spec never always (fun _ _ to => amap kopp to) (fun i => length m + i) n 0 (fun i => length m + i) m1) with (D' := R) (m' := m2) (b := b) as (A1 & A2 & A3 & A4 & A5 & A6 & A7); auto; try (intros; lia).
  assert (B : b = true). { rewrite A6. clear. generalize (seq 0 n). intros l. induction l; cbn; auto. }
  assert (G12 : forall y, y < length m -> get m2 y = get m y). { intros y Hy. rewrite A3 by (intros; lia). unfold m1. now apply get_app_old. }
  destruct (construct_spec (hDims h) (hDiffs h) R (hTime h) (hF h) m2) with (h := h') (m' := m') as (C1 & C2 & C3 & C4 & C5 & C6); [|exact E|].
  { intros i Hi. fold n in Hi. split; [apply A4; unfold n, hLength; lia|]. specialize (W _ (uses_F h i Hi)). lia. }
  destruct C4 as [C41 C42]. split; [|split].
  - split; [lia|]. intros y Hy _. rewrite C42; [now apply G12|lia|intros []].
  - destruct C5 as [C51 C52]. split; [exact C51|]. intros y Hy. destruct (C52 y Hy) as [C53 [C54|[]]]. split; [exact C53|left; lia].
  - apply rep; try (cbn [dims diffs time neg]; congruence). intros i Hi. unfold hLength in Hi. rewrite C1 in Hi. destruct (C6 i Hi) as [C7 C8]. assert (Hn : i < n) by exact Hi. rewrite R1 in Hi. destruct (R4 i Hi) as [R5 R6]. split.
    + rewrite C7, A7 by (auto; lia). unfold m1. rewrite (get_new m n (fun i => get m (hD h i))) by exact Hn. rewrite R5. reflexivity.
    + rewrite C8, G12 by (apply W, uses_F; exact Hn). rewrite R6. reflexivity.
Qed.

(** the hermitian conjugate *)
Lemma transposed_fold rank (src : nat -> nat) (content : nat -> arr K) base n : forall is D (m : memory) (res : nat -> arr K),
  (forall i, In i is -> src i < base /\ get m (src i) = content i) -> base <= length m ->
  (forall j, j < n -> base <= D j < length m) -> (forall i j, i < n -> j < n -> D i = D j -> i = j) -> (forall j, j < n -> get m (D j) = res j) ->
  forall D' m', fold_left (fun Dm ind => (rebind (fst Dm) (transposeIndex rank ind) (length (snd Dm)), snd Dm ++ [amap kconj (get (snd Dm) (src ind))])) is (D, m) = (D', m') ->
  length m <= length m' /\ (forall x, x < length m -> get m' x = get m x) /\ (forall j, j < n -> D' j = D j \/ length m <= D' j) /\ (forall j, j < n -> D' j < length m') /\ (forall i j, i < n -> j < n -> D' i = D' j -> i = j) /\
  forall j, j < n -> get m' (D' j) = fold_left (fun res ind => fun j => if Nat.eqb j (transposeIndex rank ind) then amap kconj (content ind) else res j) is res j.
Proof.
  induction is as [|i is IH]; intros D m res HS HB HD HI HR D' m' E.
  - injection E as <- <-. repeat split; auto. intros. now apply HD.
  - cbn [fold_left fst snd] in E |- *. set (p := transposeIndex rank i) in *. set (a := amap kconj (get m (src i))) in E.
    assert (L : length (m ++ [a]) = length m + 1) by (rewrite app_length; reflexivity).
    destruct (HS i (or_introl eq_refl)) as [HS1 HS2].
    destruct (IH (rebind D p (length m)) (m ++ [a]) (fun j => if j =? p then amap kconj (content i) else res j)) with (D' := D') (m' := m') as (A1 & A2 & A3 & A4 & A5 & A6); auto.
    + intros k Hk. destruct (HS k (or_intror Hk)) as [H1 H2]. split; [exact H1|]. rewrite get_app_old by lia. exact H2.
    + lia.
    + intros j Hj. unfold rebind. specialize (HD j Hj). destruct (j =? p); lia.
    + intros j k Hj Hk. unfold rebind. pose proof (HD j Hj). pose proof (HD k Hk). destruct (j =? p) eqn:Ej, (k =? p) eqn:Ek; try lia; [apply Nat.eqb_eq in Ej, Ek; congruence|]. now apply HI.
    + intros j Hj. unfold rebind. destruct (j =? p); [rewrite get_app_new; unfold a; now rewrite HS2|]. rewrite get_app_old by (apply HD; exact Hj). now apply HR.
    + split; [lia|]. split; [intros x Hx; rewrite A2 by lia; now apply get_app_old|]. split; [|split; [exact A4|split; [exact A5|exact A6]]].
      intros j Hj. destruct (A3 j Hj) as [X|X]; [|right; lia]. unfold rebind in X. destruct (j =? p); [right; lia|now left].
Qed.
Lemma dagger_spec h (m : memory) x : within m h -> represents m h x -> forall h' m', hDagger h m = (h', m') -> grows m none m' /\ placed m none h' m' /\ represents m' h' (dagger x).
Proof.
  intros W R h' m' E. pose proof R as (R1 & R2 & R3 & R4). unfold hDagger, newArrays in E. set (n := hLength h) in *. set (m1 := m ++ map _ _) in E.
  assert (L1 : length m1 = length m + n) by (unfold m1; rewrite app_length, map_length, seq_length; reflexivity).
  assert (G1 : forall y, y < length m -> get m1 y = get m y) by (intros y Hy; now apply get_app_old).
  destruct (construct (hDims h) (hDiffs h) _ (hTime h) (hF h) m1) as [r m2] eqn:EC.
  destruct (construct_spec (hDims h) (hDiffs h) (fun i => length m + i) (hTime h) (hF h) m1) with (2 := EC) as (C1 & C2 & C3 & C4 & C5 & C6).
  { intros i Hi. change (i < n) in Hi. split; [lia|]. specialize (W _ (uses_F h i Hi)). lia. }
  destruct C4 as [C41 C42]. destruct C5 as [C51 C52]. assert (Lr : hLength r = n) by (unfold hLength; rewrite C1; reflexivity).
  change (3 ^ length (hDims h)) with n in C6.
  match type of E with (let (D, m) := ?e in _) = _ => destruct e as [D m3] eqn:EF end. injection E as <- <-.
  destruct (transposed_fold (length (hDims h)) (hD h) (diags x) (length m) n (seq 0 n) (hD r) m2 (fun _ => emptyArr (length (hDims h)))) with (D' := D) (m' := m3) as (A1 & A2 & A3 & A4 & A5 & A6); auto.
  { intros i Hi. apply in_seq in Hi. assert (Hn : i < hLength h) by (unfold n in Hi; lia). pose proof (W _ (uses_D h i Hn)). split; [exact H|]. rewrite C42, G1 by (try lia; intros []). now apply (rep_at m h x i). }
  { lia. }
  { intros j Hj. destruct (C52 (hD r j)) as [X [Y|[]]]; [apply uses_D; lia|lia]. }
  { intros i j Hi Hj. apply C51; lia. }
  { intros j Hj. destruct (C6 j Hj) as [X _]. rewrite X. unfold m1. now apply (get_new m n (fun _ => emptyArr (length (hDims h)))). }
  assert (FR : forall j, j < n -> length m1 <= hF r j < length m2) by (intros j Hj; destruct (C52 (hF r j)) as [X [Y|[]]]; [apply uses_F; lia|lia]).
  split; [|split].
  - split; [lia|]. intros y Hy _. rewrite A2, C42, G1 by (try lia; intros []). reflexivity.
  - split; [split; [|split]|].
    + intros i j Hi Hj. unfold hLength in Hi, Hj. cbn [hDims hD] in *. rewrite C1 in Hi, Hj. now apply A5.
    + intros i j Hi Hj. unfold hLength in Hi, Hj. cbn [hDims hF] in *. apply C51; assumption.
    + intros i j Hi Hj. unfold hLength in Hi, Hj. cbn [hDims hF hD] in *. destruct C51 as (_ & _ & C53). rewrite C1 in Hi, Hj. destruct (A3 i Hi) as [X|X]; [rewrite X; apply C53; unfold hLength; rewrite C1; assumption|]. specialize (FR j Hj). lia.
    + intros y (i & Hi & [->| ->]); unfold hLength in Hi; cbn [hDims hF hD] in *; rewrite C1 in Hi.
      * split; [now apply A4|]. left. destruct (A3 i Hi) as [X|X]; [|lia]. rewrite X. destruct (C52 (hD r i)) as [_ [Y|[]]]; [apply uses_D; unfold hLength; rewrite C1; exact Hi|lia].
      * specialize (FR i Hi). lia.
  - apply rep; cbn [hDims hDiffs hTime dims diffs time dagger]; try congruence. intros i Hi. unfold hLength in Hi. cbn [hDims hD hF] in *. rewrite C1 in Hi. change (i < n) in Hi. split.
    + rewrite (A6 i Hi). unfold dagger, rankOf. cbn [diags]. rewrite <- R1. reflexivity.
    + rewrite A2 by (apply FR; exact Hi). destruct (C6 i Hi) as [_ X]. rewrite X, G1 by (apply W, uses_F; exact Hi). now apply (rep_at m h x i).
Qed.
(** direct products *)
Lemma direct_spec h1 h2 (m : memory) x y : within m h1 -> within m h2 -> represents m h1 x -> represents m h2 y -> forall h' m' o, hDirect teq h1 h2 m = (h', m', o) ->
  grows m none m' /\ placed m none h' m' /\ match direct teq x y with Ok z => o = Ok tt /\ represents m' h' z | TimeMismatch => o = TimeMismatch | _ => False end.
Proof.
  intros W1 W2 R1 R2 h' m' o E. pose proof R1 as (R11 & R12 & R13 & _). pose proof R2 as (R21 & R22 & R23 & _). unfold hDirect, newArrays in E. set (n2 := 3 ^ length (hDims h2)) in *. set (n := 3 ^ length (hDims h1 ++ hDims h2)) in *.
  set (g1 := fun i => doDirect kmul (get m (hD h1 (i / n2))) _) in E. set (m1 := m ++ map g1 _) in E. injection E as <- <- <-. set (g2 := fun i => doDirect kadd (get m1 (hF h1 (i / n2))) _). set (m2 := m1 ++ map g2 _).
  assert (L1 : length m1 = length m + n) by (unfold m1; rewrite app_length, map_length, seq_length; reflexivity). assert (L2 : length m2 = length m + n + n) by (unfold m2; rewrite app_length, map_length, seq_length, L1; reflexivity).
  assert (G1 : forall z, z < length m -> get m1 z = get m z) by (intros z Hz; now apply get_app_old).
  split; [|split].
  - split; [lia|]. intros z Hz _. unfold m2. rewrite get_app_old by lia. now apply G1.
  - split; [unfold apart, hLength; cbn [hD hF hDims]; fold n; repeat split; intros; lia|]. intros z (i & Hi & [->| ->]); unfold hLength in Hi; cbn [hD hF hDims] in *; fold n in Hi; lia.
  - unfold direct. rewrite <- R13, <- R23. destruct (teq (hTime h1) (hTime h2)); [|reflexivity]. split; [reflexivity|]. apply rep; cbn [hDims hDiffs hTime dims diffs time]; try congruence.
    intros i Hi. unfold hLength in Hi. cbn [hDims hD hF diags freqs] in *. change (i < n) in Hi.
    assert (I1 : i / n2 < hLength h1). { apply Nat.div_lt_upper_bound; [apply Nat.pow_nonzero; lia|]. unfold n2, hLength. rewrite Nat.mul_comm, <- Nat.pow_add_r, <- app_length. exact Hi. }
    assert (I2 : i mod n2 < hLength h2) by (apply Nat.mod_upper_bound, Nat.pow_nonzero; lia).
    destruct (rep_at _ _ _ _ R1 I1) as [X1 Y1]. destruct (rep_at _ _ _ _ R2 I2) as [X2 Y2]. unfold directDiagonals, rankOf. rewrite <- R21. fold n2. split.
    + unfold m2. rewrite get_app_old by lia. unfold m1. rewrite (get_new m n g1) by exact Hi. unfold g1. rewrite X1, X2. reflexivity.
    + unfold m2. rewrite (get_new m1 n g2) by exact Hi. unfold g2. rewrite !G1 by (first [apply W1, uses_F; exact I1|apply W2, uses_F; exact I2]). rewrite Y1, Y2. reflexivity.
Qed.
(** loops over the diagonals and the frequencies of an object, from those of another one, or of the same *)
Definition clear (h from : htri) : Prop := forall i j, i < hLength h -> j < hLength h -> (hD from i = hD h j -> i = j) /\ (hF from i = hF h j -> i = j) /\ hF from i <> hD h j.
Lemma first_loop (h from : htri) (m : memory) bad keep f : apart h -> within m h -> within m from -> hLength from = hLength h -> clear h from ->
  forall D m' b, loop bad keep f (hD from) (seq 0 (hLength h)) (hD h) m = (D, m', b) -> forall ks t,
  let h' := mkH (hDims h) ks D t (hF h) in
  grows m (fun x => exists j, j < hLength h /\ x = hD h j) m' /\ placed m (uses h) h' m' /\ b = negb (existsb (fun i => bad i (get m (hD from i)) (get m (hD h i))) (seq 0 (hLength h))) /\
  (b = true -> forall i, i < hLength h -> get m' (D i) = f i (get m (hD from i)) (get m (hD h i))).
Proof.
  intros (P1 & P2 & P3) W W' LE HC D m' b E ks t h'. destruct (loop_spec bad keep f (hD from) (hLength h) 0 (hD h) m) with (D' := D) (m' := m') (b := b) as (A1 & A2 & A3 & A4 & A5 & A6 & A7); auto.
  { intros i Hi. apply W, uses_D. lia. } { intros i j Hi Hj. apply P1; lia. } { intros i Hi. apply W', uses_D. lia. } { intros i j Hj Hi X. apply HC in X; lia. }
  split; [|split; [|split]].
  - split; [exact A1|]. intros x Hx N. apply A3; [exact Hx|]. intros i Hi X. apply N. exists i. split; [lia|exact X].
  - split; [split; [|split]|].
    + intros i j Hi Hj X. unfold hLength in *. cbn [hDims hD h'] in *. apply A5; lia || exact X.
    + exact P2.
    + intros i j Hi Hj. unfold h', hLength in *. cbn [hDims hD hF] in *. destruct (A4 i ltac:(unfold hLength; lia)) as [[X|X] _]; [rewrite X; now apply P3|]. specialize (W _ (uses_F h j Hj)). lia.
    + intros x (i & Hi & [->| ->]); unfold h', hLength in *; cbn [hDims hD hF] in *.
      * destruct (A4 i ltac:(unfold hLength; lia)) as [[X|X] Y]; (split; [exact Y|]); [right; rewrite X; now apply uses_D|now left].
      * split; [specialize (W _ (uses_F h i Hi)); lia|right; now apply uses_F].
  - exact A6.
  - intros Hb i Hi. apply A7; [exact Hb|lia].
Qed.
Lemma second_loop (h from : htri) (m : memory) bad keep f : apart h -> within m h -> (forall i, i < hLength h -> hF from i < length m) -> (forall i j, i < hLength h -> j < hLength h -> hF from i = hF h j -> i = j) ->
  forall F m' b, loop bad keep f (hF from) (seq 0 (hLength h)) (hF h) m = (F, m', b) -> forall ds ks t, length ds = length (hDims h) ->
  let h' := mkH ds ks (hD h) t F in
  grows m (fun x => exists j, j < hLength h /\ x = hF h j) m' /\ placed m (uses h) h' m' /\ b = negb (existsb (fun i => bad i (get m (hF from i)) (get m (hF h i))) (seq 0 (hLength h))) /\
  (b = true -> forall i, i < hLength h -> get m' (F i) = f i (get m (hF from i)) (get m (hF h i))).
Proof.
  intros (P1 & P2 & P3) W W' HC D m' b E ds ks t Hds h'. destruct (loop_spec bad keep f (hF from) (hLength h) 0 (hF h) m) with (D' := D) (m' := m') (b := b) as (A1 & A2 & A3 & A4 & A5 & A6 & A7); auto.
  { intros i Hi. apply W, uses_F. lia. } { intros i j Hi Hj. apply P2; lia. } { intros i Hi. apply W'. lia. } { intros i j Hj Hi X. apply HC in X; lia. }
  assert (Lh : hLength h' = hLength h) by (unfold hLength, h'; cbn [hDims]; now rewrite Hds).
  split; [|split; [|split]].
  - split; [exact A1|]. intros x Hx N. apply A3; [exact Hx|]. intros i Hi X. apply N. exists i. split; [lia|exact X].
  - split; [split; [|split]|].
    + intros i j Hi Hj. rewrite Lh in *. cbn [hD h']. now apply P1.
    + intros i j Hi Hj X. rewrite Lh in *. cbn [hF h'] in X. apply A5; lia || exact X.
    + intros i j Hi Hj. rewrite Lh in *. cbn [hD hF h']. destruct (A4 j ltac:(lia)) as [[X|X] _]; [rewrite X; now apply P3|]. specialize (W _ (uses_D h i Hi)). lia.
    + intros x (i & Hi & [->| ->]); rewrite Lh in *; cbn [hD hF h'].
      * split; [specialize (W _ (uses_D h i Hi)); lia|right; now apply uses_D].
      * destruct (A4 i ltac:(lia)) as [[X|X] Y]; (split; [exact Y|]); [right; rewrite X; now apply uses_F|now left].
  - exact A6.
  - intros Hb i Hi. apply A7; [exact Hb|lia].
Qed.
Lemma two_loops (h from : htri) (m : memory) bad1 keep1 f1 bad2 keep2 f2 D m1 b1 F m2 b2 : apart h -> within m h -> within m from -> hLength from = hLength h -> clear h from ->
  loop bad1 keep1 f1 (hD from) (seq 0 (hLength h)) (hD h) m = (D, m1, b1) -> loop bad2 keep2 f2 (hF from) (seq 0 (hLength h)) (hF h) m1 = (F, m2, b2) ->
  forall ds ks t, length ds = length (hDims h) -> let h' := mkH ds ks D t F in
  grows m (uses h) m2 /\ placed m (uses h) h' m2 /\ b1 = negb (existsb (fun i => bad1 i (get m (hD from i)) (get m (hD h i))) (seq 0 (hLength h))) /\ b2 = negb (existsb (fun i => bad2 i (get m (hF from i)) (get m (hF h i))) (seq 0 (hLength h))) /\
  (b1 = true -> b2 = true -> forall i, i < hLength h -> get m2 (D i) = f1 i (get m (hD from i)) (get m (hD h i)) /\ get m2 (F i) = f2 i (get m (hF from i)) (get m (hF h i))).
Proof.
  intros P W W' LE HC E1 E2 ds ks t Hds h'. destruct (first_loop h from m bad1 keep1 f1 P W W' LE HC D m1 b1 E1 ks t) as (A1 & A2 & A3 & A4). set (h1 := mkH (hDims h) ks D t (hF h)) in *.
  assert (L1 : hLength h1 = hLength h) by reflexivity. destruct A1 as [A11 A12]. destruct A2 as [A21 A22].
  assert (G : forall i, i < hLength h -> get m1 (hF from i) = get m (hF from i)). { intros i Hi. apply A12; [apply W', uses_F; lia|]. intros (j & Hj & X). apply HC in X; auto. }
  assert (G' : forall i, i < hLength h -> get m1 (hF h i) = get m (hF h i)). { intros i Hi. apply A12; [apply W, uses_F; lia|]. intros (j & Hj & X). symmetry in X. revert X. now apply P. }
  destruct (second_loop h1 from m1 bad2 keep2 f2 A21 (fun x Hx => proj1 (A22 x Hx))) with (F := F) (m' := m2) (b := b2) (ds := ds) (ks := ks) (t := t) as (B1 & B2 & B3 & B4); auto.
  { intros i Hi. assert (X : hF from i < length m) by (apply W', uses_F; rewrite LE; exact Hi). lia. } { intros i j Hi Hj. apply HC; assumption. }
  destruct B1 as [B11 B12]. destruct B2 as [B21 B22].
  split; [|split; [|split; [|split]]].
  - split; [lia|]. intros x Hx N. rewrite B12; [apply A12; [exact Hx|]|lia|].
    + intros (j & Hj & X). apply N. rewrite X. now apply uses_D.
    + intros (j & Hj & X). apply N. rewrite X. exact (uses_F h j Hj).
  - split; [exact B21|]. intros x Hx. destruct (B22 x Hx) as [X [Y|Y]]; (split; [exact X|]); [left; lia|]. now destruct (A22 x Y) as [_ Z].
  - exact A3.
  - rewrite B3. f_equal. apply existsb_same. intros i Hi. apply in_seq in Hi. cbn [hF h1]. rewrite ?L1 in Hi. rewrite G, G' by lia. reflexivity.
  - intros H1 H2 i Hi. split; [|rewrite B4 by assumption; cbn [hF h1]; rewrite G, G' by exact Hi; reflexivity]. rewrite B12; [now apply A4| |].
    + apply A22. exists i. split; [exact Hi|now left].
    + intros (j & Hj & X). destruct A21 as (_ & _ & A23). apply (A23 i j Hi Hj X).
Qed.
Lemma diffs_merge from : forall to, mergeDiffs from to = if snd (diffsLoop from to) then Some (fst (diffsLoop from to)) else None.
Proof.
  induction from as [|f from IH]; intros [|t to]; cbn; try reflexivity. rewrite IH. destruct (t =? 0); [destruct (diffsLoop from to) as [r []]; reflexivity|]. destruct (negb (f =? 0) && negb (t =? f)); [reflexivity|]. destruct (diffsLoop from to) as [r []]; reflexivity.
Qed.
(** the outcome of a change of an object *)
Definition changes (m : memory) (old : nat -> Prop) (h' : htri) (m' : memory) (o : outcome unit) (spec : outcome (tri K T)) : Prop :=
  match spec with
  | Ok z => o = Ok tt /\ grows m old m' /\ placed m old h' m' /\ represents m' h' z
  | UB => o = UB
  | TimeMismatch => o = TimeMismatch /\ grows m old m' | StructureMismatch => o = StructureMismatch /\ grows m old m' | FreqMismatch => o = FreqMismatch /\ grows m old m' | ConsistencyError => o = ConsistencyError /\ grows m old m'
  end.
Lemma add_spec (h from : htri) (m : memory) x y : apart h -> within m h -> within m from -> sameRank h from = true -> clear h from -> represents m h x -> represents m from y ->
  forall h' m' o, hAdd keq h from m = (h', m', o) -> changes m (uses h) h' m' o (add keq x y).
Proof.
  intros P W W' SR HC R R' h' m' o E. pose proof R as (R1 & R2 & R3 & _). pose proof R' as (R1' & R2' & R3' & _). apply Nat.eqb_eq in SR. assert (LE : hLength from = hLength h) by (unfold hLength; now rewrite SR).
  unfold hAdd in E. unfold add. rewrite diffs_merge, <- R2, <- R2'. destruct (diffsLoop (hDiffs from) (hDiffs h)) as [ks fine]. cbn [fst snd]. destruct fine; cbn [negb] in E.
  2:{ injection E as <- <- <-. split; [reflexivity|]. split; [lia|]. auto. }
  destruct (loop _ _ _ (hD from) _ _ m) as [[D m1] b1] eqn:E1. destruct (loop _ _ _ (hF from) _ _ m1) as [[F m2] b2] eqn:E2.
  destruct (two_loops h from m _ _ _ _ _ _ _ _ _ _ _ _ P W W' LE HC E1 E2 (hDims h) ks (hTime h) eq_refl) as (A1 & A2 & A3 & A4 & A5).
  assert (N : 3 ^ rankOf x = hLength h) by (unfold rankOf; now rewrite <- R1). rewrite N.
  rewrite (existsb_same (fun i => shapesClash (diags y i) (diags x i)) (fun i => shapesClash (get m (hD from i)) (get m (hD h i)))).
  2:{ intros i Hi. apply in_seq in Hi. destruct (rep_at m h x i R) as [-> _]; [lia|]. destruct (rep_at m from y i R') as [-> _]; [lia|]. reflexivity. }
  rewrite (existsb_same (fun i => freqClash keq (freqs y i) (freqs x i)) (fun i => freqClash keq (get m (hF from i)) (get m (hF h i)))).
  2:{ intros i Hi. apply in_seq in Hi. destruct (rep_at m h x i R) as [_ ->]; [lia|]. destruct (rep_at m from y i R') as [_ ->]; [lia|]. reflexivity. }
  destruct (existsb (fun i => shapesClash _ _) _); cbn [negb] in A3; subst b1; cbn [negb] in E; [injection E as <- <- <-; reflexivity|].
  injection E as <- <- <-. destruct (existsb _ _); cbn [negb] in A4; subst b2; [split; [reflexivity|exact A1]|]. split; [reflexivity|]. split; [exact A1|]. split; [exact A2|].
  apply rep; cbn [hDims hDiffs hTime dims diffs time]; try congruence. intros i Hi. change (i < hLength h) in Hi. destruct (A5 eq_refl eq_refl i Hi) as [X Y]. cbn [hD hF diags freqs]. rewrite X, Y.
  destruct (rep_at m h x i R Hi) as [-> ->]. destruct (rep_at m from y i R') as [-> ->]; [lia|]. split; reflexivity.
Qed.
Lemma negb_existsb_forallb {A} (f : A -> bool) l : negb (existsb (fun x => negb (f x)) l) = forallb f l.
Proof. induction l as [|x l IH]; cbn; [reflexivity|]. rewrite negb_orb, negb_involutive, IH. reflexivity. Qed.
Lemma assign_spec (h from : htri) (m : memory) x y : apart h -> within m h -> within m from -> sameRank h from = true -> clear h from -> represents m h x -> represents m from y ->
  forall h' m' o, hAssign h from m = (h', m', o) -> changes m (uses h) h' m' o (if alike x y then Ok y else UB).
Proof.
  intros P W W' SR HC R R' h' m' o E. pose proof R as (R1 & R2 & R3 & _). pose proof R' as (R1' & R2' & R3' & _). apply Nat.eqb_eq in SR. assert (LE : hLength from = hLength h) by (unfold hLength; now rewrite SR).
  unfold hAssign in E. destruct (loop _ _ _ (hD from) _ _ m) as [[D m1] b1] eqn:E1. destruct (loop _ _ _ (hF from) _ _ m1) as [[F m2] b2] eqn:E2.
  destruct (two_loops h from m _ _ _ _ _ _ _ _ _ _ _ _ P W W' LE HC E1 E2 (hDims from) (hDiffs from) (hTime from) (eq_sym SR)) as (A1 & A2 & A3 & A4 & A5).
  rewrite negb_existsb_forallb in A3, A4.
  assert (AL : alike x y = b1 && b2).
  { unfold alike. assert (N : 3 ^ rankOf x = hLength h) by (unfold rankOf; now rewrite <- R1). rewrite N, A3, A4. assert (Z : forall l, (forall i, In i l -> i < hLength h) -> forallb (fun i => sameShape (diags y i) (diags x i) && sameShape (freqs y i) (freqs x i)) l =
      forallb (fun i => sameShape (get m (hD from i)) (get m (hD h i))) l && forallb (fun i => sameShape (get m (hF from i)) (get m (hF h i))) l).
    { induction l as [|i l IH]; intros Hl; cbn; [reflexivity|]. rewrite IH by (intros k Hk; apply Hl; now right). destruct (rep_at m h x i R (Hl i (or_introl eq_refl))) as [-> ->]. destruct (rep_at m from y i R') as [-> ->]; [rewrite LE; apply Hl; now left|].
      destruct (sameShape (diags y i) _), (sameShape (freqs y i) _), (forallb (fun i => sameShape (get m (hD from i)) _) l), (forallb (fun i => sameShape (get m (hF from i)) _) l); reflexivity. }
    apply Z. intros i Hi. apply in_seq in Hi. lia. }
  rewrite AL. destruct b1; cbn [negb andb] in *; [|injection E as <- <- <-; reflexivity]. injection E as <- <- <-. destruct b2; [|reflexivity]. split; [reflexivity|]. split; [exact A1|]. split; [exact A2|].
  apply rep; cbn [hDims hDiffs hTime]; try congruence. intros i Hi. unfold hLength in Hi. cbn [hDims] in Hi. change (i < hLength from) in Hi. cbn [hD hF]. destruct (A5 eq_refl eq_refl i) as [-> ->]; [lia|]. now apply (rep_at m from y i R').
Qed.
Lemma unary_spec zero k minus plus (m : memory) : zero < length m -> minus < length m -> plus < length m -> forall h' m' o, hUnary t0 zero k minus plus m = (h', m', o) ->
  changes m none h' m' o (unary t0 (get m zero) k (get m minus) (get m plus) false).
Proof.
  intros Hz Hm Hp h' m' o E. unfold hUnary, deepCopy, newArrays in E. set (g := fun i => get m match i with 0 => zero | 1 => minus | _ => plus end) in E. set (m1 := m ++ map g _) in E. set (m2 := m1 ++ _) in E.
  assert (L1 : length m1 = length m + 3) by (unfold m1; rewrite app_length, map_length, seq_length; reflexivity). assert (L2 : length m2 = length m + 6) by (unfold m2; rewrite app_length, map_length, seq_length, L1; lia).
  injection E as <- <- <-. assert (G : grows m none m2). { split; [lia|]. intros x Hx _. unfold m2. rewrite get_app_old by lia. now apply get_app_old. }
  unfold unary. cbn [orb]. destruct (_ || _); cbn [changes]; [split; [reflexivity|exact G]|]. split; [reflexivity|]. split; [exact G|].
  split; [split; [unfold apart, hLength; cbn [hD hF hDims length Nat.pow]; repeat split; intros; lia|]; intros x (i & Hi & [->| ->]); unfold hLength in Hi; cbn [hD hF hDims length Nat.pow] in *; lia|].
  apply rep; try reflexivity. intros i Hi. unfold hLength in Hi. cbn [hDims length] in Hi. change (i < 3) in Hi. cbn [hD hF diags freqs]. split.
  - unfold m2. rewrite get_app_old by lia. unfold m1. rewrite (get_new m 3 g) by exact Hi. destruct i as [|[|[|i]]]; [reflexivity..|lia].
  - unfold m2. now apply (get_new m1 3 (fun _ => emptyArr 1)).
Qed.

Lemma furnish_spec (h : htri) main (m : memory) x : apart h -> within m h -> length (hDims h) = 1 -> represents m h x -> forall h' m' o, hFurnish h main m = (h', m', o) -> changes m (uses h) h' m' o (furnish x (get m main)).
Proof.
  intros (P1 & P2 & P3) W L R h' m' o E. pose proof R as (R1 & R2 & R3 & _). unfold hFurnish in E. unfold furnish. rewrite <- R1, <- R2. set (k := nth 0 (hDiffs h) 0) in *. set (d := nth 0 (hDims h) 0) in *.
  destruct (d <? k); [injection E as <- <- <-; reflexivity|]. destruct (d - k =? 0).
  { injection E as <- <- <-. split; [reflexivity|]. split; [split; [lia|auto]|]. split; [split; [exact (conj P1 (conj P2 P3))|]|exact R]. intros y Hy. split; [now apply W|now right]. }
  destruct (asize (get m main) <? d); [injection E as <- <- <-; reflexivity|]. set (f := mkArr [d - k] _) in *. assert (N : hLength h = 3) by (unfold hLength; now rewrite L).
  assert (WF : forall i, i < 3 -> hF h i < length m) by (intros i Hi; apply W, uses_F; lia). assert (WD : forall i, i < 3 -> hD h i < length m) by (intros i Hi; apply W, uses_D; lia).
  assert (Z : forall F m1, (F = hF h /\ m1 = put m (hF h 1) f) \/ (F = rebind (hF h) 1 (length m) /\ m1 = m ++ [f]) -> length m <= length m1 /\ F 1 < length m1 /\ get m1 (F 1) = f /\ (F 1 = hF h 1 \/ length m <= F 1) /\ F 0 = hF h 0 /\ forall y, y < length m -> y <> hF h 1 -> get m1 y = get m y).
  { intros F m1 [[-> ->]|[-> ->]].
    - rewrite length_put. split; [lia|]. split; [apply WF; lia|]. split; [apply get_put_same, WF; lia|]. split; [now left|]. split; [reflexivity|]. intros y _ Ny. apply get_put_other. intros X. now apply Ny.
    - rewrite app_length, rebind_same, rebind_other by lia. cbn [length]. split; [lia|]. split; [lia|]. split; [apply get_app_new|]. split; [right; lia|]. split; [reflexivity|]. intros y Hy _. now apply get_app_old. }
  destruct (if sameShape (get m (hF h 1)) f then (hF h, put m (hF h 1) f) else (rebind (hF h) 1 (length m), m ++ [f])) as [F m1] eqn:EB.
  destruct (Z F m1) as (Z1 & Z2 & Z3 & Z4 & Z5 & Z6); [destruct (sameShape (get m (hF h 1)) f); injection EB as <- <-; auto|]. injection E as <- <- <-.
  assert (L2 : length (m1 ++ [amap kopp f]) = length m1 + 1) by (rewrite app_length; reflexivity).
  assert (F2 : rebind F 2 (length m1) 2 = length m1) by apply rebind_same. assert (F1 : rebind F 2 (length m1) 1 = F 1) by (apply rebind_other; lia). assert (F0 : rebind F 2 (length m1) 0 = F 0) by (apply rebind_other; lia).
  pose proof (WF 0 ltac:(lia)) as W0. pose proof (WF 1 ltac:(lia)) as W1.
  assert (N01 : hF h 0 <> hF h 1) by (intros X; apply P2 in X; lia).
  split; [reflexivity|]. split; [|split].
  - split; [lia|]. intros y Hy Ny. rewrite get_app_old by lia. apply Z6; [exact Hy|]. intros ->. apply Ny, uses_F. lia.
  - split; [split; [|split]|].
    + exact P1.
    + intros i j Hi Hj. unfold hLength in Hi, Hj. cbn [hDims hF] in *. rewrite L in Hi, Hj. change (3 ^ 1) with 3 in *. destruct i as [|[|[|i]]]; try lia; destruct j as [|[|[|j]]]; try lia; rewrite ?F0, ?F1, ?F2, ?Z5; intros X; destruct Z4; lia.
    + intros i j Hi Hj. unfold hLength in Hi, Hj. cbn [hDims hF hD] in *. rewrite L in Hi, Hj. change (3 ^ 1) with 3 in *. pose proof (WD i Hi) as Wi. assert (Q : forall j, j < 3 -> hD h i <> hF h j) by (intros j' Hj'; apply P3; lia). pose proof (Q 0 ltac:(lia)). pose proof (Q 1 ltac:(lia)).
      destruct j as [|[|[|j]]]; try lia; rewrite ?F0, ?F1, ?F2, ?Z5; destruct Z4; lia.
    + intros y (i & Hi & [->| ->]); unfold hLength in Hi; cbn [hDims hF hD] in *; rewrite L in Hi; change (3 ^ 1) with 3 in *.
      * specialize (WD i Hi). split; [lia|right; apply uses_D; lia].
      * assert (Q : forall q, (q < length m1 + 1) -> (length m <= q \/ uses h q) -> q < length (m1 ++ [amap kopp f]) /\ (length m <= q \/ uses h q)) by (intros; rewrite L2; auto).
        destruct i as [|[|[|i]]]; [..|lia]; rewrite ?F0, ?F1, ?F2, ?Z5; apply Q; [lia|right; apply uses_F; lia|lia| |lia|left; lia]. destruct Z4 as [Z4|Z4]; [right; rewrite Z4; apply uses_F; lia|now left].
  - apply rep; cbn [hDims hDiffs hTime dims diffs time]; try congruence. intros i Hi. unfold hLength in Hi. cbn [hDims hD hF diags freqs] in *. rewrite L in Hi. change (3 ^ 1) with 3 in *. destruct (rep_at m h x i R) as [X Y]; [lia|]. split.
    + rewrite get_app_old by (specialize (WD i Hi); lia). rewrite Z6; [exact X|now apply WD|]. intros Q. symmetry in Q. symmetry in Q. apply (P3 i 1); [lia|lia|exact Q].
    + destruct i as [|[|[|i]]]; try lia; rewrite ?F0, ?F1, ?F2, ?Z5.
      * rewrite get_app_old by lia. rewrite Z6; auto.
      * rewrite get_app_old by lia. exact Z3.
      * apply get_app_new.
Qed.

(** ** all variables *)
Definition good (s : heap K T) : Prop :=
  (forall v h, ops s v = Some h -> apart h /\ within (mem s) h) /\ (forall v w h h' x, ops s v = Some h -> ops s w = Some h' -> v <> w -> uses h x -> uses h' x -> False) /\
  (forall a p, arrs s a = Some p -> p < length (mem s)) /\ (forall a b p, arrs s a = Some p -> arrs s b = Some p -> a = b) /\ (forall a p v h, arrs s a = Some p -> ops s v = Some h -> ~ uses h p).
Lemma represents_grown m old m' (h : htri) (x : tri K T) : grows m old m' -> within m h -> (forall y, uses h y -> ~ old y) -> represents m h x -> represents m' h x.
Proof.
  intros [G1 G2] W N R. pose proof R as (R1 & R2 & R3 & _). apply rep; auto. intros i Hi. rewrite !G2; [now apply (rep_at m h x i)|..]; (first [apply W|apply N]; first [now apply uses_F|now apply uses_D]).
Qed.
Lemma bound_same {A} (f : nat -> option A) v x : bound f v x v = Some x. Proof. unfold bound. now rewrite Nat.eqb_refl. Qed.
Lemma bound_other {A} (f : nat -> option A) v x u : u <> v -> bound f v x u = f u. Proof. intros H. unfold bound. now rewrite (proj2 (Nat.eqb_neq u v) H). Qed.
Lemma agree_op (s : heap K T) (vs : @values K T) v h : agree s vs -> ops s v = Some h -> exists x, vOps vs v = Some x /\ represents (mem s) h x.
Proof. intros [_ A] E. specialize (A v (fun x => x)). rewrite E in A. destruct (vOps vs v) as [x|]; [now exists x|destruct A]. Qed.
Lemma agree_op_none (s : heap K T) (vs : @values K T) v : agree s vs -> ops s v = None -> vOps vs v = None.
Proof. intros [_ A] E. specialize (A v (fun x => x)). rewrite E in A. destruct (vOps vs v) as [x|]; [destruct A|reflexivity]. Qed.
Lemma agree_arr (s : heap K T) (vs : @values K T) a : agree s vs -> vArrs vs a = match arrs s a with Some p => Some (get (mem s) p) | None => None end.
Proof. intros [A _]. specialize (A a). destruct (arrs s a), (vArrs vs a); cbn in A; try contradiction; congruence. Qed.
Lemma grown (s : heap K T) (vs : @values K T) v (old : nat -> Prop) m' o : good s -> agree s vs -> (forall x, old x -> exists h, ops s v = Some h /\ uses h x) -> grows (mem s) old m' -> (forall u, u <> v -> o u = ops s u) -> agreeBut (fun u => u = v) (mkHeap m' (arrs s) o) vs.
Proof.
  intros (G1 & G2 & G3 & G4 & G5) A O G HO. split; cbn [mem arrs ops].
  - intros a. destruct A as [A _]. specialize (A a). destruct (arrs s a) as [p|] eqn:E, (vArrs vs a) as [x|]; cbn in *; auto. rewrite <- A. apply G; [now apply (G3 a)|]. intros X. destruct (O p X) as (h & H1 & H2). now apply (G5 a p v h).
  - intros u Hu. rewrite HO by exact Hu. destruct A as [_ A]. specialize (A u (fun x => x)). destruct (ops s u) as [h|] eqn:E, (vOps vs u) as [x|]; cbn in *; auto. refine (represents_grown _ old _ _ _ G _ _ A); [now apply (G1 u)|].
    intros y Hy X. destruct (O y X) as (h' & H1 & H2). now apply (G2 u v h h' y).
Qed.
Lemma kept (s : heap K T) (vs : @values K T) m' : good s -> agree s vs -> grows (mem s) none m' -> agree (mkHeap m' (arrs s) (ops s)) vs.
Proof.
  intros (G1 & G2 & G3 & G4 & G5) A G. split; cbn [mem arrs ops].
  - intros a. destruct A as [A _]. specialize (A a). destruct (arrs s a) as [p|] eqn:E, (vArrs vs a) as [x|]; cbn in *; auto. rewrite <- A. apply G; [now apply (G3 a)|intros []].
  - intros u _. destruct A as [_ A]. specialize (A u (fun x => x)). destruct (ops s u) as [h|] eqn:E, (vOps vs u) as [x|]; cbn in *; auto. refine (represents_grown _ none _ _ _ G _ _ A); [now apply (G1 u)|intros y _ []].
Qed.
Lemma rebound (s : heap K T) (vs : @values K T) v (old : nat -> Prop) h' m' z : good s -> agree s vs -> (forall x, old x -> exists h, ops s v = Some h /\ uses h x) -> grows (mem s) old m' -> placed (mem s) old h' m' -> represents m' h' z ->
  let s' := mkHeap m' (arrs s) (bound (ops s) v h') in good s' /\ agree s' (mkValues (vArrs vs) (bound (vOps vs) v z)).
Proof.
  intros G A O GR PL R s'. pose proof G as (G1 & G2 & G3 & G4 & G5). destruct GR as [GR1 GR2]. destruct PL as [PL1 PL2]. split.
  - unfold s'. split; [|split; [|split; [|split]]]; cbn [mem arrs ops].
    + intros u h. unfold bound. destruct (u =? v); intros E; [injection E as <-; split; [exact PL1|intros x Hx; now apply PL2]|]. destruct (G1 u h E) as [H1 H2]. split; [exact H1|]. intros x Hx. specialize (H2 x Hx). lia.
    + assert (Z : forall u h x, u <> v -> ops s u = Some h -> uses h x -> uses h' x -> False).
      { intros u h x N E U U'. destruct (PL2 x U') as [_ [X|X]]; [destruct (G1 u h E) as [_ H]; specialize (H x U); lia|]. destruct (O x X) as (k & H1 & H2). now apply (G2 u v h k x). }
      intros u w h1 h2 x. unfold bound. destruct (u =? v) eqn:Eu, (w =? v) eqn:Ew; intros E1 E2 N U1 U2.
      * apply Nat.eqb_eq in Eu, Ew. congruence.
      * injection E1 as <-. apply Nat.eqb_neq in Ew. now apply (Z w h2 x).
      * injection E2 as <-. apply Nat.eqb_neq in Eu. now apply (Z u h1 x).
      * now apply (G2 u w h1 h2 x).
    + intros a p E. specialize (G3 a p E). lia.
    + exact G4.
    + intros a p u h E. unfold bound. destruct (u =? v); intros E'; [|now apply (G5 a p u h)]. injection E' as <-. intros U. destruct (PL2 p U) as [_ [X|X]]; [specialize (G3 a p E); lia|]. destruct (O p X) as (k & H1 & H2). now apply (G5 a p v k).
  - destruct (grown s vs v old m' (bound (ops s) v h') G A O (conj GR1 GR2) (fun u Hu => bound_other _ v h' u Hu)) as [B1 B2]. split; [exact B1|]. unfold s'. cbn [mem arrs ops vOps] in *. intros u _. destruct (Nat.eq_dec u v) as [->|N]; [rewrite !bound_same; exact R|].
    rewrite (bound_other (vOps vs)) by exact N. now apply B2.
Qed.
(** a command *)
Definition follows (s' : heap K T) (o : outcome unit) (vs vs' : @values K T) (o' : outcome unit) (tg : nat -> Prop) : Prop :=
  o = o' /\ (o = Ok tt -> good s' /\ agree s' vs') /\ (o <> Ok tt -> o <> UB -> vs' = vs /\ agreeBut tg s' vs).
Lemma follows_none (s : heap K T) (vs : @values K T) tg : good s -> agree s vs -> follows s (Ok tt) vs vs (Ok tt) tg.
Proof. intros G A. split; [reflexivity|]. split; [now intros _|]. intros X. now destruct X. Qed.
Lemma follows_born (s : heap K T) (vs : @values K T) v h' m' o z tg : good s -> agree s vs -> changes (mem s) none h' m' o z -> follows (fst (born s v (h', m', o))) (snd (born s v (h', m', o))) vs (fst (setOp vs v z)) (snd (setOp vs v z)) tg.
Proof.
  intros G A C. destruct z; cbn [changes setOp fst snd] in *.
  2-5: destruct C as [-> C]; split; [reflexivity|]; split; [discriminate|]; intros _ _; split; [reflexivity|]; destruct (kept s vs m' G A C) as [B1 B2]; split; [exact B1|]; intros u _; now apply B2.
  - destruct C as (-> & C1 & C2 & C3). split; [reflexivity|]. split; [|intros X; now destruct X]. intros _. apply (rebound s vs v none h' m' a); auto. intros x [].
  - subst o. split; [reflexivity|]. split; [discriminate|]. intros _ X. now destruct X.
Qed.
Lemma follows_changed (s : heap K T) (vs : @values K T) v h h' m' o z (tg : nat -> Prop) : good s -> agree s vs -> ops s v = Some h -> tg v -> changes (mem s) (uses h) h' m' o z -> follows (fst (changed s v (h', m', o))) (snd (changed s v (h', m', o))) vs (fst (setOp vs v z)) (snd (setOp vs v z)) tg.
Proof.
  intros G A E Tv C. assert (O : forall x, uses h x -> exists k, ops s v = Some k /\ uses k x) by (intros x Hx; now exists h).
  destruct z; cbn [changes setOp fst snd] in *.
  2-5: destruct C as [-> C]; split; [reflexivity|]; split; [discriminate|]; intros _ _; split; [reflexivity|];
       destruct (grown s vs v (uses h) m' (bound (ops s) v h') G A O C (fun u Hu => bound_other _ v h' u Hu)) as [B1 B2]; split; [exact B1|]; intros u Hu; apply B2; intros ->; now apply Hu.
  - destruct C as (-> & C1 & C2 & C3). split; [reflexivity|]. split; [|intros X; now destruct X]. intros _. apply (rebound s vs v (uses h) h' m' a); auto.
  - subst o. split; [reflexivity|]. split; [discriminate|]. intros _ X. now destruct X.
Qed.
(** changes which cannot fail *)
Lemma follows_scaled (s : heap K T) (vs : @values K T) v h h' m' z tg : good s -> agree s vs -> ops s v = Some h -> grows (mem s) (uses h) m' /\ placed (mem s) (uses h) h' m' /\ represents m' h' z ->
  follows (fst (changed s v (h', m', Ok tt))) (snd (changed s v (h', m', Ok tt))) vs (fst (setOp vs v (Ok z))) (snd (setOp vs v (Ok z))) tg.
Proof.
  intros G A E (C1 & C2 & C3). split; [reflexivity|]. split; [|intros X; now destruct X]. intros _. apply (rebound s vs v (uses h) h' m' z); auto. intros x Hx. now exists h.
Qed.
Lemma clear_vars (s : heap K T) v w h from : good s -> ops s v = Some h -> ops s w = Some from -> hLength from = hLength h -> clear h from.
Proof.
  intros (G1 & G2 & _) E E' LE. destruct (Nat.eq_dec v w) as [->|N].
  - rewrite E in E'. injection E' as <-. destruct (G1 w h E) as [(P1 & P2 & P3) _]. intros i j Hi Hj. split; [now apply P1|]. split; [now apply P2|]. intros X. symmetry in X. revert X. now apply P3.
  - intros i j Hi Hj. assert (Hi' : i < hLength from) by lia. split; [|split]; intros X; exfalso.
    + apply (G2 v w h from (hD h j)); auto; [now apply uses_D|]. rewrite <- X. now apply uses_D.
    + apply (G2 v w h from (hF h j)); auto; [now apply uses_F|]. rewrite <- X. now apply uses_F.
    + apply (G2 v w h from (hD h j)); auto; [now apply uses_D|]. rewrite <- X. now apply uses_F.
Qed.
Lemma ranks (m : memory) (h h' : htri) (x y : tri K T) : represents m h x -> represents m h' y -> eqRank x y = sameRank h h'.
Proof. intros (R1 & _) (R1' & _). unfold eqRank, sameRank, rankOf. now rewrite R1, R1'. Qed.
Lemma same_length (h h' : htri) : sameRank h h' = true -> hLength h' = hLength h.
Proof. intros E. apply Nat.eqb_eq in E. unfold hLength. now rewrite E. Qed.
Lemma changes_weaker m m1 (old : nat -> Prop) h' m' o z : grows m none m1 -> (forall x, old x -> x < length m) -> changes m1 old h' m' o z -> changes m old h' m' o z.
Proof.
  intros [G1 G2] O C. assert (Z : grows m1 old m' -> grows m old m'). { intros [H1 H2]. split; [lia|]. intros x Hx N. rewrite H2, G2; auto; lia. }
  destruct z; cbn [changes] in *; try (destruct C as [C1 C2]; split; [exact C1|now apply Z]); [|exact C]. destruct C as (C1 & C2 & [C3 C4] & C5). split; [exact C1|]. split; [now apply Z|]. split; [|exact C5]. split; [exact C3|].
  intros x Hx. destruct (C4 x Hx) as [X [Y|Y]]; (split; [exact X|]); [left; lia|now right].
Qed.
Lemma exec_follows (s : heap K T) (vs : @values K T) c : good s -> agree s vs -> follows (fst (exec keq teq t0 evolved s c)) (snd (exec keq teq t0 evolved s c)) vs (fst (meaning keq teq t0 evolved vs c)) (snd (meaning keq teq t0 evolved vs c)) (target c).
Proof.
  intros G A. pose proof G as (G1 & G2 & G3 & G4 & G5). destruct c as [a x|a x|v a k b c|v w|v c|v w|v w|v w u|v w|v w|v t|v w|v a]; cbn [exec meaning].
  - cbn [fst snd]. split; [reflexivity|]. split; [|intros X; now destruct X]. intros _. assert (L : length (mem s ++ [x]) = length (mem s) + 1) by (rewrite app_length; reflexivity). split.
    + split; [|split; [|split; [|split]]]; cbn [mem arrs ops].
      * intros v h E. destruct (G1 v h E) as [H1 H2]. split; [exact H1|]. intros y Hy. specialize (H2 y Hy). lia.
      * exact G2.
      * intros b p. unfold bound. destruct (b =? a); intros E; [injection E as <-; lia|]. specialize (G3 b p E). lia.
      * intros b c p. unfold bound. destruct (b =? a) eqn:Eb, (c =? a) eqn:Ec; intros E1 E2.
        -- apply Nat.eqb_eq in Eb, Ec. congruence.
        -- injection E1 as <-. specialize (G3 c _ E2). lia.
        -- injection E2 as <-. specialize (G3 b _ E1). lia.
        -- now apply (G4 b c p).
      * intros b p v h. unfold bound. destruct (b =? a); intros E1 E2; [|now apply (G5 b p v h)]. injection E1 as <-. intros U. destruct (G1 v h E2) as [_ H]. specialize (H _ U). lia.
    + destruct (kept s vs (mem s ++ [x]) G A) as [B1 B2]; [split; [lia|intros; now apply get_app_old]|]. split; [|exact B2]. cbn [mem arrs vArrs setArr]. intros b. unfold bound. destruct (b =? a); [apply get_app_new|exact (B1 b)].
  - rewrite (agree_arr s vs a A). destruct (arrs s a) as [p|] eqn:E; [|now apply follows_none]. cbn [fst snd]. split; [reflexivity|]. split; [|intros X; now destruct X]. intros _. specialize (length_put (mem s) p x) as L. split.
    + split; [|split; [|split; [|split]]]; cbn [mem arrs ops]; auto.
      * intros v h E'. destruct (G1 v h E') as [H1 H2]. split; [exact H1|]. intros y Hy. specialize (H2 y Hy). lia.
      * intros b q Eq. specialize (G3 b q Eq). lia.
    + split; cbn [mem arrs ops vArrs vOps setArr].
      * intros b. unfold bound. destruct (b =? a) eqn:Eb; [apply Nat.eqb_eq in Eb; subst b; rewrite E; apply get_put_same, (G3 a), E|]. destruct A as [A _]. specialize (A b). destruct (arrs s b) as [q|] eqn:Eq, (vArrs vs b) as [y|]; cbn in *; auto.
        rewrite <- A. apply get_put_other. intros ->. apply Nat.eqb_neq in Eb. apply Eb. now apply (G4 b a q).
      * intros v _. destruct A as [_ A]. specialize (A v (fun z => z)). destruct (ops s v) as [h|] eqn:Ev, (vOps vs v) as [y|]; cbn in *; auto.
        refine (represents_grown (mem s) (eq p) _ _ _ _ _ _ A); [split; [lia|intros z _ N; now apply get_put_other]|now apply (G1 v)|]. intros z Hz <-. now apply (G5 a p v h).
  - rewrite (agree_arr s vs a A), (agree_arr s vs b A), (agree_arr s vs c A). destruct (arrs s a) as [x|] eqn:Ea; [|now apply follows_none]. destruct (arrs s b) as [y|] eqn:Eb; [|now apply follows_none]. destruct (arrs s c) as [z|] eqn:Ec; [|now apply follows_none].
    destruct (hUnary t0 x k y z (mem s)) as [[h' m'] o] eqn:E. apply follows_born; auto. apply (unary_spec x k y z (mem s)); auto; [apply (G3 a)|apply (G3 b)|apply (G3 c)]; assumption.
  - destruct (ops s w) as [h|] eqn:E; [|rewrite (agree_op_none s vs w A E); now apply follows_none]. destruct (agree_op s vs w h A E) as (x & -> & R). destruct (hCopy h (mem s)) as [h' m'] eqn:EC. apply follows_born; auto.
    split; [reflexivity|]. apply (copy_spec h (mem s) x); auto. now apply (G1 w).
  - destruct (ops s v) as [h|] eqn:E; [|rewrite (agree_op_none s vs v A E); now apply follows_none]. destruct (agree_op s vs v h A E) as (x & -> & R). destruct (hScale c h (mem s)) as [h' m'] eqn:EC. apply (follows_scaled s vs v h); auto.
    apply (scale_spec c h (mem s) x); auto; now apply (G1 v).
  - destruct (ops s w) as [h|] eqn:E; [|rewrite (agree_op_none s vs w A E); now apply follows_none]. destruct (agree_op s vs w h A E) as (x & -> & R). destruct (hNeg h (mem s)) as [h' m'] eqn:EC. apply follows_born; auto.
    split; [reflexivity|]. apply (neg_spec h (mem s) x); auto; now apply (G1 w).
  - destruct (ops s w) as [h|] eqn:E; [|rewrite (agree_op_none s vs w A E); now apply follows_none]. destruct (agree_op s vs w h A E) as (x & -> & R). destruct (hDagger h (mem s)) as [h' m'] eqn:EC. apply follows_born; auto.
    split; [reflexivity|]. apply (dagger_spec h (mem s) x); auto; now apply (G1 w).
  - destruct (ops s w) as [h|] eqn:E; [|rewrite (agree_op_none s vs w A E); now apply follows_none]. destruct (agree_op s vs w h A E) as (x & -> & R). destruct (ops s u) as [h2|] eqn:E2; [|rewrite (agree_op_none s vs u A E2); now apply follows_none].
    destruct (agree_op s vs u h2 A E2) as (y & -> & R2). destruct (hDirect teq h h2 (mem s)) as [[h' m'] o] eqn:EC. apply follows_born; auto.
    destruct (direct_spec h h2 (mem s) x y) with (h' := h') (m' := m') (o := o) as (D1 & D2 & D3); auto; [now apply (G1 w)|now apply (G1 u)|]. destruct (direct teq x y); cbn [changes]; try contradiction; [|now split]. destruct D3 as [D3 D4]. auto.
  - destruct (ops s v) as [h|] eqn:E; [|rewrite (agree_op_none s vs v A E); now apply follows_none]. destruct (agree_op s vs v h A E) as (x & -> & R). destruct (ops s w) as [h2|] eqn:E2; [|rewrite (agree_op_none s vs w A E2); now apply follows_none].
    destruct (agree_op s vs w h2 A E2) as (y & -> & R2). rewrite (ranks _ _ _ _ _ R R2). destruct (sameRank h h2) eqn:SR; [|now apply follows_none]. destruct (hAdd keq h h2 (mem s)) as [[h' m'] o] eqn:EC. apply (follows_changed s vs v h); auto; [reflexivity|].
    apply (add_spec h h2 (mem s) x y); auto; [now apply (G1 v)|now apply (G1 v)|now apply (G1 w)|]. apply (clear_vars s v w); auto. now apply same_length.
  - destruct (ops s v) as [h|] eqn:E; [|rewrite (agree_op_none s vs v A E); now apply follows_none]. destruct (agree_op s vs v h A E) as (x & -> & R). destruct (ops s w) as [h2|] eqn:E2; [|rewrite (agree_op_none s vs w A E2); now apply follows_none].
    destruct (agree_op s vs w h2 A E2) as (y & -> & R2). rewrite (ranks _ _ _ _ _ R R2). destruct (sameRank h h2) eqn:SR; [|now apply follows_none]. destruct (hSub keq h h2 (mem s)) as [[h' m'] o] eqn:EC. apply (follows_changed s vs v h); auto; [reflexivity|].
    unfold hSub in EC. destruct (hNeg h2 (mem s)) as [f m1] eqn:EN. destruct (G1 v h E) as [P W]. destruct (G1 w h2 E2) as [P2 W2]. destruct (neg_spec h2 (mem s) y P2 W2 R2 f m1 EN) as ((N1 & N2) & (N3 & N4) & N5).
    assert (Rf : hDims f = hDims h2) by (destruct N5 as (N5 & _), R2 as (R2 & _); cbn [dims neg] in N5; congruence).
    assert (LE : hLength f = hLength h) by (unfold hLength; rewrite Rf; now apply same_length).
    apply (changes_weaker (mem s) m1); [now split|exact W|]. unfold sub. apply (add_spec h f m1 x (neg y)); auto.
    + intros z Hz. specialize (W z Hz). lia.
    + intros z Hz. now apply N4.
    + unfold sameRank in *. now rewrite Rf.
    + assert (Z : forall z, uses f z -> uses h z -> False) by (intros z Z1 Z2; destruct (N4 z Z1) as [_ [X|[]]]; specialize (W z Z2); lia).
      intros i j Hi Hj. assert (Hi' : i < hLength f) by lia. split; [|split]; intros X; exfalso; [apply (Z (hD f i)); [now apply uses_D|rewrite X; now apply uses_D]|apply (Z (hF f i)); [now apply uses_F|rewrite X; now apply uses_F]|apply (Z (hF f i)); [now apply uses_F|rewrite X; now apply uses_D]].
    + refine (represents_grown (mem s) none m1 h x _ W _ R); [now split|intros z _ []].
  - destruct (ops s v) as [h|] eqn:E; [|rewrite (agree_op_none s vs v A E); now apply follows_none]. destruct (agree_op s vs v h A E) as (x & -> & R). destruct (hPropagate evolved t h (mem s)) as [h' m'] eqn:EC. apply (follows_scaled s vs v h); auto.
    apply (propagate_spec t h (mem s) x); auto; now apply (G1 v).
  - destruct (ops s v) as [h|] eqn:E; [|rewrite (agree_op_none s vs v A E); now apply follows_none]. destruct (agree_op s vs v h A E) as (x & -> & R). destruct (ops s w) as [h2|] eqn:E2; [|rewrite (agree_op_none s vs w A E2); now apply follows_none].
    destruct (agree_op s vs w h2 A E2) as (y & -> & R2). rewrite (ranks _ _ _ _ _ R R2). destruct (sameRank h h2) eqn:SR; [|now apply follows_none]. destruct (hAssign h h2 (mem s)) as [[h' m'] o] eqn:EC. apply (follows_changed s vs v h); auto; [reflexivity|].
    apply (assign_spec h h2 (mem s) x y); auto; [now apply (G1 v)|now apply (G1 v)|now apply (G1 w)|]. apply (clear_vars s v w); auto. now apply same_length.
  - destruct (ops s v) as [h|] eqn:E; [|rewrite (agree_op_none s vs v A E); now apply follows_none]. destruct (agree_op s vs v h A E) as (x & -> & R). rewrite (agree_arr s vs a A). destruct (arrs s a) as [p|] eqn:Ea; [|now apply follows_none].
    assert (Q : (rankOf x =? 1) = (length (hDims h) =? 1)) by (destruct R as (R & _); unfold rankOf; now rewrite R). rewrite Q. destruct (length (hDims h) =? 1) eqn:L; [|now apply follows_none]. destruct (hFurnish h p (mem s)) as [[h' m'] o] eqn:EC.
    apply (follows_changed s vs v h); auto; [reflexivity|]. apply (furnish_spec h p (mem s) x); auto; [now apply (G1 v)|now apply (G1 v)|now apply Nat.eqb_eq].
Qed.
Lemma run_follows : forall cs s vs, good s -> agree s vs -> forall s' o vs' o', run keq teq t0 evolved s cs = (s', o) -> meanings keq teq t0 evolved vs cs = (vs', o') ->
  o = o' /\ (o = Ok tt -> good s' /\ agree s' vs') /\ (o <> Ok tt -> o <> UB -> exists pre c post, cs = pre ++ c :: post /\ meanings keq teq t0 evolved vs pre = (vs', Ok tt) /\ agreeBut (target c) s' vs').
Proof.
  induction cs as [|c cs IH]; intros s vs G A s' o vs' o' E E'.
  - injection E as <- <-. injection E' as <- <-. split; [reflexivity|]. split; [auto|]. intros X. now destruct X.
  - cbn [run meanings] in E, E'. destruct (exec_follows s vs c G A) as (F1 & F2 & F3). destruct (exec keq teq t0 evolved s c) as [s1 o1]. destruct (meaning keq teq t0 evolved vs c) as [vs1 o1'] eqn:EM. cbn [fst snd] in *. subst o1'. destruct o1 as [[]| | | | |].
    2-6: injection E as <- <-; injection E' as <- <-; split; [reflexivity|]; split; [discriminate|]; intros H1 H2; destruct (F3 H1 H2) as [-> F4]; exists [], c, cs; auto.
    destruct (F2 eq_refl) as [G' A']. destruct (IH s1 vs1 G' A' s' o vs' o' E E') as (I1 & I2 & I3). split; [exact I1|]. split; [exact I2|]. intros H1 H2. destruct (I3 H1 H2) as (pre & c' & post & -> & I4 & I5).
    exists (c :: pre), c', post. split; [reflexivity|]. split; [|exact I5]. cbn [meanings]. rewrite EM. exact I4.
Qed.
Lemma good_started : good (@started K T). Proof. repeat split; cbn; intros; discriminate. Qed.
Lemma agree_nothing : agree (@started K T) nothing. Proof. split; cbn; auto. Qed.
Lemma meaning_untouched vs c v : ~ writes c v -> vOps (fst (meaning keq teq t0 evolved vs c)) v = vOps vs v.
Proof.
  intros N. assert (Z : forall w z, v <> w -> vOps (fst (setOp vs w z)) v = vOps vs v) by (intros w z Hw; destruct z; cbn [setOp fst vOps]; auto; now apply bound_other).
  destruct c; cbn [meaning writes] in *; repeat match goal with |- context [match ?e with _ => _ end] => lazymatch e with context [setOp] => fail | _ => destruct e end end; cbn [fst setArr vOps]; auto.
Qed.
Lemma meanings_untouched v : forall cs vs, (forall c, In c cs -> ~ writes c v) -> vOps (fst (meanings keq teq t0 evolved vs cs)) v = vOps vs v.
Proof.
  induction cs as [|c cs IH]; intros vs H; [reflexivity|]. cbn [meanings]. pose proof (meaning_untouched vs c v (H c (or_introl eq_refl))) as X. destruct (meaning keq teq t0 evolved vs c) as [vs1 o]. cbn [fst] in X. destruct o; cbn [fst]; auto. rewrite IH; auto. intros c' Hc. apply H. now right.
Qed.
Lemma target_writes (c : cmd K T) v : target c v -> writes c v. Proof. destruct c; cbn; auto; contradiction. Qed.
Lemma run_untouched cs cs' v s s' o h x : run keq teq t0 evolved started cs = (s, Ok tt) -> run keq teq t0 evolved s cs' = (s', o) -> o <> UB -> (forall c, In c cs' -> ~ writes c v) -> ops s v = Some h -> represents (mem s) h x ->
  exists h', ops s' v = Some h' /\ represents (mem s') h' x.
Proof.
  intros E E' NU NW Eh R. destruct (meanings keq teq t0 evolved nothing cs) as [vs o1] eqn:EM. destruct (run_follows cs started nothing good_started agree_nothing _ _ _ _ E EM) as (_ & A & _). destruct (A eq_refl) as [G A1].
  destruct (meanings keq teq t0 evolved vs cs') as [vs' o'] eqn:EM'. destruct (run_follows cs' s vs G A1 _ _ _ _ E' EM') as (-> & B1 & B2).
  pose proof (meanings_untouched v cs' vs NW) as U. rewrite EM' in U. cbn [fst] in U. destruct (agree_op s vs v h A1 Eh) as (y & Ey & Ry).
  assert (Q : exists h', ops s' v = Some h' /\ represents (mem s') h' y).
  { assert (M : matches (represents (mem s')) (ops s' v) (vOps vs' v)).
    { destruct o' as [[]| | | | |].
      2-6: destruct B2 as (pre & c & post & -> & _ & B); try discriminate; try assumption; apply B; intros X; apply target_writes in X; revert X; apply NW; apply in_or_app; right; now left.
      apply B1; auto. }
    rewrite U, Ey in M. destruct (ops s' v) as [h'|]; [now exists h'|destruct M]. }
  destruct Q as (h' & E1 & R'). exists h'. split; [exact E1|]. destruct R as (R1 & R2 & R3 & R4), Ry as (Y1 & Y2 & Y3 & Y4), R' as (Z1 & Z2 & Z3 & Z4). apply rep; try congruence. unfold hLength. rewrite Z1, <- Y1. intros i Hi. rewrite Y1 in Hi. destruct (Z4 i Hi) as [-> ->].
  destruct (Y4 i Hi) as [<- <-]. apply R4. rewrite <- R1, Y1. exact Hi.
Qed.
End P.
