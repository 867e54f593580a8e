(** The Fourier transformation of density operators in Python. *)
From Coq Require Import List Arith Reals Lra Lia Bool.
From Verif Require Import Star Arr CReal SliceSpec SliceProofs FourierModel FourierSpec FourierProofs FourierFacts PyModel PySpec PyLists PyAct PyFourier PyTrajModel PyTrajSpec.
Import ListNotations.
Local Open Scope nat_scope.
Add Ring KPD : (k_ring CR).

Lemma replaced_app_l p v y z : p < length y -> replaced p v (y ++ z) = replaced p v y ++ z.
Proof. revert p. induction y as [|a y IH]; intros p H; cbn in H; [lia|]. destruct p as [|p]; cbn; [reflexivity|]. rewrite IH by lia. reflexivity. Qed.
Lemma replaced_app_r p v y z : replaced (length y + p) v (y ++ z) = y ++ replaced p v z.
Proof. induction y as [|a y IH]; cbn; [reflexivity|]. now rewrite IH. Qed.
Lemma wave_sym N m j : wave N 1 m j = wave N 1 j m.
Proof. unfold wave, gridK, gridX. do 2 f_equal. f_equal. unfold Rdiv. ring. Qed.
Lemma replaced_inr sh y p j : inr sh y -> j < nth p sh 0 -> inr sh (replaced p j y).
Proof. intros H. revert p. induction H as [|a b y sh Ha Hf IH]; intros p Hj; [destruct p; constructor|]. destruct p as [|p]; cbn in *; constructor; auto. now apply IH. Qed.
Lemma inr_apps s1 s2 y z : inr s1 y -> inr s2 z -> inr (s1 ++ s2) (y ++ z).
Proof. intros H1 H2. induction H1; cbn; [exact H2|]. constructor; auto. Qed.

Section Dyads.
Variable sh : list nat.
Definition agrees (f : list nat -> CR) (l : dyads) : Prop := forall y z, inr sh y -> inr sh z -> f (y ++ z) = ksum (fun e => kmul (fst e y) (kconj (snd e z))) l.
Lemma swap_in (g : nat -> CR) (h : nat -> (list nat -> CR) * (list nat -> CR) -> CR) N l : ksum (fun j => kmul (g j) (ksum (h j) l)) (seq 0 N) = ksum (fun e => ksum (fun j => kmul (g j) (h j e)) (seq 0 N)) l.
Proof. rewrite ksum_swap. apply ksum_ext. intros j _. now rewrite ksum_scal_l. Qed.
(** one transformation of the first indices *)
Lemma low_step (w : nat -> nat -> nat -> CR) f l p : agrees f l -> p < length sh ->
  agrees (fun x => ksum (fun j => kmul (w (nth p (sh ++ sh) 0) (nth p x 0) j) (f (replaced p j x))) (seq 0 (nth p (sh ++ sh) 0)))
    (map (fun e => ((fun y => ksum (fun j => kmul (w (nth p sh 0) (nth p y 0) j) (fst e (replaced p j y))) (seq 0 (nth p sh 0))), snd e)) l).
Proof.
  intros A Hp y z Hy Hz. assert (Ly := inr_length _ _ Hy). rewrite ksum_map. cbn [fst snd]. rewrite !app_nth1 by lia.
  transitivity (ksum (fun j => kmul (w (nth p sh 0) (nth p y 0) j) (ksum (fun e => kmul (fst e (replaced p j y)) (kconj (snd e z))) l)) (seq 0 (nth p sh 0))).
  { apply ksum_ext. intros j Hj. apply in_seq in Hj. f_equal. rewrite replaced_app_l by lia. apply A; auto. apply replaced_inr; auto. lia. }
  rewrite swap_in. apply ksum_ext. intros e _. rewrite <- ksum_scal_r. apply ksum_ext. intros; ring.
Qed.
Lemma high_step (w : nat -> nat -> nat -> CR) f l p : agrees f l -> p < length sh ->
  agrees (fun x => ksum (fun j => kmul (w (nth (length sh + p) (sh ++ sh) 0) (nth (length sh + p) x 0) j) (f (replaced (length sh + p) j x))) (seq 0 (nth (length sh + p) (sh ++ sh) 0)))
    (map (fun e => (fst e, (fun z => ksum (fun j => kmul (kconj (w (nth p sh 0) (nth p z 0) j)) (snd e (replaced p j z))) (seq 0 (nth p sh 0))))) l).
Proof.
  intros A Hp y z Hy Hz. assert (Ly := inr_length _ _ Hy). rewrite ksum_map. cbn [fst snd].
  rewrite !(app_nth2 sh) by lia. rewrite app_nth2 by lia. rewrite Ly. replace (length sh + p - length sh) with p by lia.
  transitivity (ksum (fun j => kmul (w (nth p sh 0) (nth p z 0) j) (ksum (fun e => kmul (fst e y) (kconj (snd e (replaced p j z)))) l)) (seq 0 (nth p sh 0))).
  { apply ksum_ext. intros j Hj. apply in_seq in Hj. f_equal. rewrite <- Ly, replaced_app_r. apply A; auto. apply replaced_inr; auto. lia. }
  rewrite swap_in. apply ksum_ext. intros e _. rewrite ksum_conj, <- ksum_scal_l. apply ksum_ext. intros j _. rewrite kconj_mul, kconj_invol. ring.
Qed.
End Dyads.
From Coq Require Import FunctionalExtensionality.
Section Folds.
Variable sh : list nat.
Definition inside (axes : list nat) : Prop := forall p, In p axes -> p < length sh.
Lemma inside_cons p axes : inside (p :: axes) -> p < length sh /\ inside axes.
Proof. intros H. split; [apply H; now left|]. intros q Hq. apply H. now right. Qed.
Lemma low_momentum axes : forall f l, agrees sh f l -> inside axes ->
  agrees sh (fold_left (momentum_in (sh ++ sh)) axes f) (map (fun e => (fold_left (momentum_in sh) axes (fst e), snd e)) l).
Proof.
  induction axes as [|p axes IH]; intros f l A H; cbn [fold_left].
  - replace (map _ l) with l; [exact A|]. rewrite <- (map_id l) at 1. apply map_ext. now intros [].
  - destruct (inside_cons _ _ H) as [Hp H']. pose proof (IH _ _ (low_step sh (fun N k j => kconj (wave N 1 k j)) f l p A Hp) H') as X. rewrite map_map in X. exact X.
Qed.
Lemma low_position axes : forall f l, agrees sh f l -> inside axes ->
  agrees sh (fold_left (position_in (sh ++ sh)) axes f) (map (fun e => (fold_left (position_in sh) axes (fst e), snd e)) l).
Proof.
  induction axes as [|p axes IH]; intros f l A H; cbn [fold_left].
  - replace (map _ l) with l; [exact A|]. rewrite <- (map_id l) at 1. apply map_ext. now intros [].
  - destruct (inside_cons _ _ H) as [Hp H']. pose proof (IH _ _ (low_step sh (fun N k j => wave N 1 j k) f l p A Hp) H') as X. rewrite map_map in X. exact X.
Qed.
Lemma high_position axes : forall f l, agrees sh f l -> inside axes ->
  agrees sh (fold_left (position_in (sh ++ sh)) (map (fun p => length sh + p) axes) f) (map (fun e => (fst e, fold_left (momentum_in sh) axes (snd e))) l).
Proof.
  induction axes as [|p axes IH]; intros f l A H; cbn [map fold_left].
  - replace (map _ l) with l; [exact A|]. rewrite <- (map_id l) at 1. apply map_ext. now intros [].
  - destruct (inside_cons _ _ H) as [Hp H']. pose proof (IH _ _ (high_step sh (fun N k j => wave N 1 j k) f l p A Hp) H') as X. rewrite map_map in X.
    intros y z Hy Hz. etransitivity; [apply (X y z Hy Hz)|]. rewrite !ksum_map. apply ksum_ext. intros e _. cbn [fst snd]. do 4 f_equal.
    apply functional_extensionality. intros z'. unfold momentum_in, to_momentum. apply ksum_ext. intros j _. now rewrite wave_sym.
Qed.
Lemma high_momentum axes : forall f l, agrees sh f l -> inside axes ->
  agrees sh (fold_left (momentum_in (sh ++ sh)) (map (fun p => length sh + p) axes) f) (map (fun e => (fst e, fold_left (position_in sh) axes (snd e))) l).
Proof.
  induction axes as [|p axes IH]; intros f l A H; cbn [map fold_left].
  - replace (map _ l) with l; [exact A|]. rewrite <- (map_id l) at 1. apply map_ext. now intros [].
  - destruct (inside_cons _ _ H) as [Hp H']. pose proof (IH _ _ (high_step sh (fun N k j => kconj (wave N 1 k j)) f l p A Hp) H') as X. rewrite map_map in X.
    intros y z Hy Hz. etransitivity; [apply (X y z Hy Hz)|]. rewrite !ksum_map. apply ksum_ext. intros e _. cbn [fst snd]. do 4 f_equal.
    apply functional_extensionality. intros z'. unfold position_in, to_position. apply ksum_ext. intros j _. rewrite kconj_invol. now rewrite wave_sym.
Qed.
End Folds.
Lemma density_fft sh r l axes : is_dyads sh r l -> evenAxes sh axes ->
  is_dyads sh (densityFft r axes) (each (to_momentum_space sh axes) l) /\ is_dyads sh (densityIfft r axes) (each (to_position_space sh axes) l).
Proof.
  intros [S A] [N H]. assert (Hi : inside sh axes) by (intros p Hp; now apply H). assert (Hn : ndim r / 2 = length sh) by (unfold ndim; rewrite S, app_length; replace (length sh + length sh) with (length sh * 2) by lia; apply Nat.div_mul; lia).
  unfold densityFft, densityIfft, upperAxes. rewrite Hn. set (up := map (fun p => length sh + p) axes).
  assert (W : forall a, shape a = sh ++ sh -> within axes a /\ within up a).
  { intros a Sa. split; intros p Hp; unfold ndim; rewrite Sa, app_length; [apply H in Hp; lia|]. apply in_map_iff in Hp as (q & <- & Hq). apply H in Hq. lia. }
  assert (E1 : forall a, shape a = sh ++ sh -> forall p, In p axes -> 0 < nth p (shape a) 0 /\ Nat.even (nth p (shape a) 0) = true).
  { intros a Sa p Hp. apply H in Hp as (Hp & E). now rewrite Sa, app_nth1. }
  assert (E2 : forall a, shape a = sh ++ sh -> forall p, In p up -> 0 < nth p (shape a) 0 /\ Nat.even (nth p (shape a) 0) = true).
  { intros a Sa p Hp. apply in_map_iff in Hp as (q & <- & Hq). apply H in Hq as (Hq & E). rewrite Sa, app_nth2 by lia. now replace (length sh + q - length sh) with q by lia. }
  assert (N2 : NoDup up) by (apply NoDup_map_inj; auto; intros; lia).
  assert (R : forall a (g : list nat -> CR) m, (forall y, inr (sh ++ sh) y -> elem a y = g y) -> agrees sh g m -> agrees sh (elem a) m).
  { intros a g m X Y y z Hy Hz. rewrite X by now apply inr_apps. now apply Y. }
  split.
  - destruct (fft_value r axes N (proj1 (W r S)) (E1 r S)) as (S1 & _ & V1). change (fftHelper r axes false) with (pyfft r axes). rewrite S in S1.
    destruct (fft_value (pyfft r axes) up N2 (proj2 (W _ S1)) (E2 _ S1)) as (_ & S2 & V2). change (fftHelper (pyfft r axes) up true) with (pyifft (pyfft r axes) up). rewrite S1 in S2.
    split; [exact S2|]. change (agrees sh (elem (pyifft (pyfft r axes) up)) (each (to_momentum_space sh axes) l)).
    assert (A1 : agrees sh (elem (pyfft r axes)) (map (fun e => (fold_left (momentum_in sh) axes (fst e), snd e)) l)).
    { eapply R; [|apply (low_momentum sh axes (elem r) l A Hi)]. intros y Hy. rewrite <- S. apply V1. now rewrite S. }
    pose proof (high_position sh axes _ _ A1 Hi) as A2. rewrite map_map in A2. eapply R; [|exact A2]. intros y Hy. rewrite <- S1. apply V2. now rewrite S1.
  - destruct (fft_value r axes N (proj1 (W r S)) (E1 r S)) as (_ & S1 & V1). change (fftHelper r axes true) with (pyifft r axes). rewrite S in S1.
    destruct (fft_value (pyifft r axes) up N2 (proj2 (W _ S1)) (E2 _ S1)) as (S2 & _ & V2). change (fftHelper (pyifft r axes) up false) with (pyfft (pyifft r axes) up). rewrite S1 in S2.
    split; [exact S2|]. change (agrees sh (elem (pyfft (pyifft r axes) up)) (each (to_position_space sh axes) l)).
    assert (A1 : agrees sh (elem (pyifft r axes)) (map (fun e => (fold_left (position_in sh) axes (fst e), snd e)) l)).
    { eapply R; [|apply (low_position sh axes (elem r) l A Hi)]. intros y Hy. rewrite <- S. apply V1. now rewrite S. }
    pose proof (high_momentum sh axes _ _ A1 Hi) as A2. rewrite map_map in A2. eapply R; [|exact A2]. intros y Hy. rewrite <- S1. apply V2. now rewrite S1.
Qed.
Lemma fold_position_ext sh axes : (forall p, In p axes -> p < length sh) -> forall f g, (forall y, inr sh y -> f y = g y) -> forall y, inr sh y -> fold_left (position_in sh) axes f y = fold_left (position_in sh) axes g y.
Proof.
  induction axes as [|p axes IH]; intros H f g E y Hy; cbn [fold_left]; [now apply E|]. apply IH; auto; [intros q Hq; apply H; now right|].
  intros x Hx. unfold position_in, to_position. apply ksum_ext. intros j Hj. apply in_seq in Hj. f_equal. apply E. apply replaced_inr; auto. lia.
Qed.
Lemma binary_even sh axes : binaryAxes sh axes -> evenAxes sh axes.
Proof. intros [N H]. split; [exact N|]. intros p Hp. destruct (H p Hp) as (L & fin & F & ->). split; [exact L|]. apply power_even. lia. Qed.
Lemma there_and_back sh axes psi : binaryAxes sh axes -> forall y, inr sh y -> to_position_space sh axes (to_momentum_space sh axes psi) y = psi y.
Proof.
  intros H y Hy. destruct (binary_even _ _ H) as [N He]. destruct H as [_ H].
  assert (W : forall a, shape a = sh -> within axes a) by (intros a E p Hp; unfold ndim; rewrite E; now apply H).
  assert (Hi : forall p, In p axes -> p < length sh) by (intros p Hp; now apply H).
  assert (Ev : forall a, shape a = sh -> forall p, In p axes -> 0 < nth p (shape a) 0 /\ Nat.even (nth p (shape a) 0) = true) by (intros a E p Hp; rewrite E; now apply He).
  set (sv := mkArr sh psi). rewrite <- (fft_back sv axes N (W sv eq_refl) (fun p Hp => proj2 (H p Hp)) y Hy : _ = psi y).
  destruct (fft_value sv axes N (W sv eq_refl) (Ev sv eq_refl)) as (S1 & _ & V1). cbn [shape sv] in S1.
  destruct (fft_value (pyfft sv axes) axes N (W _ S1) (Ev _ S1)) as (_ & _ & V2). rewrite S1 in V2. rewrite (proj2 (V2 y Hy)). apply fold_position_ext; auto. intros x Hx. symmetry. now apply V1.
Qed.
Lemma every_dyads sh r : shape r = sh ++ sh -> exists l, is_dyads sh r l.
Proof.
  intros S. exists (map (fun b => ((fun y => elem r (y ++ b)), (fun z => if listnat_eqb z b then k1 else k0))) (indices sh)). split; [exact S|]. intros y z Hy Hz. rewrite ksum_map. cbn [fst snd].
  change (elem r (y ++ z) = isum sh (fun b => kmul (elem r (y ++ b)) (kconj (if listnat_eqb z b then k1 else k0)))). symmetry.
  rewrite (isum_single sh _ z); auto.
  - destruct (listnat_eqb_spec z z); [rewrite kconj_1; ring|contradiction].
  - intros b _ Hb. destruct (listnat_eqb_spec z b); [congruence|]. rewrite kconj_0. ring.
Qed.
Lemma density_back sh r axes : shape r = sh ++ sh -> binaryAxes sh axes ->
  shape (densityIfft (densityFft r axes) axes) = shape r /\ forall y z, inr sh y -> inr sh z -> elem (densityIfft (densityFft r axes) axes) (y ++ z) = elem r (y ++ z).
Proof.
  intros S H. destruct (every_dyads sh r S) as (l & Hl). destruct (density_fft sh r l axes Hl (binary_even _ _ H)) as (F & _). destruct (density_fft sh _ _ axes F (binary_even _ _ H)) as (_ & [S2 A2]).
  split; [congruence|]. intros y z Hy Hz. rewrite A2 by auto. destruct Hl as [_ Al]. rewrite Al by auto. unfold each. rewrite !ksum_map. apply ksum_ext. intros e _. cbn [fst snd]. rewrite !(there_and_back sh axes _ H) by auto. reflexivity.
Qed.
