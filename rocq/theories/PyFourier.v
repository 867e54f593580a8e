(** QuantumState._fft_helper and the initial conditions of particles. *)
From Coq Require Import List Arith ZArith Reals Lra Lia Bool Sorted Permutation.
From Verif Require Import Star Arr CReal PureModel SliceSpec SliceProofs FourierModel FourierSpec FourierProofs FourierFacts PacketProofs PyModel PySpec PyLists PyAct.
Import ListNotations.
Local Open Scope nat_scope.
Add Ring KPF : (k_ring CR).

Lemma ph_Z z : ph (2 * PI * IZR z) = k1.
Proof.
  destruct (Z_le_gt_dec 0 z) as [H|H].
  - rewrite <- (Z2Nat.id z H), <- INR_IZR_INZ. apply ph_2pi.
  - replace (2 * PI * IZR z)%R with (- (2 * PI * INR (Z.to_nat (- z))))%R.
    + rewrite <- ph_conj, ph_2pi. apply kconj_1.
    + rewrite INR_IZR_INZ, Z2Nat.id by lia. rewrite opp_IZR. ring.
Qed.
(** rotation of the points *)
Lemma rotated n h : h <= n -> Permutation (map (fun j => (j + h) mod n) (seq 0 n)) (seq 0 n).
Proof.
  intros H. destruct (Nat.eq_dec n 0) as [->|N]; [reflexivity|]. apply NoDup_Permutation_bis.
  - apply NoDup_map_inj; [|apply seq_NoDup]. intros a b Ha Hb E. apply in_seq in Ha, Hb.
    pose proof (Nat.div_mod (a + h) n N). pose proof (Nat.div_mod (b + h) n N). rewrite E in H0.
    set (x := (b + h) mod n) in *. assert (Q1 : (a + h) / n < 2) by (apply Nat.div_lt_upper_bound; lia). assert (Q2 : (b + h) / n < 2) by (apply Nat.div_lt_upper_bound; lia).
    destruct ((a + h) / n) as [|[|]], ((b + h) / n) as [|[|]]; lia.
  - rewrite map_length, !seq_length. lia.
  - intros x Hx. apply in_map_iff in Hx. destruct Hx as (j & <- & _). apply in_seq. pose proof (Nat.mod_upper_bound (j + h) n N). lia.
Qed.
(** what shift, transform and shift are together *)
Definition centred (sign : R) (n : nat) (psi : line) : line :=
  fun k => ksum (fun j => kmul (psi j) (ph (sign * (2 * PI * (INR j - INR (n / 2)) * (INR k - INR (n / 2)) / INR n)))) (seq 0 n).
Lemma shifted_phase sign n j k : (sign = 1 \/ sign = -1)%R -> j < n -> k < n ->
  ph (sign * (2 * PI * INR j * INR ((k + (n - n / 2)) mod n) / INR n)) =
  ph (sign * (2 * PI * (INR ((j + n / 2) mod n) - INR (n / 2)) * (INR k - INR (n / 2)) / INR n)).
Proof.
  intros Hs Hj Hk. assert (N : n <> 0) by lia. assert (Hh : n / 2 <= n) by (apply Nat.div_le_upper_bound; lia). set (h := n / 2) in *.
  pose proof (Nat.div_mod (j + h) n N) as E1. pose proof (Nat.div_mod (k + (n - h)) n N) as E2.
  set (j' := (j + h) mod n) in *. set (k' := (k + (n - h)) mod n) in *. set (a := (j + h) / n) in *. set (b := (k + (n - h)) / n) in *.
  assert (F1 : (INR j = INR j' - INR h + INR n * INR a)%R). { rewrite <- mult_INR. assert (INR (j + h) = INR (n * a + j'))%R by now rewrite E1. rewrite !plus_INR in H. lra. }
  assert (F2 : (INR k' = INR k - INR h + INR n * (1 - INR b))%R).
  { assert (INR (k + (n - h)) = INR (n * b + k'))%R by now rewrite E2. rewrite !plus_INR, minus_INR, mult_INR in H by auto. lra. }
  assert (Nz : INR n <> 0%R) by (apply not_0_INR; auto).
  set (J := (Z.of_nat j' - Z.of_nat h)%Z). set (K := (Z.of_nat k - Z.of_nat h)%Z).
  set (z := (Z.of_nat a * K + (1 - Z.of_nat b) * J + Z.of_nat n * Z.of_nat a * (1 - Z.of_nat b))%Z).
  assert (Ez : (sign * (2 * PI * INR j * INR k' / INR n) = sign * (2 * PI * (INR j' - INR h) * (INR k - INR h) / INR n) + 2 * PI * (sign * IZR z))%R).
  { rewrite F1, F2. unfold z, J, K. rewrite !plus_IZR, !mult_IZR, !minus_IZR, <- !INR_IZR_INZ. field. auto. }
  rewrite Ez, ph_add. assert (P1 : ph (2 * PI * (sign * IZR z)) = k1).
  { destruct Hs as [-> | ->]; [rewrite Rmult_1_l; apply ph_Z|]. replace (-1 * IZR z)%R with (IZR (- z)) by (rewrite opp_IZR; ring). apply ph_Z. }
  rewrite P1. ring.
Qed.
Lemma shift_transform sign n psi k : (sign = 1 \/ sign = -1)%R -> k < n -> fftshift n (dft sign n (ifftshift n psi)) k = centred sign n psi k.
Proof.
  intros Hs Hk. assert (Hh : n / 2 <= n) by (apply Nat.div_le_upper_bound; lia). unfold fftshift, dft, ifftshift, centred.
  etransitivity; [|apply (ksum_perm _ _ _ (rotated n (n / 2) Hh))]. rewrite ksum_map. apply ksum_ext. intros j Hj. apply in_seq in Hj. f_equal. apply (shifted_phase sign n j k); auto. lia.
Qed.

(** linear transformations along axes *)
Definition linear (T : nat -> line -> line) : Prop := exists ker, forall n psi k, k < n -> T n psi k = ksum (fun j => kmul (ker n k j) (psi j)) (seq 0 n).
Definition aeq (a b : ndarray) : Prop := shape a = shape b /\ forall y, inr (shape a) y -> elem a y = elem b y.
Lemma aeq_refl a : aeq a a. Proof. split; auto. Qed.
Lemma aeq_trans a b c : aeq a b -> aeq b c -> aeq a c.
Proof. intros [E1 F1] [E2 F2]. split; [congruence|]. intros y Hy. rewrite F1 by auto. apply F2. now rewrite <- E1. Qed.
Lemma aeq_sym a b : aeq a b -> aeq b a.
Proof. intros [E F]. split; auto. intros y Hy. symmetry. apply F. now rewrite E. Qed.

Lemma inr_nth_lt sh y p : inr sh y -> p < length sh -> nth p y 0 < nth p sh 0.
Proof. intros H Hp. apply (inr_nth (length sh) sh eq_refl) in H. now apply H. Qed.
Lemma at_position_inr sh y p j : inr sh y -> j < nth p sh 0 -> inr sh (at_position p j y).
Proof.
  intros H. revert p. induction H as [|a b y sh Ha Hf IH]; intros p Hj; [destruct p; constructor|]. destruct p as [|p]; cbn in *; constructor; auto. now apply IH.
Qed.
Lemma at_position_twice p v w : forall y, at_position p w (at_position p v y) = at_position p w y.
Proof. revert p. intros p y; revert p. induction y as [|a y IH]; intros [|p]; cbn; auto. now rewrite IH. Qed.
Lemma at_position_comm p q v w : p <> q -> forall y, at_position p v (at_position q w y) = at_position q w (at_position p v y).
Proof. intros N y. revert p q N. induction y as [|a y IH]; intros [|p] [|q] N; cbn; auto; try contradiction. f_equal. apply IH. lia. Qed.
Lemma at_position_self : forall y p, at_position p (nth p y 0) y = y.
Proof. induction y as [|a y IH]; intros [|p]; cbn; auto. now rewrite IH. Qed.
Lemma nth_at_same p v y : p < length y -> nth p (at_position p v y) 0 = v.
Proof. intros H. rewrite at_position_nth, Nat.eqb_refl. apply Nat.ltb_lt in H. now rewrite H. Qed.
Lemma nth_at_other p q v y : p <> q -> nth p (at_position q v y) 0 = nth p y 0.
Proof. intros H. rewrite at_position_nth. destruct (Nat.eqb_spec p q); [contradiction|reflexivity]. Qed.

Lemma along_aeq p T a b : linear T -> p < ndim a -> aeq a b -> aeq (along p T a) (along p T b).
Proof.
  intros [ker L] Hp [E F]. split; [exact E|]. intros y Hy. cbn [along elem shape] in *. rewrite <- E. assert (Hy' := inr_nth_lt _ _ _ Hy Hp). rewrite !L by auto.
  apply ksum_ext. intros j Hj. apply in_seq in Hj. f_equal. apply F. apply at_position_inr; auto. lia.
Qed.
Lemma along_ext p T U a : (forall n psi k, k < n -> T n psi k = U n psi k) -> p < ndim a -> aeq (along p T a) (along p U a).
Proof. intros H Hp. split; [reflexivity|]. intros y Hy. cbn [along elem shape] in *. apply H. now apply inr_nth_lt. Qed.
Lemma along_comm p q T U a : linear T -> linear U -> p <> q -> p < ndim a -> q < ndim a -> aeq (along p T (along q U a)) (along q U (along p T a)).
Proof.
  intros [kt Lt] [ku Lu] N Hp Hq. split; [reflexivity|]. intros y Hy. cbn [along elem shape] in *. assert (Hyp := inr_nth_lt _ _ _ Hy Hp). assert (Hyq := inr_nth_lt _ _ _ Hy Hq).
  rewrite Lt, Lu by auto.
  transitivity (ksum (fun j => ksum (fun i => kmul (kt (nth p (shape a) 0) (nth p y 0) j) (kmul (ku (nth q (shape a) 0) (nth q y 0) i) (elem a (at_position q i (at_position p j y))))) (seq 0 (nth q (shape a) 0))) (seq 0 (nth p (shape a) 0))).
  { apply ksum_ext. intros j Hj. rewrite nth_at_other by auto. rewrite Lu by auto. now rewrite ksum_scal_l. }
  rewrite ksum_swap. apply ksum_ext. intros i Hi. rewrite nth_at_other by auto. rewrite Lt by auto. rewrite <- ksum_scal_l. apply ksum_ext. intros j Hj.
  rewrite (at_position_comm q p) by auto. ring.
Qed.
Lemma along_along p T U a : linear T -> linear U -> p < ndim a -> aeq (along p T (along p U a)) (along p (fun n psi => T n (U n psi)) a).
Proof.
  intros [kt Lt] [ku Lu] Hp. split; [reflexivity|]. intros y Hy. cbn [along elem shape] in *. assert (Hyp := inr_nth_lt _ _ _ Hy Hp). rewrite !Lt by auto. apply ksum_ext. intros j Hj. f_equal.
  rewrite nth_at_same by (rewrite (inr_length _ _ Hy); exact Hp). apply in_seq in Hj. rewrite !Lu by lia. apply ksum_ext. intros i _. now rewrite at_position_twice.
Qed.
Lemma alongAll_shape axes T : forall a, shape (alongAll axes T a) = shape a.
Proof. induction axes as [|p axes IH]; intros a; [reflexivity|]. unfold alongAll in *. cbn [fold_left]. now rewrite IH. Qed.

Lemma alongAll_aeq axes T : linear T -> forall a b, within axes a -> aeq a b -> aeq (alongAll axes T a) (alongAll axes T b).
Proof.
  intros L. induction axes as [|p axes IH]; intros a b W E; [exact E|]. unfold alongAll in *. cbn [fold_left]. apply IH.
  - intros q Hq. apply (W q). now right.
  - apply along_aeq; auto. apply W. now left.
Qed.
Lemma alongAll_push p axes T U : linear T -> linear U -> ~ In p axes -> forall a, p < ndim a -> within axes a -> aeq (along p T (alongAll axes U a)) (alongAll axes U (along p T a)).
Proof.
  intros LT LU. induction axes as [|q axes IH]; intros N a Hp W; [apply aeq_refl|]. unfold alongAll in *. cbn [fold_left].
  eapply aeq_trans; [apply IH|].
  - intros H. apply N. now right.
  - exact Hp.
  - intros r Hr. apply (W r). now right.
  - apply alongAll_aeq; auto; [intros r Hr; apply (W r); now right|]. apply along_comm; auto; [intros ->; apply N; now left | apply W; now left].
Qed.
Lemma linear_compose T U : linear T -> linear U -> linear (fun n psi => T n (U n psi)).
Proof.
  intros [kt Lt] [ku Lu]. exists (fun n k i => ksum (fun j => kmul (kt n k j) (ku n j i)) (seq 0 n)). intros n psi k Hk. rewrite Lt by auto.
  transitivity (ksum (fun j => ksum (fun i => kmul (kmul (kt n k j) (ku n j i)) (psi i)) (seq 0 n)) (seq 0 n)).
  - apply ksum_ext. intros j Hj. apply in_seq in Hj. rewrite Lu by lia. rewrite <- ksum_scal_l. apply ksum_ext. intros i _. ring.
  - rewrite ksum_swap. apply ksum_ext. intros i _. now rewrite ksum_scal_r.
Qed.
Lemma alongAll_compose axes T U : linear T -> linear U -> NoDup axes -> forall a, within axes a ->
  aeq (alongAll axes T (alongAll axes U a)) (alongAll axes (fun n psi => T n (U n psi)) a).
Proof.
  intros LT LU. induction axes as [|p axes IH]; intros N a W; [apply aeq_refl|]. inversion N as [|? ? Ni N']; subst.
  assert (Hp : p < ndim a) by (apply W; now left). assert (W' : within axes a) by (intros r Hr; apply (W r); now right).
  change (aeq (alongAll axes T (along p T (alongAll axes U (along p U a)))) (alongAll axes (fun n psi => T n (U n psi)) (along p (fun n psi => T n (U n psi)) a))).
  eapply aeq_trans.
  { apply alongAll_aeq; auto; [|apply (alongAll_push p axes T U LT LU Ni (along p U a)); auto].
    intros r Hr. unfold ndim. cbn [along shape]. rewrite alongAll_shape. cbn [along shape]. now apply W'. }
  eapply aeq_trans; [apply (IH N' (along p T (along p U a))); exact W'|].
  apply alongAll_aeq; [now apply linear_compose|exact W'|]. now apply along_along.
Qed.
Lemma alongAll_ext axes T U : linear T -> (forall n psi k, k < n -> T n psi k = U n psi k) -> forall a, within axes a -> aeq (alongAll axes T a) (alongAll axes U a).
Proof.
  intros L E. assert (LU : linear U) by (destruct L as [k L]; exists k; intros; rewrite <- E by auto; now apply L).
  induction axes as [|p axes IH]; intros a W; [apply aeq_refl|]. change (aeq (alongAll axes T (along p T a)) (alongAll axes U (along p U a))).
  assert (W' : within axes a) by (intros r Hr; apply (W r); now right).
  eapply aeq_trans; [apply IH; exact W'|]. apply alongAll_aeq; auto. apply along_ext; auto. apply W. now left.
Qed.
(** equality at the sizes that occur only *)
Lemma alongAll_ext_at axes T U : linear T -> linear U -> forall a, within axes a -> (forall p psi k, In p axes -> k < nth p (shape a) 0 -> T (nth p (shape a) 0) psi k = U (nth p (shape a) 0) psi k) ->
  aeq (alongAll axes T a) (alongAll axes U a).
Proof.
  intros LT LU. induction axes as [|p axes IH]; intros a W E; [apply aeq_refl|]. change (aeq (alongAll axes T (along p T a)) (alongAll axes U (along p U a))).
  assert (W' : within axes a) by (intros r Hr; apply (W r); now right). assert (Hp : p < ndim a) by (apply W; now left).
  eapply aeq_trans; [apply IH; [exact W'|]|].
  - intros q psi k Hq Hk. apply E; auto. now right.
  - apply alongAll_aeq; auto. split; [reflexivity|]. intros y Hy. cbn [along elem shape] in *. apply E; [now left|]. now apply inr_nth_lt.
Qed.

Lemma shift_linear (s : nat -> nat) : linear (fun n psi k => psi ((k + s n) mod n)).
Proof.
  exists (fun n k j => if j =? (k + s n) mod n then k1 else k0). intros n psi k Hk. symmetry. apply (ksum_pick psi ((k + s n) mod n) n). apply Nat.mod_upper_bound. lia.
Qed.
Lemma dft_linear sign : linear (dft sign).
Proof. exists (fun n k j => cexp ((0%R, (sign * (2 * PI * INR j * INR k / INR n))%R) : CR)). intros n psi k _. unfold dft. apply ksum_ext. intros; ring. Qed.
Lemma scaled_linear (c : nat -> CR) T : linear T -> linear (fun n psi k => kmul (c n) (T n psi k)).
Proof. intros [k L]. exists (fun n i j => kmul (c n) (k n i j)). intros n psi i Hi. rewrite L by auto. rewrite <- ksum_scal_l. apply ksum_ext. intros; ring. Qed.
Lemma ifft1_linear : linear ifft1. Proof. apply (scaled_linear (fun n => RC (/ INR n))), dft_linear. Qed.
Lemma fftshift_linear : linear fftshift. Proof. apply (shift_linear (fun n => n - n / 2)). Qed.
Lemma ifftshift_linear : linear ifftshift. Proof. apply (shift_linear (fun n => n / 2)). Qed.
Lemma centred_linear sign : linear (centred sign).
Proof. exists (fun n k j => ph (sign * (2 * PI * (INR j - INR (n / 2)) * (INR k - INR (n / 2)) / INR n))). intros n psi k _. unfold centred. apply ksum_ext. intros; ring. Qed.

(** factors *)
Lemma along_scale p T c a : linear T -> p < ndim a -> aeq (along p T (scale c a)) (scale c (along p T a)).
Proof.
  intros [ker L] Hp. split; [reflexivity|]. intros y Hy. cbn [along scale elem shape] in *. assert (Hy' := inr_nth_lt _ _ _ Hy Hp). rewrite !L by auto. rewrite <- ksum_scal_l. apply ksum_ext. intros; ring.
Qed.
Lemma scale_aeq c a b : aeq a b -> aeq (scale c a) (scale c b).
Proof. intros [E F]. split; [exact E|]. intros y Hy. cbn in *. now rewrite F. Qed.
Lemma alongAll_scale axes T c : linear T -> forall a, within axes a -> aeq (alongAll axes T (scale c a)) (scale c (alongAll axes T a)).
Proof.
  intros L. induction axes as [|p axes IH]; intros a W; [apply aeq_refl|]. change (aeq (alongAll axes T (along p T (scale c a))) (scale c (alongAll axes T (along p T a)))).
  assert (W' : within axes a) by (intros r Hr; apply (W r); now right). assert (Hp : p < ndim a) by (apply W; now left).
  eapply aeq_trans; [apply alongAll_aeq; [auto|exact W'|now apply along_scale]|]. apply IH. exact W'.
Qed.
Definition cprod (c : nat -> CR) (l : list nat) : CR := fold_right (fun n z => kmul (c n) z) k1 l.
Lemma alongAll_factors axes T (c : nat -> CR) : linear T -> forall a, within axes a ->
  aeq (alongAll axes (fun n psi k => kmul (c n) (T n psi k)) a) (scale (cprod c (map (fun p => nth p (shape a) 0) axes)) (alongAll axes T a)).
Proof.
  intros L. induction axes as [|p axes IH]; intros a W.
  - split; [reflexivity|]. intros y _. cbn. apply cr_eq; cbn; ring.
  - assert (W' : within axes a) by (intros r Hr; apply (W r); now right). assert (Hp : p < ndim a) by (apply W; now left).
    set (T' := fun n psi k => kmul (c n) (T n psi k)) in *. change (aeq (alongAll axes T' (along p T' a)) (scale (cprod c (map (fun p => nth p (shape a) 0) (p :: axes))) (alongAll axes T (along p T a)))).
    eapply aeq_trans; [apply IH; exact W'|]. cbn [map along shape]. set (l := map (fun p => nth p (shape a) 0) axes).
    eapply aeq_trans; [apply scale_aeq; apply (alongAll_scale axes T (c (nth p (shape a) 0)) L (along p T a) W')|].
    split; [reflexivity|]. intros y _. cbn [scale elem]. unfold cprod. cbn [fold_right]. ring.
Qed.

Lemma helper_compose axes T a : linear T -> NoDup axes -> within axes a ->
  aeq (alongAll axes fftshift (alongAll axes T (alongAll axes ifftshift a))) (alongAll axes (fun n psi => fftshift n (T n (ifftshift n psi))) a).
Proof.
  intros L N W. pose proof fftshift_linear as L1. pose proof ifftshift_linear as L2.
  eapply aeq_trans.
  { apply alongAll_aeq; auto; [|apply (alongAll_compose axes T ifftshift L L2 N a W)]. intros p Hp. unfold ndim. rewrite !alongAll_shape. now apply W. }
  apply (alongAll_compose axes fftshift (fun n psi => T n (ifftshift n psi))); auto. now apply linear_compose.
Qed.
Lemma sqrt_prod l : (forall n, In n l -> 0 < n) -> cprod (fun n => RC (/ sqrt (INR n))) l = RC (/ sqrt (INR (fold_right Nat.mul 1 l))).
Proof.
  induction l as [|n l IH]; intros H; [unfold cprod; cbn [fold_right]; change (INR 1) with 1%R; rewrite sqrt_1, Rinv_1; reflexivity|]. unfold cprod. cbn [fold_right]. fold (cprod (fun n => RC (/ sqrt (INR n))) l).
  rewrite IH by (intros; apply H; now right). rewrite RC_mul. f_equal. rewrite mult_INR, sqrt_mult_alt by apply pos_INR. now rewrite Rinv_mult.
Qed.
(** with even sizes *)
Lemma even_half n : Nat.even n = true -> (INR n / 2 = INR (n / 2))%R.
Proof.
  intros H. apply Nat.even_spec in H. destruct H as [m ->]. rewrite (Nat.mul_comm 2 m), Nat.div_mul by lia. rewrite mult_INR. cbn [INR]. field.
Qed.
Lemma centred_momentum n psi k : 0 < n -> Nat.even n = true -> kmul (RC (/ sqrt (INR n))) (centred (-1) n psi k) = to_momentum n 1 psi k.
Proof.
  intros Hn He. unfold centred, to_momentum. rewrite <- ksum_scal_l. apply ksum_ext. intros j _. unfold wave. rewrite kconj_mul, RC_conj. fold (ph (gridK n 1 k * gridX n 1 j)). rewrite ph_conj.
  unfold gridK, gridX. rewrite even_half by auto. replace (- (1 * (INR k - INR (n / 2)) * (2 * PI / (1 * INR n) * (INR j - INR (n / 2)))))%R with (-1 * (2 * PI * (INR j - INR (n / 2)) * (INR k - INR (n / 2)) / INR n))%R; [ring|].
  field. apply not_0_INR. lia.
Qed.
Lemma centred_position n psi k : 0 < n -> Nat.even n = true -> kmul (RC (/ sqrt (INR n))) (centred 1 n psi k) = to_position n 1 psi k.
Proof.
  intros Hn He. unfold centred, to_position. rewrite <- ksum_scal_l. apply ksum_ext. intros j _. unfold wave. fold (ph (gridK n 1 j * gridX n 1 k)).
  unfold gridK, gridX. rewrite even_half by auto. replace (1 * (INR j - INR (n / 2)) * (2 * PI / (1 * INR n) * (INR k - INR (n / 2))))%R with (1 * (2 * PI * (INR j - INR (n / 2)) * (INR k - INR (n / 2)) / INR n))%R; [ring|].
  field. apply not_0_INR. lia.
Qed.
Lemma to_momentum_linear : linear (fun n => to_momentum n 1).
Proof. exists (fun n k j => kconj (wave n 1 k j)). reflexivity. Qed.
Lemma to_position_linear : linear (fun n => to_position n 1).
Proof. exists (fun n k j => wave n 1 j k). reflexivity. Qed.

Lemma pyfft_along sv axes : NoDup axes -> within axes sv -> (forall p, In p axes -> 0 < nth p (shape sv) 0 /\ Nat.even (nth p (shape sv) 0) = true) ->
  aeq (pyfft sv axes) (alongAll axes (fun n => to_momentum n 1) sv) /\ aeq (pyifft sv axes) (alongAll axes (fun n => to_position n 1) sv).
Proof.
  intros N W H.
  assert (Hl : forall n, In n (map (fun p => nth p (shape sv) 0) axes) -> 0 < n) by (intros n Hn; apply in_map_iff in Hn; destruct Hn as (p & <- & Hp); now apply H).
  assert (A : forall sign T, (sign = 1 \/ sign = -1)%R -> linear T -> (forall p psi k, In p axes -> k < nth p (shape sv) 0 -> kmul (RC (/ sqrt (INR (nth p (shape sv) 0)))) (centred sign (nth p (shape sv) 0) psi k) = T (nth p (shape sv) 0) psi k) ->
    aeq (scale (RC (/ sqrt (INR (fold_right Nat.mul 1 (map (fun p => nth p (shape sv) 0) axes))))) (alongAll axes (centred sign) sv)) (alongAll axes T sv)).
  { intros sign T Hs LT E. rewrite <- sqrt_prod by auto. eapply aeq_trans; [apply aeq_sym; apply (alongAll_factors axes (centred sign) (fun n => RC (/ sqrt (INR n))) (centred_linear sign) sv W)|].
    apply alongAll_ext_at; auto. apply (scaled_linear (fun n => RC (/ sqrt (INR n)))), centred_linear. }
  assert (F : forall sign, (sign = 1 \/ sign = -1)%R -> aeq (alongAll axes fftshift (alongAll axes (dft sign) (alongAll axes ifftshift sv))) (alongAll axes (centred sign) sv)).
  { intros sign Hs. eapply aeq_trans; [apply helper_compose; auto; apply dft_linear|]. apply alongAll_ext; auto.
    - apply (linear_compose fftshift (fun n psi => dft sign n (ifftshift n psi))); [apply fftshift_linear|]. apply linear_compose; [apply dft_linear|apply ifftshift_linear].
    - intros n psi k Hk. now apply shift_transform. }
  split; unfold pyfft, pyifft, fftHelper.
  - eapply aeq_trans; [apply scale_aeq; apply (F (-1)%R); auto|]. apply A; [auto|apply to_momentum_linear|]. intros p psi k Hp Hk. destruct (H p Hp). now apply centred_momentum.
  - set (P := fold_right Nat.mul 1 (map (fun p => nth p (shape sv) 0) axes)).
    assert (Pp : (0 < INR P)%R).
    { apply lt_0_INR. unfold P. clear -Hl. induction (map (fun p => nth p (shape sv) 0) axes) as [|n l IH]; cbn; [lia|]. assert (0 < n) by (apply Hl; now left). assert (0 < fold_right Nat.mul 1 l) by (apply IH; intros; apply Hl; now right). nia. }
    assert (B : aeq (alongAll axes fftshift (alongAll axes ifft1 (alongAll axes ifftshift sv))) (scale (RC (/ INR P)) (alongAll axes (centred 1) sv))).
    { eapply aeq_trans.
      { apply alongAll_aeq; [apply fftshift_linear| |apply (alongAll_factors axes (dft 1) (fun n => RC (/ INR n)) (dft_linear 1) (alongAll axes ifftshift sv))].
        - intros p Hp. unfold ndim. rewrite !alongAll_shape. now apply W.
        - intros p Hp. unfold ndim. rewrite alongAll_shape. now apply W. }
      eapply aeq_trans; [apply alongAll_scale; [apply fftshift_linear|]; intros p Hp; unfold ndim; rewrite !alongAll_shape; now apply W|].
      rewrite alongAll_shape. replace (cprod (fun n => RC (/ INR n)) (map (fun p => nth p (shape sv) 0) axes)) with (RC (/ INR P)).
      - apply scale_aeq. apply F. auto.
      - unfold P. clear -Hl. induction (map (fun p => nth p (shape sv) 0) axes) as [|n l IH]; [cbn; now rewrite Rinv_1|]. unfold cprod in *. cbn [fold_right]. rewrite <- IH by (intros; apply Hl; now right).
        rewrite RC_mul, mult_INR, Rinv_mult. reflexivity. }
    eapply aeq_trans; [apply scale_aeq; exact B|]. eapply aeq_trans; [|apply (A 1%R (fun n => to_position n 1)); [auto|apply to_position_linear|]].
    + split; [reflexivity|]. intros y _. cbn [scale elem]. fold P. transitivity (kmul (kmul (RC (sqrt (INR P))) (RC (/ INR P))) (elem (alongAll axes (centred 1) sv) y)); [ring|]. f_equal. rewrite RC_mul. f_equal.
      rewrite <- (sqrt_sqrt (INR P)) at 2 by lra. assert (0 < sqrt (INR P))%R by now apply sqrt_lt_R0. field. lra.
    + intros p psi k Hp Hk. destruct (H p Hp). now apply centred_position.
Qed.

(** in terms of the indices *)
Lemma fold_along (T : nat -> line -> line) sh : forall axes f y, elem (alongAll axes T (mkArr sh f)) y = fold_left (fun g p => fun z => T (nth p sh 0) (fun v => g (replaced p v z)) (nth p z 0)) axes f y.
Proof.
  induction axes as [|p axes IH]; intros f y; [reflexivity|]. change (alongAll (p :: axes) T (mkArr sh f)) with (alongAll axes T (along p T (mkArr sh f))). cbn [fold_left].
  unfold along at 1. cbn [shape elem]. rewrite IH.
  reflexivity.
Qed.

Lemma fft_value sv axes : NoDup axes -> within axes sv -> (forall p, In p axes -> 0 < nth p (shape sv) 0 /\ Nat.even (nth p (shape sv) 0) = true) ->
  shape (pyfft sv axes) = shape sv /\ shape (pyifft sv axes) = shape sv /\ forall y, inr (shape sv) y ->
  elem (pyfft sv axes) y = fold_left (momentum_in (shape sv)) axes (elem sv) y /\ elem (pyifft sv axes) y = fold_left (position_in (shape sv)) axes (elem sv) y.
Proof.
  intros N W H. destruct (pyfft_along sv axes N W H) as [[S1 F1] [S2 F2]]. rewrite alongAll_shape in S1, S2. split; auto. split; auto. intros y Hy.
  rewrite F1 by now rewrite S1. rewrite F2 by now rewrite S2. destruct sv as [sh f]. cbn [shape elem] in *. split; apply fold_along.
Qed.
(** the same as in C++ *)
Lemma power_even fin : 1 <= fin -> 0 < 2 ^ fin /\ Nat.even (2 ^ fin) = true.
Proof. intros H. split; [apply pow2_pos|]. destruct fin as [|f]; [lia|]. cbn [Nat.pow]. rewrite Nat.even_mul. reflexivity. Qed.
Lemma ffLine_momentum fin psi k : 2 <= fin -> k < 2 ^ fin -> ffLine (2 ^ fin) psi DIR_XK k = to_momentum (2 ^ fin) 1 psi k /\ ffLine (2 ^ fin) psi DIR_KX k = to_position (2 ^ fin) 1 psi k.
Proof.
  intros Hf Hk. destruct (fin_wave fin 1 psi k one_nz Hk) as [E1 E2]. rewrite E1, E2, (common_one fin Hf). split; [ring|]. rewrite kconj_1. ring.
Qed.
Lemma fold_worker sh dir : forall axes f y, elem (alongAll axes (fun n psi => ffLine n psi dir) (mkArr sh f)) y = fold_left (fftWorkerSV sh dir) axes f y.
Proof. intros axes f y. rewrite fold_along. reflexivity. Qed.
Lemma ffLine_sum_linear dir : forall n psi phi k, (forall j, j < n -> psi j = phi j) -> k < n -> ffLine n psi dir k = ffLine n phi dir k.
Proof.
  intros n psi phi k E Hk. rewrite !ffLine_closed. destruct ((2 <=? n) && isPower2 n && (k <? n)); auto. apply ksum_ext. intros j Hj. apply in_seq in Hj. rewrite E by lia. reflexivity.
Qed.
Lemma ffLine_linear dir : linear (fun n psi => ffLine n psi dir).
Proof.
  exists (fun n k j => if (2 <=? n) && isPower2 n && (k <? n) then kernel dir n k j else if j =? k then k1 else k0). intros n psi k Hk. rewrite ffLine_closed.
  destruct ((2 <=? n) && isPower2 n && (k <? n)); [reflexivity|]. symmetry. now apply ksum_pick.
Qed.
Lemma fft_same sv axes : NoDup axes -> within axes sv -> (forall p, In p axes -> exists fin, 2 <= fin /\ nth p (shape sv) 0 = 2 ^ fin) -> exists a b,
  ffTransform (shape sv) axes (Pure (elem sv)) DIR_XK = Some (Pure a) /\ ffTransform (shape sv) axes (Pure (elem sv)) DIR_KX = Some (Pure b) /\
  forall y, inr (shape sv) y -> elem (pyfft sv axes) y = a y /\ elem (pyifft sv axes) y = b y.
Proof.
  intros N W H. unfold ffTransform. replace (forallb (fun p => transformable (nth p (shape sv) 0)) axes) with true.
  2:{ symmetry. apply forallb_forall. intros p Hp. destruct (H p Hp) as (fin & _ & ->). apply transformable_pow2. }
  do 2 eexists. do 2 (split; [reflexivity|]). assert (He : forall p, In p axes -> 0 < nth p (shape sv) 0 /\ Nat.even (nth p (shape sv) 0) = true).
  { intros p Hp. destruct (H p Hp) as (fin & Hf & ->). apply power_even. lia. }
  destruct (pyfft_along sv axes N W He) as [P1 P2].
  assert (Q1 : aeq (pyfft sv axes) (alongAll axes (fun n psi => ffLine n psi DIR_XK) sv)).
  { eapply aeq_trans; [exact P1|]. apply alongAll_ext_at; auto; [apply to_momentum_linear|apply ffLine_linear|]. intros p psi k Hp Hk. destruct (H p Hp) as (fin & Hf & E). rewrite E in *. symmetry. now apply ffLine_momentum. }
  assert (Q2 : aeq (pyifft sv axes) (alongAll axes (fun n psi => ffLine n psi DIR_KX) sv)).
  { eapply aeq_trans; [exact P2|]. apply alongAll_ext_at; auto; [apply to_position_linear|apply ffLine_linear|]. intros p psi k Hp Hk. destruct (H p Hp) as (fin & Hf & E). rewrite E in *. symmetry. now apply ffLine_momentum. }
  destruct Q1 as [S1 Q1], Q2 as [S2 Q2]. rewrite alongAll_shape in S1, S2. intros y Hy. rewrite Q1 by now rewrite S1. rewrite Q2 by now rewrite S2. destruct sv as [sh f]. split; apply fold_worker.
Qed.
(** there and back *)
Lemma along_identity axes : forall a T, linear T -> within axes a -> (forall p psi k, In p axes -> k < nth p (shape a) 0 -> T (nth p (shape a) 0) psi k = psi k) -> aeq (alongAll axes T a) a.
Proof.
  induction axes as [|p axes IH]; intros a T L W E; [apply aeq_refl|]. change (alongAll (p :: axes) T a) with (alongAll axes T (along p T a)).
  assert (W' : within axes a) by (intros r Hr; apply (W r); now right). assert (Hp : p < ndim a) by (apply W; now left).
  eapply aeq_trans; [apply (IH (along p T a)); auto; intros q psi k Hq Hk; apply E; auto; now right|].
  split; [reflexivity|]. intros y Hy. cbn [along elem shape] in *. rewrite E; [now rewrite at_position_self|now left|now apply inr_nth_lt].
Qed.
Lemma fft_back sv axes : NoDup axes -> within axes sv -> (forall p, In p axes -> exists fin, 2 <= fin /\ nth p (shape sv) 0 = 2 ^ fin) ->
  forall y, inr (shape sv) y -> elem (pyifft (pyfft sv axes) axes) y = elem sv y.
Proof.
  intros N W H. assert (He : forall p, In p axes -> 0 < nth p (shape sv) 0 /\ Nat.even (nth p (shape sv) 0) = true).
  { intros p Hp. destruct (H p Hp) as (fin & Hf & ->). apply power_even. lia. }
  destruct (pyfft_along sv axes N W He) as [P1 _]. assert (S1 : shape (pyfft sv axes) = shape sv) by (destruct P1 as [S1 _]; now rewrite alongAll_shape in S1).
  assert (W1 : within axes (pyfft sv axes)) by (intros p Hp; unfold ndim; rewrite S1; now apply W).
  destruct (pyfft_along (pyfft sv axes) axes N W1) as [_ P2]; [intros p Hp; rewrite S1; auto|].
  assert (Q : aeq (pyifft (pyfft sv axes) axes) sv).
  { eapply aeq_trans; [exact P2|]. eapply aeq_trans; [apply alongAll_aeq; [apply to_position_linear|exact W1|exact P1]|].
    eapply aeq_trans; [apply (alongAll_compose axes (fun n => to_position n 1) (fun n => to_momentum n 1)); auto; [apply to_position_linear|apply to_momentum_linear]|]. apply along_identity; auto.
    - apply (linear_compose (fun n => to_position n 1) (fun n => to_momentum n 1)); [apply to_position_linear|apply to_momentum_linear].
    - intros p psi k Hp Hk. destruct (H p Hp) as (fin & Hf & E). rewrite E in *. rewrite <- (ffLine_inverse fin psi DIR_XK k Hk). cbn [reverse]. symmetry.
      destruct (ffLine_momentum fin (ffLine (2 ^ fin) psi DIR_XK) k Hf Hk) as [_ E2]. rewrite E2. apply to_position_ext. intros j Hj. now apply ffLine_momentum. }
  destruct Q as [S2 Q]. intros y Hy. apply Q. rewrite S2. exact Hy.
Qed.
