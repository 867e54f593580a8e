From Coq Require Import List Arith Lia Reals Lra Bool String.
From Verif Require Import Star CReal Arr PureModel HermSpec DensitySpec MasterSpec SliceSpec ElementModel ElementSpec ElementProofs CompositeModel CompositeSpec CompositeProofs InteractionSpec AverageModel AverageSpec AverageProofs AverageFacts AverageElements AverageCorrelations.
Import ListNotations.
Local Open Scope nat_scope.
Add Ring CRAverageK : (k_ring CR).

Lemma products_exist : exists N2 X2 Y2 XY YX, is_product number number N2 /\ is_product quadX quadX X2 /\ is_product quadY quadY Y2 /\ is_product quadX quadY XY /\ is_product quadY quadX YX.
Proof. do 5 eexists. repeat split; apply product_exists; [exact prod_NN|exact prod_XX|exact prod_YY|exact prod_XY|exact prod_YX]. Qed.
Lemma spin_product twoS : exists Z2, is_product (spinZ twoS) (spinZ twoS) Z2.
Proof. eexists. apply product_exists, prod_ZZ. Qed.
(** |k><k| *)
Definition pureLevel (k : nat) : op := fun i j => if listnat_eqb i [k] && listnat_eqb j [k] then k1 else k0.
Lemma level_state : state [2] (pureLevel 1).
Proof.
  split.
  - apply cr_eq; cbn; ring.
  - intros i j Hi Hj. unfold dag, pureLevel. destruct (listnat_eqb i [1]), (listnat_eqb j [1]); apply cr_eq; cbn; ring.
Qed.
Lemma level_mean A : mean [2] (kron [A]) (pureLevel 1) = A 1 1.
Proof.
  rewrite mean1. unfold bmean, lsum, pureLevel. cbn [seq ksum]. cbn [listnat_eqb Nat.eqb andb ksum]. ring.
Qed.
Lemma spin_wrong : exists twoS dim t rho Z2, state [dim] rho /\ is_product (spinZ twoS) (spinZ twoS) Z2 /\ 0 < dim /\ shown (spinAveraged twoS dim) t rho <> spinColumns twoS dim rho Z2.
Proof.
  destruct (spin_product 1) as [Z2 HZ]. exists 1, 2, 0%R, (pureLevel 1), Z2. split; [apply level_state|]. split; [exact HZ|]. split; [lia|].
  rewrite (spin_shown 1 2 0 (pureLevel 1) Z2) by auto. intros H. unfold spinColumns in H. cbv zeta in H. apply (f_equal (fun l => snd (nth 1 l (EmptyString, 0%R)))) in H. cbn [nth snd] in H. rewrite !level_mean in H.
  unfold spinZ in H. cbn in H. lra.
Qed.
Lemma corr_shown d0 d1 m t N2 X2 Y2 XY YX : 0 < d0 -> 0 < d1 -> state [d0; d1] (indexOf m) ->
  is_product number number N2 -> is_product quadX quadX X2 -> is_product quadY quadY Y2 -> is_product quadX quadY XY -> is_product quadY quadX YX ->
  exists a, corrAverage d0 d1 t m = Some a /\ combine corrLabels (corrProcess a) = corrColumns d0 d1 (indexOf m) N2 X2 Y2 XY YX.
Proof.
  intros H0 H1 Hs P0 P1' P2' P3' P4'. exists (eighteen d0 d1 m). split; [now apply corr_average|]. rewrite (corr_processed d0 d1 m Hs N2 X2 Y2 XY YX) by auto. reflexivity.
Qed.
Lemma qbitMode_shown d1 t rho : shown (qbitModeAveraged d1) t rho = qbitModeColumns d1 rho.
Proof. unfold shown. cbn [avAverage avProcess avLabels qbitModeAveraged element List.length]. rewrite qbitMode_list. unfold qmOps. cbn [flat_map map app]. rewrite !expectation_im, !expectation_mean. reflexivity. Qed.
(** (|01>+|10>)/sqrt 2 *)
Definition entangled : ldo := Pure (fun i => if listnat_eqb i [0; 1] || listnat_eqb i [1; 0] then RC (/ sqrt 2) else k0).
Lemma entangled_state : state [2; 2] (indexOf entangled).
Proof.
  split.
  - assert (H := half_half). unfold mtrace, isum. cbn [indices seq flat_map map app ksum indexOf entangled listnat_eqb Nat.eqb andb orb].
    assert (Hc : kconj (RC (/ sqrt 2)) = RC (/ sqrt 2)) by (apply cr_eq; cbn; ring). assert (Hz : kconj (k0 : CR) = k0) by (apply cr_eq; cbn; ring). rewrite ?Hc, ?Hz, ?H. apply cr_eq; cbn; field.
  - intros i j Hi Hj. unfold dag. cbn [indexOf entangled]. destruct (_ || _), (_ || _); apply cr_eq; cbn; ring.
Qed.
(** <XQ>-<X><Q> = 1/2 there *)
Lemma entangled_xq N2 X2 Y2 XY YX : nth 14 (corrColumns 2 2 (indexOf entangled) N2 X2 Y2 XY YX) (EmptyString, 0%R) = ("<XQ>-<X><Q>"%string, (/ 2)%R).
Proof.
  unfold corrColumns. cbv zeta. cbn [nth]. f_equal. set (rho := indexOf entangled).
  assert (E1 : cre (mean [2; 2] (kron [quadX; one]) rho) = 0%R).
  { etransitivity; [exact (L_X _ (functional_left 2 2 rho entangled_state))|]. unfold M2. rewrite mean2, ann_mean. unfold bmean, lsum. cbn [seq Nat.sub ksum]. unfold rho. cbn [indexOf entangled listnat_eqb Nat.eqb andb orb].
    match goal with |- (_ * cre ?x)%R = _ => replace x with (k0 : CR) end; [cbn; ring|]. unfold one, identity. cbn [Nat.eqb]. assert (Hz : kconj (k0 : CR) = k0) by (apply cr_eq; cbn; ring). rewrite ?Hz. replace (ElementSpec.identity 1 0) with (k0 : CR) by reflexivity. ring. }
  assert (E2 : cre (mean [2; 2] (kron [quadX; quadX]) rho) = (/ 2)%R).
  { change (cre (M2 2 2 rho quadX quadX) = (/ 2)%R). unfold rho. rewrite (E_XQ 2 2 entangled entangled_state). rewrite corr_prod_up, corr_prod_down by lia. cbn [seq Nat.sub ksum]. cbn [indexOf entangled listnat_eqb Nat.eqb andb orb Nat.add Nat.mul Nat.sub].
    assert (Hc : kconj (RC (/ sqrt 2)) = RC (/ sqrt 2)) by (apply cr_eq; cbn; ring). assert (Hz : kconj (k0 : CR) = k0) by (apply cr_eq; cbn; ring). rewrite ?Hc, ?Hz, ?half_half. cbn [INR]. rewrite sqrt_1. cbn. field. }
  rewrite E1, E2. ring.
Qed.
