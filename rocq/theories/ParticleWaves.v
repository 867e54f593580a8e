(** Matrix elements of multiplication operators between momentum states. *)
From Coq Require Import List Arith ZArith Reals Lra Lia.
From Coquelicot Require Import Coquelicot.
From Verif Require Import Star CReal TriModel ParticleModel ParticleSpec.
Import ListNotations.
Add Ring CRPw : (k_ring CR).
Local Open Scope R_scope.

Lemma int_cos m : m <> 0 -> is_RInt (fun x => cos (m * x)) (- PI) PI (sin (m * PI) / m - sin (m * - PI) / m).
Proof.
  intros Hm. apply (is_RInt_derive (fun x => sin (m * x) / m) (fun x => cos (m * x))).
  - intros x _. auto_derive; auto. field; auto.
  - intros x _. apply continuity_pt_filterlim. apply (continuity_pt_comp (fun x => m * x) cos).
    + apply derivable_continuous_pt. reg.
    + apply derivable_continuous_pt. apply derivable_pt_cos.
Qed.
Lemma int_sin m : m <> 0 -> is_RInt (fun x => sin (m * x)) (- PI) PI (- cos (m * PI) / m - - cos (m * - PI) / m).
Proof.
  intros Hm. apply (is_RInt_derive (fun x => - cos (m * x) / m) (fun x => sin (m * x))).
  - intros x _. auto_derive; auto. field; auto.
  - intros x _. apply continuity_pt_filterlim. apply (continuity_pt_comp (fun x => m * x) sin).
    + apply derivable_continuous_pt. reg.
    + apply derivable_continuous_pt. apply derivable_pt_sin.
Qed.
Lemma sin_int (m : Z) : sin (IZR m * PI) = 0.
Proof. apply sin_eq_0_1. now exists m. Qed.
Lemma int_wave (m : Z) :
  is_RInt (fun x => cos (IZR m * x)) (- PI) PI (2 * PI * (if Z.eqb m 0 then 1 else 0)) /\
  is_RInt (fun x => sin (IZR m * x)) (- PI) PI 0.
Proof.
  destruct (Z.eqb_spec m 0) as [->|Hm].
  - split.
    + apply (is_RInt_ext (fun _ => 1)); [intros; rewrite Rmult_0_l, cos_0; reflexivity|].
      replace (2 * PI * 1) with (scal (PI - - PI) 1) by (unfold scal; cbn; unfold mult; cbn; ring). apply (@is_RInt_const R_NormedModule).
    + apply (is_RInt_ext (fun _ => 0)); [intros; rewrite Rmult_0_l, sin_0; reflexivity|].
      pose proof (@is_RInt_const R_NormedModule (- PI) PI 0) as H. replace (scal (PI - - PI) (0 : R_NormedModule)) with (0 : R) in H by (unfold scal; cbn; unfold mult; cbn; ring). exact H.
  - assert (Hm' : IZR m <> 0) by (intros H; apply Hm; now apply eq_IZR). split.
    + replace (2 * PI * 0) with (sin (IZR m * PI) / IZR m - sin (IZR m * - PI) / IZR m); [now apply int_cos|].
      replace (IZR m * - PI) with (- (IZR m * PI)) by ring. rewrite sin_neg, sin_int. field; auto.
    + pose proof (int_sin _ Hm') as H. replace (- cos (IZR m * PI) / IZR m - - cos (IZR m * - PI) / IZR m) with 0 in H; [exact H|].
      replace (IZR m * - PI) with (- (IZR m * PI)) by ring. rewrite cos_neg. field; auto.
Qed.

Lemma wave_conj k x : kconj (wave k x) = wave (- k) x.
Proof. unfold wave. rewrite <- cexp_conj. f_equal. apply cr_eq; cbn; ring. Qed.
Lemma wave_add a b x : kmul (wave a x) (wave b x) = wave (a + b) x.
Proof. unfold wave. rewrite <- cexp_add. f_equal. apply cr_eq; cbn; ring. Qed.
Lemma wave_parts k x : wave k x = ((cos (k * x), sin (k * x)) : CR).
Proof. unfold wave, cexp. apply cr_eq; cbn; rewrite exp_0; ring. Qed.

Section Multiplies.
Variables (dim : nat) (k : nat -> R).
Hypothesis Hk : forall i j, k j - k i = INR j - INR i.

Lemma multiplies_wave (L : Z) : multiplies dim k (wave (IZR L)) (fun i j => if Z.eqb (Z.of_nat i) (Z.of_nat j + L) then k1 else k0).
Proof.
  intros i j _ _. cbn zeta. set (m := (Z.of_nat j + L - Z.of_nat i)%Z).
  assert (E : forall x, kmul (kconj (wave (k i) x)) (kmul (wave (IZR L) x) (wave (k j) x)) = ((cos (IZR m * x), sin (IZR m * x)) : CR)).
  { intros x. rewrite wave_conj, !wave_add, wave_parts. unfold m. rewrite minus_IZR, plus_IZR, <- !INR_IZR_INZ.
    replace (- k i + (IZR L + k j)) with (INR j + IZR L - INR i) by (specialize (Hk i j); lra). reflexivity. }
  destruct (int_wave m) as [H1 H2].
  assert (Em : Z.eqb m 0 = Z.eqb (Z.of_nat i) (Z.of_nat j + L)).
  { unfold m. destruct (Z.eqb_spec (Z.of_nat j + L - Z.of_nat i) 0), (Z.eqb_spec (Z.of_nat i) (Z.of_nat j + L)); auto; lia. }
  rewrite Em in H1. split.
  - eapply is_RInt_ext; [intros x _; rewrite E; reflexivity|].
    replace (cre (if Z.eqb (Z.of_nat i) (Z.of_nat j + L) then k1 else k0)) with (if Z.eqb (Z.of_nat i) (Z.of_nat j + L) then 1 else 0) by (destruct Z.eqb; reflexivity).
    exact H1.
  - eapply is_RInt_ext; [intros x _; rewrite E; reflexivity|].
    replace (cim (if Z.eqb (Z.of_nat i) (Z.of_nat j + L) then k1 else k0)) with 0 by (destruct Z.eqb; reflexivity).
    rewrite Rmult_0_r. exact H2.
Qed.
Lemma multiplies_add f g M N : multiplies dim k f M -> multiplies dim k g N -> multiplies dim k (fun x => kadd (f x) (g x)) (fun i j => kadd (M i j) (N i j)).
Proof.
  intros H1 H2 i j Hi Hj. destruct (H1 i j Hi Hj) as [A1 A2], (H2 i j Hi Hj) as [B1 B2]. cbn zeta in *. split.
  - replace (2 * PI * cre (kadd (M i j) (N i j))) with (plus (2 * PI * cre (M i j)) (2 * PI * cre (N i j))) by (unfold plus, cre, cim; cbn; ring).
    eapply is_RInt_ext; [|exact (is_RInt_plus _ _ _ _ _ _ A1 B1)]. intros x _. unfold plus, cre, cim; cbn. ring.
  - replace (2 * PI * cim (kadd (M i j) (N i j))) with (plus (2 * PI * cim (M i j)) (2 * PI * cim (N i j))) by (unfold plus, cre, cim; cbn; ring).
    eapply is_RInt_ext; [|exact (is_RInt_plus _ _ _ _ _ _ A2 B2)]. intros x _. unfold plus, cre, cim; cbn. ring.
Qed.
Lemma multiplies_scale (c : CR) f M : multiplies dim k f M -> multiplies dim k (fun x => kmul c (f x)) (fun i j => kmul c (M i j)).
Proof.
  intros H i j Hi Hj. destruct (H i j Hi Hj) as [A1 A2]. cbn zeta in *.
  pose proof (is_RInt_scal _ _ _ (fst c) _ A1) as B1. pose proof (is_RInt_scal _ _ _ (- snd c) _ A2) as B2.
  pose proof (is_RInt_scal _ _ _ (snd c) _ A1) as B3. pose proof (is_RInt_scal _ _ _ (fst c) _ A2) as B4. split.
  - replace (2 * PI * cre (kmul c (M i j))) with (plus (scal (fst c) (2 * PI * cre (M i j))) (scal (- snd c) (2 * PI * cim (M i j))))
      by (unfold plus, scal, cre, cim; cbn; unfold mult; cbn; ring).
    eapply is_RInt_ext; [|exact (is_RInt_plus _ _ _ _ _ _ B1 B2)]. intros x _. unfold plus, scal, cre, cim; cbn; unfold mult; cbn. ring.
  - replace (2 * PI * cim (kmul c (M i j))) with (plus (scal (snd c) (2 * PI * cre (M i j))) (scal (fst c) (2 * PI * cim (M i j))))
      by (unfold plus, scal, cre, cim; cbn; unfold mult; cbn; ring).
    eapply is_RInt_ext; [|exact (is_RInt_plus _ _ _ _ _ _ B3 B4)]. intros x _. unfold plus, scal, cre, cim; cbn; unfold mult; cbn. ring.
Qed.
Lemma multiplies_ext f f' M M' : (forall x, f x = f' x) -> (forall i j, (i < dim)%nat -> (j < dim)%nat -> M i j = M' i j) ->
  multiplies dim k f M -> multiplies dim k f' M'.
Proof.
  intros H1 H2 H i j Hi Hj. destruct (H i j Hi Hj) as [A1 A2]. cbn zeta in *. rewrite <- H2 by auto. split.
  - eapply is_RInt_ext; [|exact A1]. intros x _. cbv beta. now rewrite H1.
  - eapply is_RInt_ext; [|exact A2]. intros x _. cbv beta. now rewrite H1.
Qed.
(** there is one such matrix *)
Lemma multiplies_unique f M N i j : multiplies dim k f M -> multiplies dim k f N -> (i < dim)%nat -> (j < dim)%nat -> M i j = N i j.
Proof.
  intros H1 H2 Hi Hj. destruct (H1 i j Hi Hj) as [A1 A2], (H2 i j Hi Hj) as [B1 B2]. cbn zeta in *. pose proof PI_RGT_0 as HP.
  pose proof (eq_trans (eq_sym (@is_RInt_unique R_CompleteNormedModule _ _ _ _ A1)) (@is_RInt_unique R_CompleteNormedModule _ _ _ _ B1)) as E1.
  pose proof (eq_trans (eq_sym (@is_RInt_unique R_CompleteNormedModule _ _ _ _ A2)) (@is_RInt_unique R_CompleteNormedModule _ _ _ _ B2)) as E2.
  clear A1 A2 B1 B2. apply cr_eq; [change (cre (M i j) = cre (N i j))|change (cim (M i j) = cim (N i j))]; nra.
Qed.
End Multiplies.

Lemma pK_diff p i j : pK p j - pK p i = INR j - INR i.
Proof. unfold pK, gridK. ring. Qed.
