From Coq Require Import List Arith Bool ZArith Lia Reals Lra.
From Coquelicot Require Import Coquelicot.
From Verif Require Import Star CReal Arr TriModel TriSpec TriProofs TriPropagate TriLemmas ElementSpec ModeModel ModeProofs ParticleModel ParticleSpec ParticleWaves ParticleProofs.
Import ListNotations.
Add Ring CRPf : (k_ring CR).
Local Open Scope nat_scope.

Section Blocks.
Variable p : particle.
Notation dim := (pDim p).
Notation D := (rotOf p).

(** an operator of offset |L|, empty if it does not fit *)
Definition block (o : outcome (tri CR R)) (L : Z) (M : mat) : Prop :=
  exists t, o = Ok t /\ (((Z.abs L <= Z.of_nat dim)%Z /\ pop dim D t (Z.to_nat (Z.abs L)) M) \/
                         ((Z.of_nat dim < Z.abs L)%Z /\ mute t /\ forall y x, y < dim -> x < dim -> M y x = k0)).
Definition has (o : outcome (tri CR R)) (M : mat) : Prop := exists t, o = Ok t /\ acts dim D t M.
Lemma has_ext o M M' : (forall y x, y < dim -> x < dim -> M y x = M' y x) -> has o M -> has o M'.
Proof. intros H [t [E A]]. exists t. split; [exact E|]. eapply acts_ext; [|exact A]. exact H. Qed.
Lemma has_scale o M c : has o M -> has (bind o (fun t => Ok (scale c t))) (fun y x => kmul c (M y x)).
Proof. intros [t [E A]]. exists (scale c t). rewrite E. split; [reflexivity|]. now apply acts_scale. Qed.
Lemma block_ext o L M M' : (forall y x, y < dim -> x < dim -> M y x = M' y x) -> block o L M -> block o L M'.
Proof.
  intros H [t [E [[A B]|[A [B C]]]]]; exists t; (split; [exact E|]).
  - left. split; [exact A|]. eapply pop_ext; [|exact B]. exact H.
  - right. split; [exact A|]. split; [exact B|]. intros. rewrite <- H; auto.
Qed.
Lemma block_has o L M : block o L M -> has o M.
Proof.
  intros [t [E [[A B]|[A [B C]]]]]; exists t; (split; [exact E|]).
  - now apply pop_acts in B.
  - apply acts_0; [now apply mute_acts|exact C].
Qed.
Lemma block_exp L : block (expINKX p L) L (waveM L).
Proof.
  destruct (Z.le_gt_cases (Z.abs L) (Z.of_nat dim)) as [H|H].
  - destruct (exp_pop p L H) as [t [E P]]. exists t. split; [exact E|]. now left.
  - destruct (exp_mute p L H) as [t [E P]]. exists t. split; [exact E|]. right. split; [lia|]. split; [exact P|]. apply waveM_big. lia.
Qed.
Lemma block_scale o L M c : block o L M -> block (bind o (fun t => Ok (scale c t))) L (fun y x => kmul c (M y x)).
Proof.
  intros [t [E [[A B]|[A [B C]]]]]; exists (scale c t); rewrite E; (split; [reflexivity|]).
  - left. split; [exact A|]. now apply pop_scale.
  - right. split; [exact A|]. split; [now apply mute_scale|]. intros. rewrite C by auto. ring.
Qed.
Lemma block_add o1 o2 L1 L2 M1 M2 : Z.abs L1 = Z.abs L2 -> block o1 L1 M1 -> block o2 L2 M2 ->
  block (bind o1 (fun a => bind o2 (fun b => add CReqb a b))) L1 (fun y x => kadd (M1 y x) (M2 y x)).
Proof.
  intros HL [a [E1 [[A1 B1]|[A1 [B1 C1]]]]] [b [E2 [[A2 B2]|[A2 [B2 C2]]]]]; try lia; rewrite E1, E2; cbn [bind].
  - rewrite <- HL in B2. destruct (pop_add _ _ _ _ _ _ _ _ B1 B2 (or_introl eq_refl)) as [t [E P]]. exists t. split; [exact E|]. left. split; [exact A1|].
    destruct (Z.to_nat (Z.abs L1) =? 0); exact P.
  - destruct (mute_add a b B1 B2) as [t [E P]]. exists t. split; [exact E|]. right. split; [exact A1|]. split; [exact P|]. intros. rewrite C1, C2 by auto. ring.
Qed.
Lemma block_sub o1 o2 L1 L2 M1 M2 : Z.abs L1 = Z.abs L2 -> block o1 L1 M1 -> block o2 L2 M2 ->
  block (bind o1 (fun a => bind o2 (fun b => sub CReqb a b))) L1 (fun y x => ksub (M1 y x) (M2 y x)).
Proof.
  intros HL [a [E1 [[A1 B1]|[A1 [B1 C1]]]]] [b [E2 [[A2 B2]|[A2 [B2 C2]]]]]; try lia; rewrite E1, E2; cbn [bind].
  - rewrite <- HL in B2. destruct (pop_sub _ _ _ _ _ _ _ _ B1 B2 (or_introl eq_refl)) as [t [E P]]. exists t. split; [exact E|]. left. split; [exact A1|].
    destruct (Z.to_nat (Z.abs L1) =? 0); exact P.
  - unfold sub. destruct (mute_add a (neg b) B1 (mute_neg _ B2)) as [t [E P]]. exists t. split; [exact E|]. right. split; [exact A1|]. split; [exact P|]. intros. rewrite C1, C2 by auto. ring.
Qed.
Lemma bind_assoc {A B C} (o : outcome A) (f : A -> outcome B) (g : B -> outcome C) : bind (bind o f) g = bind o (fun a => bind (f a) g).
Proof. destruct o; reflexivity. Qed.
Lemma bind_ext {A B} (o : outcome A) (f g : A -> outcome B) : (forall a, f a = g a) -> bind o f = bind o g.
Proof. intros H. destruct o; cbn; auto. Qed.
Definition cosM (L : Z) : mat := fun y x => kmul (RC (/ 2)) (kadd (waveM L y x) (waveM (- L) y x)).
Definition sinM (L : Z) : mat := fun y x => kmul ((0, - / 2)%R : CR) (ksub (waveM L y x) (waveM (- L) y x)).
Lemma block_cos L : block (cosNKX p L) L (cosM L).
Proof.
  pose proof (block_scale _ _ _ (RC (/ 2)) (block_add _ _ L (- L) _ _ (eq_sym (Z.abs_opp L)) (block_exp L) (block_exp (- L)))) as H.
  unfold cosNKX. rewrite bind_assoc in H. rewrite (bind_ext _ _ (fun a => bind (expINKX p (- L)) (fun b => bind (add CReqb a b) (fun s => Ok (scale (RC (/ 2)) s))))) in H; [exact H|].
  intros a. apply bind_assoc.
Qed.
Lemma block_sin L : block (sinNKX p L) L (sinM L).
Proof.
  pose proof (block_scale _ _ _ ((0, - / 2)%R : CR) (block_sub _ _ L (- L) _ _ (eq_sym (Z.abs_opp L)) (block_exp L) (block_exp (- L)))) as H.
  unfold sinNKX. rewrite bind_assoc in H. rewrite (bind_ext _ _ (fun a => bind (expINKX p (- L)) (fun b => bind (sub CReqb a b) (fun s => Ok (scale ((0, - / 2)%R : CR) s))))) in H; [exact H|].
  intros a. apply bind_assoc.
Qed.
(** sums with the identity *)
Notation ident := (identityTri 0%R dim).
Lemma id_has : has ident (waveM 0).
Proof. destruct (identity_pop dim D (pDim_pos p)) as [t [E [_ P]]]. exists t. split; [exact E|]. now apply pop_acts in P. Qed.
Lemma id_add o L M : block o L M -> has (bind ident (fun i => bind o (fun b => add CReqb i b))) (fun y x => kadd (waveM 0 y x) (M y x)).
Proof.
  intros [b [E [[A B]|[A [B C]]]]]; destruct (identity_pop dim D (pDim_pos p)) as [i [Ei [Ni Pi]]]; rewrite Ei, E; cbn [bind].
  - destruct (pop_add _ _ _ _ _ _ _ _ Pi B (or_intror (or_introl (conj eq_refl Ni)))) as [t [Et P]]. exists t. split; [exact Et|]. now apply pop_acts in P.
  - destruct (plain_add_mute i b (identity_plain _ _ Ei) B) as [t [Et [P Q]]]. exists t. split; [exact Et|]. apply plain_acts; [exact P|].
    intros y x Hy Hx. rewrite Q, C by auto. destruct Pi as (_ & _ & _ & _ & _ & _ & _ & Pi). rewrite Pi by auto. ring.
Qed.
Lemma id_sub o L M : block o L M -> has (bind ident (fun i => bind o (fun b => sub CReqb i b))) (fun y x => ksub (waveM 0 y x) (M y x)).
Proof.
  intros [b [E [[A B]|[A [B C]]]]]; destruct (identity_pop dim D (pDim_pos p)) as [i [Ei [Ni Pi]]]; rewrite Ei, E; cbn [bind].
  - destruct (pop_sub _ _ _ _ _ _ _ _ Pi B (or_intror (or_introl (conj eq_refl Ni)))) as [t [Et P]]. exists t. split; [exact Et|]. now apply pop_acts in P.
  - destruct (plain_add_mute i (neg b) (identity_plain _ _ Ei) (mute_neg _ B)) as [t [Et [P Q]]]. exists t. split; [exact Et|]. apply plain_acts; [exact P|].
    intros y x Hy Hx. rewrite Q, C by auto. destruct Pi as (_ & _ & _ & _ & _ & _ & _ & Pi). rewrite Pi by auto. ring.
Qed.
Lemma sub_id o L M : block o L M -> has (bind ident (fun i => bind o (fun b => sub CReqb b i))) (fun y x => ksub (M y x) (waveM 0 y x)).
Proof.
  intros [b [E [[A B]|[A [B C]]]]]; destruct (identity_pop dim D (pDim_pos p)) as [i [Ei [Ni Pi]]]; rewrite Ei, E; cbn [bind].
  - destruct (pop_sub _ _ _ _ _ _ _ _ B Pi (or_intror (or_intror (conj eq_refl Ni)))) as [t [Et P]]. exists t. split; [exact Et|]. now apply pop_acts in P.
  - destruct (mute_add_plain b (neg i) B (plain_neg _ (identity_plain _ _ Ei))) as [t [Et [P Q]]]. exists t. split; [exact Et|]. apply plain_acts; [exact P|].
    intros y x Hy Hx. rewrite Q, C, neg_matrix by auto. destruct Pi as (_ & _ & _ & _ & _ & _ & _ & Pi). rewrite Pi by auto. ring.
Qed.
Lemma has_bind2 (o1 o2 : outcome (tri CR R)) op M c (f : tri CR R -> tri CR R) :
  (forall t, acts dim D t M -> acts dim D (f t) (fun y x => kmul c (M y x))) ->
  has (bind o1 (fun i => bind o2 (fun b => op i b))) M ->
  has (bind o1 (fun i => bind o2 (fun b => bind (op i b) (fun s => Ok (f s))))) (fun y x => kmul c (M y x)).
Proof.
  intros Hf [t [E A]]. destruct o1 as [i| | | | |]; try discriminate. destruct o2 as [b| | | | |]; try discriminate. cbn [bind] in *. rewrite E. exists (f t). split; [reflexivity|]. now apply Hf.
Qed.
Lemma acts_scale2 t M a b : acts dim D t M -> acts dim D (scale a (scale b t)) (fun y x => kmul (kmul a b) (M y x)).
Proof. intros H. eapply acts_ext; [|exact (acts_scale _ _ _ _ a (acts_scale _ _ _ _ b H))]. intros. cbn beta. ring. Qed.
Lemma acts_scale3 t M a b c : acts dim D t M -> acts dim D (scale a (scale b (scale c t))) (fun y x => kmul (kmul a (kmul b c)) (M y x)).
Proof. intros H. eapply acts_ext; [|exact (acts_scale _ _ _ _ a (acts_scale _ _ _ _ b (acts_scale _ _ _ _ c H)))]. intros. cbn beta. ring. Qed.
Definition acts_scale1 t M c := acts_scale dim D t M c.

(** ** multiplication operators *)
Notation mult := (multiplies dim (pK p)).
(** an outcome is the operator of multiplication by f *)
Definition is_mult (o : outcome (tri CR R)) (f : R -> CR) : Prop := exists M, has o M /\ mult f M.
Lemma mult_wave L : mult (wave (IZR L)) (waveM L).
Proof. apply multiplies_wave. apply pK_diff. Qed.
Lemma mult_one f : (forall x, f x = k1) -> mult f (waveM 0).
Proof.
  intros H. eapply multiplies_ext; [|reflexivity|exact (mult_wave 0)]. intros x. rewrite H, wave_parts, Rmult_0_l, cos_0, sin_0. reflexivity.
Qed.
Lemma mult_ext f f' M : (forall x, f x = f' x) -> mult f M -> mult f' M.
Proof. intros H. apply multiplies_ext; auto. Qed.
Lemma mult_cos L f : (forall x, f x = RC (cos (IZR L * x))) -> mult f (cosM L).
Proof.
  intros H. eapply mult_ext; [|exact (multiplies_scale _ _ (RC (/ 2)) _ _ (multiplies_add _ _ _ _ _ _ (mult_wave L) (mult_wave (- L))))].
  intros x. rewrite H, !wave_parts, opp_IZR, Ropp_mult_distr_l_reverse, cos_neg, sin_neg. apply cr_eq; cbn; field.
Qed.
Lemma mult_sin L f : (forall x, f x = RC (sin (IZR L * x))) -> mult f (sinM L).
Proof.
  intros H.
  eapply multiplies_ext; [| |exact (multiplies_scale _ _ ((0, - / 2)%R : CR) _ _ (multiplies_add _ _ _ _ _ _ (mult_wave L) (multiplies_scale _ _ (RC (-1)) _ _ (mult_wave (- L)))))].
  - intros x. cbn beta. rewrite H, !wave_parts, opp_IZR, Ropp_mult_distr_l_reverse, cos_neg, sin_neg. apply cr_eq; cbn; field.
  - intros y x _ _. unfold sinM. cbn beta. generalize (waveM L y x) (waveM (- L) y x). intros a b. apply cr_eq; cbn; ring.
Qed.
Lemma mult_add f g M N : mult f M -> mult g N -> mult (fun x => kadd (f x) (g x)) (fun y x => kadd (M y x) (N y x)).
Proof. apply multiplies_add. Qed.
Lemma mult_sub f g M N : mult f M -> mult g N -> mult (fun x => ksub (f x) (g x)) (fun y x => ksub (M y x) (N y x)).
Proof.
  intros H1 H2. eapply multiplies_ext; [| |exact (multiplies_add _ _ _ _ _ _ H1 (multiplies_scale _ _ (RC (-1)) _ _ H2))].
  - intros x. cbn beta. apply cr_eq; cbn; ring.
  - intros y x _ _. cbn beta. apply cr_eq; cbn; ring.
Qed.

Lemma mfNKX_mult mf : is_mult (mfNKX p mf) (mfValue mf).
Proof.
  destruct mf as [k K]. unfold mfNKX, mfValue. cbn [fst snd]. destruct k.
  - exists (sinM K). split; [apply (block_has _ K), block_sin|]. now apply mult_sin.
  - exists (cosM K). split; [apply (block_has _ K), block_cos|]. now apply mult_cos.
  - exists (waveM K). split; [apply (block_has _ K), block_exp|]. apply mult_wave.
  - exists (waveM (- K)). split; [apply (block_has _ (- K)), block_exp|]. eapply mult_ext; [|apply mult_wave].
    intros x. unfold wave. f_equal. rewrite opp_IZR. apply cr_eq; cbn; ring.
Qed.
End Blocks.
