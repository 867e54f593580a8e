(** Statements about the elements in their final form, and concrete cases. *)
From Coq Require Import List Arith Bool Lia Reals Lra.
From Verif Require Import Star CReal PureModel PureProofs ElementModel ElementSpec ElementProofs ElementLemmas.
Import ListNotations.
Add Ring CREF : (k_ring CR).

(** ** Mode *)
Lemma mode_superoperators alt dim kappa nTh : (0 <= kappa)%R -> (0 <= nTh)%R ->
  Forall2 (describes dim) (modeLoss alt dim kappa) [mscale (sqrt (2 * kappa)) annihilation] /\
  Forall2 (describes dim) (modeThermal alt dim kappa nTh)
    [mscale (sqrt (2 * (kappa * (nTh + 1)))) annihilation; mscale (sqrt (2 * (kappa * nTh))) creation].
Proof.
  intros Hk Hn. assert (0 <= kappa * nTh)%R by now apply Rmult_le_pos. split; repeat constructor.
  - now apply loss_describes.
  - now apply loss_describes.
  - now apply (loss_describes dim (kappa * (nTh + 1)) None); lra.
  - apply (loss_describes dim (kappa * (nTh + 1)) None); lra.
  - now apply (absorption_describes dim (kappa * nTh) None).
  - now apply (absorption_describes dim (kappa * nTh) None).
Qed.
Lemma mode_loss_rates dim kappa nTh : (0 <= kappa)%R -> (0 <= nTh)%R ->
  Forall2 (rate_of_jump dim) (modeLoss false dim kappa) [mscale (sqrt (2 * kappa)) annihilation] /\
  exists loss absorption, modeThermal false dim kappa nTh = [loss; absorption] /\
    rate_of_jump dim loss (mscale (sqrt (2 * (kappa * (nTh + 1)))) annihilation).
Proof.
  intros Hk Hn. assert (0 <= kappa * nTh)%R by now apply Rmult_le_pos. split; [constructor; [|constructor]|].
  - now apply loss_rate.
  - eexists _, _. split; [reflexivity|]. apply loss_rate; [lra|]. intros m. ring.
Qed.
Lemma mode_absorption_rates dim kappa nTh : (0 < dim)%nat -> (0 <= kappa)%R -> (0 <= nTh)%R ->
  exists loss absorption rate, modeThermal false dim kappa nTh = [loss; absorption] /\ lbRate absorption = Some rate /\
    (forall psi, norm2 dim psi = 1%R -> rate (ldoSV dim psi) = (norm2 dim (lbJump absorption psi) + 2 * kappa * nTh * INR dim * csq (psi (dim - 1)%nat))%R) /\
    (forall rho, rate (ldoDO dim rho) =
       (cre (mtr dim (sandwich dim (mscale (sqrt (2 * (kappa * nTh))) creation) rho)) + 2 * kappa * nTh * INR dim * cre (rho (dim - 1)%nat (dim - 1)%nat))%R).
Proof.
  intros Hd Hk Hn. assert (0 <= kappa * nTh)%R by now apply Rmult_le_pos.
  eexists _, _, _. split; [reflexivity|]. split; [reflexivity|]. split.
  - intros psi Hp. cbn [lbJump]. rewrite absorption_norm, Hp by auto. unfold ldoSV at 2. cbn [ldTrace].
    change (rsum (fun n => csq (psi n)) (seq 0 dim)) with (norm2 dim psi). rewrite Hp, sqrt_1. ring.
  - intros rho. rewrite absorption_trace by auto. ring.
Qed.
(** the highest level of a cutoff of 2, occupied *)
Definition topState : ket := fun n => if n =? 1 then k1 else k0.
Lemma topState_norm : norm2 2 topState = 1%R.
Proof. unfold norm2, rsum, topState, csq. cbn. ring. Qed.
Lemma mode_absorption_refuted : exists dim kappa nTh psi loss absorption rate, (0 <= kappa)%R /\ (0 <= nTh)%R /\ norm2 dim psi = 1%R /\
  modeThermal false dim kappa nTh = [loss; absorption] /\ lbRate absorption = Some rate /\
  rate (ldoSV dim psi) <> norm2 dim (lbJump absorption psi).
Proof.
  destruct (mode_absorption_rates 2 1 1) as (l & a & r & E1 & E2 & E3 & _); try lia; try lra.
  exists 2%nat, 1%R, 1%R, topState, l, a, r. repeat (split; [lra || apply topState_norm || assumption|]).
  rewrite (E3 topState topState_norm). cbn [Nat.sub]. replace (csq (topState 1)) with 1%R by (unfold csq, topState; cbn; ring).
  cbn [INR]. lra.
Qed.
Lemma mode_noexact_refuted : exists dim z t psi op rate, (0 <= cre z)%R /\ modeNoExact dim z t = [op] /\ lbRate op = Some rate /\
  rate (ldoSV dim psi) <> norm2 dim (lbJump op psi).
Proof.
  exists 2%nat, ((1, 0)%R : CR), 0%R, topState. eexists _, _. split; [cbn; lra|]. split; [reflexivity|]. split; [reflexivity|].
  cbn [lbJump]. unfold norm2, rsum. cbn [seq fold_right Nat.sub Nat.add fold_left].
  unfold photonNumber. cbn [fold_left seq Nat.sub ldDiag ldoSV]. unfold upd. cbn [Nat.eqb].
  rewrite !csq_mul. replace (csq (cexp (kmul (kopp ((1, 0)%R : CR)) (RC 0)))) with 1%R.
  - rewrite !csq_RC. cbn [Nat.add cre fst]. rewrite !sqrt_sqrt; [|cbn; lra|lra]. unfold topState, csq. cbn. lra.
  - replace (kmul (kopp ((1, 0)%R : CR)) (RC 0)) with (k0 : CR) by (apply cr_eq; cbn; ring). rewrite cexp_0. unfold csq; cbn; ring.
Qed.

(** ** The other elements *)
Lemma spin_ok dim twoS gamma : (0 <= gamma)%R ->
  Forall2 (fun l J => describes (decideDimension twoS dim) l J /\ rate_of_jump (decideDimension twoS dim) l J)
    (spinLoss (decideDimension twoS dim) twoS gamma) [mscale (sqrt (2 * gamma)) (spinLower twoS)].
Proof.
  intros Hg. constructor; [|constructor]. split; [apply spin_describes|]. apply spin_rate_ok; auto using decide_le.
Qed.
Lemma multilevel_ok dim decays : decays_in dim decays ->
  Forall2 (fun l J => describes dim l J /\ rate_of_jump dim l J) (multiLevelLoss dim decays None) (radiativeOps decays).
Proof.
  unfold multiLevelLoss, radiativeOps. rewrite app_nil_r. induction 1 as [|dc l (A & B & C) H IH]; cbn [map]; constructor; auto.
  split; [now apply radiative_describes|now apply radiative_rate].
Qed.
Lemma diffusive_jumps dim gammas : Forall2 (fun l J => is_operator dim (lbJump l) J) (diffusive dim gammas)
  (map (fun k => mscale (sqrt (2 * nth k gammas 0%R)) (flip k)) (seq 0 dim)).
Proof.
  unfold diffusive. induction (seq 0 dim) as [|k l IH]; cbn [map]; constructor; auto. apply diffusive_operator.
Qed.
Lemma lsum_identity dim c psi m : m < dim -> lsum dim (fun n => kmul (kmul c (identity m n)) (psi n)) = kmul c (psi m).
Proof.
  intros H. rewrite (lsum_at dim _ m H).
  - unfold identity. rewrite Nat.eqb_refl. ring.
  - intros n _ Hn. unfold identity. destruct (Nat.eqb_spec m n); [congruence|ring].
Qed.
Lemma homodyne_ok dim h kappa nTh : (0 < dim)%nat ->
  Forall2 (describes dim) (homodyned dim h kappa nTh)
    [homodyneOp h (sqrt (2 * (kappa * (nTh + 1)))) annihilation; homodyneOp (kconj h) (sqrt (2 * (kappa * nTh))) creation].
Proof.
  intros Hd. constructor; [|constructor; [|constructor]]; (split; [|exact I]); cbn [lbJump]; intros psi m Hm.
  - transitivity (kadd (kmul h (psi m)) (if live dim all1 up1 m then kmul (lowC (kappa * (nTh + 1)) m) (psi (up1 m)) else k0)).
    + unfold homodyneLoss, upd at 1.
      rewrite !(loop_up (fun n x y => kadd (kmul h x) (kmul (RC (sqrt (2 * kappa * (nTh + 1)) * sqrt (INR (n + 1)))) y))).
      unfold live, all1, up1, lowC. cbn [andb]. rewrite Nat.ltb_irrefl. rewrite Rmult_assoc.
      destruct (Nat.eqb_spec m (dim - 1)), (Nat.ltb_spec m (dim - 1)), (Nat.ltb_spec (m + 1) dim); subst; try lia; auto; ring.
    + rewrite <- (mono_act dim all1 up1 (lowC (kappa * (nTh + 1))) psi m). rewrite <- (lsum_identity dim h psi m Hm).
      unfold lsum. rewrite <- ksum_add. apply ksum_ext. intros n _. unfold homodyneOp. rewrite annihilation_mono. ring.
  - transitivity (kadd (kmul (kconj h) (psi m)) (if live dim posb down1 m then kmul (highC (kappa * nTh) m) (psi (down1 m)) else k0)).
    + unfold homodyneAbsorption, upd at 1.
      rewrite !(loop_down (fun n x y => kadd (kmul (kconj h) x) (kmul (RC (sqrt (2 * kappa * nTh) * sqrt (INR n))) y))).
      unfold live, posb, down1, highC. rewrite Rmult_assoc.
      destruct (Nat.eqb_spec m 0), (Nat.leb_spec 1 m), (Nat.leb_spec m (dim - 1)), (Nat.ltb_spec (m - 1) dim); subst; try lia; cbn [andb Nat.leb]; auto; ring.
    + rewrite <- (mono_act dim posb down1 (highC (kappa * nTh)) psi m). rewrite <- (lsum_identity dim (kconj h) psi m Hm).
      unfold lsum. rewrite <- ksum_add. apply ksum_ext. intros n _. unfold homodyneOp. rewrite creation_mono. ring.
Qed.

(** ** Diffusion *)
Lemma allDiffusive_eq dim gammas rho d m n : m < dim -> n < dim -> allDiffusive dim gammas rho d m n = diffusiveSuper dim gammas 0 rho d m n.
Proof.
  intros Hm Hn. unfold allDiffusive, diffusive. destruct dim as [|D]; [lia|]. cbn [seq map fold_left lbSuper].
  assert (H : forall l d, (forall k, In k l -> k <> 0) ->
    fold_left (fun d l => match lbSuper l with Some super => super rho d | None => d end)
      (map (fun k => mkLb (diffusiveJump gammas k) None (Some (diffusiveSuper (S D) gammas k))) l) d = d).
  { induction l as [|k l IH]; intros d0 Hl; [reflexivity|]. cbn [map fold_left lbSuper].
    unfold diffusiveSuper at 2. destruct (Nat.eqb_spec k 0) as [E|E]; [exfalso; apply (Hl k); [now left|auto]|].
    apply IH. intros k' Hk'. apply Hl. now right. }
  rewrite H; [reflexivity|]. intros k Hk. apply in_seq in Hk. lia.
Qed.
Lemma rsum_const {A} (c : R) (l : list A) : rsum (fun _ => c) l = (INR (length l) * c)%R.
Proof. induction l as [|x l IH]; [cbn; ring|]. unfold rsum in *. cbn [fold_right]. rewrite IH. cbn [length]. rewrite S_INR. ring. Qed.
Lemma rsum_delta (x : R) k dim : k < dim -> rsum (fun n => (if k =? n then x else 0)%R) (seq 0 dim) = x.
Proof.
  intros H. apply RC_inj. rewrite <- lsum_RC.
  rewrite (lsum_at dim _ k H); [now rewrite Nat.eqb_refl|]. intros n _ Hn. destruct (Nat.eqb_spec k n); [congruence|reflexivity].
Qed.
Lemma flips_sum dim m n : m < dim -> n < dim ->
  rsum (fun k => ((if m =? k then -1 else 1) * (if n =? k then -1 else 1))%R) (seq 0 dim) = if m =? n then INR dim else (INR dim - 4)%R.
Proof.
  intros Hm Hn. destruct (Nat.eqb_spec m n) as [<-|Hne].
  - rewrite (rsum_ext _ (fun _ => 1%R)); [rewrite rsum_const, seq_length; ring|]. intros k _. destruct (m =? k); ring.
  - rewrite (rsum_ext _ (fun k => (1 + ((if m =? k then -2 else 0) + (if n =? k then -2 else 0)))%R)).
    + rewrite !rsum_add, rsum_const, seq_length, !rsum_delta by auto. ring.
    + intros k _. destruct (Nat.eqb_spec m k), (Nat.eqb_spec n k); subst; try ring. congruence.
Qed.
Lemma diffusive_uniform dim gamma rho d m n : (0 <= gamma)%R -> m < dim -> n < dim ->
  allDiffusive dim (repeat gamma dim) rho d m n =
  kadd (kadd (d m n) (lsum dim (fun k => sandwich dim (mscale (sqrt (2 * nth k (repeat gamma dim) 0%R)) (flip k)) rho m n)))
       (kmul (RC (- 2 * gamma * INR (dim - 1))) (rho m n)).
Proof.
  intros Hg Hm Hn. rewrite allDiffusive_eq, diffusiveSuper_0 by auto.
  assert (N : forall k, k < dim -> nth k (repeat gamma dim) 0%R = gamma).
  { intros k Hk. clear - Hk. revert k Hk. induction dim as [|D IH]; intros k Hk; [lia|]. destruct k; cbn; auto. apply IH. lia. }
  rewrite N by lia.
  rewrite (lsum_ext dim _ (fun k => kmul (RC (2 * gamma)) (kmul (RC ((if m =? k then -1 else 1) * (if n =? k then -1 else 1))) (rho m n)))).
  2: { intros k Hk. rewrite N by auto. rewrite sandwich_flip by auto. generalize (rho m n); intros [a b].
       apply cr_eq; cbn; ring. }
  unfold lsum. rewrite ksum_scal_l, ksum_scal_r. rewrite ksum_RC, flips_sum by auto.
  assert (E : INR (dim - 1) = (INR dim - 1)%R) by (rewrite minus_INR by lia; cbn; ring). rewrite E.
  destruct (m =? n); generalize (rho m n) (d m n) (INR dim); intros [a b] [a' b'] y; apply cr_eq; cbn; ring.
Qed.
Definition ones : dmat := fun _ _ => k1.
Lemma diffusive_refuted : exists dim gammas rho, Forall (fun g => (0 <= g)%R) gammas /\ length gammas = dim /\
  forall c : CR, ~ (forall m n, m < dim -> n < dim ->
    allDiffusive dim gammas rho (fun _ _ => k0) m n =
    kadd (lsum dim (fun k => sandwich dim (mscale (sqrt (2 * nth k gammas 0%R)) (flip k)) rho m n)) (kmul c (rho m n))).
Proof.
  exists 2%nat, [1; 2]%R, ones. split; [repeat constructor; lra|]. split; [reflexivity|].
  intros c H. pose proof (H 0%nat 0%nat ltac:(lia) ltac:(lia)) as H1. pose proof (H 0%nat 1%nat ltac:(lia) ltac:(lia)) as H2. clear H.
  rewrite allDiffusive_eq, diffusiveSuper_0 in H1, H2 by lia. unfold lsum, ksum in H1, H2. cbn [seq map fold_right nth Nat.eqb] in H1, H2.
  rewrite !sandwich_flip in H1, H2 by (lia || lra). cbn [Nat.eqb] in H1, H2. unfold ones in H1, H2.
  destruct c as [a b]. apply (f_equal fst) in H1. apply (f_equal fst) in H2. cbn in H1, H2. lra.
Qed.
