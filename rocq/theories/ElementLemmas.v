From Coq Require Import List Arith Bool Lia Reals Lra.
From Verif Require Import Star CReal PureModel PureProofs ElementModel ElementSpec ElementProofs.
Import ListNotations.
Add Ring CREL : (k_ring CR).

Lemma sandwich_ext dim J J' rho m n : (forall k, J m k = J' m k) -> (forall k, J n k = J' n k) -> sandwich dim J rho m n = sandwich dim J' rho m n.
Proof. intros H H'. unfold sandwich. apply lsum_ext. intros k _. apply lsum_ext. intros l _. now rewrite H, H'. Qed.
Lemma jdagj_ext dim J J' m n : (forall k l, J k l = J' k l) -> jdagj dim J m n = jdagj dim J' m n.
Proof. intros H. unfold jdagj. apply lsum_ext. intros k _. now rewrite !H. Qed.
Lemma describes_ext dim l J J' : (forall m n, J m n = J' m n) -> describes dim l J' -> describes dim l J.
Proof.
  intros H [H1 H2]. split.
  - intros psi m Hm. rewrite H1 by auto. apply lsum_ext. intros n _. now rewrite H.
  - destruct (lbSuper l); [|exact I]. intros rho d m n Hm Hn. rewrite H2 by auto. f_equal. apply sandwich_ext; intros; symmetry; apply H.
Qed.
Lemma operator_ext dim f J J' : (forall m n, J m n = J' m n) -> is_operator dim f J' -> is_operator dim f J.
Proof. intros H H1 psi m Hm. rewrite H1 by auto. apply lsum_ext. intros n _. now rewrite H. Qed.

(** ** Lowering: J m n nonzero for n = m+1 *)
Definition up1 (m : nat) : nat := m + 1.
Definition down1 (m : nat) : nat := m - 1.
Definition all1 (_ : nat) : bool := true.
Definition posb (m : nat) : bool := 1 <=? m.
Lemma inv_lower dim k l : k < dim -> l < dim -> (all1 k = true /\ l = up1 k) <-> (posb l = true /\ k = down1 l).
Proof.
  intros _ _. unfold all1, posb, up1, down1. rewrite Nat.leb_le. split; intros [A B]; split; auto; lia.
Qed.
Lemma inv_raise dim k l : k < dim -> l < dim -> (posb k = true /\ l = down1 k) <-> (all1 l = true /\ k = up1 l).
Proof. intros Hk Hl. rewrite (inv_lower dim l k) by auto. tauto. Qed.

Lemma lower_loop dim (c : nat -> CR) psi m : m < dim ->
  upd (fold_left (fun p n => upd p n (kmul (c n) (p (n + 1)))) (seq 0 (dim - 1)) psi) (dim - 1) k0 m =
  if live dim all1 up1 m then kmul (c m) (psi (up1 m)) else k0.
Proof.
  intros Hm. unfold upd at 1. rewrite (loop_up (fun n _ y => kmul (c n) y)). unfold live, all1, up1. cbn [andb].
  destruct (Nat.eqb_spec m (dim - 1)), (Nat.ltb_spec m (dim - 1)), (Nat.ltb_spec (m + 1) dim); auto; lia.
Qed.
Lemma raise_loop dim (c : nat -> CR) psi m : m < dim ->
  upd (fold_left (fun p n => upd p n (kmul (c n) (p (n - 1)))) (rev (seq 1 (dim - 1))) psi) 0 k0 m =
  if live dim posb down1 m then kmul (c m) (psi (down1 m)) else k0.
Proof.
  intros Hm. unfold upd at 1. rewrite (loop_down (fun n _ y => kmul (c n) y)). unfold live, posb, down1.
  destruct (Nat.eqb_spec m 0), (Nat.leb_spec 1 m), (Nat.leb_spec m (dim - 1)), (Nat.ltb_spec (m - 1) dim); cbn [andb]; auto; lia.
Qed.

(** ** Mode *)
Definition lowC (x : R) (m : nat) : CR := RC (sqrt (2 * x) * sqrt (INR (m + 1))).
Definition highC (x : R) (m : nat) : CR := RC (sqrt (2 * x) * sqrt (INR m)).
Lemma annihilation_mono x m n : mscale (sqrt (2 * x)) annihilation m n = mono all1 up1 (lowC x) m n.
Proof.
  unfold mscale, annihilation, mono, lowC, all1, up1. cbn [andb]. destruct (Nat.eqb_spec n (m + 1)) as [->|]; [now rewrite RC_mul|ring].
Qed.
Lemma creation_mono x m n : mscale (sqrt (2 * x)) creation m n = mono posb down1 (highC x) m n.
Proof.
  unfold mscale, creation, mono, highC, posb, down1.
  destruct (Nat.eqb_spec m (n + 1)) as [->|].
  - replace (1 <=? n + 1) with true by (symmetry; apply Nat.leb_le; lia). replace (n =? n + 1 - 1) with true by (symmetry; apply Nat.eqb_eq; lia).
    cbn [andb]. now rewrite RC_mul.
  - destruct (Nat.leb_spec 1 m), (Nat.eqb_spec n (m - 1)); cbn [andb]; try ring. lia.
Qed.
Lemma csq_lowC x m : (0 <= x)%R -> csq (lowC x m) = (2 * x * INR (m + 1))%R.
Proof.
  intros H. unfold lowC. rewrite csq_RC.
  replace (sqrt (2 * x) * sqrt (INR (m + 1)) * (sqrt (2 * x) * sqrt (INR (m + 1))))%R
    with ((sqrt (2 * x) * sqrt (2 * x)) * (sqrt (INR (m + 1)) * sqrt (INR (m + 1))))%R by ring.
  rewrite !sqrt_sqrt; auto using pos_INR. lra.
Qed.
Lemma csq_highC x m : (0 <= x)%R -> csq (highC x m) = (2 * x * INR m)%R.
Proof.
  intros H. unfold highC. rewrite csq_RC.
  replace (sqrt (2 * x) * sqrt (INR m) * (sqrt (2 * x) * sqrt (INR m)))%R
    with ((sqrt (2 * x) * sqrt (2 * x)) * (sqrt (INR m) * sqrt (INR m)))%R by ring.
  rewrite !sqrt_sqrt; auto using pos_INR. lra.
Qed.
Lemma sqrt_pair x m n : (0 <= x)%R -> kmul (RC (sqrt (2 * x) * sqrt (INR m))) (RC (sqrt (2 * x) * sqrt (INR n))) = RC (2 * x * sqrt (INR (m * n))).
Proof.
  intros H. rewrite RC_mul. f_equal. rewrite mult_INR, (sqrt_mult (INR m) (INR n)) by apply pos_INR.
  replace (sqrt (2 * x) * sqrt (INR m) * (sqrt (2 * x) * sqrt (INR n)))%R with ((sqrt (2 * x) * sqrt (2 * x)) * (sqrt (INR m) * sqrt (INR n)))%R by ring.
  rewrite sqrt_sqrt by lra. reflexivity.
Qed.

Lemma aJump_super_ok dim x rho d m n : (0 <= x)%R -> m < dim -> n < dim ->
  aSuperoperator dim x rho d m n =
  kadd (d m n) (if andb (live dim all1 up1 m) (live dim all1 up1 n) then kmul (kmul (lowC x m) (rho (up1 m) (up1 n))) (kconj (lowC x n)) else k0).
Proof.
  intros Hx Hm Hn. unfold aSuperoperator. rewrite square_loop. unfold live, all1, up1. cbn [andb].
  destruct (Nat.leb_spec 0 m), (Nat.leb_spec 0 n); try lia. cbn [andb Nat.add].
  destruct (Nat.ltb_spec m (dim - 1)), (Nat.ltb_spec n (dim - 1)), (Nat.ltb_spec (m + 1) dim), (Nat.ltb_spec (n + 1) dim); cbn [andb]; try lia; try ring.
  f_equal. unfold lowC. rewrite RC_conj, <- (sqrt_pair x (m + 1) (n + 1)) by auto. ring.
Qed.
Lemma aDagJump_super_ok dim x rho d m n : (0 <= x)%R -> m < dim -> n < dim ->
  aDagSuperoperator dim x rho d m n =
  kadd (d m n) (if andb (live dim posb down1 m) (live dim posb down1 n) then kmul (kmul (highC x m) (rho (down1 m) (down1 n))) (kconj (highC x n)) else k0).
Proof.
  intros Hx Hm Hn. unfold aDagSuperoperator. rewrite square_loop. unfold live, posb, down1.
  destruct (Nat.leb_spec 1 m), (Nat.leb_spec 1 n), (Nat.ltb_spec m (1 + (dim - 1))), (Nat.ltb_spec n (1 + (dim - 1))),
    (Nat.ltb_spec (m - 1) dim), (Nat.ltb_spec (n - 1) dim); cbn [andb]; try lia; try ring.
  f_equal. unfold highC. rewrite RC_conj, <- (sqrt_pair x m n) by auto. ring.
Qed.

Lemma loss_describes dim x rate : (0 <= x)%R ->
  describes dim (mkLb (aJump dim x) rate (Some (aSuperoperator dim x))) (mscale (sqrt (2 * x)) annihilation).
Proof.
  intros Hx. eapply describes_ext; [apply annihilation_mono|]. apply mono_describes.
  - intros psi m Hm. cbn [lbJump]. apply (lower_loop dim (lowC x)). exact Hm.
  - cbn [lbSuper]. intros super E. injection E as <-. intros. now apply aJump_super_ok.
Qed.
Lemma absorption_describes dim x rate : (0 <= x)%R ->
  describes dim (mkLb (aDagJump dim x) rate (Some (aDagSuperoperator dim x))) (mscale (sqrt (2 * x)) creation).
Proof.
  intros Hx. eapply describes_ext; [apply creation_mono|]. apply mono_describes.
  - intros psi m Hm. cbn [lbJump]. apply (raise_loop dim (highC x)). exact Hm.
  - cbn [lbSuper]. intros super E. injection E as <-. intros. now apply aDagJump_super_ok.
Qed.
Lemma jdagj_loss dim x m n : (0 <= x)%R -> m < dim -> n < dim ->
  jdagj dim (mscale (sqrt (2 * x)) annihilation) m n = if m =? n then RC (2 * x * INR m) else k0.
Proof.
  intros Hx Hm Hn. rewrite (jdagj_ext dim _ (mono all1 up1 (lowC x))) by (intros; apply annihilation_mono).
  rewrite (mono_jdagj dim all1 up1 (lowC x) posb down1 m n Hm Hn) by (intros; now apply (inv_lower dim)).
  destruct (m =? n); [|reflexivity]. rewrite csq_lowC by auto. unfold live, posb, down1.
  destruct (Nat.leb_spec 1 m).
  - replace (m - 1 <? dim) with true by (symmetry; apply Nat.ltb_lt; lia). cbn [andb]. now replace (m - 1 + 1) with m by lia.
  - cbn [andb]. replace m with 0 by lia. cbn. apply cr_eq; cbn; ring.
Qed.
Lemma jdagj_absorption dim x m n : (0 <= x)%R -> m < dim -> n < dim ->
  jdagj dim (mscale (sqrt (2 * x)) creation) m n = if m =? n then RC (2 * x * (if m + 1 <? dim then INR (m + 1) else 0)) else k0.
Proof.
  intros Hx Hm Hn. rewrite (jdagj_ext dim _ (mono posb down1 (highC x))) by (intros; apply creation_mono).
  rewrite (mono_jdagj dim posb down1 (highC x) all1 up1 m n Hm Hn) by (intros; now apply (inv_raise dim)).
  destruct (m =? n); [|reflexivity]. rewrite csq_highC by auto. unfold live, all1, up1. cbn [andb].
  destruct (m + 1 <? dim); [reflexivity|]. apply cr_eq; cbn; ring.
Qed.
Lemma photonNumber_sum dim x : photonNumber dim x = rsum (fun n => (INR n * ldDiag x n)%R) (seq 0 dim).
Proof. unfold photonNumber. rewrite fold_rsum, rsum_from1 by (cbn; ring). ring. Qed.

Lemma loss_rate dim x r super : (0 <= x)%R -> (forall m, r m = 2 * x * photonNumber dim m)%R ->
  rate_of_jump dim (mkLb (aJump dim x) (Some r) super) (mscale (sqrt (2 * x)) annihilation).
Proof.
  intros Hx Hr. eapply rate_lemma with (D := fun m => (2 * x * INR m)%R); [|reflexivity| |].
  - apply (loss_describes dim x None Hx).
  - intros m n Hm Hn. now apply jdagj_loss.
  - intros m. rewrite Hr, photonNumber_sum, <- rsum_scal. apply rsum_ext. intros; ring.
Qed.

Lemma rsum_last (f : nat -> R) dim : (0 < dim)%nat -> rsum f (seq 0 dim) = (rsum f (seq 0 (dim - 1)) + f (dim - 1)%nat)%R.
Proof.
  intros H. replace dim with (S (dim - 1)) at 1 by lia. rewrite seq_S, rsum_app. unfold rsum at 2. cbn [fold_right Nat.add]. lra.
Qed.
(** a^dagger loses what is in the highest level *)
Lemma absorption_sum dim (d : nat -> R) : (0 < dim)%nat ->
  rsum (fun n => ((if n + 1 <? dim then INR (n + 1) else 0) * d n)%R) (seq 0 dim) =
  (rsum (fun n => INR n * d n) (seq 0 dim) + rsum d (seq 0 dim) - INR dim * d (dim - 1)%nat)%R.
Proof.
  intros H. rewrite (rsum_last (fun n => ((if n + 1 <? dim then INR (n + 1) else 0) * d n)%R)), (rsum_last (fun n => (INR n * d n)%R)), (rsum_last d) by auto.
  replace (dim - 1 + 1 <? dim) with false by (symmetry; apply Nat.ltb_ge; lia).
  rewrite (rsum_ext _ (fun n => (INR n * d n + d n)%R) (seq 0 (dim - 1))).
  - rewrite rsum_add. change (rsum (fun a => d a) (seq 0 (dim - 1))) with (rsum d (seq 0 (dim - 1))). replace (INR dim) with (INR (dim - 1) + 1)%R; [lra|]. rewrite <- S_INR. f_equal. lia.
  - intros n Hn. apply in_seq in Hn. replace (n + 1 <? dim) with true by (symmetry; apply Nat.ltb_lt; lia).
    rewrite plus_INR. cbn [INR]. lra.
Qed.

Lemma absorption_norm dim x psi : (0 <= x)%R -> (0 < dim)%nat ->
  norm2 dim (aDagJump dim x psi) = (2 * x * (photonNumber dim (ldoSV dim psi) + norm2 dim psi - INR dim * csq (psi (dim - 1)%nat)))%R.
Proof.
  intros Hx Hd.
  pose (r := fun l : ldo => rsum (fun n => (2 * x * (if n + 1 <? dim then INR (n + 1) else 0) * ldDiag l n)%R) (seq 0 dim)).
  assert (H : rate_of_jump dim (mkLb (aDagJump dim x) (Some r) None) (mscale (sqrt (2 * x)) creation)).
  { eapply rate_lemma with (D := fun m => (2 * x * (if m + 1 <? dim then INR (m + 1) else 0))%R); [|reflexivity| |].
    - apply (absorption_describes dim x None Hx).
    - intros m n Hm Hn. now apply jdagj_absorption.
    - reflexivity. }
  destruct H as [H _]. cbn [lbJump] in H. rewrite <- (H psi). unfold r.
  rewrite (rsum_ext _ (fun n => (2 * x * ((if n + 1 <? dim then INR (n + 1) else 0) * ldDiag (ldoSV dim psi) n))%R)) by (intros; ring).
  rewrite rsum_scal, absorption_sum by auto. rewrite photonNumber_sum. reflexivity.
Qed.
Lemma absorption_trace dim x rho : (0 <= x)%R -> (0 < dim)%nat ->
  cre (mtr dim (sandwich dim (mscale (sqrt (2 * x)) creation) rho)) =
  (2 * x * (photonNumber dim (ldoDO dim rho) + ldTrace (ldoDO dim rho) - INR dim * cre (rho (dim - 1)%nat (dim - 1)%nat)))%R.
Proof.
  intros Hx Hd.
  pose (r := fun l : ldo => rsum (fun n => (2 * x * (if n + 1 <? dim then INR (n + 1) else 0) * ldDiag l n)%R) (seq 0 dim)).
  assert (H : rate_of_jump dim (mkLb (aDagJump dim x) (Some r) None) (mscale (sqrt (2 * x)) creation)).
  { eapply rate_lemma with (D := fun m => (2 * x * (if m + 1 <? dim then INR (m + 1) else 0))%R); [|reflexivity| |].
    - apply (absorption_describes dim x None Hx).
    - intros m n Hm Hn. now apply jdagj_absorption.
    - reflexivity. }
  destruct H as [_ H]. rewrite <- (H rho). unfold r.
  rewrite (rsum_ext _ (fun n => (2 * x * ((if n + 1 <? dim then INR (n + 1) else 0) * ldDiag (ldoDO dim rho) n))%R)) by (intros; ring).
  rewrite rsum_scal, absorption_sum by auto. rewrite photonNumber_sum. reflexivity.
Qed.

(** ** Spin *)
Definition spinC (twoS : nat) (gamma : R) (m : nat) : CR := RC (sqrt (2 * gamma) * sqrt (INR ((m + 1) * (twoS - m)))).
Lemma spin_mono twoS gamma m n : mscale (sqrt (2 * gamma)) (spinLower twoS) m n = mono all1 up1 (spinC twoS gamma) m n.
Proof.
  unfold mscale, spinLower, mono, spinC, all1, up1. cbn [andb]. destruct (n =? m + 1); [now rewrite RC_mul|ring].
Qed.
Lemma csq_spinC twoS x m : (0 <= x)%R -> csq (spinC twoS x m) = (2 * x * INR ((m + 1) * (twoS - m)))%R.
Proof.
  intros H. unfold spinC. rewrite csq_RC. set (k := INR ((m + 1) * (twoS - m))). assert (0 <= k)%R by apply pos_INR.
  replace (sqrt (2 * x) * sqrt k * (sqrt (2 * x) * sqrt k))%R with ((sqrt (2 * x) * sqrt (2 * x)) * (sqrt k * sqrt k))%R by ring.
  rewrite !sqrt_sqrt; auto. lra.
Qed.
Lemma jdagj_spin dim twoS x m n : (0 <= x)%R -> m < dim -> n < dim -> (dim <= twoS + 1)%nat ->
  jdagj dim (mscale (sqrt (2 * x)) (spinLower twoS)) m n = if m =? n then RC (2 * x * INR m * INR (twoS - m + 1)) else k0.
Proof.
  intros Hx Hm Hn Hd. rewrite (jdagj_ext dim _ (mono all1 up1 (spinC twoS x))) by (intros; apply spin_mono).
  rewrite (mono_jdagj dim all1 up1 (spinC twoS x) posb down1 m n Hm Hn) by (intros; now apply (inv_lower dim)).
  destruct (m =? n); [|reflexivity]. rewrite csq_spinC by auto. unfold live, posb, down1.
  destruct (Nat.leb_spec 1 m).
  - replace (m - 1 <? dim) with true by (symmetry; apply Nat.ltb_lt; lia). cbn [andb]. rewrite mult_INR.
    replace (m - 1 + 1) with m by lia. replace (twoS - (m - 1)) with (twoS - m + 1) by lia. f_equal. ring.
  - cbn [andb]. replace m with 0 by lia. apply cr_eq; cbn; ring.
Qed.
Lemma spin_describes dim twoS x rate : describes dim (mkLb (spinJump dim twoS x) rate None) (mscale (sqrt (2 * x)) (spinLower twoS)).
Proof.
  eapply describes_ext; [apply spin_mono|]. apply mono_describes.
  - intros psi m Hm. cbn [lbJump]. apply (lower_loop dim (spinC twoS x)). exact Hm.
  - cbn [lbSuper]. discriminate.
Qed.
Lemma spin_rate_ok dim twoS x : (0 <= x)%R -> (dim <= twoS + 1)%nat ->
  rate_of_jump dim (mkLb (spinJump dim twoS x) (Some (spinRate dim twoS x)) None) (mscale (sqrt (2 * x)) (spinLower twoS)).
Proof.
  intros Hx Hd. eapply rate_lemma with (D := fun m => (2 * x * INR m * INR (twoS - m + 1))%R); [|reflexivity| |].
  - apply (spin_describes dim twoS x None).
  - intros m n Hm Hn. now apply jdagj_spin.
  - intros m. unfold spinRate. rewrite fold_rsum, rsum_from1 by (cbn; ring). ring.
Qed.
Lemma decide_le twoS d : (decideDimension twoS d <= twoS + 1)%nat.
Proof. unfold decideDimension. destruct (Nat.eqb_spec d 0), (Nat.ltb_spec d (twoS + 1)); cbn; lia. Qed.

(** ** |i><j|: multi-level, two-level *)
Definition kb (i : nat) (m : nat) : bool := m =? i.
Lemma ketbra_mono i j x m n : mscale x (ketbra i j) m n = mono (kb i) (fun _ => j) (fun _ => RC x) m n.
Proof. unfold mscale, ketbra, mono, kb. destruct (_ && _)%bool; ring. Qed.
Lemma inv_ketbra dim i j k l : k < dim -> l < dim -> (kb i k = true /\ l = j) <-> (kb j l = true /\ k = i).
Proof. intros _ _. unfold kb. rewrite !Nat.eqb_eq. tauto. Qed.
Lemma jdagj_ketbra dim i j x m n : (0 <= x)%R -> i < dim -> m < dim -> n < dim ->
  jdagj dim (mscale (sqrt (2 * x)) (ketbra i j)) m n = if m =? n then RC (2 * x * (if m =? j then 1 else 0)) else k0.
Proof.
  intros Hx Hi Hm Hn. rewrite (jdagj_ext dim _ (mono (kb i) (fun _ => j) (fun _ => RC (sqrt (2 * x))))) by (intros; apply ketbra_mono).
  rewrite (mono_jdagj dim _ _ _ (kb j) (fun _ => i) m n Hm Hn) by (intros; now apply (inv_ketbra dim)).
  destruct (m =? n); [|reflexivity]. unfold live, kb. replace (i <? dim) with true by (symmetry; now apply Nat.ltb_lt).
  rewrite andb_true_r. destruct (m =? j); [|apply cr_eq; cbn; ring].
  rewrite csq_RC, sqrt_sqrt by lra. f_equal. ring.
Qed.
Lemma radiative_describes dim dc : (0 <= dcGamma dc)%R -> dcFirst dc < dim -> dcSecond dc < dim ->
  describes dim (radiative dc) (mscale (sqrt (2 * dcGamma dc)) (ketbra (dcFirst dc) (dcSecond dc))).
Proof.
  intros Hx Hi Hj. eapply describes_ext; [apply ketbra_mono|]. apply mono_describes.
  - intros psi m Hm. cbn [lbJump radiative]. unfold upd, live, kb. replace (dcSecond dc <? dim) with true by (symmetry; now apply Nat.ltb_lt).
    rewrite andb_true_r. reflexivity.
  - cbn [lbSuper radiative]. intros super E. injection E as <-. intros rho d m n Hm Hn. unfold upd2, live, kb.
    replace (dcSecond dc <? dim) with true by (symmetry; now apply Nat.ltb_lt). rewrite !andb_true_r.
    destruct (Nat.eqb_spec m (dcFirst dc)) as [->|], (Nat.eqb_spec n (dcFirst dc)) as [->|]; cbn [andb]; try ring.
    rewrite RC_conj. replace (RC (2 * dcGamma dc)) with (kmul (RC (sqrt (2 * dcGamma dc))) (RC (sqrt (2 * dcGamma dc)))) by (apply sqrt_sq_RC; lra).
    change cr_add with (@kadd CR). change cr_mul with (@kmul CR). ring.
Qed.
Lemma radiative_rate dim dc : (0 <= dcGamma dc)%R -> dcFirst dc < dim -> dcSecond dc < dim ->
  rate_of_jump dim (radiative dc) (mscale (sqrt (2 * dcGamma dc)) (ketbra (dcFirst dc) (dcSecond dc))).
Proof.
  intros Hx Hi Hj. eapply rate_lemma with (D := fun m => (2 * dcGamma dc * (if m =? dcSecond dc then 1 else 0))%R); [|reflexivity| |].
  - now apply radiative_describes.
  - intros m n Hm Hn. now apply jdagj_ketbra.
  - intros m. cbn beta.
    assert (E : forall (f : nat -> R) k N s, (s <= k < s + N)%nat -> rsum (fun n => (if n =? k then f n else 0)%R) (seq s N) = f k).
    { intros f k N. induction N as [|N IH]; intros s Hs; [lia|]. cbn [seq]. unfold rsum. cbn [fold_right].
      change (fold_right (fun a s => ((if a =? k then f a else 0) + s)%R) 0%R (seq (S s) N)) with (rsum (fun n => (if n =? k then f n else 0)%R) (seq (S s) N)).
      destruct (Nat.eqb_spec s k) as [->|Hne].
      - rewrite (rsum_ext _ (fun _ => 0 * 0)%R). { rewrite rsum_scal. lra. }
        intros a Ha. apply in_seq in Ha. destruct (Nat.eqb_spec a k); [lia|]. ring.
      - rewrite IH by lia. lra. }
    rewrite (rsum_ext _ (fun n => (if n =? dcSecond dc then 2 * dcGamma dc * ldDiag m n else 0)%R)).
    + rewrite (E (fun n => 2 * dcGamma dc * ldDiag m n)%R) by lia. reflexivity.
    + intros n _. destruct (n =? dcSecond dc); ring.
Qed.

(** the two-level atom is the multi-level system with a decay from 1 to 0 *)
Lemma pair_jump x psi m : m < 2 -> upd (upd psi 0 (kmul (RC x) (psi 1%nat))) 1 k0 m = if live 2 (kb 0) (fun _ => 1%nat) m then kmul (RC x) (psi 1%nat) else k0.
Proof. intros H. destruct m as [|[|m]]; [reflexivity|reflexivity|lia]. Qed.
Lemma twoLevel_operator x : is_operator 2 (fun psi => upd (upd psi 0 (kmul (RC x) (psi 1%nat))) 1 k0) (mscale x (ketbra 0 1)).
Proof. eapply operator_ext; [apply ketbra_mono|]. intros psi m Hm. rewrite mono_act, pair_jump by auto. reflexivity. Qed.
Lemma twoLevel_ok za : (cre za <= 0)%R -> Forall2 (fun l J => describes 2 l J /\ rate_of_jump 2 l J) (twoLevelLoss za) [mscale (sqrt (2 * - cre za)) (ketbra 0 1)].
Proof.
  intros H. constructor; [|constructor].
  assert (E : (- 2 * cre za = 2 * - cre za)%R) by ring.
  split.
  - split; [|exact I]. cbn [lbJump]. rewrite E. apply twoLevel_operator.
  - eapply rate_lemma with (D := fun m => (2 * - cre za * (if m =? 1 then 1 else 0))%R); [|reflexivity| |].
    + cbn [lbJump]. rewrite E. apply twoLevel_operator.
    + intros m n Hm Hn. apply jdagj_ketbra; auto. lra.
    + intros m. unfold rsum. cbn. ring.
Qed.
Lemma qbitNoise_ok g1 g2 : Forall2 (describes 2) (qbitPhaseNoise g1 g2) [mscale (sqrt (2 * g1)) (ketbra 0 1); mscale (sqrt (2 * g2)) (flip 1)].
Proof.
  constructor; [|constructor; [|constructor]].
  - split; [|exact I]. cbn [lbJump]. apply twoLevel_operator.
  - split; [|exact I]. cbn [lbJump]. intros psi m Hm. unfold sigma_zJump, mscale, flip, lsum, ksum. cbn [seq map fold_right].
    destruct m as [|[|m]]; [| |lia]; cbn [Nat.eqb upd]; unfold upd; cbn [Nat.eqb]; rewrite <- ?RC_opp.
    + ring.
    + replace (RC (-1)) with (kopp (k1 : CR)) by (apply cr_eq; cbn; ring). ring.
Qed.

(** ** Diffusion *)
Lemma flip_mono k x m n : mscale x (flip k) m n = mono all1 (fun m => m) (fun m => if m =? k then RC (- x) else RC x) m n.
Proof.
  unfold mscale, flip, mono, all1. cbn [andb]. rewrite (Nat.eqb_sym n m). destruct (m =? n); [|ring]. destruct (m =? k); [|ring].
  rewrite RC_mul. f_equal. ring.
Qed.
Lemma diffusive_operator dim gammas k : is_operator dim (diffusiveJump gammas k) (mscale (sqrt (2 * nth k gammas 0%R)) (flip k)).
Proof.
  eapply operator_ext; [apply flip_mono|]. intros psi m Hm. rewrite mono_act. unfold live, all1. cbn [andb].
  replace (m <? dim) with true by (symmetry; now apply Nat.ltb_lt). unfold diffusiveJump, upd.
  destruct (Nat.eqb_spec m k) as [->|]; [|ring]. rewrite <- RC_opp. replace (RC (-1)) with (kopp (k1 : CR)) by (apply cr_eq; cbn; ring). ring.
Qed.
Lemma jdagj_flip dim k x m n : (0 <= x)%R -> m < dim -> n < dim -> jdagj dim (mscale (sqrt (2 * x)) (flip k)) m n = if m =? n then RC (2 * x) else k0.
Proof.
  intros Hx Hm Hn. rewrite (jdagj_ext dim _ _ m n (flip_mono k (sqrt (2 * x)))).
  rewrite (mono_jdagj dim all1 (fun m => m) _ all1 (fun m => m) m n Hm Hn) by (intros; split; intros [A B]; auto).
  destruct (m =? n); [|reflexivity]. unfold live, all1. cbn [andb]. replace (m <? dim) with true by (symmetry; now apply Nat.ltb_lt).
  assert (S2 : (sqrt (2 * x) * sqrt (2 * x) = 2 * x)%R) by (apply sqrt_sqrt; lra).
  destruct (m =? k); rewrite csq_RC; f_equal; lra.
Qed.
Lemma sandwich_flip dim k x rho m n : (0 <= x)%R -> m < dim -> n < dim ->
  sandwich dim (mscale (sqrt (2 * x)) (flip k)) rho m n =
  kmul (RC (2 * x * (if m =? k then -1 else 1) * (if n =? k then -1 else 1))) (rho m n).
Proof.
  intros Hx Hm Hn. rewrite (sandwich_ext dim _ (mono all1 (fun m => m) (fun m => if m =? k then RC (- sqrt (2 * x)) else RC (sqrt (2 * x))))) by (intros; apply flip_mono).
  rewrite mono_sandwich. unfold live, all1. cbn [andb].
  replace (m <? dim) with true by (symmetry; now apply Nat.ltb_lt). replace (n <? dim) with true by (symmetry; now apply Nat.ltb_lt). cbn [andb].
  assert (S2 : (sqrt (2 * x) * sqrt (2 * x) = 2 * x)%R) by (apply sqrt_sqrt; lra).
  set (y := sqrt (2 * x)) in *. clearbody y. rewrite <- S2.
  destruct (m =? k), (n =? k); rewrite RC_conj; generalize (rho m n); intros [a b]; apply cr_eq; cbn; ring.
Qed.

(** the loops of the superoperator *)
Lemma diff_inner (rho : dmat) g m N : forall d i j,
  fold_left (fun d n => let d' := upd2 d m n (ksub (d m n) (kmul (RC (6 * g)) (rho m n))) in
                        upd2 d' n m (ksub (d' n m) (kmul (RC (6 * g)) (rho n m)))) (seq (m + 1) N) d i j =
  if orb (andb (i =? m) (andb (m + 1 <=? j) (j <? m + 1 + N))) (andb (j =? m) (andb (m + 1 <=? i) (i <? m + 1 + N)))
  then ksub (d i j) (kmul (RC (6 * g)) (rho i j)) else d i j.
Proof.
  induction N as [|N IH]; intros d i j.
  - cbn [seq fold_left]. destruct (Nat.leb_spec (m + 1) j), (Nat.ltb_spec j (m + 1 + 0)), (Nat.leb_spec (m + 1) i), (Nat.ltb_spec i (m + 1 + 0));
      cbn [andb]; rewrite ?andb_false_r; cbn [orb]; auto; lia.
  - rewrite seq_S, fold_left_app. cbn [fold_left]. cbv zeta.
    set (D := fold_left _ (seq (m + 1) N) d).
    assert (HD : forall i j, D i j = if orb (andb (i =? m) (andb (m + 1 <=? j) (j <? m + 1 + N))) (andb (j =? m) (andb (m + 1 <=? i) (i <? m + 1 + N)))
      then ksub (d i j) (kmul (RC (6 * g)) (rho i j)) else d i j) by (intros; apply IH).
    clearbody D. clear IH. unfold upd2. rewrite !HD.
    set (e := m + 1 + N) in *.
    destruct (Nat.eqb_spec i e) as [->|Hie], (Nat.eqb_spec j m) as [->|Hjm]; cbn [andb];
      rewrite ?Nat.eqb_refl; destruct (Nat.eqb_spec e m); try (unfold e in *; lia); cbn [andb];
      repeat match goal with
      | |- context [?a <=? ?b] => destruct (Nat.leb_spec a b); try (unfold e in *; lia)
      | |- context [?a <? ?b] => destruct (Nat.ltb_spec a b); try (unfold e in *; lia)
      | |- context [?a =? ?b] => destruct (Nat.eqb_spec a b); try (unfold e in *; lia)
      end; cbn [andb orb]; subst; auto; try (unfold e in *; lia).
Qed.
Lemma diff_outer (rho : dmat) g dim N : (N <= dim)%nat -> forall d i j, i < dim -> j < dim ->
  fold_left (fun d m =>
        fold_left (fun d n =>
            let d' := upd2 d m n (ksub (d m n) (kmul (RC (6 * g)) (rho m n))) in
            upd2 d' n m (ksub (d' n m) (kmul (RC (6 * g)) (rho n m))))
          (seq (m + 1) (dim - (m + 1)))
          (upd2 d m m (kadd (d m m) (kmul (RC (2 * g)) (rho m m)))))
      (seq 0 N) d i j =
  if orb (i <? N) (j <? N) then (if i =? j then kadd (d i j) (kmul (RC (2 * g)) (rho i j)) else ksub (d i j) (kmul (RC (6 * g)) (rho i j))) else d i j.
Proof.
  induction N as [|N IH]; intros HN d i j Hi Hj; [reflexivity|].
  rewrite seq_S, fold_left_app. cbn [fold_left Nat.add]. rewrite diff_inner. unfold upd2.
  rewrite !IH by lia.
  repeat match goal with
      | |- context [?a <=? ?b] => destruct (Nat.leb_spec a b); try lia
      | |- context [?a <? ?b] => destruct (Nat.ltb_spec a b); try lia
      | |- context [?a =? ?b] => destruct (Nat.eqb_spec a b); try lia
      end; cbn [andb orb]; subst; auto; try lia.
Qed.
Lemma diffusiveSuper_0 dim gammas rho d m n : m < dim -> n < dim ->
  diffusiveSuper dim gammas 0 rho d m n =
  (if m =? n then kadd (d m n) (kmul (RC (2 * nth 0 gammas 0%R)) (rho m n)) else ksub (d m n) (kmul (RC (6 * nth 0 gammas 0%R)) (rho m n))).
Proof.
  intros Hm Hn. unfold diffusiveSuper. cbn [Nat.eqb]. rewrite diff_outer by lia.
  replace (m <? dim) with true by (symmetry; now apply Nat.ltb_lt). reflexivity.
Qed.
