From Coq Require Import List Arith Reals Lra Lia.
From Coquelicot Require Import Coquelicot.
From Verif Require Import Star CReal PureModel DdhoModel DdhoProofs InitialModel InitialSpec.
Import ListNotations.
Local Open Scope nat_scope.
Add Ring CRInitial : (k_ring CR).

Lemma total_ext p q n : (forall m, m < n -> p m = q m) -> total p n = total q n.
Proof. induction n as [|n IH]; intros H; cbn; [reflexivity|]. rewrite IH, H by auto with arith. reflexivity. Qed.
Lemma total_rsum p n : rsum p (seq 0 n) = total p n.
Proof.
  induction n as [|n IH]; [reflexivity|]. rewrite seq_S. cbn [total]. rewrite <- IH. unfold rsum. rewrite fold_right_app. cbn [fold_right Nat.add].
  generalize (seq 0 n). intros l. induction l as [|a l IHl]; cbn [fold_right]; [ring|]. rewrite IHl. ring.
Qed.
Lemma total_nonneg p n : (forall m, (0 <= p m)%R) -> (0 <= total p n)%R.
Proof. intros H. induction n as [|n IH]; cbn; [lra|]. specialize (H n). lra. Qed.
Lemma photonNumber_mean psi : photonNumber psi = meanNumber psi.
Proof. unfold photonNumber. rewrite total_rsum. reflexivity. Qed.
Lemma lazy_mean psi : photonNumberLazy (population psi) (length psi) = meanNumber psi.
Proof.
  unfold photonNumberLazy, meanNumber. rewrite <- total_rsum. destruct (length psi) as [|d]; [reflexivity|].
  replace (Datatypes.S d - 1) with d by lia. unfold rsum. cbn [seq fold_right INR]. ring.
Qed.

(** Fock states *)
Lemma length_assign psi n z : n < length psi -> length (assign psi n z) = length psi.
Proof. intros H. unfold assign. rewrite app_length. cbn [length]. rewrite firstn_length, skipn_length. lia. Qed.
Lemma nth_assign psi n z m : n < length psi -> nth m (assign psi n z) k0 = if m =? n then z else nth m psi k0.
Proof.
  intros H. unfold assign. destruct (Nat.eqb_spec m n) as [->|N].
  - rewrite app_nth2; rewrite firstn_length; [|lia]. replace (n - Nat.min n (length psi)) with 0 by lia. reflexivity.
  - destruct (Nat.lt_ge_cases m n) as [L|L].
    + rewrite app_nth1 by (rewrite firstn_length; lia). rewrite <- (firstn_skipn n psi) at 2. rewrite app_nth1 by (rewrite firstn_length; lia). reflexivity.
    + rewrite app_nth2; rewrite firstn_length; [|lia]. replace (m - Nat.min n (length psi)) with (Datatypes.S (m - Datatypes.S n)) by lia. cbn [nth].
      rewrite <- (firstn_skipn (Datatypes.S n) psi) at 2. rewrite app_nth2; rewrite firstn_length; [|lia]. f_equal. lia.
Qed.
Lemma nth_zeroKet dim m : nth m (zeroKet dim) k0 = k0.
Proof. unfold zeroKet. revert m. induction dim as [|d IH]; intros [|m]; cbn; auto. Qed.
Lemma total_delta (f : nat -> R) k n : k < n -> total (fun m => if m =? k then f m else 0%R) n = f k.
Proof.
  induction n as [|n IH]; intros H; [lia|]. cbn [total]. destruct (Nat.eq_dec k n) as [->|N].
  - rewrite Nat.eqb_refl. rewrite (total_ext _ (fun _ => 0%R)). { assert (E : forall j, total (fun _ => 0%R) j = 0%R) by (induction j; cbn; lra). rewrite E. ring. }
    intros m L. destruct (Nat.eqb_spec m n); [lia|reflexivity].
  - rewrite IH by lia. destruct (Nat.eqb_spec n k); [lia|ring].
Qed.
Lemma fock_refused n dim phase : fock n dim phase = None <-> dim <= n.
Proof. unfold fock. destruct (Nat.leb_spec dim n); split; auto; try discriminate; lia. Qed.
Lemma fock_state n dim phase psi : fock n dim phase = Some psi ->
  length psi = dim /\ nth n psi k0 = cexp (kmul CI (RC phase)) /\ (forall m, m <> n -> nth m psi k0 = k0) /\ normSq psi = 1%R /\ meanNumber psi = INR n /\ photonNumber psi = INR n.
Proof.
  unfold fock. destruct (Nat.leb_spec dim n) as [|L]; [discriminate|]. intros H. injection H as <-. set (psi := assign _ _ _).
  assert (Z : length (zeroKet dim) = dim) by apply repeat_length.
  assert (El : length psi = dim) by (unfold psi; rewrite length_assign; lia).
  assert (N : forall m, nth m psi k0 = if m =? n then cexp (kmul CI (RC phase)) else k0) by (intros m; unfold psi; rewrite nth_assign by lia; now rewrite nth_zeroKet).
  assert (P : forall m, population psi m = if m =? n then 1%R else 0%R).
  { intros m. unfold population. rewrite N. destruct (m =? n); [|cbv; ring]. replace (kmul CI (RC phase)) with ((0%R, phase) : CR) by (apply cr_eq; cbn; ring). apply cexp_imag_csq. }
  assert (M : meanNumber psi = INR n).
  { unfold meanNumber. rewrite El. rewrite (total_ext _ (fun m => if m =? n then INR m else 0%R)); [now apply total_delta|]. intros m _. rewrite P. destruct (m =? n); ring. }
  repeat split; auto.
  - rewrite N, Nat.eqb_refl. reflexivity.
  - intros m Hm. rewrite N. now apply Nat.eqb_neq in Hm as ->.
  - unfold normSq. rewrite El. rewrite (total_ext _ (fun m => if m =? n then (fun _ => 1%R) m else 0%R)); [now rewrite (total_delta (fun _ => 1%R))|]. intros m _. apply P.
  - now rewrite photonNumber_mean.
Qed.

(** coherent states *)
Local Open Scope R_scope.
Lemma csq_RC x : csq (RC x) = x * x.
Proof. unfold csq. cbn. ring. Qed.
Lemma csq_cpow z n : csq (cpow z n) = csq z ^ n.
Proof. induction n as [|n IH]; cbn [cpow pow]; [cbv; ring|]. rewrite csq_mul, IH. reflexivity. Qed.
Lemma cdiv_RC z x : x <> 0 -> cdiv z (RC x) = kmul z (RC (/ x)).
Proof. intros N. unfold cdiv. f_equal. rewrite RC_conj, RC_mul, csq_RC. f_equal. now field. Qed.
Lemma fact_pos n : 0 < INR (fact n).
Proof. apply lt_0_INR, lt_O_fact. Qed.
Lemma element_exact n alpha : (n < 170)%nat -> coherentElement n alpha = kmul (cpow alpha n) (RC (/ sqrt (INR (fact n)))).
Proof.
  intros H. unfold coherentElement. destruct (Nat.eqb_spec n 0) as [->|N].
  - cbn [cpow fact INR]. rewrite sqrt_1, Rinv_1. change (RC 1) with (k1 : CR). ring.
  - unfold maxFactorial. destruct (Nat.ltb_spec n 170); [|lia]. apply cdiv_RC. intros E. apply sqrt_eq_0 in E; [|apply Rlt_le, fact_pos]. pose proof (fact_pos n). lra.
Qed.
Lemma nth_coherent alpha dim n : (n < dim)%nat -> nth n (coherent alpha dim) k0 = kmul (RC (exp (- csq alpha / 2))) (coherentElement n alpha).
Proof.
  intros H. unfold coherent. cbv zeta. rewrite (nth_indep _ k0 (kmul (RC (exp (- csq alpha / 2))) (coherentElement 0 alpha))) by (rewrite map_length, seq_length; lia).
  rewrite (map_nth (fun n => kmul (RC (exp (- csq alpha / 2))) (coherentElement n alpha))). rewrite seq_nth by lia. reflexivity.
Qed.
Lemma length_coherent alpha dim : length (coherent alpha dim) = dim.
Proof. unfold coherent. cbv zeta. now rewrite map_length, seq_length. Qed.
Lemma coherent_eigen alpha dim : (dim <= 170)%nat -> eigenstate_of_annihilation alpha (coherent alpha dim).
Proof.
  intros H n L. rewrite length_coherent in L. rewrite !nth_coherent by lia. rewrite !element_exact by lia. replace (n + 1)%nat with (Datatypes.S n) by lia. cbn [cpow].
  assert (E : kmul (RC (sqrt (INR (Datatypes.S n)))) (RC (/ sqrt (INR (fact (Datatypes.S n))))) = RC (/ sqrt (INR (fact n)))).
  { rewrite RC_mul. f_equal. change (fact (Datatypes.S n)) with (Datatypes.S n * fact n)%nat. rewrite mult_INR. rewrite sqrt_mult by (apply pos_INR). pose proof (fact_pos n) as F.
    assert (0 < INR (Datatypes.S n)) as F' by (apply lt_0_INR; lia). apply sqrt_lt_R0 in F, F'. field. lra. }
  transitivity (kmul (kmul (RC (exp (- csq alpha / 2))) (kmul alpha (cpow alpha n))) (kmul (RC (sqrt (INR (Datatypes.S n)))) (RC (/ sqrt (INR (fact (Datatypes.S n))))))); [ring|].
  rewrite E. ring.
Qed.
Lemma coherent_population alpha dim n : (dim <= 170)%nat -> (n < dim)%nat -> population (coherent alpha dim) n = poisson (csq alpha) n.
Proof.
  intros H L. unfold population, poisson. rewrite nth_coherent by lia. rewrite element_exact by lia. rewrite !csq_mul, csq_cpow, !csq_RC.
  pose proof (fact_pos n) as F. assert (E : / sqrt (INR (fact n)) * / sqrt (INR (fact n)) = / INR (fact n)). { rewrite <- Rinv_mult. f_equal. apply sqrt_sqrt. lra. }
  rewrite E. rewrite <- exp_plus. replace (- csq alpha / 2 + - csq alpha / 2) with (- csq alpha) by field. unfold Rdiv. ring.
Qed.
(** the exponential series *)
Definition term (x : R) (n : nat) : R := x ^ n / INR (fact n).
Lemma term_nonneg x n : 0 <= x -> 0 <= term x n.
Proof. intros H. unfold term, Rdiv. apply Rmult_le_pos; [now apply pow_le|]. apply Rlt_le, Rinv_0_lt_compat, fact_pos. Qed.
Lemma total_sum p n : total p (Datatypes.S n) = sum_n p n.
Proof. induction n as [|n IH]; [rewrite sum_O; cbn; ring|]. rewrite sum_Sn, <- IH. reflexivity. Qed.
Lemma exp_series x : is_series (term x) (exp x).
Proof. eapply is_series_ext; [|apply (is_exp_Reals x)]. intros n. unfold term. rewrite pow_n_pow. unfold scal. cbn. unfold mult. cbn. unfold Rdiv. ring. Qed.
Lemma exp_limit x : is_lim_seq (total (term x)) (exp x).
Proof. apply is_lim_seq_incr_1. eapply is_lim_seq_ext; [|apply (exp_series x)]. intros n. symmetry. apply total_sum. Qed.
Lemma total_incr p n m : (forall k, 0 <= p k) -> total p n <= total p (n + m).
Proof. intros H. induction m as [|m IH]; [rewrite Nat.add_0_r; lra|]. replace (n + Datatypes.S m)%nat with (Datatypes.S (n + m)) by lia. cbn [total]. specialize (H (n + m)%nat). lra. Qed.
Lemma partial_le x n : 0 <= x -> total (term x) n <= exp x.
Proof.
  intros H. assert (L := exp_limit x). apply (is_lim_seq_incr_n _ n) in L.
  assert (G := is_lim_seq_le (fun _ => total (term x) n) (fun m => total (term x) (m + n)) (total (term x) n) (exp x)). cbn in G. apply G; [|apply is_lim_seq_const|exact L].
  intros m. rewrite Nat.add_comm. apply total_incr. intros k. now apply term_nonneg.
Qed.
Lemma fact_split n m : (fact n * fact m <= fact (n + m))%nat.
Proof.
  induction n as [|n IH]; [cbn; lia|]. change (Datatypes.S n + m)%nat with (Datatypes.S (n + m)). change (fact (Datatypes.S (n + m))) with (Datatypes.S (n + m) * fact (n + m))%nat.
  change (fact (Datatypes.S n)) with (Datatypes.S n * fact n)%nat. nia.
Qed.
Lemma term_split x n m : 0 <= x -> term x (n + m) <= term x n * term x m.
Proof.
  intros H. unfold term. rewrite pow_add. pose proof (fact_pos n). pose proof (fact_pos m). pose proof (fact_pos (n + m)).
  replace (x ^ n / INR (fact n) * (x ^ m / INR (fact m))) with (x ^ n * x ^ m / (INR (fact n) * INR (fact m))) by (field; lra).
  unfold Rdiv. apply Rmult_le_compat_l; [apply Rmult_le_pos; now apply pow_le|]. apply Rinv_le_contravar; [now apply Rmult_lt_0_compat|]. rewrite <- mult_INR. apply le_INR, fact_split.
Qed.
Lemma total_split x n m : 0 <= x -> total (term x) (n + m) <= total (term x) n + term x n * total (term x) m.
Proof.
  intros H. induction m as [|m IH]; [rewrite Nat.add_0_r; cbn; lra|]. replace (n + Datatypes.S m)%nat with (Datatypes.S (n + m)) by lia. cbn [total]. assert (G := term_split x n m H). nra.
Qed.
Lemma remainder x n : 0 <= x -> exp x <= total (term x) n + term x n * exp x.
Proof.
  intros H. assert (L := exp_limit x). apply (is_lim_seq_incr_n _ n) in L.
  assert (G := is_lim_seq_le (fun m => total (term x) (m + n)) (fun _ => total (term x) n + term x n * exp x) (exp x) (total (term x) n + term x n * exp x)). cbn in G. apply G; [|exact L|apply is_lim_seq_const].
  intros m. rewrite Nat.add_comm. eapply Rle_trans; [now apply total_split|]. apply Rplus_le_compat_l, Rmult_le_compat_l; [now apply term_nonneg|now apply partial_le].
Qed.
Lemma csq_nonneg z : 0 <= csq z.
Proof. destruct z as [a b]. unfold csq. cbn. nra. Qed.
Lemma total_scal c p n : total (fun k => c * p k) n = c * total p n.
Proof. induction n as [|n IH]; cbn [total]; [ring|]. rewrite IH. ring. Qed.
Lemma coherent_norm_eq alpha dim : (dim <= 170)%nat -> normSq (coherent alpha dim) = exp (- csq alpha) * total (term (csq alpha)) dim.
Proof.
  intros H. unfold normSq. rewrite length_coherent. rewrite <- total_scal. apply total_ext. intros n L. rewrite coherent_population by lia. unfold poisson, term. unfold Rdiv. ring.
Qed.
Lemma coherent_norm alpha dim : (dim <= 170)%nat -> 1 - csq alpha ^ dim / INR (fact dim) <= normSq (coherent alpha dim) <= 1.
Proof.
  intros H. rewrite coherent_norm_eq by assumption. assert (X := csq_nonneg alpha). revert X. generalize (csq alpha). intros x X. assert (E : exp (- x) * exp x = 1) by (rewrite <- exp_plus; replace (- x + x) with 0 by ring; apply exp_0).
  assert (P := exp_pos (- x)). assert (A := partial_le x dim X). assert (B := remainder x dim X). unfold term at 2 in B.
  apply (Rmult_le_compat_l (exp (- x))) in A; [|lra]. apply (Rmult_le_compat_l (exp (- x))) in B; [|lra]. rewrite E in A, B. rewrite Rmult_plus_distr_l in B.
  replace (exp (- x) * (x ^ dim / INR (fact dim) * exp x)) with (x ^ dim / INR (fact dim) * (exp (- x) * exp x)) in B by ring. rewrite E in B. lra.
Qed.
Lemma coherent_number alpha dim : (dim <= 170)%nat -> (0 < dim)%nat ->
  meanNumber (coherent alpha dim) = csq alpha * (normSq (coherent alpha dim) - population (coherent alpha dim) (dim - 1)).
Proof.
  intros H Hd. unfold meanNumber, normSq. rewrite length_coherent. destruct dim as [|d]; [lia|]. replace (Datatypes.S d - 1)%nat with d by lia.
  replace (csq alpha * (total (population (coherent alpha (Datatypes.S d))) (Datatypes.S d) - population (coherent alpha (Datatypes.S d)) d)) with (csq alpha * total (population (coherent alpha (Datatypes.S d))) d) by (cbn [total]; ring).
  rewrite (total_ext (population _) (poisson (csq alpha))) by (intros; apply coherent_population; lia).
  rewrite (total_ext _ (fun n => INR n * poisson (csq alpha) n)) by (intros; rewrite coherent_population by lia; reflexivity).
  generalize (csq alpha). intros x. clear H. induction d as [|d IH]; [cbn; ring|].
  replace (total (fun n => INR n * poisson x n) (Datatypes.S (Datatypes.S d))) with (total (fun n => INR n * poisson x n) (Datatypes.S d) + INR (Datatypes.S d) * poisson x (Datatypes.S d)) by reflexivity. rewrite IH by lia.
  cbn [total]. unfold poisson. change (fact (Datatypes.S d)) with (Datatypes.S d * fact d)%nat. rewrite mult_INR. assert (0 < INR (Datatypes.S d)) by (apply lt_0_INR; lia). pose proof (fact_pos d). cbn [pow]. field. lra.
Qed.
Lemma coherent_vacuum dim : (0 < dim)%nat -> fock 0 dim 0 = Some (coherent k0 dim).
Proof.
  intros H. unfold fock. destruct (Nat.leb_spec dim 0); [lia|]. f_equal.
  assert (Z : length (zeroKet dim) = dim) by apply repeat_length. apply (nth_ext _ _ k0 k0).
  - now rewrite length_assign, length_coherent by lia.
  - intros n L. rewrite length_assign in L by lia. rewrite nth_assign, nth_zeroKet, nth_coherent by lia.
    assert (E0 : csq k0 = 0) by (cbv; ring). rewrite E0. replace (- 0 / 2) with 0 by field. rewrite exp_0. destruct (Nat.eqb_spec n 0) as [->|N].
    + replace (kmul CI (RC 0)) with (k0 : CR) by (apply cr_eq; cbn; ring). rewrite cexp_0. unfold coherentElement. cbn [Nat.eqb]. change (RC 1) with (k1 : CR). ring.
    + assert (C : forall z, kmul z k0 = k0 :> CR) by (intros; ring). unfold coherentElement. destruct (Nat.eqb_spec n 0); [lia|].
      assert (P : forall w, cpow (cdiv k0 w) n = k0 /\ cpow k0 n = k0). { intros w. destruct n as [|n]; [lia|]. cbn [cpow]. unfold cdiv. split; ring. }
      destruct (n <? maxFactorial)%nat; [destruct (P k0) as [_ ->]; unfold cdiv; ring|]. destruct (P (RC (sqrt (INR n / exp 1)))) as [-> _]. ring.
Qed.
Lemma modeInit_dispatch n alpha cutoff : modeInit n alpha cutoff = match n with O => Some (coherent alpha cutoff) | Datatypes.S _ => fock n cutoff 0 end.
Proof. unfold modeInit. destruct n; reflexivity. Qed.
(** qbits *)
Lemma qbit_init psi1 : (csq psi1 <= 1 -> exists psi, qbitInit psi1 = Some psi /\ length psi = 2%nat /\ nth 1 psi k0 = psi1 /\ normSq psi = 1 /\ cim (nth 0 psi k0) = 0 /\ 0 <= cre (nth 0 psi k0)) /\
  (1 < csq psi1 -> qbitInit psi1 = None).
Proof.
  unfold qbitInit, realSqrt. split; intros H.
  - destruct (Rlt_dec (1 - csq psi1) 0); [lra|]. eexists. split; [reflexivity|]. unfold assign, zeroKet. cbn [repeat firstn skipn app]. split; [reflexivity|]. split; [reflexivity|]. split; [|split].
    + unfold normSq. cbn [length total]. unfold population. cbn [nth]. rewrite csq_RC, sqrt_sqrt by lra. ring.
    + reflexivity.
    + cbn. apply sqrt_pos.
  - destruct (Rlt_dec (1 - csq psi1) 0); [reflexivity|lra].
Qed.
Lemma qbit_states : exists p q, state0 = Some p /\ state1 = Some q /\ p = [k1; k0] /\ q = [k0; k1].
Proof.
  assert (E : cexp (kmul CI (RC 0)) = k1). { replace (kmul CI (RC 0)) with (k0 : CR) by (apply cr_eq; cbn; ring). apply cexp_0. }
  eexists. eexists. unfold state0, state1, fock. cbn [Nat.leb]. unfold assign, zeroKet. cbn [repeat firstn skipn app]. rewrite E. repeat split.
Qed.
Lemma coherent_facts alpha dim : (dim <= 170)%nat ->
  length (coherent alpha dim) = dim /\ eigenstate_of_annihilation alpha (coherent alpha dim) /\
  (forall n, (n < dim)%nat -> population (coherent alpha dim) n = poisson (csq alpha) n) /\
  1 - csq alpha ^ dim / INR (fact dim) <= normSq (coherent alpha dim) <= 1 /\
  ((0 < dim)%nat -> photonNumber (coherent alpha dim) = csq alpha * (normSq (coherent alpha dim) - population (coherent alpha dim) (dim - 1))).
Proof.
  intros H. split; [apply length_coherent|]. split; [now apply coherent_eigen|]. split; [intros; now apply coherent_population|]. split; [now apply coherent_norm|].
  intros Hd. rewrite photonNumber_mean. now apply coherent_number.
Qed.
Lemma coherent_case : nth 0 (coherent (RC 2) 20) k0 = RC (exp (- 2)) /\ kmul (RC (sqrt (INR 3))) (nth 3 (coherent (RC 2) 20) k0) = kmul (RC 2) (nth 2 (coherent (RC 2) 20) k0).
Proof.
  split.
  - rewrite nth_coherent by lia. rewrite csq_RC. replace (- (2 * 2) / 2) with (- 2) by field. unfold coherentElement. cbn [Nat.eqb]. ring.
  - assert (L : (20 <= 170)%nat) by lia. assert (H := coherent_eigen (RC 2) 20 L 2%nat). rewrite length_coherent in H. apply H. lia.
Qed.
Lemma modeInit_facts minit cutoff :
  modeInit 0 minit cutoff = Some (coherent minit cutoff) /\ (forall n, (0 < n)%nat -> modeInit n minit cutoff = fock n cutoff 0) /\ ((0 < cutoff)%nat -> modeInit 0 k0 cutoff = fock 0 cutoff 0).
Proof.
  split; [reflexivity|]. split.
  - intros n H. rewrite modeInit_dispatch. destruct n; [lia|reflexivity].
  - intros H. rewrite coherent_vacuum by assumption. reflexivity.
Qed.
Lemma qbit_facts psi1 :
  (csq psi1 <= 1 -> exists psi, qbitInit psi1 = Some psi /\ length psi = 2%nat /\ nth 1 psi k0 = psi1 /\ normSq psi = 1 /\ cim (nth 0 psi k0) = 0 /\ 0 <= cre (nth 0 psi k0)) /\
  (1 < csq psi1 -> qbitInit psi1 = None) /\
  state0 = Some [k1; k0] /\ state1 = Some [k0; k1].
Proof.
  split; [apply qbit_init|]. split; [apply qbit_init|]. destruct qbit_states as (p & q & A & B & -> & ->). now split.
Qed.
