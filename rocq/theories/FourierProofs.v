From Coq Require Import List Arith Reals Lra Lia Bool.
From Verif Require Import Star CReal PureModel DdhoModel DdhoProofs FourierModel FourierSpec.
Import ListNotations.
Local Open Scope nat_scope.
Add Ring CRFourier : (k_ring CR).

(** e^(i x) *)
Definition ph (x : R) : CR := cexp ((0%R, x) : CR).
Lemma ph_add x y : ph (x + y) = kmul (ph x) (ph y).
Proof. unfold ph. rewrite <- cexp_add. f_equal. apply cr_eq; cbn; ring. Qed.
Lemma ph_0 : ph 0 = k1.
Proof. exact cexp_0. Qed.
Lemma ph_conj x : kconj (ph x) = ph (- x).
Proof. unfold ph. rewrite <- cexp_conj. f_equal. Qed.
Lemma ph_csq x : csq (ph x) = 1%R.
Proof. apply cexp_imag_csq. Qed.
Definition alt (k : nat) : CR := if Nat.odd k then kopp k1 else k1.
Lemma alt_S k : alt (Datatypes.S k) = kopp (alt k).
Proof. unfold alt. rewrite Nat.odd_succ, <- Nat.negb_odd. destruct (Nat.odd k); cbn [negb]; ring. Qed.
Lemma alt_sq k : kmul (alt k) (alt k) = k1.
Proof. unfold alt. destruct (Nat.odd k); ring. Qed.
Lemma alt_conj k : kconj (alt k) = alt k.
Proof. unfold alt. destruct (Nat.odd k); apply cr_eq; cbn; ring. Qed.
Lemma ph_pi k : ph (PI * INR k) = alt k.
Proof.
  induction k as [|k IH]; [cbn [INR]; rewrite Rmult_0_r; exact ph_0|]. rewrite S_INR, Rmult_plus_distr_l, Rmult_1_r, ph_add, IH, alt_S.
  assert (E : ph PI = kopp k1). { unfold ph, cexp. cbn [fst snd]. rewrite exp_0, cos_PI, sin_PI. apply cr_eq; cbn; ring. } rewrite E. ring.
Qed.
Lemma ph_mpi k : ph (- (PI * INR k)) = alt k.
Proof. rewrite <- ph_conj, ph_pi. apply alt_conj. Qed.
Definition signOf (dir : direction) : R := match dir with DIR_XK => -1 | DIR_KX => 1 end.
Lemma ph_sign dir k : ph (signOf dir * (PI * INR k)) = alt k.
Proof. destruct dir; cbn [signOf]; [replace (-1 * (PI * INR k))%R with (- (PI * INR k))%R by ring; apply ph_mpi|rewrite Rmult_1_l; apply ph_pi]. Qed.
Lemma ph_sign_m dir k : ph (- (signOf dir * (PI * INR k))) = alt k.
Proof. rewrite <- ph_conj, ph_sign. apply alt_conj. Qed.

(** the loops *)
Lemma swap_loop (f : line) h norm : forall c, c <= h -> forall i,
  fold_left (fun psi j => swapScaled psi j (j + h) norm) (seq 0 c) f i =
  if i <? c then kmul (RC norm) (f (i + h)) else if (h <=? i) && (i <? c + h) then kmul (RC norm) (f (i - h)) else f i.
Proof.
  induction c as [|c IH]; intros H i.
  - cbn [seq fold_left]. destruct (Nat.ltb_spec i 0); [lia|]. destruct (Nat.leb_spec h i); cbn [andb]; auto. destruct (Nat.ltb_spec i (0 + h)); [lia|auto].
  - rewrite seq_S, fold_left_app. cbn [fold_left]. change (0 + c) with c. set (g := fold_left _ (seq 0 c) f) in *. assert (G : forall i, g i = _) by (apply IH; lia). unfold swapScaled, put. cbv zeta.
    destruct (Nat.eqb_spec i (c + h)) as [->|N1].
    + rewrite G. destruct (Nat.ltb_spec c c); [lia|]. destruct (Nat.leb_spec h c); [lia|]. cbn [andb]. destruct (Nat.ltb_spec (c + h) (Datatypes.S c)); [lia|].
      destruct (Nat.leb_spec h (c + h)); [|lia]. destruct (Nat.ltb_spec (c + h) (Datatypes.S c + h)); [|lia]. cbn [andb]. replace (c + h - h) with c by lia. reflexivity.
    + destruct (Nat.eqb_spec i c) as [->|N2].
      * rewrite G. destruct (Nat.ltb_spec c (Datatypes.S c)); [|lia]. destruct (Nat.ltb_spec (c + h) c); [lia|]. destruct (Nat.leb_spec h (c + h)); [|lia]. destruct (Nat.ltb_spec (c + h) (c + h)); [lia|]. cbn [andb]. reflexivity.
      * rewrite G. destruct (Nat.ltb_spec i c), (Nat.ltb_spec i (Datatypes.S c)); try lia; auto.
        destruct (Nat.leb_spec h i); cbn [andb]; auto. destruct (Nat.ltb_spec i (c + h)), (Nat.ltb_spec i (Datatypes.S c + h)); try lia; auto.
Qed.
Lemma odd_loop (f : line) : forall c i,
  fold_left (fun psi j => put psi j (kopp (psi j))) (map (fun i => 2 * i + 1) (seq 0 c)) f i = if i <? 2 * c then kmul (alt i) (f i) else f i.
Proof.
  induction c as [|c IH]; intros i.
  - reflexivity.
  - rewrite seq_S, map_app, fold_left_app. cbn [map fold_left Nat.add]. set (g := fold_left _ _ f) in *. unfold put. rewrite !IH.
    destruct (Nat.eqb_spec i (2 * c + 1)) as [->|N].
    + destruct (Nat.ltb_spec (2 * c + 1) (2 * c)); [lia|]. destruct (Nat.ltb_spec (2 * c + 1) (2 * Datatypes.S c)); [|lia].
      unfold alt. replace (Nat.odd (2 * c + 1)) with true; [ring|]. symmetry. rewrite Nat.add_1_r, Nat.odd_succ, Nat.even_mul. reflexivity.
    + destruct (Nat.ltb_spec i (2 * c)), (Nat.ltb_spec i (2 * Datatypes.S c)); try lia; auto. assert (i = 2 * c) by lia. subst i. unfold alt. rewrite Nat.odd_mul. cbn [Nat.odd Nat.even negb andb]. ring.
Qed.
Definition kernel (dir : direction) (n k j : nat) : CR :=
  kmul (RC (/ sqrt (INR n))) (kmul (kmul (alt k) (alt j)) (ph (signOf dir * (2 * PI * INR j * INR k / INR n)))).
Lemma transform_sign n psi dir : transform n psi dir = gslTransform (signOf dir) n psi.
Proof. destruct dir; reflexivity. Qed.
Lemma power2_even n : isPower2 n = true -> 2 <= n -> exists h, n = 2 * h /\ n / 2 = h.
Proof.
  unfold isPower2. intros H L. apply Nat.eqb_eq in H. destruct (Nat.log2 n) as [|k] eqn:E; [cbn in H; lia|]. exists (2 ^ k).
  assert (n = 2 * 2 ^ k) by (rewrite <- H; cbn; lia). split; [assumption|]. rewrite H0, Nat.mul_comm, Nat.div_mul by lia. reflexivity.
Qed.
Lemma ffCV_closed n psi dir : 2 <= n -> isPower2 n = true -> exists r, ffTransformCV n psi dir = Some r /\
  forall k, r k = if k <? n then ksum (fun j => kmul (kernel dir n k j) (psi j)) (seq 0 n) else psi k.
Proof.
  intros L P. unfold ffTransformCV. destruct (Nat.ltb_spec n 2); [lia|]. rewrite transform_sign. unfold gslTransform. rewrite P. eexists. split; [reflexivity|]. intros k.
  destruct (power2_even n P L) as [h [E Eh]]. rewrite Eh. rewrite odd_loop. rewrite <- E. rewrite swap_loop by lia.
  assert (Z : INR n <> 0%R) by (apply not_0_INR; lia). assert (E2 : INR n = (2 * INR h)%R) by (rewrite E, mult_INR; reflexivity). assert (Zh : INR h <> 0%R) by lra.
  destruct (Nat.ltb_spec k n) as [K|K].
  - assert (G : forall q : nat, (forall j, ph (signOf dir * (2 * PI * INR j * INR q / INR n)) = kmul (alt j) (ph (signOf dir * (2 * PI * INR j * INR k / INR n)))) ->
      kmul (alt k) (kmul (RC (/ sqrt (INR n))) (ksum (fun j => kmul (psi j) (ph (signOf dir * (2 * PI * INR j * INR q / INR n)))) (seq 0 n))) = ksum (fun j => kmul (kernel dir n k j) (psi j)) (seq 0 n)).
    { intros q Hq. rewrite <- !ksum_scal_l. apply ksum_ext. intros j _. rewrite Hq. unfold kernel. ring. }
    destruct (Nat.ltb_spec k h) as [K'|K'].
    + destruct (Nat.ltb_spec (k + h) n); [|lia]. apply G. intros j. rewrite plus_INR. replace (signOf dir * (2 * PI * INR j * (INR k + INR h) / INR n))%R with (signOf dir * (PI * INR j) + signOf dir * (2 * PI * INR j * INR k / INR n))%R by (rewrite E2; field; auto).
      rewrite ph_add, ph_sign. reflexivity.
    + destruct (Nat.leb_spec h k); [|lia]. destruct (Nat.ltb_spec k (h + h)); [|lia]. cbn [andb]. destruct (Nat.ltb_spec (k - h) n); [|lia]. apply G. intros j. rewrite minus_INR by lia.
      replace (signOf dir * (2 * PI * INR j * (INR k - INR h) / INR n))%R with (- (signOf dir * (PI * INR j)) + signOf dir * (2 * PI * INR j * INR k / INR n))%R by (rewrite E2; field; auto).
      rewrite ph_add, ph_sign_m. reflexivity.
  - destruct (Nat.ltb_spec k h); [lia|]. destruct (Nat.leb_spec h k); [|lia]. destruct (Nat.ltb_spec k (h + h)); [lia|]. cbn [andb]. reflexivity.
Qed.
Lemma ffLine_closed n psi dir k : ffLine n psi dir k = if (2 <=? n) && isPower2 n && (k <? n) then ksum (fun j => kmul (kernel dir n k j) (psi j)) (seq 0 n) else psi k.
Proof.
  unfold ffLine. destruct (Nat.leb_spec 2 n) as [L|L]; cbn [andb].
  - destruct (isPower2 n) eqn:P; cbn [andb].
    + destruct (ffCV_closed n psi dir L P) as [r [-> H]]. apply H.
    + unfold ffTransformCV. destruct (Nat.ltb_spec n 2); [lia|]. rewrite transform_sign. unfold gslTransform. rewrite P. reflexivity.
  - unfold ffTransformCV. destruct (Nat.ltb_spec n 2); [reflexivity|lia].
Qed.
Lemma isPower2_pow fin : isPower2 (2 ^ fin) = true.
Proof. unfold isPower2. rewrite Nat.log2_pow2 by lia. apply Nat.eqb_refl. Qed.
Lemma transform_refused n psi dir : ffTransformCV n psi dir = None <-> ~ (n = 0 \/ exists fin, n = 2 ^ fin).
Proof.
  unfold ffTransformCV. destruct (Nat.ltb_spec n 2) as [L|L].
  - split; [discriminate|]. intros H. exfalso. apply H. destruct n as [|[|n]]; [auto| |lia]. right. exists 0. reflexivity.
  - rewrite transform_sign. unfold gslTransform. destruct (isPower2 n) eqn:P.
    + split; [discriminate|]. intros H. exfalso. apply H. right. exists (Nat.log2 n). unfold isPower2 in P. apply Nat.eqb_eq in P. auto.
    + split; [|auto]. intros _ [->|[fin ->]]; [lia|]. rewrite isPower2_pow in P. discriminate.
Qed.

(** the kernel is the wave *)
Definition common (fin : nat) : CR := match fin with 0 => CI | 1 => kopp k1 | _ => k1 end.
Lemma common_csq fin : csq (common fin) = 1%R.
Proof. destruct fin as [|[|fin]]; unfold csq; cbn; ring. Qed.
Lemma pow2_pos fin : 0 < 2 ^ fin.
Proof. assert (2 ^ fin <> 0) by (apply Nat.pow_nonzero; lia). lia. Qed.
Lemma common_phase fin : ph (- (PI * INR (2 ^ fin) / 2)) = match fin with 0 => kopp CI | _ => common fin end.
Proof.
  destruct fin as [|fin].
  - replace (- (PI * INR (2 ^ 0) / 2))%R with (- (PI / 2))%R by (cbn; field). rewrite <- ph_conj. unfold ph, cexp. cbn [fst snd]. rewrite exp_0, cos_PI2, sin_PI2. apply cr_eq; cbn; ring.
  - replace (2 ^ Datatypes.S fin) with (2 * 2 ^ fin) by (cbn; lia). rewrite mult_INR. replace (- (PI * (INR 2 * INR (2 ^ fin)) / 2))%R with (- (PI * INR (2 ^ fin)))%R by (cbn [INR]; field). rewrite ph_mpi.
    destruct fin as [|fin]; [reflexivity|]. replace (2 ^ Datatypes.S fin) with (2 * 2 ^ fin) by (cbn; lia). unfold alt. rewrite Nat.odd_mul. reflexivity.
Qed.
Lemma grid_product N dk m j : dk <> 0%R -> 0 < N -> (gridK N dk m * gridX N dk j = 2 * PI * INR j * INR m / INR N - PI * INR m - PI * INR j + PI * INR N / 2)%R.
Proof. intros H L. unfold gridK, gridX. assert (INR N <> 0%R) by (apply not_0_INR; lia). field. auto. Qed.
Lemma wave_kernel fin dk m j : dk <> 0%R -> wave (2 ^ fin) dk m j = kmul (ph (PI * INR (2 ^ fin) / 2)) (kernel DIR_KX (2 ^ fin) m j).
Proof.
  intros H. unfold wave, kernel. pose proof (pow2_pos fin) as P. rewrite grid_product by auto. fold (ph (2 * PI * INR j * INR m / INR (2 ^ fin) - PI * INR m - PI * INR j + PI * INR (2 ^ fin) / 2)).
  cbn [signOf]. rewrite Rmult_1_l. replace (2 * PI * INR j * INR m / INR (2 ^ fin) - PI * INR m - PI * INR j + PI * INR (2 ^ fin) / 2)%R with (PI * INR (2 ^ fin) / 2 + (- (PI * INR m) + (- (PI * INR j) + 2 * PI * INR j * INR m / INR (2 ^ fin))))%R by ring.
  rewrite !ph_add, !ph_mpi. ring.
Qed.
Lemma kernel_conj dir n k j : kconj (kernel dir n k j) = kernel (reverse dir) n k j.
Proof.
  unfold kernel. rewrite !kconj_mul, RC_conj, !alt_conj, ph_conj. do 3 f_equal. destruct dir; cbn [reverse signOf]; ring.
Qed.
Lemma kernel_sym dir n k j : kernel dir n k j = kernel dir n j k.
Proof. unfold kernel. replace (signOf dir * (2 * PI * INR j * INR k / INR n))%R with (signOf dir * (2 * PI * INR k * INR j / INR n))%R by (unfold Rdiv; ring). ring. Qed.
Lemma wave_sym fin dk m j : dk <> 0%R -> wave (2 ^ fin) dk m j = wave (2 ^ fin) dk j m.
Proof. intros H. rewrite !wave_kernel by auto. now rewrite kernel_sym. Qed.
Lemma fin_wave fin dk psi k : dk <> 0%R -> k < 2 ^ fin ->
  ffLine (2 ^ fin) psi DIR_XK k = kmul (common fin) (to_momentum (2 ^ fin) dk psi k) /\ ffLine (2 ^ fin) psi DIR_KX k = kmul (kconj (common fin)) (to_position (2 ^ fin) dk psi k).
Proof.
  intros H K. pose proof (pow2_pos fin) as P.
  destruct fin as [|fin].
  - change (2 ^ 0) with 1 in *. assert (k = 0) by lia. subst k. unfold ffLine, ffTransformCV. cbn [Nat.ltb Nat.leb]. unfold to_momentum, to_position. cbn [seq ksum].
    assert (E : wave 1 dk 0 0 = CI).
    { change 1 with (2 ^ 0). rewrite wave_kernel by auto. unfold kernel. change (2 ^ 0) with 1. cbn [INR signOf]. replace (1 * (2 * PI * 0 * 0 / 1))%R with 0%R by field. rewrite ph_0, sqrt_1, Rinv_1. replace (PI * 1 / 2)%R with (PI / 2)%R by field.
      unfold alt. cbn [Nat.odd Nat.even negb]. unfold ph, cexp. cbn [fst snd]. rewrite exp_0, cos_PI2, sin_PI2. apply cr_eq; cbn; ring. }
    rewrite E. cbn [common]. generalize (psi 0). intros [a b]. split; apply cr_eq; cbn; ring.
  - assert (B : (2 <=? 2 ^ Datatypes.S fin) && isPower2 (2 ^ Datatypes.S fin) && (k <? 2 ^ Datatypes.S fin) = true).
    { rewrite isPower2_pow. apply Nat.ltb_lt in K. rewrite K. pose proof (pow2_pos fin). assert (2 <= 2 ^ Datatypes.S fin) by (cbn; lia). apply Nat.leb_le in H1. rewrite H1. reflexivity. }
    rewrite !ffLine_closed, B. assert (Q : ph (PI * INR (2 ^ Datatypes.S fin) / 2) = kconj (common (Datatypes.S fin))).
    { rewrite <- (common_phase (Datatypes.S fin)), ph_conj. f_equal. ring. }
    assert (CC : kmul (kconj (common (Datatypes.S fin))) (common (Datatypes.S fin)) = k1) by (rewrite csq_conj, common_csq; reflexivity).
    unfold to_momentum, to_position. split; rewrite <- ksum_scal_l; apply ksum_ext; intros j _.
    + rewrite wave_kernel, kconj_mul, kernel_conj, Q, kconj_invol by auto. cbn [reverse].
      assert (C2 : kmul (common (Datatypes.S fin)) (common (Datatypes.S fin)) = k1) by (destruct fin as [|fin']; cbn [common]; ring).
      transitivity (kmul (kmul (common (Datatypes.S fin)) (common (Datatypes.S fin))) (kmul (kernel DIR_XK (2 ^ Datatypes.S fin) k j) (psi j))); [rewrite C2|]; ring.
    + rewrite wave_kernel, Q, (kernel_sym DIR_KX _ j k) by auto.
      assert (C2 : kmul (kconj (common (Datatypes.S fin))) (kconj (common (Datatypes.S fin))) = k1) by (destruct fin as [|fin']; cbn [common]; apply cr_eq; cbn; ring).
      transitivity (kmul (kmul (kconj (common (Datatypes.S fin))) (kconj (common (Datatypes.S fin)))) (kmul (kernel DIR_KX (2 ^ Datatypes.S fin) k j) (psi j))); [rewrite C2|]; ring.
Qed.

(** orthogonality of waves *)
Fixpoint powers (z : CR) (n : nat) : CR := match n with 0 => k1 | Datatypes.S m => kmul z (powers z m) end.
Lemma ph_powers x n : ph (x * INR n) = powers (ph x) n.
Proof. induction n as [|n IH]; [cbn [INR]; rewrite Rmult_0_r; exact ph_0|]. rewrite S_INR, Rmult_plus_distr_l, Rmult_1_r, ph_add, IH. cbn [powers]. ring. Qed.
Lemma geometric z n : kmul (ksub z k1) (ksum (powers z) (seq 0 n)) = ksub (powers z n) k1.
Proof. induction n as [|n IH]; [cbn [seq ksum powers]; ring|]. rewrite seq_S, ksum_app. cbn [ksum Nat.add]. transitivity (kadd (kmul (ksub z k1) (ksum (powers z) (seq 0 n))) (kmul (ksub z k1) (powers z n))); [ring|]. rewrite IH. cbn [powers]. ring. Qed.
Lemma ph_one x : (0 < x < 2 * PI)%R -> ph x <> k1.
Proof.
  intros H E. apply (f_equal fst) in E. unfold ph, cexp in E. cbn [fst snd] in E. rewrite exp_0, Rmult_1_l in E. cbn in E.
  replace x with (2 * (x / 2))%R in E by field. rewrite cos_2a_sin in E. assert (S := sin_gt_0 (x / 2)). assert (0 < sin (x / 2))%R by (apply S; lra). nra.
Qed.
Lemma ph_2pi k : ph (2 * PI * INR k) = k1.
Proof. replace (2 * PI * INR k)%R with (PI * INR k + PI * INR k)%R by ring. rewrite ph_add, ph_pi. apply alt_sq. Qed.
Lemma ksum_powers_lt N d : 0 < d < N -> ksum (fun m => ph (2 * PI * INR d / INR N * INR m)) (seq 0 N) = k0.
Proof.
  intros [H1 H2]. assert (Z : INR N <> 0%R) by (apply not_0_INR; lia). rewrite (ksum_ext _ (powers (ph (2 * PI * INR d / INR N)))) by (intros; apply ph_powers).
  assert (G := geometric (ph (2 * PI * INR d / INR N)) N). rewrite <- ph_powers in G. replace (2 * PI * INR d / INR N * INR N)%R with (2 * PI * INR d)%R in G by (field; auto). rewrite ph_2pi in G.
  set (s := ksum _ _) in *. destruct (Req_dec (csq s) 0) as [E|E]; [now apply csq_zero|]. exfalso.
  assert (X : kmul (ksub (ph (2 * PI * INR d / INR N)) k1) s <> k0).
  { apply kmul_nz.
    - intros Y. apply (ph_one (2 * PI * INR d / INR N)).
      + assert (0 < INR d)%R by (apply lt_0_INR; lia). assert (INR d < INR N)%R by (apply lt_INR; lia). assert (P := PI_RGT_0). assert (Q : (0 < INR d / INR N < 1)%R). { split; [apply Rdiv_lt_0_compat; lra|]. apply (Rmult_lt_reg_r (INR N)); [lra|]. unfold Rdiv. rewrite Rmult_assoc, Rinv_l by auto. lra. }
        replace (2 * PI * INR d / INR N)%R with (2 * PI * (INR d / INR N))%R by (field; auto). nra.
      + transitivity (kadd (ksub (ph (2 * PI * INR d / INR N)) k1) k1); [ring|]. rewrite Y. ring.
    - intros Y. apply E. rewrite Y. cbv. ring. }
  apply X. rewrite G. ring.
Qed.
Lemma wave_orth fin dk j l : dk <> 0%R -> j < 2 ^ fin -> l < 2 ^ fin ->
  ksum (fun m => kmul (wave (2 ^ fin) dk m j) (kconj (wave (2 ^ fin) dk m l))) (seq 0 (2 ^ fin)) = if j =? l then k1 else k0.
Proof.
  intros H Hj Hl. pose proof (pow2_pos fin) as P. set (N := 2 ^ fin) in *. assert (Z : (0 < INR N)%R) by (apply lt_0_INR; lia).
  assert (NN : kmul (RC (/ sqrt (INR N))) (RC (/ sqrt (INR N))) = RC (/ INR N)). { rewrite RC_mul. f_equal. rewrite <- Rinv_mult. f_equal. apply sqrt_sqrt. lra. }
  assert (CC : kmul (ph (PI * INR N / 2)) (kconj (ph (PI * INR N / 2))) = k1). { rewrite ph_conj, <- ph_add. replace (PI * INR N / 2 + - (PI * INR N / 2))%R with 0%R by ring. exact ph_0. }
  assert (T : forall m, kmul (wave N dk m j) (kconj (wave N dk m l)) = kmul (kmul (RC (/ INR N)) (kmul (alt j) (alt l))) (ph ((2 * PI * INR j / INR N - 2 * PI * INR l / INR N) * INR m))).
  { intros m. unfold N. rewrite !wave_kernel, kconj_mul, kernel_conj by auto. fold N. unfold kernel. cbn [reverse signOf].
    assert (PH : kmul (ph (1 * (2 * PI * INR j * INR m / INR N))) (ph (-1 * (2 * PI * INR l * INR m / INR N))) = ph ((2 * PI * INR j / INR N - 2 * PI * INR l / INR N) * INR m)).
    { rewrite <- ph_add. f_equal. field. lra. }
    rewrite <- PH, <- NN. set (c := ph (PI * INR N / 2)) in *. transitivity (kmul (kmul (kmul c (kconj c)) (kmul (alt m) (alt m))) (kmul (kmul (kmul (RC (/ sqrt (INR N))) (RC (/ sqrt (INR N)))) (kmul (alt j) (alt l))) (kmul (ph (1 * (2 * PI * INR j * INR m / INR N))) (ph (-1 * (2 * PI * INR l * INR m / INR N)))))); [ring|]. rewrite CC, alt_sq. ring. }
  rewrite (ksum_ext _ _ _ (fun m _ => T m)), ksum_scal_l. clear T CC NN.
  destruct (Nat.eqb_spec j l) as [->|D].
  - rewrite (ksum_ext _ (fun _ => k1)). 2:{ intros m _. replace ((2 * PI * INR l / INR N - 2 * PI * INR l / INR N) * INR m)%R with 0%R by ring. exact ph_0. }
    assert (S1 : forall n a, ksum (fun _ : nat => (k1 : CR)) (seq a n) = RC (INR n)). { induction n as [|n IH]; intros a; [reflexivity|]. cbn [seq ksum]. rewrite IH, S_INR. apply cr_eq; cbn; ring. }
    rewrite S1. rewrite alt_sq. transitivity (kmul (RC (/ INR N)) (RC (INR N))); [ring|]. rewrite RC_mul, Rinv_l by lra. reflexivity.
  - assert (E : ksum (fun m => ph ((2 * PI * INR j / INR N - 2 * PI * INR l / INR N) * INR m)) (seq 0 N) = k0); [|rewrite E; ring].
    destruct (Nat.lt_ge_cases l j) as [L|L].
    + rewrite <- (ksum_powers_lt N (j - l)) by lia. apply ksum_ext. intros m _. f_equal. rewrite minus_INR by lia. field. lra.
    + assert (G := ksum_powers_lt N (l - j)). apply (f_equal kconj) in G; [|lia]. rewrite ksum_conj, kconj_0 in G. rewrite <- G. apply ksum_ext. intros m _. rewrite ph_conj. f_equal. rewrite minus_INR by lia. field. lra.
Qed.
Lemma ksum_pick (f : nat -> CR) k n : k < n -> ksum (fun j => kmul (if j =? k then k1 else k0) (f j)) (seq 0 n) = f k.
Proof.
  intros H. rewrite (ksum_ext _ (fun j => if j =? k then f k else k0)). 2:{ intros j _. destruct (Nat.eqb_spec j k) as [->|]; ring. }
  revert H. induction n as [|n IH]; intros H; [lia|]. rewrite seq_S, ksum_app. cbn [ksum Nat.add]. destruct (Nat.eq_dec k n) as [->|N].
  - rewrite Nat.eqb_refl. rewrite ksum_zero; [ring|]. intros j Hj. apply in_seq in Hj. destruct (Nat.eqb_spec j n); [lia|reflexivity].
  - rewrite IH by lia. destruct (Nat.eqb_spec n k); [lia|]. ring.
Qed.
Lemma position_momentum fin dk psi j : dk <> 0%R -> j < 2 ^ fin -> to_position (2 ^ fin) dk (to_momentum (2 ^ fin) dk psi) j = psi j.
Proof.
  intros H L. unfold to_position, to_momentum. transitivity (ksum (fun l => kmul (if l =? j then k1 else k0) (psi l)) (seq 0 (2 ^ fin))); [|now apply ksum_pick].
  rewrite (ksum_ext _ (fun m => ksum (fun l => kmul (kmul (wave (2 ^ fin) dk m j) (kconj (wave (2 ^ fin) dk m l))) (psi l)) (seq 0 (2 ^ fin)))) by (intros; rewrite <- ksum_scal_l; apply ksum_ext; intros; ring).
  rewrite ksum_swap. apply ksum_ext. intros l Hl. apply in_seq in Hl. rewrite ksum_scal_r. f_equal. rewrite wave_orth by (auto; lia). now rewrite Nat.eqb_sym.
Qed.
Lemma momentum_position fin dk psi m : dk <> 0%R -> m < 2 ^ fin -> to_momentum (2 ^ fin) dk (to_position (2 ^ fin) dk psi) m = psi m.
Proof.
  intros H L. unfold to_position, to_momentum. transitivity (ksum (fun l => kmul (if l =? m then k1 else k0) (psi l)) (seq 0 (2 ^ fin))); [|now apply ksum_pick].
  rewrite (ksum_ext _ (fun j => ksum (fun l => kmul (kmul (wave (2 ^ fin) dk j l) (kconj (wave (2 ^ fin) dk j m))) (psi l)) (seq 0 (2 ^ fin)))).
  2:{ intros j _. rewrite <- ksum_scal_l. apply ksum_ext. intros l _. rewrite (wave_sym fin dk m j), (wave_sym fin dk l j) by auto. ring. }
  rewrite ksum_swap. apply ksum_ext. intros l Hl. apply in_seq in Hl. rewrite ksum_scal_r. f_equal. now rewrite wave_orth by (auto; lia).
Qed.
Lemma overlap_position fin dk phi psi : dk <> 0%R -> overlap (2 ^ fin) (to_position (2 ^ fin) dk phi) (to_position (2 ^ fin) dk psi) = overlap (2 ^ fin) phi psi.
Proof.
  intros H. unfold overlap. set (N := 2 ^ fin).
  transitivity (ksum (fun m => kmul (kconj (phi m)) (to_momentum N dk (to_position N dk psi) m)) (seq 0 N)).
  - rewrite (ksum_ext _ (fun j => ksum (fun m => kmul (kmul (kconj (wave N dk m j)) (kconj (phi m))) (to_position N dk psi j)) (seq 0 N))).
    + rewrite ksum_swap. apply ksum_ext. intros m _. unfold to_momentum. rewrite <- ksum_scal_l. apply ksum_ext. intros j _. ring.
    + intros j _. unfold to_position at 1. rewrite ksum_conj, <- ksum_scal_r. apply ksum_ext. intros m _. rewrite kconj_mul. ring.
  - apply ksum_ext. intros m Hm. apply in_seq in Hm. unfold N. rewrite momentum_position by (auto; fold N; lia). reflexivity.
Qed.
