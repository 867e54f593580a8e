From Coq Require Import List Arith Lia Reals Lra Bool String.
From Verif Require Import Star CReal Arr PureModel HermSpec MasterSpec ElementModel ElementSpec ElementProofs CompositeModel CompositeSpec InteractionSpec AverageModel AverageSpec AverageProofs.
Import ListNotations.
Local Open Scope nat_scope.
Add Ring CRAverageF : (k_ring CR).

(** * Expectation values as functionals *)
Lemma mean_ext sh A B rho : mmeq sh A B -> mean sh A rho = mean sh B rho.
Proof. intros H. unfold mean, mtrace, mmul. apply isum_ext. intros i Hi. apply isum_ext. intros k Hk. now rewrite H. Qed.
Lemma mean_plus sh A B rho : mean sh (plusO A B) rho = kadd (mean sh A rho) (mean sh B rho).
Proof.
  unfold mean, mtrace, mmul, plusO. rewrite <- isum_add. apply isum_ext. intros i _. rewrite <- isum_add. apply isum_ext. intros k _. ring.
Qed.
Lemma mean_hc sh O rho : HermSpec.hermitian sh rho -> mean sh (hc O) rho = kconj (mean sh O rho).
Proof.
  intros H. unfold mean, mtrace, mmul. rewrite isum_conj. rewrite isum_swap. apply isum_ext. intros i Hi. rewrite isum_conj. apply isum_ext. intros k Hk.
  rewrite kconj_mul. unfold hc. rewrite <- (H i k Hi Hk). unfold dag. reflexivity.
Qed.
Lemma mean_one sh O rho : (forall i k, inr sh i -> inr sh k -> O i k = if listnat_eqb i k then k1 else k0) -> mean sh O rho = mtrace sh rho.
Proof.
  intros H. unfold mean, mtrace, mmul. apply isum_ext. intros i Hi. rewrite (isum_single sh _ i Hi).
  - rewrite H, listnat_eqb_refl by auto. ring.
  - intros b Hb N. rewrite H by auto. destruct (listnat_eqb_spec i b); [congruence|ring].
Qed.

Record functional (L : mat -> CR) : Prop := mkFunctional {
  L_ext : forall A B, (forall m n, A m n = B m n) -> L A = L B;
  L_add : forall A B, L (fun m n => kadd (A m n) (B m n)) = kadd (L A) (L B);
  L_scale : forall c A, L (fun m n => kmul c (A m n)) = kmul c (L A);
  L_adj : forall A, L (adj A) = kconj (L A);
  L_one : L one = k1 }.
Lemma kron_one1 i k d : inr [d] i -> inr [d] k -> kron [one] i k = if listnat_eqb i k then k1 else k0.
Proof. intros Hi Hk. inversion Hi as [|a ? ? ? ? T]; subst. inversion Hk as [|b ? ? ? ? T']; subst. inversion T; subst. inversion T'; subst.
  cbn [kron listnat_eqb]. unfold one, ElementSpec.identity. rewrite andb_true_r. destruct (a =? b); ring. Qed.
Ltac in1 Hi := let a := fresh "a" in let T := fresh "T" in inversion Hi as [|a ? ? ? ? T]; subst; inversion T; subst; clear T.
Ltac in2 Hi := let a := fresh "a" in let b := fresh "b" in let T := fresh "T" in let U := fresh "U" in
  inversion Hi as [|a ? ? ? ? T]; subst; inversion T as [|b ? ? ? ? U]; subst; inversion U; subst; clear T U.
Lemma functional1 d rho : state [d] rho -> functional (fun A => mean [d] (kron [A]) rho).
Proof.
  intros [Htr Hh]. constructor.
  - intros A B H. apply mean_ext. intros i k Hi Hk. in1 Hi. in1 Hk. cbn [kron]. now rewrite H.
  - intros A B. rewrite <- mean_plus. apply mean_ext. intros i k Hi Hk. in1 Hi. in1 Hk. unfold plusO. cbn [kron]. ring.
  - intros c A. rewrite <- mean_times. apply mean_ext. intros i k Hi Hk. in1 Hi. in1 Hk. unfold timesO. cbn [kron]. ring.
  - intros A. rewrite <- mean_hc by auto. apply mean_ext. intros i k Hi Hk. in1 Hi. in1 Hk. unfold hc, adj. cbn [kron]. rewrite kconj_mul, kconj_1. reflexivity.
  - rewrite <- Htr. apply mean_one. intros i k Hi Hk. now apply (kron_one1 i k d).
Qed.
(** two subsystems *)
Section Two.
Variables (d0 d1 : nat) (rho : op).
Hypothesis Hs : state [d0; d1] rho.
Definition M2 (A B : mat) : CR := mean [d0; d1] (kron [A; B]) rho.
Lemma M2_ext A B A' B' : (forall m n, A m n = A' m n) -> (forall m n, B m n = B' m n) -> M2 A B = M2 A' B'.
Proof. intros H H'. apply mean_ext. intros i k Hi Hk. in2 Hi. in2 Hk. cbn [kron]. now rewrite H, H'. Qed.
Lemma M2_addl A A' B : M2 (fun m n => kadd (A m n) (A' m n)) B = kadd (M2 A B) (M2 A' B).
Proof. unfold M2. rewrite <- mean_plus. apply mean_ext. intros i k Hi Hk. in2 Hi. in2 Hk. unfold plusO. cbn [kron]. ring. Qed.
Lemma M2_addr A B B' : M2 A (fun m n => kadd (B m n) (B' m n)) = kadd (M2 A B) (M2 A B').
Proof. unfold M2. rewrite <- mean_plus. apply mean_ext. intros i k Hi Hk. in2 Hi. in2 Hk. unfold plusO. cbn [kron]. ring. Qed.
Lemma M2_scalel c A B : M2 (fun m n => kmul c (A m n)) B = kmul c (M2 A B).
Proof. unfold M2. rewrite <- mean_times. apply mean_ext. intros i k Hi Hk. in2 Hi. in2 Hk. unfold timesO. cbn [kron]. ring. Qed.
Lemma M2_scaler c A B : M2 A (fun m n => kmul c (B m n)) = kmul c (M2 A B).
Proof. unfold M2. rewrite <- mean_times. apply mean_ext. intros i k Hi Hk. in2 Hi. in2 Hk. unfold timesO. cbn [kron]. ring. Qed.
Lemma M2_adj A B : M2 (adj A) (adj B) = kconj (M2 A B).
Proof. unfold M2. rewrite <- mean_hc by apply Hs. apply mean_ext. intros i k Hi Hk. in2 Hi. in2 Hk. unfold hc, adj. cbn [kron]. rewrite !kconj_mul, kconj_1. reflexivity. Qed.
Lemma one_adj m n : adj one m n = one m n.
Proof. unfold adj, one, ElementSpec.identity. rewrite Nat.eqb_sym. destruct (m =? n); [apply kconj_1|apply kconj_0]. Qed.
Lemma M2_one : M2 one one = k1.
Proof.
  unfold M2. rewrite <- (proj1 Hs). apply mean_one. intros i k Hi Hk. in2 Hi. in2 Hk. cbn [kron listnat_eqb]. unfold one, ElementSpec.identity.
  rewrite andb_true_r. destruct (a =? a0), (b =? b0); cbn [andb]; ring.
Qed.
Lemma functional_left : functional (fun A => M2 A one).
Proof.
  constructor; intros.
  - now apply M2_ext. - apply M2_addl. - apply M2_scalel.
  - rewrite <- M2_adj. apply M2_ext; auto. intros. symmetry. apply one_adj.
  - apply M2_one.
Qed.
Lemma functional_right : functional (fun B => M2 one B).
Proof.
  constructor; intros.
  - now apply M2_ext. - apply M2_addr. - apply M2_scaler.
  - rewrite <- M2_adj. apply M2_ext; auto. intros. symmetry. apply one_adj.
  - apply M2_one.
Qed.
End Two.

(** * Products of ladder operators *)
Lemma sum_ann g m N : m + 2 <= N -> ksum (fun k => kmul (annihilation m k) (g k)) (seq 0 N) = kmul (RC (sqrt (INR (m + 1)))) (g (m + 1)).
Proof.
  intros H. transitivity (lsum N (fun k => if k =? m + 1 then kmul (RC (sqrt (INR k))) (g k) else k0)).
  - apply ksum_ext. intros k _. unfold annihilation. destruct (k =? m + 1); ring.
  - rewrite lsum_if. destruct (Nat.ltb_spec (m + 1) N); [reflexivity|lia].
Qed.
Lemma RC0 : RC 0 = k0. Proof. reflexivity. Qed.
Lemma sum_cre g m N : m + 2 <= N -> ksum (fun k => kmul (creation m k) (g k)) (seq 0 N) = kmul (RC (sqrt (INR m))) (g (m - 1)).
Proof.
  intros H. destruct m as [|m].
  - rewrite ksum_zero; [cbn [INR]; rewrite sqrt_0, RC0; ring|]. intros k _. unfold creation. destruct (Nat.eqb_spec 0 (k + 1)); [lia|ring].
  - transitivity (lsum N (fun k => if k =? m then kmul (RC (sqrt (INR (Datatypes.S m)))) (g k) else k0)).
    + apply ksum_ext. intros k _. unfold creation. destruct (Nat.eqb_spec (Datatypes.S m) (k + 1)), (Nat.eqb_spec k m); try lia; ring.
    + rewrite lsum_if. destruct (Nat.ltb_spec m N); [|lia]. replace (Datatypes.S m - 1) with m by lia. reflexivity.
Qed.
Lemma sqrtn n : (0 <= INR n)%R. Proof. apply pos_INR. Qed.
Lemma ladder1 m n : kmul (RC (sqrt (INR (m + 1)))) (annihilation (m + 1) n) = annSq m n.
Proof.
  unfold annihilation, annSq. destruct (Nat.eqb_spec n (m + 1 + 1)), (Nat.eqb_spec n (m + 2)); try lia; [|ring]. subst n. rewrite RC_mul. f_equal.
  rewrite <- sqrt_mult by apply sqrtn. f_equal. rewrite !plus_INR. cbn. ring.
Qed.
Lemma ladder2 m n : kmul (RC (sqrt (INR (m + 1)))) (creation (m + 1) n) = if m =? n then RC (INR m + 1) else k0.
Proof.
  unfold creation. destruct (Nat.eqb_spec (m + 1) (n + 1)), (Nat.eqb_spec m n); try lia; [|ring]. rewrite sqrt_sq_RC by apply sqrtn. rewrite plus_INR. reflexivity.
Qed.
Lemma ladder3 m n : kmul (RC (sqrt (INR m))) (annihilation (m - 1) n) = number m n.
Proof.
  unfold annihilation, number. destruct m as [|m].
  - cbn [INR]. rewrite sqrt_0, RC0. destruct (0 =? n); ring.
  - destruct (Nat.eqb_spec n (Datatypes.S m - 1 + 1)), (Nat.eqb_spec (Datatypes.S m) n); try lia; [|ring]. subst n. replace (Datatypes.S m - 1 + 1) with (Datatypes.S m) by lia.
    rewrite sqrt_sq_RC by apply sqrtn. reflexivity.
Qed.
Lemma ladder4 m n : kmul (RC (sqrt (INR m))) (creation (m - 1) n) = creSq m n.
Proof.
  unfold creation, creSq. destruct m as [|m].
  - cbn [INR]. rewrite sqrt_0, RC0. destruct (Nat.eqb_spec 0 (n + 2)); [lia|ring].
  - destruct (Nat.eqb_spec (Datatypes.S m - 1) (n + 1)), (Nat.eqb_spec (Datatypes.S m) (n + 2)); try lia; [|ring]. rewrite RC_mul. f_equal.
    rewrite <- sqrt_mult by apply sqrtn. f_equal. rewrite minus_INR by lia. reflexivity.
Qed.
Definition numberPlus : mat := fun m n => if m =? n then RC (INR m + 1) else k0.
Lemma half_half : kmul (RC (/ sqrt 2)) (RC (/ sqrt 2)) = RC (/ 2).
Proof.
  rewrite RC_mul. f_equal. rewrite <- Rinv_mult, sqrt_sqrt by lra. reflexivity.
Qed.
Lemma sum_X g m N : m + 2 <= N -> ksum (fun k => kmul (quadX m k) (g k)) (seq 0 N) =
  kmul (RC (/ sqrt 2)) (kadd (kmul (RC (sqrt (INR (m + 1)))) (g (m + 1))) (kmul (RC (sqrt (INR m))) (g (m - 1)))).
Proof.
  intros H. rewrite <- (sum_ann g m N H), <- (sum_cre g m N H), <- ksum_add, <- ksum_scal_l. apply ksum_ext. intros k _. unfold quadX, position. ring.
Qed.
Lemma sum_Y g m N : m + 2 <= N -> ksum (fun k => kmul (quadY m k) (g k)) (seq 0 N) =
  kmul (kmul (RC (/ sqrt 2)) (kopp CI)) (ksub (kmul (RC (sqrt (INR (m + 1)))) (g (m + 1))) (kmul (RC (sqrt (INR m))) (g (m - 1)))).
Proof.
  intros H. rewrite <- (sum_ann g m N H), <- (sum_cre g m N H), <- ksum_sub, <- ksum_scal_l. apply ksum_ext. intros k _. unfold quadY. ring.
Qed.
Definition P1 := annSq. Definition P2 := numberPlus. Definition P3 := number. Definition P4 := creSq.
Lemma right_X m n : kadd (kmul (RC (sqrt (INR (m + 1)))) (quadX (m + 1) n)) k0 = kmul (RC (/ sqrt 2)) (kadd (annSq m n) (numberPlus m n)).
Proof. rewrite <- ladder1. unfold numberPlus. rewrite <- ladder2. unfold quadX, position. ring. Qed.
Lemma prod_XX m n N : m + 2 <= N -> ksum (fun k => kmul (quadX m k) (quadX k n)) (seq 0 N) =
  kmul (RC (/ 2)) (kadd (kadd (annSq m n) (creSq m n)) (kadd (numberPlus m n) (number m n))).
Proof.
  intros H. rewrite sum_X by auto. rewrite <- half_half, <- ladder1, <- ladder4, <- ladder3. unfold numberPlus. rewrite <- ladder2. unfold quadX, position. ring.
Qed.
Lemma CI2 : kmul (kopp CI) (kopp CI) = kopp k1. Proof. apply cr_eq; cbn; ring. Qed.
Lemma prod_YY m n N : m + 2 <= N -> ksum (fun k => kmul (quadY m k) (quadY k n)) (seq 0 N) =
  kmul (RC (/ 2)) (ksub (kadd (numberPlus m n) (number m n)) (kadd (annSq m n) (creSq m n))).
Proof.
  intros H. rewrite sum_Y by auto. rewrite <- half_half, <- ladder1, <- ladder4, <- ladder3. unfold numberPlus. rewrite <- ladder2. unfold quadY.
  set (s := RC (sqrt (INR (m + 1)))). set (u := RC (sqrt (INR m))). set (c := RC (/ sqrt 2)).
  set (x := annihilation _ _). set (y := creation _ _). set (v := annihilation _ _). set (w := creation _ _).
  transitivity (kmul (kmul (kopp CI) (kopp CI)) (kmul (kmul c c) (ksub (kmul s (ksub x y)) (kmul u (ksub v w))))); [ring|]. rewrite CI2. ring.
Qed.
Lemma prod_XY m n N : m + 2 <= N -> ksum (fun k => kmul (quadX m k) (quadY k n)) (seq 0 N) =
  kmul (kmul (RC (/ 2)) (kopp CI)) (ksub (kadd (annSq m n) (number m n)) (kadd (numberPlus m n) (creSq m n))).
Proof.
  intros H. rewrite sum_X by auto. rewrite <- half_half, <- ladder1, <- ladder4, <- ladder3. unfold numberPlus. rewrite <- ladder2. unfold quadY. ring.
Qed.
Lemma prod_YX m n N : m + 2 <= N -> ksum (fun k => kmul (quadY m k) (quadX k n)) (seq 0 N) =
  kmul (kmul (RC (/ 2)) (kopp CI)) (ksub (kadd (annSq m n) (numberPlus m n)) (kadd (number m n) (creSq m n))).
Proof.
  intros H. rewrite sum_Y by auto. rewrite <- half_half, <- ladder1, <- ladder4, <- ladder3. unfold numberPlus. rewrite <- ladder2. unfold quadX, position. ring.
Qed.
Lemma prod_NN m n N : m + 2 <= N -> ksum (fun k => kmul (number m k) (number k n)) (seq 0 N) = numberSq m n.
Proof.
  intros H. transitivity (lsum N (fun k => if k =? m then kmul (RC (INR m)) (number k n) else k0)).
  - apply ksum_ext. intros k _. unfold number at 1. rewrite (Nat.eqb_sym m k). destruct (k =? m); ring.
  - rewrite lsum_if. destruct (Nat.ltb_spec m N); [|lia]. unfold number, numberSq. destruct (m =? n); [apply RC_mul|ring].
Qed.
(** the products exist *)
Lemma product_exists A B D : (forall m n N, m + 2 <= N -> ksum (fun k => kmul (A m k) (B k n)) (seq 0 N) = D m n) -> is_product A B D.
Proof. intros H m n N HN. symmetry. now apply H. Qed.
Lemma product_is A B C D : is_product A B C -> (forall m n N, m + 2 <= N -> ksum (fun k => kmul (A m k) (B k n)) (seq 0 N) = D m n) -> forall m n, C m n = D m n.
Proof. intros H HD m n. rewrite (H m n (m + 2)) by lia. now apply HD. Qed.

Section Values.
Variable L : mat -> CR.
Hypothesis HL : functional L.
Lemma L_sub A B : L (fun m n => ksub (A m n) (B m n)) = ksub (L A) (L B).
Proof.
  rewrite (L_ext L HL _ (fun m n => kadd (A m n) ((fun m n => kmul (kopp k1) (B m n)) m n))) by (intros; ring). rewrite (L_add L HL), (L_scale L HL). ring.
Qed.
Lemma L_cre : L creation = kconj (L annihilation).
Proof.
  rewrite <- (L_adj L HL). apply (L_ext L HL). intros m n. unfold adj, annihilation, creation. destruct (m =? n + 1); [now rewrite RC_conj|now rewrite kconj_0].
Qed.
Lemma L_creSq : L creSq = kconj (L annSq).
Proof.
  rewrite <- (L_adj L HL). apply (L_ext L HL). intros m n. unfold adj, annSq, creSq. destruct (m =? n + 2); [now rewrite RC_conj|now rewrite kconj_0].
Qed.
Lemma L_plus : L numberPlus = kadd (L number) k1.
Proof.
  rewrite <- (L_one L HL), <- (L_add L HL). apply (L_ext L HL). intros m n. unfold numberPlus, number, one, ElementSpec.identity. destruct (m =? n); [|ring].
  rewrite <- RC_add. reflexivity.
Qed.
Lemma two_over : (2 * / sqrt 2 = sqrt 2)%R.
Proof. rewrite <- (sqrt_sqrt 2) at 1 by lra. field. pose proof (sqrt_lt_R0 2). lra. Qed.
Lemma L_X : cre (L quadX) = (sqrt 2 * cre (L annihilation))%R.
Proof.
  unfold quadX, position. rewrite (L_scale L HL), (L_add L HL), L_cre, cre_RC. pose proof two_over as T. revert T. generalize (/ sqrt 2)%R. generalize (sqrt 2). intros q r T. rewrite <- T. destruct (L annihilation) as [x y]. cbn. ring.
Qed.
Lemma L_Y : cre (L quadY) = (sqrt 2 * cim (L annihilation))%R.
Proof.
  unfold quadY. rewrite (L_scale L HL), (L_scale L HL), L_sub, L_cre, cre_RC. pose proof two_over as T. revert T. generalize (/ sqrt 2)%R. generalize (sqrt 2). intros q r T. rewrite <- T. destruct (L annihilation) as [x y]. cbn. ring.
Qed.
Lemma L_XX X2 : is_product quadX quadX X2 -> cre (L X2) = (cre (L number) + / 2 + cre (L annSq))%R.
Proof.
  intros H. rewrite (L_ext L HL _ _ (product_is _ _ _ (fun m n => kmul (RC (/ 2)) ((fun m n => kadd ((fun m n => kadd (annSq m n) (creSq m n)) m n) ((fun m n => kadd (numberPlus m n) (number m n)) m n)) m n)) H prod_XX)).
  rewrite (L_scale L HL), (L_add L HL), !(L_add L HL), L_creSq, L_plus, cre_RC. destruct (L annSq), (L number). cbn. field.
Qed.
Lemma L_YY Y2 : is_product quadY quadY Y2 -> cre (L Y2) = (cre (L number) + / 2 - cre (L annSq))%R.
Proof.
  intros H. rewrite (L_ext L HL _ _ (product_is _ _ _ (fun m n => kmul (RC (/ 2)) ((fun m n => ksub ((fun m n => kadd (numberPlus m n) (number m n)) m n) ((fun m n => kadd (annSq m n) (creSq m n)) m n)) m n)) H prod_YY)).
  rewrite (L_scale L HL), L_sub, !(L_add L HL), L_creSq, L_plus, cre_RC. destruct (L annSq), (L number). cbn. field.
Qed.
Lemma L_XY XY YX : is_product quadX quadY XY -> is_product quadY quadX YX -> cre (L (half_sum XY YX)) = cim (L annSq).
Proof.
  intros H1 H2. unfold half_sum.
  rewrite (L_ext L HL _ (fun m n => kmul (kmul (RC (/ 2)) (kopp CI)) ((fun m n => ksub (annSq m n) (creSq m n)) m n))).
  - rewrite (L_scale L HL), L_sub, L_creSq. destruct (L annSq). cbn. field.
  - intros m n. rewrite (product_is _ _ _ _ H1 prod_XY), (product_is _ _ _ _ H2 prod_YX). generalize (annSq m n), (creSq m n), (number m n), (numberPlus m n). intros a b c d.
    apply cr_eq; cbn; field.
Qed.
Lemma L_NN N2 : is_product number number N2 -> cre (L N2) = cre (L numberSq).
Proof. intros H. f_equal. apply (L_ext L HL). apply (product_is _ _ _ _ H prod_NN). Qed.
Lemma two_re x : (sqrt 2 * x * (sqrt 2 * x) = 2 * (x * x))%R.
Proof. transitivity (sqrt 2 * sqrt 2 * (x * x))%R; [ring|]. rewrite sqrt_sqrt by lra. reflexivity. Qed.
Lemma two_reim x y : (sqrt 2 * x * (sqrt 2 * y) = 2 * x * y)%R.
Proof. transitivity (sqrt 2 * sqrt 2 * (x * y))%R; [ring|]. rewrite sqrt_sqrt by lra. ring. Qed.

(** what processing makes of the averages of a mode *)
Lemma quad_processed N2 X2 Y2 XY YX : is_product number number N2 -> is_product quadX quadX X2 -> is_product quadY quadY Y2 -> is_product quadX quadY XY -> is_product quadY quadX YX ->
  quadProcess [cre (L number); cre (L numberSq); cre (L annihilation); cim (L annihilation); cre (L annSq); cim (L annSq); 0%R] =
  [cre (L number); cre (L N2) - cre (L number) * cre (L number); cre (L annihilation); cim (L annihilation);
   cre (L X2) - cre (L quadX) * cre (L quadX); cre (L Y2) - cre (L quadY) * cre (L quadY); cre (L (half_sum XY YX)) - cre (L quadX) * cre (L quadY)]%R.
Proof.
  intros H0 H1 H2 H3 H4. rewrite (L_NN N2 H0), (L_XX X2 H1), (L_YY Y2 H2), (L_XY XY YX H3 H4), L_X, L_Y, !two_re, two_reim. reflexivity.
Qed.
End Values.
