(** The distribution functions: proofs of C87-C89. *)
From Coq Require Import List Arith Lia Reals Lra.
From Verif Require Import Star CReal PureModel InitialModel InitialSpec InitialProofs PhaseModel PhaseSpec PhaseProofs.
Import ListNotations.
Local Open Scope R_scope.
Add Ring cring_phase2 : (k_ring CR).

Lemma optSum_ok {S : StarRing} (f : nat -> option S) g l : (forall n, In n l -> f n = Some (g n)) -> forall init, optSum f l init = Some (kadd init (ksum g l)).
Proof.
  assert (HS := k_ring S). destruct HS. unfold optSum. induction l as [|a l IH]; intros H init; cbn [fold_left ksum fold_right].
  - f_equal. cbn. now rewrite Radd_comm, Radd_0_l.
  - rewrite (H a) by now left. rewrite IH by (intros; apply H; now right). f_equal. symmetry. apply Radd_assoc.
Qed.
Lemma realSum_ok (f : nat -> option R) g l : (forall n, In n l -> f n = Some (g n)) -> forall init, realSum f l init = Some (init + rsum g l).
Proof.
  unfold realSum. induction l as [|a l IH]; intros H init; cbn [fold_left].
  - f_equal. cbn. ring.
  - rewrite (H a) by now left. rewrite IH by (intros; apply H; now right). f_equal. cbn [rsum fold_right]. unfold rsum. ring.
Qed.
Lemma realSum_none (f : nat -> option R) l n : In n l -> f n = None -> forall a, fold_left (fun acc n => match acc, f n with Some s, Some z => Some (s + z) | _, _ => None end) l a = None.
Proof.
  assert (N : forall l, fold_left (fun acc n => match acc, f n with Some s, Some z => Some (s + z) | _, _ => None end) l None = None) by (let l := fresh in intros l; induction l; cbn; auto).
  induction l as [|b l IH]; intros E H a; [destruct E|destruct E as [E|E]].
  - subst b. cbn. rewrite H. destruct a; apply N.
  - cbn. now apply IH.
Qed.
Lemma optSum_none {S : StarRing} (f : nat -> option S) l n : In n l -> f n = None -> forall a, fold_left (fun acc n => match acc, f n with Some s, Some z => Some (kadd s z) | _, _ => None end) l a = None.
Proof.
  assert (N : forall l, fold_left (fun acc n => match acc, f n with Some s, Some z => Some (kadd s z) | _, _ => None end) l None = None) by (let l := fresh in intros l; induction l; cbn; auto).
  induction l as [|b l IH]; intros E H a; [destruct E|destruct E as [E|E]].
  - subst b. cbn. rewrite H. destruct a; apply N.
  - cbn. now apply IH.
Qed.
Lemma used_dim dim t : usedDimension dim t = if (t =? 0)%nat then dim else Nat.min t dim.
Proof.
  unfold usedDimension. destruct (Nat.eqb_spec t 0); cbn [negb andb]; [reflexivity|]. destruct (Nat.ltb_spec t dim); lia.
Qed.

(** ** sums over a square *)
Lemma sum_rev d : forall f : nat -> CR, ksum (fun k => f (d - k)%nat) (seq 1 d) = ksum f (seq 0 d).
Proof.
  induction d as [|d IH]; intros f; [reflexivity|].
  rewrite seq_S, ksum_app. change (seq 0 (Datatypes.S d)) with ([0%nat] ++ seq 1 d). rewrite ksum_app, <- (seq_shift d 0), (ksum_map Datatypes.S f).
  rewrite <- (IH (fun j => f (Datatypes.S j))). rewrite seq_shift.
  rewrite (ksum_ext (fun k => f (Datatypes.S d - k)%nat) (fun k => f (Datatypes.S (d - k)))).
  - cbn [ksum fold_right Nat.add]. rewrite Nat.sub_diag. ring.
  - intros k H. apply in_seq in H. f_equal. lia.
Qed.
Lemma sum_square (h : nat -> nat -> CR) d :
  ksum (fun m => ksum (fun n => h m n) (seq 0 d)) (seq 0 d) =
  kadd (ksum (fun n => h n n) (seq 0 d)) (ksum (fun k => ksum (fun n => kadd (h (n + k)%nat n) (h n (n + k)%nat)) (seq 0 (d - k))) (seq 1 (d - 1))).
Proof.
  induction d as [|d IH]; [cbn [seq Nat.sub ksum fold_right]; ring|].
  rewrite seq_S, !ksum_app. cbn [Nat.add].
  rewrite (ksum_ext _ (fun m => kadd (ksum (fun n => h m n) (seq 0 d)) (h m d))).
  2:{ intros m _. rewrite ksum_app. f_equal. cbn [ksum fold_right]. ring. }
  rewrite ksum_add, IH. rewrite (ksum_ext (fun k => ksum (fun n => kadd (h (n + k)%nat n) (h n (n + k)%nat)) (seq 0 (Datatypes.S d - k)))
    (fun k => kadd (ksum (fun n => kadd (h (n + k)%nat n) (h n (n + k)%nat)) (seq 0 (d - k))) (kadd (h d (d - k)%nat) (h (d - k)%nat d)))).
  2:{ intros k H. apply in_seq in H. replace (Datatypes.S d - k)%nat with (Datatypes.S (d - k)) by lia. rewrite seq_S, ksum_app. f_equal. cbn [ksum fold_right Nat.add]. replace (d - k + k)%nat with d by lia. ring. }
  replace (Datatypes.S d - 1)%nat with d by lia. rewrite ksum_add.
  rewrite (sum_rev d (fun j => kadd (h d j) (h j d))), ksum_add.
  assert (E : ksum (fun k => ksum (fun n => kadd (h (n + k)%nat n) (h n (n + k)%nat)) (seq 0 (d - k))) (seq 1 d) =
              ksum (fun k => ksum (fun n => kadd (h (n + k)%nat n) (h n (n + k)%nat)) (seq 0 (d - k))) (seq 1 (d - 1))).
  { destruct d as [|d]; [reflexivity|]. rewrite seq_S, ksum_app. replace (Datatypes.S d - 1)%nat with d by lia.
    rewrite (ksum_zero _ [(1 + d)%nat]); [ring|]. intros a [<-|[]]. cbn [Nat.add]. now rewrite Nat.sub_diag. }
  rewrite E. assert (E1 : forall f : nat -> CR, ksum f [d] = f d) by (intros f; cbn [ksum fold_right]; ring). rewrite !E1, ksum_app, E1. change (ksum (h d) (seq 0 d)) with (ksum (fun n => h d n) (seq 0 d)). cbv beta. ring.
Qed.

(** ** The Wigner function *)
Lemma cpow_mul z w k : cpow (kmul z w) k = kmul (cpow z k) (cpow w k).
Proof. induction k; cbn [cpow]; [ring|]. rewrite IHk. ring. Qed.
Lemma cpow_RC r k : cpow (RC r) k = RC (r ^ k).
Proof. induction k; cbn [cpow pow]; [reflexivity|]. now rewrite IHk, RC_mul. Qed.
Lemma cpow_cexp phi k : cpow (cexp (kmul (kopp CI) (RC phi))) k = cexp (kmul (kopp CI) (RC (INR k * phi))).
Proof.
  induction k; cbn [cpow].
  - replace (kmul (kopp CI) (RC (INR 0 * phi))) with (k0 : CR) by (apply cr_eq; cbn; ring). symmetry. apply cexp_0.
  - rewrite IHk, <- cexp_add, S_INR. f_equal. apply cr_eq; cbn; ring.
Qed.
Lemma polar atan2 x y : polar_angle atan2 -> kmul (RC (sqrt (x * x + y * y))) (cexp (kmul (kopp CI) (RC (polarAngle atan2 x y)))) = zz (-1) x y.
Proof.
  intros H.
  assert (G : forall f, sqrt (x * x + y * y) * cos f = x -> sqrt (x * x + y * y) * sin f = y -> kmul (RC (sqrt (x * x + y * y))) (cexp (kmul (kopp CI) (RC f))) = zz (-1) x y).
  { intros f C S. assert (E : kmul (kopp CI) (RC f) = ((0, - f) : CR)) by (apply cr_eq; cbn; ring). rewrite E. unfold cexp. cbn [fst snd]. rewrite exp_0, cos_neg, sin_neg.
    apply cr_eq; cbn; lra. }
  apply G; unfold polarAngle; destruct (Req_EM_T x 0) as [X|X]; destruct (Req_EM_T y 0) as [Y|Y]; try (apply H; tauto);
    rewrite X, Y; replace (0 * 0 + 0 * 0) with 0 by ring; rewrite sqrt_0; ring.
Qed.
Definition wval (n : nat) (r : R) (k : nat) : R :=
  minusOneTo n / PI * sqrt (INR (fact n) / INR (fact (n + k))) * exp (-2 * (r * r)) * (2 * r) ^ k * laguerre n k (4 * (r * r)).
Lemma wElement_ok n r k : (n + k <= 170)%nat -> wElement n r k = Some (wval n r k).
Proof.
  intros H. unfold wElement, factorial, maxFactorial. destruct (Nat.leb_spec n 170); [|lia]. destruct (Nat.leb_spec (n + k) 170); [|lia]. reflexivity.
Qed.
Lemma wval_V atan2 n k x y : polar_angle atan2 -> kmul (RC (wval n (sqrt (x * x + y * y)) k)) (cexp (kmul (kopp CI) (RC (INR k * polarAngle atan2 x y)))) = kmul (RC (1 / 2)) (V (n + k) n x y).
Proof.
  intros H. rewrite Vnk. unfold Z. rewrite <- (polar atan2 x y H), cpow_mul, cpow_RC, cpow_cexp. set (e := cexp _).
  transitivity (kmul e (RC (wval n (sqrt (x * x + y * y)) k))); [ring|].
  transitivity (kmul e (RC (1 / 2 * (sqrt (x * x + y * y) ^ k * gg n k (x * x + y * y))))); [|rewrite <- !RC_mul; ring].
  f_equal. f_equal. unfold wval, gg, c0. fold (L n k (4 * (sqrt (x * x + y * y) * sqrt (x * x + y * y)))).
  rewrite sqrt_sqrt by nra. rewrite Rpow_mult_distr. field. apply PI_neq0.
Qed.
Lemma V_conj m n x y : V m n x y = kconj (V n m x y).
Proof.
  assert (Ez : forall k x y, kconj (cpow (zz (-1) x y) k) = cpow (zz 1 x y) k).
  { intros k x' y'. induction k; cbn [cpow]; [apply kconj_1|]. rewrite kconj_mul, IHk. f_equal. apply cr_eq; cbn; ring. }
  assert (Ez' : forall k x y, kconj (cpow (zz 1 x y) k) = cpow (zz (-1) x y) k).
  { intros k x' y'. rewrite <- Ez. apply kconj_invol. }
  destruct (le_lt_dec n m) as [H|H].
  - replace m with (n + (m - n))%nat by lia. rewrite Vnk, Vkn. unfold Z. rewrite kconj_mul, RC_conj, Ez'. reflexivity.
  - replace n with (m + (n - m))%nat by lia. rewrite Vnk, Vkn. unfold Z. rewrite kconj_mul, RC_conj, Ez. reflexivity.
Qed.
Lemma cre_ksum {A} (f : A -> CR) l : cre (ksum f l) = rsum (fun a => cre (f a)) l.
Proof. induction l; cbn; [reflexivity|]. unfold cre, rsum in *. now rewrite IHl. Qed.
Lemma rsum_scal {A} c (f : A -> R) l : rsum (fun a => c * f a) l = c * rsum f l.
Proof. unfold rsum. induction l; cbn; [ring|]. rewrite IHl. ring. Qed.
Lemma rsum_ext' {A} (f g : A -> R) l : (forall a, In a l -> f a = g a) -> rsum f l = rsum g l.
Proof. unfold rsum. induction l; cbn; intros H; [reflexivity|]. rewrite H, IHl; auto. Qed.
Lemma cre_scal r z : cre (kmul (RC r) z) = r * cre z.
Proof. unfold cre. cbn. ring. Qed.
Lemma wigner_half atan2 rho dim x y t : polar_angle atan2 -> let d := usedDimension dim t in (d <= 171)%nat -> selfadjoint d rho ->
  exists f, wignerFunction atan2 rho dim x y t = Some f /\ RC (2 * f) = wigner_of V d rho x y.
Proof.
  intros HA d Hd HS. unfold wignerFunction. fold d. set (r := sqrt (x * x + y * y)). set (phi := polarAngle atan2 x y).
  assert (HW : forall k, wHelper rho d r k = Some (ksum (fun n => kmul (RC (wval n r k)) (rho (n + k)%nat n)) (seq 0 (d - k)))).
  { intros k. unfold wHelper. rewrite (optSum_ok _ (fun n => kmul (RC (wval n r k)) (rho (n + k)%nat n))).
    - f_equal. ring.
    - intros n Hn. apply in_seq in Hn. rewrite wElement_ok by lia. reflexivity. }
  rewrite HW. rewrite (realSum_ok _ (fun k => 2 * cre (kmul (ksum (fun n => kmul (RC (wval n r k)) (rho (n + k)%nat n)) (seq 0 (d - k))) (cexp (kmul (kopp CI) (RC (INR k * phi))))))).
  2:{ intros k _. now rewrite HW. }
  eexists. split; [reflexivity|].
  assert (HT : forall k, kmul (ksum (fun n => kmul (RC (wval n r k)) (rho (n + k)%nat n)) (seq 0 (d - k))) (cexp (kmul (kopp CI) (RC (INR k * phi)))) =
    kmul (RC (1 / 2)) (ksum (fun n => kmul (rho (n + k)%nat n) (V (n + k) n x y)) (seq 0 (d - k)))).
  { intros k. rewrite <- ksum_scal_r, <- ksum_scal_l. apply ksum_ext. intros n _.
    transitivity (kmul (kmul (RC (wval n r k)) (cexp (kmul (kopp CI) (RC (INR k * phi))))) (rho (n + k)%nat n)); [ring|]. unfold r, phi. rewrite (wval_V atan2 n k x y HA). ring. }
  assert (H0 : ksum (fun n => kmul (RC (wval n r 0)) (rho (n + 0)%nat n)) (seq 0 (d - 0)) = kmul (RC (1 / 2)) (ksum (fun n => kmul (rho n n) (V n n x y)) (seq 0 d))).
  { assert (E := HT 0%nat). replace (kmul (kopp CI) (RC (INR 0 * phi))) with (k0 : CR) in E by (apply cr_eq; cbn; ring). rewrite cexp_0 in E.
    transitivity (kmul (ksum (fun n => kmul (RC (wval n r 0)) (rho (n + 0)%nat n)) (seq 0 (d - 0))) k1); [ring|]. rewrite E, Nat.sub_0_r. f_equal. apply ksum_ext. intros n _. now rewrite Nat.add_0_r. }
  rewrite H0. rewrite (rsum_ext' _ (fun k => cre (ksum (fun n => kmul (rho (n + k)%nat n) (V (n + k) n x y)) (seq 0 (d - k))))).
  2:{ intros k _. rewrite HT, cre_scal. field. }
  unfold wigner_of. rewrite (sum_square (fun m n => kmul (rho m n) (V m n x y)) d).
  assert (Real : forall z : CR, kconj z = z -> RC (cre z) = z) by (intros [a b] E; apply cr_eq; cbn; [reflexivity|]; apply (f_equal snd) in E; cbn in E; lra).
  assert (ED : RC (cre (ksum (fun n => kmul (rho n n) (V n n x y)) (seq 0 d))) = ksum (fun n => kmul (rho n n) (V n n x y)) (seq 0 d)).
  { apply Real. rewrite ksum_conj. apply ksum_ext. intros n Hn. apply in_seq in Hn. rewrite kconj_mul, <- V_conj, <- HS by lia. reflexivity. }
  rewrite cre_scal, Rmult_plus_distr_l, <- RC_add. f_equal.
  - rewrite <- ED at 2. f_equal. field.
  - rewrite <- cre_ksum. rewrite <- RC_mul.
    assert (EO : forall k, In k (seq 1 (d - 1)) -> ksum (fun n => kadd (kmul (rho (n + k)%nat n) (V (n + k) n x y)) (kmul (rho n (n + k)%nat) (V n (n + k) x y))) (seq 0 (d - k)) =
      kmul (RC 2) (RC (cre (ksum (fun n => kmul (rho (n + k)%nat n) (V (n + k) n x y)) (seq 0 (d - k)))))).
    { intros k Hk. apply in_seq in Hk.
      assert (E2 : forall z : CR, kadd z (kconj z) = kmul (RC 2) (RC (cre z))) by (intros [a b]; apply cr_eq; cbn; ring).
      rewrite <- E2, ksum_add, ksum_conj. f_equal. apply ksum_ext. intros n Hn. apply in_seq in Hn.
      rewrite kconj_mul, <- V_conj, <- HS by lia. reflexivity. }
    rewrite (ksum_ext _ _ _ EO), ksum_scal_l. f_equal.
    assert (EC : forall (f : nat -> CR) l, RC (cre (ksum f l)) = ksum (fun k => RC (cre (f k))) l).
    { intros f l. induction l as [|a l IH]; [reflexivity|]. cbn [ksum fold_right] in *. fold (ksum f l) in *. fold (ksum (fun k => RC (cre (f k))) l) in *. rewrite <- IH, RC_add. reflexivity. }
    apply EC.
Qed.
Lemma wigner_too_large atan2 rho dim x y t : (171 < usedDimension dim t)%nat -> wignerFunction atan2 rho dim x y t = None.
Proof.
  intros H. unfold wignerFunction. set (d := usedDimension dim t) in *.
  assert (E : wHelper rho d (sqrt (x * x + y * y)) 0 = None).
  { unfold wHelper, optSum. apply (optSum_none _ _ 171%nat); [apply in_seq; lia|]. unfold wElement, factorial, maxFactorial. reflexivity. }
  now rewrite E.
Qed.
Lemma wigner_of_ext W W' d rho x y : (forall m n, W m n x y = W' m n x y) -> wigner_of W d rho x y = wigner_of W' d rho x y.
Proof. intros H. unfold wigner_of. apply ksum_ext. intros m _. apply ksum_ext. intros n _. now rewrite H. Qed.
Lemma wigner_fact atan2 W rho dim t x y : polar_angle atan2 -> wigner_family W -> let d := if (t =? 0)%nat then dim else Nat.min t dim in
  ((d <= 171)%nat -> selfadjoint d rho -> exists f, wignerFunction atan2 rho dim x y t = Some f /\ RC (2 * f) = wigner_of W d rho x y) /\
  ((171 < d)%nat -> wignerFunction atan2 rho dim x y t = None).
Proof.
  intros HA HW d. unfold d. rewrite <- used_dim. split; intros H.
  - intros HS. destruct (wigner_half atan2 rho dim x y t HA H HS) as (f & E & F). exists f. split; [exact E|]. rewrite F. apply wigner_of_ext. intros m n. now apply family_unique; [apply V_family|].
  - now apply wigner_too_large.
Qed.
(** the vacuum at the origin *)
Definition vacuumRho (m n : nat) : CR := if (m =? 0)%nat then if (n =? 0)%nat then k1 else k0 else k0.
Lemma wigner_refuted atan2 W : polar_angle atan2 -> wigner_family W ->
  exists rho dim x y f, selfadjoint dim rho /\ ksum (fun n => rho n n) (seq 0 dim) = k1 /\ wignerFunction atan2 rho dim x y 0 = Some f /\ RC f <> wigner_of W dim rho x y.
Proof.
  intros HA HW. assert (S : selfadjoint 3 vacuumRho).
  { intros m n _ _. unfold vacuumRho. destruct m, n; cbn [Nat.eqb]; rewrite ?kconj_1, ?kconj_0; reflexivity. }
  destruct (wigner_fact atan2 W vacuumRho 3 0 0 0 HA HW) as [F _]. destruct (F ltac:(cbn; lia) S) as (f & E & G). cbn [Nat.eqb] in G.
  exists vacuumRho, 3%nat, 0, 0, f. repeat split; auto.
  - apply cr_eq; cbn; ring.
  - rewrite <- G. intros C. apply RC_inj in C. assert (Z0 : f = 0) by lra. subst f. rewrite Rmult_0_r in G. unfold wigner_of in G.
    rewrite (ksum_ext _ (fun m => if (m =? 0)%nat then W 0%nat 0%nat 0 0 else k0)) in G.
    2:{ intros m _. unfold vacuumRho. destruct m; cbn [Nat.eqb seq ksum fold_right]; ring. }
    cbn [seq ksum fold_right Nat.eqb] in G. destruct HW as [H0 _]. rewrite H0 in G.
    assert (P : 0 < normal_density (1 / 4) 0).
    { unfold normal_density. apply Rdiv_lt_0_compat; [apply exp_pos|]. apply sqrt_lt_R0. assert (Q := PI_RGT_0). lra. }
    apply (f_equal fst) in G. cbn in G. nra.
Qed.
(** an angle *)
Definition angleOf (y x : R) : R := let r := sqrt (x * x + y * y) in if Rle_dec 0 y then acos (x / r) else - acos (x / r).
Lemma angle_polar : polar_angle angleOf.
Proof.
  intros x y H r.
  assert (P : 0 < x * x + y * y) by nra. assert (R0 : 0 < r) by (apply sqrt_lt_R0; exact P). assert (R2 : r * r = x * x + y * y) by (apply sqrt_sqrt; lra).
  assert (B : -1 <= x / r <= 1).
  { split; [apply Rmult_le_reg_r with r|apply Rmult_le_reg_r with r]; auto; unfold Rdiv; rewrite Rmult_assoc, Rinv_l by lra; nra. }
  assert (C : r * cos (acos (x / r)) = x) by (rewrite cos_acos by exact B; field; lra).
  assert (S : r * sin (acos (x / r)) = Rabs y).
  { rewrite sin_acos by exact B. rewrite <- (sqrt_square r) at 1 by lra. rewrite <- sqrt_mult_alt by nra. rewrite <- sqrt_Rsqr_abs. f_equal. unfold Rsqr.
    replace (r * r * (1 - x / r * (x / r))) with (r * r - x * x) by (field; lra). lra. }
  unfold angleOf. fold r. destruct (Rle_dec 0 y) as [Y|Y].
  - split; [exact C|]. rewrite S. apply Rabs_right. lra.
  - rewrite cos_neg, sin_neg. split; [exact C|]. rewrite Ropp_mult_distr_r_reverse, S, Rabs_left by lra. ring.
Qed.
