From Coq Require Import List Arith Bool Reals Lia Lra.
From Coquelicot Require Import Coquelicot.
From Verif Require Import Star CReal Arr VerdictModel CompareModel CompareSpec VerdictProofs.
Import ListNotations.
Local Open Scope R_scope.

(** ** interpolation *)
Lemma searched xs t : (forall i, (i < searchsorted xs t)%nat -> nth i xs 0 < t) /\ ((searchsorted xs t < length xs)%nat -> ~ nth (searchsorted xs t) xs 0 < t) /\ (searchsorted xs t <= length xs)%nat.
Proof.
  induction xs as [|x xs (IH1 & IH2 & IH3)]; cbn [searchsorted length].
  - split; [|split]; intros; lia.
  - destruct (Rlt_dec x t) as [H|H].
    + split; [|split; [|lia]].
      * intros [|i] Hi; [exact H|]. apply IH1. lia.
      * intros Hl. cbn. apply IH2. lia.
    + split; [intros; lia|]. split; [|lia]. intros _. exact H.
Qed.
Lemma last_nth (l : list R) : last l 0 = nth (length l - 1) l 0.
Proof.
  induction l as [|x [|y l] IH]; [reflexivity|reflexivity|]. change (last (x :: y :: l) 0) with (last (y :: l) 0). rewrite IH. cbn [length].
  replace (S (S (length l)) - 1)%nat with (S (S (length l) - 1)) by lia. reflexivity.
Qed.
Lemma interp_polygon ts ys f t : polygon ts ys f -> firstTime ts <= t <= lastTime ts -> interp1d ts ys t = Some (f t).
Proof.
  intros (L & I & E & P) H. unfold firstTime, lastTime in H. rewrite last_nth in H. unfold interp1d.
  destruct (Nat.ltb_spec (length ts) 2); [lia|]. destruct (Rlt_dec t (nth 0 ts 0)); [lra|]. destruct (Rlt_dec (nth (length ts - 1) ts 0) t); [lra|].
  destruct (searched ts t) as (S1 & S2 & S3). set (k := searchsorted ts t) in *. set (hi := Nat.min (Nat.max k 1) (length ts - 1)).
  assert (Hhi : (1 <= hi < length ts)%nat) by (unfold hi; lia).
  assert (B : nth (hi - 1) ts 0 <= t <= nth (hi - 1 + 1) ts 0).
  { replace (hi - 1 + 1)%nat with hi by lia. destruct (Nat.eq_dec k 0) as [K|K].
    - replace hi with 1%nat by (unfold hi; lia). cbn [Nat.sub]. rewrite K in S2. specialize (S2 ltac:(lia)). split; [lra|]. pose proof (I 0%nat 1%nat ltac:(lia)). lra.
    - destruct (Nat.eq_dec k (length ts)) as [K'|K'].
      + specialize (S1 (length ts - 1)%nat ltac:(lia)). lra.
      + replace hi with k by (unfold hi; lia). specialize (S1 (k - 1)%nat ltac:(lia)). specialize (S2 ltac:(lia)). lra. }
  rewrite (P (hi - 1)%nat t ltac:(lia) B). replace (hi - 1 + 1)%nat with hi by lia. f_equal. unfold Rdiv. ring.
Qed.
Lemma times_within ts ys f t : polygon ts ys f -> In t ts -> firstTime ts <= t <= lastTime ts.
Proof.
  intros (L & I & _) H. destruct (In_nth _ _ 0 H) as (i & Hi & <-). unfold firstTime, lastTime. rewrite last_nth. split.
  - destruct i as [|i]; [lra|]. left. apply I. lia.
  - destruct (Nat.eq_dec i (length ts - 1)) as [->|N]; [lra|]. left. apply I. lia.
Qed.
Lemma first_last ts ys f : polygon ts ys f -> firstTime ts < lastTime ts.
Proof. intros (L & I & _). unfold firstTime, lastTime. rewrite last_nth. apply I. lia. Qed.

(** ** integrals *)
Ltac real := match goal with |- @eq _ ?a ?b => change (@eq R a b) end.
Definition primitive (p q t : R) : R := p ^ 2 * t + p * q * t ^ 2 + q ^ 2 * t ^ 3 / 3.
Lemma square_int p q a b : is_RInt (fun t => (p + q * t) ^ 2) a b (primitive p q b - primitive p q a).
Proof.
  apply (is_RInt_derive (primitive p q) (fun t => (p + q * t) ^ 2)).
  - intros t _. unfold primitive. auto_derive; [trivial|]. field.
  - intros t _. apply (ex_derive_continuous (fun t => (p + q * t) ^ 2)). auto_derive. trivial.
Qed.
Lemma deviation_affine f g p q a b : a <= b -> (forall t, a <= t <= b -> f t - g t = p + q * t) -> deviation f g a b = primitive p q b - primitive p q a.
Proof.
  intros H E. unfold deviation. rewrite (RInt_ext _ (fun t => (p + q * t) ^ 2)).
  - apply is_RInt_unique, square_int.
  - intros t Ht. rewrite Rmin_left, Rmax_right in Ht by exact H. rewrite E by lra. reflexivity.
Qed.

(** ** Gaussian quadrature *)
Section Quad.
Variable higher : nat -> list (R * R).
Variable F : R -> option R.
Variables a b : R.
Hypothesis ab : a < b.
Lemma s3 : sqrt (1 / 3) * sqrt (1 / 3) = 1 / 3.
Proof. apply sqrt_sqrt. lra. Qed.
Lemma s5 : sqrt (3 / 5) * sqrt (3 / 5) = 3 / 5.
Proof. apply sqrt_sqrt. lra. Qed.
Lemma s3_bound : 0 <= sqrt (1 / 3) < 3 / 5.
Proof. split; [apply sqrt_pos|]. replace (3 / 5) with (sqrt (3 / 5 * (3 / 5))) by (apply sqrt_square; lra). apply sqrt_lt_1; lra. Qed.
Lemma s5_bound : 0 <= sqrt (3 / 5) <= 1.
Proof. split; [apply sqrt_pos|]. apply Rle_trans with (sqrt 1); [apply sqrt_le_1; lra|rewrite sqrt_1; lra]. Qed.
Lemma inside x : -1 <= x <= 1 -> a <= (b - a) * (x + 1) / 2 + a <= b.
Proof. intros H. assert (0 <= (b - a) * (x + 1)) by (apply Rmult_le_pos; lra). assert (0 <= (b - a) * (1 - x)) by (apply Rmult_le_pos; lra). lra. Qed.
Section Affine.
Variables p q : R.
Hypothesis FE : forall t, a <= t <= b -> F t = Some ((p + q * t) ^ 2).
Let area := primitive p q b - primitive p q a.
Lemma quad1 : exists v, fixed_quad higher F a b 1 = Some v.
Proof. unfold fixed_quad. cbn [gauss weighted]. rewrite FE by (apply inside; lra). cbn. eauto. Qed.
Lemma quad2 : fixed_quad higher F a b 2 = Some area.
Proof.
  unfold fixed_quad. cbn [gauss weighted]. pose proof s3_bound. rewrite !FE by (apply inside; lra). cbn [option_map]. f_equal. unfold area, primitive.
  pose proof s3 as E. set (s := sqrt (1 / 3)) in *.
  transitivity ((b - a) / 2 * (2 * (p + q * (a + b) / 2) ^ 2 + 2 * q ^ 2 * ((b - a) / 2) ^ 2 * (s * s))); [field|]. rewrite E. field.
Qed.
Lemma quad3 : fixed_quad higher F a b 3 = Some area.
Proof.
  unfold fixed_quad. cbn [gauss weighted]. pose proof s5_bound. rewrite !FE by (apply inside; lra). cbn [option_map]. f_equal. unfold area, primitive.
  pose proof s5 as E. set (s := sqrt (3 / 5)) in *.
  transitivity ((b - a) / 2 * (2 * (p + q * (a + b) / 2) ^ 2 + 10 / 9 * q ^ 2 * ((b - a) / 2) ^ 2 * (s * s))); [field|]. rewrite E. field.
Qed.
Lemma tol_pos : 0 < tol.
Proof. unfold tol. apply Rdiv_lt_0_compat; [lra|]. apply pow_lt. lra. Qed.
Lemma quad_affine k : quadrature higher (3 + k) F a b = Some area.
Proof.
  unfold quadrature. change (3 + k)%nat with (S (S (S k))). cbn [quadLoop]. destruct quad1 as (v & ->). rewrite quad2. destruct (Rlt_dec _ tol); [reflexivity|].
  destruct (Rlt_dec _ _); [reflexivity|]. rewrite quad3. destruct (Rlt_dec _ tol) as [|N]; [reflexivity|]. exfalso. apply N. rewrite Rminus_diag_eq, Rabs_R0 by reflexivity. exact tol_pos.
Qed.
End Affine.
(** nothing at the middle and at the two nodes of second order *)
Lemma quad_zero k : (forall x, x = 0 \/ x = - sqrt (1 / 3) \/ x = sqrt (1 / 3) -> F ((b - a) * (x + 1) / 2 + a) = Some 0) -> quadrature higher (2 + k) F a b = Some 0.
Proof.
  intros Z. unfold quadrature. change (2 + k)%nat with (S (S k)). cbn [quadLoop]. unfold fixed_quad. cbn [gauss weighted].
  rewrite !Z by auto. cbn [option_map]. destruct (Rlt_dec _ tol) as [|N]; [f_equal; ring|]. exfalso. apply N.
  replace _ with (Rabs 0) by (f_equal; ring). rewrite Rabs_R0. exact tol_pos.
Qed.
End Quad.

(** ** the comparison *)
Section Compare.
Variable higher : nat -> list (R * R).
Lemma column_affine reference f ts ys g p q eps : polygon ts ys g -> (forall t, firstTime ts <= t <= lastTime ts -> reference t = Some (f t)) ->
  (forall t, firstTime ts <= t <= lastTime ts -> f t - g t = p + q * t) ->
  compareColumn higher reference ts ys eps = Succeeds <-> deviation f g (firstTime ts) (lastTime ts) < eps.
Proof.
  intros P Rf D. pose proof (first_last _ _ _ P) as FL. unfold compareColumn.
  assert (forallb (fun t => isSome (reference t)) ts = true) as ->. { apply forallb_forall. intros t Ht. now rewrite Rf by (eapply times_within; eassumption). }
  assert (forallb (fun t => isSome (interp1d ts ys t)) ts = true) as ->. { apply forallb_forall. intros t Ht. now rewrite (interp_polygon ts ys g) by (assumption || eapply times_within; eassumption). }
  cbn [andb]. rewrite verdict_true. unfold regression. fold (firstTime ts). fold (lastTime ts).
  rewrite (quad_affine higher _ (firstTime ts) (lastTime ts) FL p q) with (k := 997%nat).
  - rewrite (deviation_affine f g p q) by (lra || assumption). destruct (Rlt_dec _ eps); split; intros; try reflexivity; try assumption; try discriminate; lra.
  - intros t Ht. unfold sqDiff. rewrite Rf, (interp_polygon ts ys g) by assumption. now rewrite <- D.
Qed.
End Compare.

(** ** a reference which does not cover the times *)
Lemma out_of_range xs ys t : t < firstTime xs \/ lastTime xs < t -> interp1d xs ys t = None.
Proof.
  intros H. unfold firstTime, lastTime in H. rewrite last_nth in H. unfold interp1d. destruct (length xs <? 2)%nat; [reflexivity|].
  destruct (Rlt_dec t (nth 0 xs 0)); [reflexivity|]. destruct (Rlt_dec (nth (length xs - 1) xs 0) t); [reflexivity|lra].
Qed.
Lemma uncovered higher refTs refYs ts ys eps t : In t ts -> t < firstTime refTs \/ lastTime refTs < t -> compareTrajectories higher refTs refYs ts ys eps = Raises.
Proof.
  intros I H. unfold compareTrajectories, compareColumn. replace (forallb _ ts) with false; [reflexivity|]. symmetry. apply not_true_is_false. intros F.
  rewrite forallb_forall in F. specialize (F t I). now rewrite out_of_range in F.
Qed.

(** ** a difference at a single time is not noticed *)
Section Missed.
Variable higher : nat -> list (R * R).
Definition missTs : list R := [0; 1 / 10; 1 / 5; 1].
Definition missYs (d : R) : list R := [0; d; 0; 0].
Definition bump (d t : R) : R := if Rle_dec t (1 / 10) then 10 * d * t else if Rle_dec t (1 / 5) then d * (2 - 10 * t) else 0.
Lemma miss_increasing : increasing missTs.
Proof. intros i j [H K]. cbn in K. destruct i as [|[|[|i]]], j as [|[|[|[|j]]]]; cbn; try lia; lra. Qed.
Lemma zero_polygon ts : (2 <= length ts)%nat -> increasing ts -> polygon ts (repeat 0 (length ts)) (fun _ => 0).
Proof. intros L I. split; [exact L|]. split; [exact I|]. split; [apply repeat_length|]. intros i t Hi Ht. rewrite !nth_repeat. unfold Rdiv. ring. Qed.
Lemma miss_polygon d : polygon missTs (missYs d) (bump d).
Proof.
  split; [cbn; lia|]. split; [exact miss_increasing|]. split; [reflexivity|]. intros i t Hi Ht. cbn in Hi. unfold bump.
  destruct i as [|[|[|i]]]; [| | |lia]; cbn in *.
  - destruct (Rle_dec t (1 / 10)); [field|lra].
  - destruct (Rle_dec t (1 / 10)) as [A|A]; [replace t with (1 / 10) by lra; field|]. destruct (Rle_dec t (1 / 5)); [field|lra].
  - destruct (Rle_dec t (1 / 10)) as [A|A]; [lra|]. destruct (Rle_dec t (1 / 5)) as [B|B]; [replace t with (1 / 5) by lra; field|field].
Qed.
Lemma miss_deviation d : deviation (fun _ => 0) (bump d) 0 1 = d ^ 2 / 15.
Proof.
  unfold deviation. apply is_RInt_unique.
  assert (A : is_RInt (fun t => (0 - bump d t) ^ 2) 0 (1 / 10) (d ^ 2 / 30)).
  { apply (is_RInt_ext (fun t => (0 + 10 * d * t) ^ 2)).
    - intros t. rewrite Rmin_left, Rmax_right by lra. intros Ht. real. unfold bump. destruct (Rle_dec t (1 / 10)); [ring|lra].
    - replace (d ^ 2 / 30) with (primitive 0 (10 * d) (1 / 10) - primitive 0 (10 * d) 0) by (unfold primitive; field). apply square_int. }
  assert (B : is_RInt (fun t => (0 - bump d t) ^ 2) (1 / 10) (1 / 5) (d ^ 2 / 30)).
  { apply (is_RInt_ext (fun t => (2 * d + - 10 * d * t) ^ 2)).
    - intros t. rewrite Rmin_left, Rmax_right by lra. intros Ht. real. unfold bump. destruct (Rle_dec t (1 / 10)); [lra|]. destruct (Rle_dec t (1 / 5)); [ring|lra].
    - replace (d ^ 2 / 30) with (primitive (2 * d) (- 10 * d) (1 / 5) - primitive (2 * d) (- 10 * d) (1 / 10)) by (unfold primitive; field). apply square_int. }
  assert (C : is_RInt (fun t => (0 - bump d t) ^ 2) (1 / 5) 1 0).
  { apply (is_RInt_ext (fun t => (0 + 0 * t) ^ 2)).
    - intros t. rewrite Rmin_left, Rmax_right by lra. intros Ht. real. unfold bump. destruct (Rle_dec t (1 / 10)); [lra|]. destruct (Rle_dec t (1 / 5)); [lra|ring].
    - pose proof (square_int 0 0 (1 / 5) 1) as Q. replace (primitive 0 0 1 - primitive 0 0 (1 / 5)) with 0 in Q by (unfold primitive; field). exact Q. }
  pose proof (is_RInt_Chasles _ _ _ _ _ _ (is_RInt_Chasles _ _ _ _ _ _ A B) C) as K. cbn in K. unfold plus in K. cbn in K.
  replace (d ^ 2 / 15) with (d ^ 2 / 30 + d ^ 2 / 30 + 0) by field. exact K.
Qed.
Lemma missed d eps : 0 < eps -> compareTrajectories higher missTs [0; 0; 0; 0] missTs (missYs d) eps = Succeeds.
Proof.
  intros E. pose proof (zero_polygon missTs ltac:(cbn; lia) miss_increasing) as P0. pose proof (miss_polygon d) as P1. cbn [length missTs repeat] in P0.
  unfold compareTrajectories, compareColumn.
  assert (forallb (fun t => isSome (interp1d missTs [0; 0; 0; 0] t)) missTs = true) as ->.
  { apply forallb_forall. intros t Ht. now rewrite (interp_polygon _ _ _ _ P0) by (eapply times_within; eassumption). }
  assert (forallb (fun t => isSome (interp1d missTs (missYs d) t)) missTs = true) as ->.
  { apply forallb_forall. intros t Ht. now rewrite (interp_polygon _ _ _ _ P1) by (eapply times_within; eassumption). }
  cbn [andb]. rewrite verdict_true. unfold regression. change 1000%nat with (2 + 998)%nat. rewrite quad_zero.
  - destruct (Rlt_dec 0 eps); [reflexivity|lra].
  - intros x Hx. pose proof s3_bound. cbn [nth last missTs]. unfold sqDiff.
    assert (1 / 5 < (1 - 0) * (x + 1) / 2 + 0 <= 1) by (destruct Hx as [-> | [-> | ->]]; lra).
    rewrite (interp_polygon _ _ _ _ P0), (interp_polygon _ _ _ _ P1) by (unfold firstTime, lastTime; cbn; lra). f_equal.
    unfold bump. destruct (Rle_dec _ (1 / 10)); [lra|]. destruct (Rle_dec _ (1 / 5)); [lra|]. ring.
Qed.
End Missed.

(** ** thermal states *)
Lemma thermal_law nTh p n : 0 <= nTh -> thermal nTh p -> p n = nTh ^ n / (1 + nTh) ^ (n + 1).
Proof.
  intros N [B Su]. set (r := nTh / (1 + nTh)). assert (Hr : Rabs r < 1).
  { unfold r. rewrite Rabs_right. - apply (Rmult_lt_reg_r (1 + nTh)); [lra|]. unfold Rdiv. rewrite Rmult_assoc, Rinv_l; lra.
    - apply Rle_ge. apply Rmult_le_pos; [exact N|]. left. apply Rinv_0_lt_compat. lra. }
  assert (G : forall m, p m = p 0%nat * r ^ m).
  { induction m as [|m IH]; [cbn; ring|]. assert (E : p (S m) = r * p m). { unfold r. apply (Rmult_eq_reg_l (nTh + 1)); [|lra]. rewrite B. field. lra. } rewrite E, IH. cbn. ring. }
  assert (P0 : p 0%nat = 1 / (1 + nTh)).
  { pose proof (GP_infinite r Hr) as I. unfold Pser in I.
    assert (I' : infinite_sum p (p 0%nat * / (1 - r))).
    { apply is_series_Reals. apply is_series_Reals in I. apply (is_series_scal_l (p 0%nat)) in I.
      eapply is_series_ext; [|exact I]. intros m. rewrite (G m). cbn. unfold scal. cbn. unfold mult. cbn. ring. }
    pose proof (uniqueness_sum _ _ _ Su I') as E. assert (D : 1 - r = 1 / (1 + nTh)) by (unfold r; field; lra). rewrite D in E.
    replace (/ (1 / (1 + nTh))) with (1 + nTh) in E by (field; lra). apply (Rmult_eq_reg_r (1 + nTh)); [|lra]. rewrite <- E. field. lra. }
  rewrite G, P0. unfold r. replace (n + 1)%nat with (S n) by lia. cbn [pow]. unfold Rdiv. rewrite Rpow_mult_distr, pow_inv. field. split; [|lra]. apply pow_nonzero. lra.
Qed.

Lemma total_ext n f g : (forall m, f m = g m) -> total n f = total n g.
Proof. intros H. unfold total. f_equal. now apply map_ext. Qed.
Lemma fold_app l m : fold_right Rplus 0 (l ++ m) = fold_right Rplus 0 l + fold_right Rplus 0 m.
Proof. induction l as [|x l IH]; cbn; [ring|]. rewrite IH. ring. Qed.
Lemma fold_indices (f : list nat -> R) dim : fold_right Rplus 0 (map f (indices [dim; dim])) = total dim (fun m => total dim (fun n => f [m; n])).
Proof.
  unfold total. cbn [indices].
  assert (G : forall ms ns, fold_right Rplus 0 (map f (flat_map (fun i => map (cons i) (flat_map (fun i0 => map (cons i0) [[]]) ns)) ms)) =
    fold_right Rplus 0 (map (fun m => fold_right Rplus 0 (map (fun n => f [m; n]) ns)) ms)); [|apply G].
  induction ms as [|m ms IH]; intros ns; [reflexivity|]. cbn [flat_map map fold_right]. rewrite map_app, fold_app, IH. f_equal.
  rewrite map_map. induction ns as [|n ns IHn]; [reflexivity|]. cbn. now rewrite IHn.
Qed.
Lemma temperature_spec nTh dim rho : finalTemperature nTh dim rho = distance dim rho (expectedRho nTh).
Proof. unfold finalTemperature, distance. now rewrite fold_indices. Qed.
Lemma total_nonneg n f : (forall m, 0 <= f m) -> 0 <= total n f.
Proof. intros H. unfold total. induction (seq 0 n) as [|x l IH]; cbn; [lra|]. specialize (H x). lra. Qed.
Lemma total_first n f : (forall m, 0 <= f m) -> (1 <= n)%nat -> f 0%nat <= total n f.
Proof.
  intros H L. destruct n as [|n]; [lia|]. unfold total. cbn [seq map fold_right]. assert (0 <= fold_right Rplus 0 (map f (seq 1 n))); [|lra].
  induction (seq 1 n) as [|x l IH]; cbn; [lra|]. specialize (H x). lra.
Qed.
Lemma temperature_four p dim rho eps : thermal 4 p -> compareState 4 dim rho eps = Succeeds <-> distance dim rho (diagonalState p) < eps.
Proof.
  intros T. unfold compareState. rewrite temperature_spec.
  replace (distance dim rho (expectedRho 4)) with (distance dim rho (diagonalState p)).
  - destruct (Rlt_dec _ eps); split; intros; try easy; lra.
  - unfold distance. f_equal. apply total_ext. intros m. apply total_ext. intros n. unfold diagonalState, expectedRho. cbn [nth]. destruct (Nat.eqb_spec m n); [|reflexivity].
    rewrite (thermal_law 4 p m) by (lra || exact T). reflexivity.
Qed.
Lemma temperature_other nTh p dim : 0 <= nTh -> nTh <> 4 -> thermal nTh p -> (1 <= dim)%nat ->
  exists eps, 0 < eps /\ compareState nTh dim (diagonalState p) eps <> Succeeds.
Proof.
  intros N D T L. exists (Rabs (1 / (1 + nTh) - 1 / 5)). split.
  - apply Rabs_pos_lt. intros E. apply D. apply (f_equal (fun x => x * (1 + nTh) * 5)) in E. replace ((1 / (1 + nTh) - 1 / 5) * (1 + nTh) * 5) with (4 - nTh) in E by (field; lra). lra.
  - unfold compareState. rewrite temperature_spec. destruct (Rlt_dec _ _) as [H|]; [|discriminate]. exfalso. revert H. apply Rle_not_lt. unfold distance.
    rewrite <- sqrt_Rsqr_abs. apply sqrt_le_1_alt. eapply Rle_trans; [|apply total_first; [intros m; apply total_nonneg; intros n; apply csq_nonneg|exact L]].
    eapply Rle_trans; [|apply total_first; [intros n; apply csq_nonneg|exact L]]. right. unfold diagonalState, expectedRho. cbn [nth Nat.eqb].
    rewrite (thermal_law nTh p 0) by assumption. unfold csq, Rsqr. cbn. field. lra.
Qed.
