(** The Laguerre polynomials, and the Wigner functions of |m><n|. *)
From Coq Require Import List Arith Lia Reals Lra.
From Coquelicot Require Import Coquelicot.
From Verif Require Import Star CReal DdhoSpec DdhoProofs InitialModel PhaseModel PhaseSpec.
Import ListNotations.
Local Open Scope R_scope.
Add Ring cring_phase : (k_ring CR).

(** ** Laguerre polynomials *)
Definition L (n k : nat) (x : R) := laguerre n k x.
Definition Lp (n k : nat) (x : R) := match n with O => 0 | Datatypes.S m => laguerre m k x end.
Lemma lag_pair n k x : laguerrePair n k x = (L n k x, Lp n k x).
Proof. unfold L, Lp, laguerre. destruct n; cbn [laguerrePair]; [reflexivity|]. now destruct (laguerrePair n k x). Qed.
Lemma lag_rec n k x : (INR n + 1) * L (Datatypes.S n) k x = (2 * INR n + 1 + INR k - x) * L n k x - (INR n + INR k) * Lp n k x.
Proof.
  unfold L at 1, laguerre. cbn [laguerrePair]. rewrite lag_pair. cbn [fst]. field. assert (H := pos_INR n). lra.
Qed.
Lemma L0 k x : L 0 k x = 1. Proof. reflexivity. Qed.
Lemma lag_AC n : forall k x, L n k x = L n (Datatypes.S k) x - Lp n (Datatypes.S k) x /\
  x * L n (Datatypes.S k) x = (INR n + INR k + 1) * L n k x - (INR n + 1) * L (Datatypes.S n) k x.
Proof.
  induction n as [|n IH]; intros k x.
  - split; [cbn; ring|]. rewrite lag_rec. rewrite !L0. cbn [Lp INR]. ring.
  - destruct (IH k x) as [A C]. assert (P := pos_INR n).
    assert (A' : L (Datatypes.S n) k x = L (Datatypes.S n) (Datatypes.S k) x - Lp (Datatypes.S n) (Datatypes.S k) x).
    { change (Lp (Datatypes.S n) (Datatypes.S k) x) with (L n (Datatypes.S k) x).
      apply (Rmult_eq_reg_l (INR n + 1)); [|lra].
      assert (E := lag_rec n (Datatypes.S k) x). rewrite S_INR in E.
      assert (A2 : (INR n + INR k + 1) * L n k x = (INR n + INR k + 1) * (L n (Datatypes.S k) x - Lp n (Datatypes.S k) x)) by (f_equal; exact A). lra. }
    split; [exact A'|].
    change (Lp (Datatypes.S n) (Datatypes.S k) x) with (L n (Datatypes.S k) x) in A'.
    assert (E := lag_rec (Datatypes.S n) k x). change (Lp (Datatypes.S n) k x) with (L n k x) in E. rewrite !S_INR in *.
    replace (L (Datatypes.S n) (Datatypes.S k) x) with (L (Datatypes.S n) k x + L n (Datatypes.S k) x) by lra. lra.
Qed.
Lemma lag_deriv n : forall k x, derivable_pt_lim (L n k) x (- Lp n (Datatypes.S k) x).
Proof.
  induction n as [n IH] using (well_founded_induction lt_wf). intros k x. destruct n as [|n].
  - cbn [Lp]. rewrite Ropp_0. apply (derivable_pt_lim_ext (fun _ => 1)); [reflexivity|]. apply derivable_pt_lim_const.
  - assert (P := pos_INR n). assert (D1 := IH n (Nat.lt_succ_diag_r n) k x).
    assert (D2 : derivable_pt_lim (Lp n k) x (match n with O => 0 | Datatypes.S m => - Lp m (Datatypes.S k) x end)).
    { destruct n; cbn [Lp]; [apply derivable_pt_lim_const|]. apply (IH n); lia. }
    apply (derivable_pt_lim_ext (fun s => / (INR n + 1) * ((2 * INR n + 1 + INR k - s) * L n k s - (INR n + INR k) * Lp n k s))).
    { intros s. rewrite <- lag_rec. field. lra. }
    replace (- Lp (Datatypes.S n) (Datatypes.S k) x) with
      (/ (INR n + 1) * (((0 - 1) * L n k x + (2 * INR n + 1 + INR k - x) * (- Lp n (Datatypes.S k) x))
        - (INR n + INR k) * (match n with O => 0 | Datatypes.S m => - Lp m (Datatypes.S k) x end))).
    + apply derivable_pt_lim_scal. apply (derivable_pt_lim_minus (fun s => (2 * INR n + 1 + INR k - s) * L n k s) (fun s => (INR n + INR k) * Lp n k s)).
      * apply (derivable_pt_lim_mult (fun s => 2 * INR n + 1 + INR k - s) (L n k)); [|exact D1].
        apply (derivable_pt_lim_minus (fun _ => 2 * INR n + 1 + INR k) (fun s => s)); [apply derivable_pt_lim_const|apply derivable_pt_lim_id].
      * apply derivable_pt_lim_scal. exact D2.
    + change (Lp (Datatypes.S n) (Datatypes.S k) x) with (L n (Datatypes.S k) x). destruct (lag_AC n k x) as [A _].
      apply (Rmult_eq_reg_l (INR n + 1)); [|lra]. rewrite <- Rmult_assoc, Rinv_r, Rmult_1_l by lra.
      destruct n as [|n]; [cbn [Lp INR] in *; lra|].
      assert (E := lag_rec n (Datatypes.S k) x). change (Lp (Datatypes.S n) (Datatypes.S k) x) with (L n (Datatypes.S k) x) in *. rewrite !S_INR in *. lra.
Qed.
Lemma lag_lower n k x : x * L n (Datatypes.S k) x - (INR k + 1) * L n (Datatypes.S k) x + x * Lp n (Datatypes.S (Datatypes.S k)) x = - ((INR n + 1) * L (Datatypes.S n) k x).
Proof.
  destruct (lag_AC n k x) as [A C]. destruct n as [|n]; cbn [Lp] in *; [rewrite !L0 in *; cbn [INR] in *; lra|].
  destruct (lag_AC n (Datatypes.S k) x) as [_ C2]. fold (L n (Datatypes.S k) x) in *. fold (L n (Datatypes.S (Datatypes.S k)) x) in *. rewrite !S_INR in *.
  assert (E : (INR n + 1 + INR k + 1) * (L (Datatypes.S n) k x - L (Datatypes.S n) (Datatypes.S k) x + L n (Datatypes.S k) x) = 0) by (rewrite A; ring). lra.
Qed.

(** ** Derivatives of complex functions *)
Lemma cderiv_mul f g f' g' : cderiv f f' -> cderiv g g' -> cderiv (fun t => kmul (f t) (g t)) (fun t => kadd (kmul (f' t) (g t)) (kmul (f t) (g' t))).
Proof.
  intros A B t. destruct (A t) as [A1 A2], (B t) as [B1 B2]. unfold cre, cim in *. split; cbn.
  - replace (fst (f' t) * fst (g t) - snd (f' t) * snd (g t) + (fst (f t) * fst (g' t) - snd (f t) * snd (g' t)))
      with ((fst (f' t) * fst (g t) + fst (f t) * fst (g' t)) - (snd (f' t) * snd (g t) + snd (f t) * snd (g' t))) by ring.
    apply (derivable_pt_lim_minus (fun s => fst (f s) * fst (g s)) (fun s => snd (f s) * snd (g s)));
      [apply (derivable_pt_lim_mult (fun s => fst (f s)) (fun s => fst (g s)))|apply (derivable_pt_lim_mult (fun s => snd (f s)) (fun s => snd (g s)))]; assumption.
  - replace (fst (f' t) * snd (g t) + snd (f' t) * fst (g t) + (fst (f t) * snd (g' t) + snd (f t) * fst (g' t)))
      with ((fst (f' t) * snd (g t) + fst (f t) * snd (g' t)) + (snd (f' t) * fst (g t) + snd (f t) * fst (g' t))) by ring.
    apply (derivable_pt_lim_plus (fun s => fst (f s) * snd (g s)) (fun s => snd (f s) * fst (g s)));
      [apply (derivable_pt_lim_mult (fun s => fst (f s)) (fun s => snd (g s)))|apply (derivable_pt_lim_mult (fun s => snd (f s)) (fun s => fst (g s)))]; assumption.
Qed.
Definition cpowD (z : CR) (n : nat) : CR := match n with O => k0 | Datatypes.S m => kmul (RC (INR n)) (cpow z m) end.
Lemma cderiv_cpow f f' n : cderiv f f' -> cderiv (fun t => cpow (f t) n) (fun t => kmul (f' t) (cpowD (f t) n)).
Proof.
  intros D. induction n as [|n IH].
  - eapply cderiv_ext; [| |apply (cderiv_real (fun _ => 1) (fun _ => 0)); intros; apply derivable_pt_lim_const]; intros; cbn [cpow cpowD]; [reflexivity|].
    change (RC 0) with (k0 : CR). ring.
  - eapply cderiv_ext; [| |apply (cderiv_mul _ _ _ _ D IH)]; [reflexivity|]. intros t. cbn [cpowD]. rewrite S_INR, <- RC_add.
    destruct n as [|n]; cbn [cpow cpowD]; change (RC 1) with (k1 : CR); [change (RC (INR 0)) with (k0 : CR); ring|ring].
Qed.
(** functions z^k g(x^2+y^2), z=x+iy or z=x-iy *)
Definition zz (s : R) (x y : R) : CR := (x, s * y).
Lemma cderiv_zx s y : cderiv (fun x => zz s x y) (fun _ => k1).
Proof. intros t. split; cbn; [apply derivable_pt_lim_id|apply derivable_pt_lim_const]. Qed.
Lemma cderiv_zy s x : cderiv (fun y => zz s x y) (fun _ => kmul (RC s) CI).
Proof.
  intros t. split; cbn; [replace (s * 0 - 0 * 1) with 0 by ring; apply derivable_pt_lim_const|].
  replace (s * 1 + 0 * 0) with (s * 1) by ring. apply derivable_pt_lim_scal, derivable_pt_lim_id.
Qed.
Lemma deriv_sq g g' c : (forall s, derivable_pt_lim g s (g' s)) -> forall x, derivable_pt_lim (fun x => g (x * x + c)) x (2 * x * g' (x * x + c)).
Proof.
  intros H x. replace (2 * x * g' (x * x + c)) with (g' (x * x + c) * (2 * x)) by ring.
  apply (derivable_pt_lim_comp (fun x => x * x + c) g); [|apply H]. apply is_derive_Reals. auto_derive; auto; ring.
Qed.
Definition fx s k (g g' : R -> R) x y : CR := kadd (kmul (kmul k1 (cpowD (zz s x y) k)) (RC (g (x * x + y * y)))) (kmul (cpow (zz s x y) k) (RC (2 * x * g' (x * x + y * y)))).
Definition fy s k (g g' : R -> R) x y : CR := kadd (kmul (kmul (kmul (RC s) CI) (cpowD (zz s x y) k)) (RC (g (x * x + y * y)))) (kmul (cpow (zz s x y) k) (RC (2 * y * g' (x * x + y * y)))).
Lemma deriv_x s k g g' y : (forall s, derivable_pt_lim g s (g' s)) -> cderiv (fun x => kmul (cpow (zz s x y) k) (RC (g (x * x + y * y)))) (fun x => fx s k g g' x y).
Proof.
  intros H. unfold fx. apply (cderiv_mul (fun x => cpow (zz s x y) k) (fun x => RC (g (x * x + y * y))) (fun x => kmul k1 (cpowD (zz s x y) k)) (fun x => RC (2 * x * g' (x * x + y * y)))).
  - apply (cderiv_cpow (fun x => zz s x y) (fun _ => k1)), cderiv_zx.
  - apply cderiv_real, deriv_sq, H.
Qed.
Lemma deriv_y s k g g' x : (forall s, derivable_pt_lim g s (g' s)) -> cderiv (fun y => kmul (cpow (zz s x y) k) (RC (g (x * x + y * y)))) (fun y => fy s k g g' x y).
Proof.
  intros H. unfold fy. apply (cderiv_mul (fun y => cpow (zz s x y) k) (fun y => RC (g (x * x + y * y))) (fun y => kmul (kmul (RC s) CI) (cpowD (zz s x y) k)) (fun y => RC (2 * y * g' (x * x + y * y)))).
  - apply (cderiv_cpow (fun y => zz s x y) (fun _ => kmul (RC s) CI)), cderiv_zy.
  - apply cderiv_real. intros y. eapply derivable_pt_lim_ext; [|rewrite (Rplus_comm (x * x)); apply (deriv_sq g g' (x * x) H)]. intros t. cbn. now rewrite Rplus_comm.
Qed.
(** d/dx - i u d/dy, u the sign: z z^k g' if u=-s, and with the derivative of z^k if u=s *)
Lemma CI2 : kmul CI CI = RC (-1). Proof. apply cr_eq; cbn; ring. Qed.
Lemma combine_opp s k g g' x y : s * s = 1 ->
  kadd (fx s k g g' x y) (kmul (kmul (RC s) CI) (fy s k g g' x y)) = kmul (RC 2) (kmul (cpow (zz s x y) (Datatypes.S k)) (RC (g' (x * x + y * y)))).
Proof.
  intros Hs. unfold fx, fy. cbn [cpow]. set (P := cpow (zz s x y) k). set (D := cpowD (zz s x y) k). set (G := RC (g (x * x + y * y))).
  rewrite <- !RC_mul. set (G' := RC (g' (x * x + y * y))).
  assert (E : kmul (kmul (RC s) CI) (kmul (RC s) CI) = RC (-1)).
  { transitivity (kmul (kmul (RC s) (RC s)) (kmul CI CI)); [ring|]. rewrite RC_mul, Hs, CI2. change (RC 1) with (k1 : CR). ring. }
  assert (Ez : zz s x y = kadd (RC x) (kmul (kmul (RC s) CI) (RC y))) by (apply cr_eq; cbn; ring).
  transitivity (kadd (kmul (kmul (kadd k1 (kmul (kmul (RC s) CI) (kmul (RC s) CI))) D) G) (kmul (RC 2) (kmul (kmul (zz s x y) P) G'))); [rewrite Ez; ring|].
  rewrite E. change (RC (-1)) with (kopp (k1 : CR)) at 1 || (replace (RC (-1)) with (kopp (k1 : CR)) by (apply cr_eq; cbn; ring)). ring.
Qed.
Lemma combine_same s k g g' x y : s * s = 1 ->
  kadd (fx s (Datatypes.S k) g g' x y) (kmul (kmul (RC (- s)) CI) (fy s (Datatypes.S k) g g' x y)) =
  kmul (cpow (zz s x y) k) (RC (2 * (INR k + 1) * g (x * x + y * y) + 2 * (x * x + y * y) * g' (x * x + y * y))).
Proof.
  intros Hs. unfold fx, fy. cbn [cpow cpowD]. set (P := cpow (zz s x y) k). rewrite !S_INR.
  assert (E : kmul (kmul (RC (- s)) CI) (kmul (RC s) CI) = k1).
  { transitivity (kmul (RC (- s * s)) (kmul CI CI)); [rewrite <- RC_mul; ring|]. rewrite CI2, RC_mul. apply cr_eq; cbn; lra. }
  assert (Ez : zz s x y = kadd (RC x) (kmul (kmul (RC s) CI) (RC y))) by (apply cr_eq; cbn; ring).
  assert (Em : kmul (zz s x y) (kadd (RC x) (kmul (kmul (RC (- s)) CI) (RC y))) = RC (x * x + y * y)) by (apply cr_eq; cbn; [replace (s * y * (- s * 1 * y)) with (- ((s * s) * (y * y))) by ring|]; nra).
  set (N := INR k + 1). set (a := g (x * x + y * y)). set (b := g' (x * x + y * y)).
  transitivity (kmul P (kadd (kmul (kadd k1 (kmul (kmul (RC (- s)) CI) (kmul (RC s) CI))) (RC (N * a)))
     (kmul (kmul (zz s x y) (kadd (RC x) (kmul (kmul (RC (- s)) CI) (RC y)))) (RC (2 * b))))).
  { rewrite <- !RC_mul. ring. }
  rewrite E, Em. f_equal. rewrite RC_mul. apply cr_eq; cbn; ring.
Qed.

(** ** The Wigner functions of |m><n| *)
Definition c0 (n k : nat) : R := 2 / PI * minusOneTo n * sqrt (INR (fact n) / INR (fact (n + k))) * 2 ^ k.
Definition gg (n k : nat) (s : R) : R := c0 n k * (exp (-2 * s) * L n k (4 * s)).
Definition gg' (n k : nat) (s : R) : R := c0 n k * (exp (-2 * s) * (-2 * L n k (4 * s) - 4 * Lp n (Datatypes.S k) (4 * s))).
Lemma gg_deriv n k s : derivable_pt_lim (gg n k) s (gg' n k s).
Proof.
  unfold gg, gg'. apply derivable_pt_lim_scal.
  replace (exp (-2 * s) * (-2 * L n k (4 * s) - 4 * Lp n (Datatypes.S k) (4 * s))) with
    ((exp (-2 * s) * -2) * L n k (4 * s) + exp (-2 * s) * (- Lp n (Datatypes.S k) (4 * s) * 4)) by ring.
  apply (derivable_pt_lim_mult (fun s => exp (-2 * s)) (fun s => L n k (4 * s))).
  - apply is_derive_Reals. auto_derive; auto; ring.
  - apply (derivable_pt_lim_comp (fun s => 4 * s) (L n k)); [apply is_derive_Reals; auto_derive; auto; ring|apply lag_deriv].
Qed.
(** z^k g: z conjugate of alpha where the left index is the larger one *)
Definition Z (s : R) (n k : nat) (x y : R) : CR := kmul (cpow (zz s x y) k) (RC (gg n k (x * x + y * y))).
Definition V (m n : nat) (x y : R) : CR := if (n <=? m)%nat then Z (-1) n (m - n) x y else Z 1 m (n - m) x y.
Definition Vx (m n : nat) (x y : R) : CR := if (n <=? m)%nat then fx (-1) (m - n) (gg n (m - n)) (gg' n (m - n)) x y else fx 1 (n - m) (gg m (n - m)) (gg' m (n - m)) x y.
Definition Vy (m n : nat) (x y : R) : CR := if (n <=? m)%nat then fy (-1) (m - n) (gg n (m - n)) (gg' n (m - n)) x y else fy 1 (n - m) (gg m (n - m)) (gg' m (n - m)) x y.
Lemma fact_pos' n : 0 < INR (fact n).
Proof. apply (lt_INR 0), lt_O_fact. Qed.
Lemma c0_up n k : sqrt (INR n + INR k + 1) * c0 n (Datatypes.S k) = 2 * c0 n k.
Proof.
  unfold c0. cbn [pow]. assert (F := fact_pos' (n + k)). assert (F0 := fact_pos' n). assert (P := pos_INR (n + k)). rewrite plus_INR in P.
  replace (n + Datatypes.S k)%nat with (Datatypes.S (n + k)) by lia. rewrite fact_simpl, mult_INR, S_INR, plus_INR.
  assert (E : sqrt (INR n + INR k + 1) * sqrt (INR (fact n) / ((INR n + INR k + 1) * INR (fact (n + k)))) = sqrt (INR (fact n) / INR (fact (n + k)))).
  { rewrite <- sqrt_mult_alt by lra. f_equal. field. split; [lra|]. lra. }
  rewrite <- E. field. apply PI_neq0.
Qed.
Lemma minus_S n : minusOneTo (Datatypes.S n) = - minusOneTo n.
Proof. unfold minusOneTo. rewrite Nat.odd_succ, <- Nat.negb_odd. destruct (Nat.odd n); cbn; ring. Qed.
Lemma c0_down n k : 2 * sqrt (INR n + 1) * c0 (Datatypes.S n) k = - ((INR n + 1) * c0 n (Datatypes.S k)).
Proof.
  unfold c0. cbn [pow]. rewrite minus_S. assert (F := fact_pos' (n + Datatypes.S k)). assert (F0 := fact_pos' n). assert (P := pos_INR n).
  replace (Datatypes.S n + k)%nat with (n + Datatypes.S k)%nat by lia. rewrite fact_simpl, mult_INR, S_INR.
  assert (E : sqrt ((INR n + 1) * INR (fact n) / INR (fact (n + Datatypes.S k))) = sqrt (INR n + 1) * sqrt (INR (fact n) / INR (fact (n + Datatypes.S k)))).
  { rewrite <- sqrt_mult_alt by lra. f_equal. field. lra. }
  rewrite E. replace ((INR n + 1) * (2 / PI * minusOneTo n * sqrt (INR (fact n) / INR (fact (n + Datatypes.S k))) * (2 * 2 ^ k))) with
    ((sqrt (INR n + 1) * sqrt (INR n + 1)) * (2 / PI * minusOneTo n * sqrt (INR (fact n) / INR (fact (n + Datatypes.S k))) * (2 * 2 ^ k)))
    by (rewrite sqrt_sqrt by lra; reflexivity). field. apply PI_neq0.
Qed.
(** away from the diagonal *)
Lemma step_away s n k x y : s * s = 1 ->
  kmul (RC (sqrt (INR n + INR k + 1))) (Z s n (Datatypes.S k) x y) =
  ksub (kmul (zz s x y) (Z s n k x y)) (kmul (RC (1 / 4)) (kadd (fx s k (gg n k) (gg' n k) x y) (kmul (kmul (RC s) CI) (fy s k (gg n k) (gg' n k) x y)))).
Proof.
  intros Hs. rewrite (combine_opp s k _ _ _ _ Hs). unfold Z. cbn [cpow]. set (P := cpow (zz s x y) k). set (r := x * x + y * y).
  transitivity (kmul (kmul (zz s x y) P) (RC (sqrt (INR n + INR k + 1) * gg n (Datatypes.S k) r))); [rewrite <- RC_mul; ring|].
  transitivity (kmul (kmul (zz s x y) P) (RC (gg n k r - 1 / 4 * 2 * gg' n k r))).
  - f_equal. f_equal. unfold gg, gg'. rewrite <- Rmult_assoc, c0_up. destruct (lag_AC n k (4 * r)) as [A _]. rewrite A. field.
  - replace (RC (gg n k r - 1 / 4 * 2 * gg' n k r)) with (ksub (RC (gg n k r)) (kmul (kmul (RC (1 / 4)) (RC 2)) (RC (gg' n k r)))) by (rewrite !RC_mul; apply cr_eq; cbn; ring). ring.
Qed.
(** towards the diagonal *)
Lemma step_toward s n k x y : s * s = 1 ->
  kmul (RC (sqrt (INR n + 1))) (Z s (Datatypes.S n) k x y) =
  ksub (kmul (zz (- s) x y) (Z s n (Datatypes.S k) x y))
    (kmul (RC (1 / 4)) (kadd (fx s (Datatypes.S k) (gg n (Datatypes.S k)) (gg' n (Datatypes.S k)) x y) (kmul (kmul (RC (- s)) CI) (fy s (Datatypes.S k) (gg n (Datatypes.S k)) (gg' n (Datatypes.S k)) x y)))).
Proof.
  intros Hs. rewrite (combine_same s k _ _ _ _ Hs). unfold Z. cbn [cpow]. set (P := cpow (zz s x y) k).
  assert (Em : kmul (zz s x y) (zz (- s) x y) = RC (x * x + y * y)) by (apply cr_eq; cbn; [replace (s * y * (- s * y)) with (- ((s * s) * (y * y))) by ring|]; nra).
  set (r := x * x + y * y) in *.
  transitivity (kmul P (RC (sqrt (INR n + 1) * gg (Datatypes.S n) k r))); [rewrite <- RC_mul; ring|].
  transitivity (kmul P (RC (r * gg n (Datatypes.S k) r - 1 / 4 * (2 * (INR k + 1) * gg n (Datatypes.S k) r + 2 * r * gg' n (Datatypes.S k) r)))).
  - f_equal. f_equal. unfold gg, gg'.
    replace (sqrt (INR n + 1) * (c0 (Datatypes.S n) k * (exp (-2 * r) * L (Datatypes.S n) k (4 * r)))) with
      (2 * sqrt (INR n + 1) * c0 (Datatypes.S n) k / 2 * (exp (-2 * r) * L (Datatypes.S n) k (4 * r))) by field.
    rewrite c0_down. assert (E := lag_lower n k (4 * r)).
    replace (- ((INR n + 1) * c0 n (Datatypes.S k)) / 2 * (exp (-2 * r) * L (Datatypes.S n) k (4 * r))) with
      (c0 n (Datatypes.S k) * exp (-2 * r) / 2 * (- ((INR n + 1) * L (Datatypes.S n) k (4 * r)))) by field.
    rewrite <- E. field.
  - transitivity (kmul P (ksub (kmul (kmul (zz s x y) (zz (- s) x y)) (RC (gg n (Datatypes.S k) r)))
      (kmul (RC (1 / 4)) (RC (2 * (INR k + 1) * gg n (Datatypes.S k) r + 2 * r * gg' n (Datatypes.S k) r))))); [|ring].
    rewrite Em, !RC_mul. f_equal. apply cr_eq; cbn; ring.
Qed.
Lemma Vnk n k x y : V (n + k) n x y = Z (-1) n k x y.
Proof. unfold V. destruct (Nat.leb_spec n (n + k)); [|lia]. now replace (n + k - n)%nat with k by lia. Qed.
Lemma Z0 n x y : Z 1 n 0 x y = Z (-1) n 0 x y. Proof. reflexivity. Qed.
Lemma Vkn n k x y : V n (n + k) x y = Z 1 n k x y.
Proof.
  unfold V. destruct (Nat.leb_spec (n + k) n).
  - replace k with 0%nat by lia. rewrite Nat.add_0_r, Nat.sub_diag. symmetry. apply Z0.
  - now replace (n + k - n)%nat with k by lia.
Qed.
Lemma fx0 g g' x y : fx 1 0 g g' x y = fx (-1) 0 g g' x y. Proof. reflexivity. Qed.
Lemma fy0 g g' x y : fy 1 0 g g' x y = fy (-1) 0 g g' x y.
Proof. unfold fy. cbn [cpow cpowD]. ring. Qed.
Lemma Vd n k x y : Vx (n + k) n x y = fx (-1) k (gg n k) (gg' n k) x y /\ Vy (n + k) n x y = fy (-1) k (gg n k) (gg' n k) x y /\
  Vx n (n + k) x y = fx 1 k (gg n k) (gg' n k) x y /\ Vy n (n + k) x y = fy 1 k (gg n k) (gg' n k) x y.
Proof.
  unfold Vx, Vy. destruct (Nat.leb_spec n (n + k)); [|lia]. replace (n + k - n)%nat with k by lia. repeat split.
  - destruct (Nat.leb_spec (n + k) n); [|reflexivity]. replace k with 0%nat by lia. rewrite Nat.add_0_r, Nat.sub_diag. reflexivity.
  - destruct (Nat.leb_spec (n + k) n); [|reflexivity]. replace k with 0%nat by lia. rewrite Nat.add_0_r, Nat.sub_diag. symmetry. apply fy0.
Qed.
Lemma sign_up (A B : CR) : ksub (A) (kmul CI B) = kadd A (kmul (kmul (RC (-1)) CI) B).
Proof. replace (RC (-1)) with (kopp (k1 : CR)) by (apply cr_eq; cbn; ring). ring. Qed.
Lemma V_rule1 m n x y : kmul (RC (sqrt (INR m + 1))) (V (m + 1) n x y) =
  ksub (kmul ((x, - y) : CR) (V m n x y)) (kmul (RC (1 / 4)) (ksub (Vx m n x y) (kmul CI (Vy m n x y)))).
Proof.
  assert (Ez : ((x, - y) : CR) = zz (-1) x y) by (apply cr_eq; cbn; ring). rewrite Ez, sign_up.
  destruct (le_lt_dec n m) as [H|H].
  - replace m with (n + (m - n))%nat by lia. set (k := (m - n)%nat). destruct (Vd n k x y) as (-> & -> & _).
    replace (n + k + 1)%nat with (n + Datatypes.S k)%nat by lia. rewrite !Vnk, plus_INR. apply step_away. ring.
  - replace n with (m + Datatypes.S (n - m - 1))%nat by lia. set (k := (n - m - 1)%nat). destruct (Vd m (Datatypes.S k) x y) as (_ & _ & -> & ->).
    rewrite Vkn. replace (m + 1)%nat with (Datatypes.S m) by lia. replace (m + Datatypes.S k)%nat with (Datatypes.S m + k)%nat by lia. rewrite Vkn.
    apply (step_toward 1 m k x y). ring.
Qed.
Lemma sign_dn (A B : CR) : kadd A (kmul CI B) = kadd A (kmul (kmul (RC 1) CI) B).
Proof. change (RC 1) with (k1 : CR). ring. Qed.
Lemma V_rule2 m n x y : kmul (RC (sqrt (INR n + 1))) (V m (n + 1) x y) =
  ksub (kmul ((x, y) : CR) (V m n x y)) (kmul (RC (1 / 4)) (kadd (Vx m n x y) (kmul CI (Vy m n x y)))).
Proof.
  assert (Ez : ((x, y) : CR) = zz 1 x y) by (apply cr_eq; cbn; ring). rewrite Ez, sign_dn.
  destruct (le_lt_dec m n) as [H|H].
  - replace n with (m + (n - m))%nat by lia. set (k := (n - m)%nat). destruct (Vd m k x y) as (_ & _ & -> & ->).
    replace (m + k + 1)%nat with (m + Datatypes.S k)%nat by lia. rewrite !Vkn, plus_INR. apply step_away. ring.
  - replace m with (n + Datatypes.S (m - n - 1))%nat by lia. set (k := (m - n - 1)%nat). destruct (Vd n (Datatypes.S k) x y) as (-> & -> & _ & _).
    rewrite Vnk. replace (n + 1)%nat with (Datatypes.S n) by lia. replace (n + Datatypes.S k)%nat with (Datatypes.S n + k)%nat by lia. rewrite Vnk.
    assert (T := step_toward (-1) n k x y). replace (- -1) with 1 in T by ring. apply T. ring.
Qed.
Lemma vacuum_density x y : gg 0 0 (x * x + y * y) = normal_density (1 / 4) x * normal_density (1 / 4) y.
Proof.
  unfold gg, normal_density, c0. cbn [Nat.add fact INR pow]. rewrite L0. change (minusOneTo 0) with 1. replace (1 / 1) with 1 by field. rewrite sqrt_1.
  assert (P := PI_RGT_0). replace (2 * PI * (1 / 4)) with (PI / 2) by field.
  assert (E : exp (- (x * x) / (2 * (1 / 4))) / sqrt (PI / 2) * (exp (- (y * y) / (2 * (1 / 4))) / sqrt (PI / 2)) =
    exp (- (x * x) / (2 * (1 / 4))) * exp (- (y * y) / (2 * (1 / 4))) / (sqrt (PI / 2) * sqrt (PI / 2))).
  { field. apply Rgt_not_eq, sqrt_lt_R0. lra. }
  rewrite E, sqrt_sqrt by lra. rewrite <- exp_plus. replace (-2 * (x * x + y * y)) with (- (x * x) / (2 * (1 / 4)) + - (y * y) / (2 * (1 / 4))) by field. field. lra.
Qed.
Lemma V_family : wigner_family V.
Proof.
  split.
  - intros x y. unfold V, Z. cbn [Nat.leb Nat.sub cpow]. rewrite vacuum_density. ring.
  - exists Vx, Vy. split; [|split; [|split; [exact V_rule1|exact V_rule2]]].
    + intros m n y. unfold V, Vx, Z. destruct (n <=? m)%nat; apply deriv_x; apply gg_deriv.
    + intros m n x. unfold V, Vy, Z. destruct (n <=? m)%nat; apply deriv_y; apply gg_deriv.
Qed.
Lemma cderiv_unique f g f' g' t : (forall t, f t = g t) -> cderiv f f' -> cderiv g g' -> f' t = g' t.
Proof.
  intros E A B. destruct (A t) as [A1 A2], (B t) as [B1 B2]. apply cr_eq.
  - apply (uniqueness_limite (fun s => cre (f s)) t); [exact A1|]. eapply derivable_pt_lim_ext; [|exact B1]. intros s. cbn. now rewrite E.
  - apply (uniqueness_limite (fun s => cim (f s)) t); [exact A2|]. eapply derivable_pt_lim_ext; [|exact B2]. intros s. cbn. now rewrite E.
Qed.
Lemma sqrt_cancel n (a b : CR) : kmul (RC (sqrt (INR n + 1))) a = kmul (RC (sqrt (INR n + 1))) b -> a = b.
Proof.
  intros H. assert (P := pos_INR n). assert (Q : 0 < sqrt (INR n + 1)) by (apply sqrt_lt_R0; lra).
  transitivity (kmul (RC (/ sqrt (INR n + 1))) (kmul (RC (sqrt (INR n + 1))) a)).
  - transitivity (kmul (kmul (RC (/ sqrt (INR n + 1))) (RC (sqrt (INR n + 1)))) a); [|ring]. rewrite RC_mul, Rinv_l by lra. change (RC 1) with (k1 : CR). ring.
  - rewrite H. transitivity (kmul (kmul (RC (/ sqrt (INR n + 1))) (RC (sqrt (INR n + 1)))) b); [ring|]. rewrite RC_mul, Rinv_l by lra. change (RC 1) with (k1 : CR). ring.
Qed.
(** the rules determine the functions *)
Lemma family_unique W W' : wigner_family W -> wigner_family W' -> forall m n x y, W m n x y = W' m n x y.
Proof.
  intros (A0 & Ax & Ay & A1 & A2 & A3 & A4) (B0 & Bx & By & B1 & B2 & B3 & B4).
  assert (Row : forall m x y, W m 0%nat x y = W' m 0%nat x y).
  { induction m as [|m IH]; intros x y; [now rewrite A0, B0|]. apply (sqrt_cancel m).
    assert (E1 := A3 m 0%nat x y). assert (E2 := B3 m 0%nat x y). rewrite Nat.add_1_r in *. rewrite E1, E2, IH.
    rewrite (cderiv_unique _ _ _ _ x (fun t => IH t y) (A1 m 0%nat y) (B1 m 0%nat y)), (cderiv_unique _ _ _ _ y (fun t => IH x t) (A2 m 0%nat x) (B2 m 0%nat x)). reflexivity. }
  intros m n. induction n as [|n IH]; intros x y; [apply Row|]. apply (sqrt_cancel n).
  assert (E1 := A4 m n x y). assert (E2 := B4 m n x y). rewrite Nat.add_1_r in *. rewrite E1, E2, IH.
  rewrite (cderiv_unique _ _ _ _ x (fun t => IH t y) (A1 m n y) (B1 m n y)), (cderiv_unique _ _ _ _ y (fun t => IH x t) (A2 m n x) (B2 m n x)). reflexivity.
Qed.
