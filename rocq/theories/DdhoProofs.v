From Coq Require Import Reals Lra.
From Coquelicot Require Import Coquelicot.
From Verif Require Import Star CReal TriModel DdhoModel DdhoSpec.
Local Open Scope R_scope.
Add Ring CRDdho : (k_ring CR).

Lemma cderiv_ext f g f' g' : (forall t, f t = g t) -> (forall t, f' t = g' t) -> cderiv f f' -> cderiv g g'.
Proof.
  intros H H' D t. destruct (D t) as [A B]. rewrite <- H'. split; (eapply derivable_pt_lim_ext; [|eassumption]); intros s; cbn; now rewrite H.
Qed.
Lemma cderiv_add f g f' g' : cderiv f f' -> cderiv g g' -> cderiv (fun t => kadd (f t) (g t)) (fun t => kadd (f' t) (g' t)).
Proof. intros A B t. destruct (A t), (B t). split; cbn; now apply derivable_pt_lim_plus. Qed.
Lemma cderiv_sub f g f' g' : cderiv f f' -> cderiv g g' -> cderiv (fun t => ksub (f t) (g t)) (fun t => ksub (f' t) (g' t)).
Proof. intros A B t. destruct (A t), (B t). split; cbn; now apply derivable_pt_lim_minus. Qed.
Lemma cderiv_scal c f f' : cderiv f f' -> cderiv (fun t => kmul c (f t)) (fun t => kmul c (f' t)).
Proof.
  intros A t. destruct (A t) as [A1 A2]. split; cbn.
  - apply (derivable_pt_lim_minus (fun s => fst c * fst (f s)) (fun s => snd c * snd (f s))); now apply derivable_pt_lim_scal.
  - apply (derivable_pt_lim_plus (fun s => fst c * snd (f s)) (fun s => snd c * fst (f s))); now apply derivable_pt_lim_scal.
Qed.
Lemma cderiv_exp w : cderiv (fun t => cexp (kmul w (RC t))) (fun t => kmul w (cexp (kmul w (RC t)))).
Proof.
  destruct w as [a b]. eapply cderiv_ext with (f := fun t => ((exp (a * t) * cos (b * t), exp (a * t) * sin (b * t)) : CR))
    (f' := fun t => (kmul ((a, b) : CR) ((exp (a * t) * cos (b * t), exp (a * t) * sin (b * t)) : CR))).
  - intros t. unfold cexp. cbn. replace (a * t - b * 0) with (a * t) by ring. replace (a * 0 + b * t) with (b * t) by ring. reflexivity.
  - intros t. unfold cexp. cbn. replace (a * t - b * 0) with (a * t) by ring. replace (a * 0 + b * t) with (b * t) by ring. reflexivity.
  - intros t. split; apply is_derive_Reals; cbn; auto_derive; auto; ring.
Qed.
Lemma cderiv_real f f' : (forall t, derivable_pt_lim f t (f' t)) -> cderiv (fun t => RC (f t)) (fun t => RC (f' t)).
Proof. intros H t. split; cbn; [apply H|apply derivable_pt_lim_const]. Qed.

Lemma csq_zero z : csq z = 0 -> z = k0.
Proof. destruct z as [a b]. unfold csq. cbn. intros H. apply cr_eq; cbn; nra. Qed.
Lemma cdiv_mul z w : w <> k0 -> kmul (cdiv z w) w = z.
Proof.
  intros H. unfold cdiv. transitivity (kmul z (kmul (kmul (kconj w) w) (RC (/ csq w)))); [ring|]. rewrite csq_conj, RC_mul, Rinv_r.
  - change (RC 1) with (k1 : CR). ring.
  - intros E. apply H, csq_zero, E.
Qed.
Lemma csqrtR_sq x : kmul (csqrtR x) (csqrtR x) = RC x.
Proof.
  unfold csqrtR. destruct (Rlt_dec x 0); apply cr_eq; cbn.
  - assert (H := sqrt_sqrt (- x)). lra.
  - ring.
  - assert (H := sqrt_sqrt x). lra.
  - ring.
Qed.
Lemma csqrtR_0 x : csqrtR x = k0 -> x = 0.
Proof. intros H. apply RC_inj. rewrite <- csqrtR_sq, H. apply cr_eq; cbn; ring. Qed.
Lemma cexp_nz z : cexp z <> k0.
Proof.
  intros H. assert (E : csq (cexp z) = 0) by (rewrite H; cbv; ring). unfold csq, cexp in E. cbn [fst snd] in E.
  pose proof (exp_pos (fst z)). pose proof (sin2_cos2 (snd z)) as S. unfold Rsqr in S.
  assert (exp (fst z) * exp (fst z) * (sin (snd z) * sin (snd z) + cos (snd z) * cos (snd z)) = 0) by (rewrite <- E; ring). rewrite S in H1. nra.
Qed.
Lemma kmul_nz (z w : CR) : z <> k0 -> w <> k0 -> kmul z w <> k0.
Proof. intros Hz Hw H. apply (f_equal csq) in H. rewrite csq_mul in H. assert (E : csq k0 = 0) by (cbv; ring). rewrite E in H. apply Rmult_integral in H. destruct H as [H|H]; apply csq_zero in H; auto. Qed.
Definition denominator (gamma omega : R) : CR := ksub (kadd k1 (kmul (kmul (RC 2) CI) (RC (gamma * omega)))) (RC (omega * omega)).
Lemma denominator_nz gamma omega : ~ (gamma = 0 /\ omega * omega = 1) -> denominator gamma omega <> k0.
Proof.
  intros H E. apply H. assert (E1 := f_equal fst E). assert (E2 := f_equal snd E). cbn in E1, E2.
  assert (W : omega * omega = 1) by lra. split; [|exact W]. assert (G : gamma * omega = 0) by lra. apply Rmult_integral in G. destruct G as [G|G]; [exact G|]. rewrite G in W. lra.
Qed.

Definition iw (omega : R) : CR := kmul CI (RC omega).
Lemma driven_deriv gamma omega : cderiv (drivenPart gamma omega) (fun t => kmul (iw omega) (drivenPart gamma omega t)).
Proof.
  unfold drivenPart, cdiv. fold (iw omega). match goal with |- cderiv (fun t => kmul _ ?c) _ => generalize c end. intros c.
  eapply cderiv_ext; [| |apply (cderiv_scal c _ _ (cderiv_exp (iw omega)))]; intros t; cbn beta; ring.
Qed.
(** the driven part is a particular solution *)
Lemma driven_solves gamma omega t : ~ (gamma = 0 /\ omega * omega = 1) ->
  kadd (kadd (kmul (iw omega) (kmul (iw omega) (drivenPart gamma omega t))) (kmul (RC (2 * gamma)) (kmul (iw omega) (drivenPart gamma omega t)))) (drivenPart gamma omega t) = cexp (kmul CI (RC (omega * t))).
Proof.
  intros H. transitivity (kmul (drivenPart gamma omega t) (denominator gamma omega)).
  - generalize (drivenPart gamma omega t). intros x. unfold iw, denominator. destruct x as [a b]. apply cr_eq; cbn; ring.
  - unfold drivenPart. fold (denominator gamma omega). rewrite cdiv_mul by now apply denominator_nz. f_equal. rewrite <- RC_mul. ring.
Qed.
(** roots of the characteristic polynomial *)
Lemma first_root gamma : kadd (kadd (kmul (first gamma) (first gamma)) (kmul (RC (2 * gamma)) (first gamma))) k1 = k0.
Proof.
  unfold first. assert (H := csqrtR_sq (gamma * gamma - 1)). revert H. generalize (csqrtR (gamma * gamma - 1)). intros s H.
  transitivity (kadd (kmul s s) (RC (1 - gamma * gamma))); [|rewrite H; apply cr_eq; cbn; ring].
  destruct s as [a b]. apply cr_eq; cbn; ring.
Qed.
Lemma second_root gamma : kadd (kadd (kmul (second gamma) (second gamma)) (kmul (RC (2 * gamma)) (second gamma))) k1 = k0.
Proof.
  unfold second. assert (H := csqrtR_sq (gamma * gamma - 1)). revert H. generalize (csqrtR (gamma * gamma - 1)). intros s H.
  transitivity (kadd (kmul s s) (RC (1 - gamma * gamma))); [|rewrite H; apply cr_eq; cbn; ring].
  destruct s as [a b]. apply cr_eq; cbn; ring.
Qed.
Lemma roots_differ gamma : gamma <> 1 -> gamma <> -1 -> ksub (second gamma) (first gamma) <> k0.
Proof.
  intros H1 H2 H. assert (E : csqrtR (gamma * gamma - 1) = k0).
  { unfold first, second in H. revert H. generalize (csqrtR (gamma * gamma - 1)). intros [a b] H. assert (A := f_equal fst H). assert (B := f_equal snd H). cbn in A, B. apply cr_eq; cbn; lra. }
  apply csqrtR_0 in E. assert (G : (gamma - 1) * (gamma + 1) = 0) by lra. apply Rmult_integral in G. lra.
Qed.

Lemma general_solution solve gamma omega y0 v0 t0 : solver solve -> gamma <> 1 -> gamma <> -1 -> ~ (gamma = 0 /\ omega * omega = 1) ->
  let o := generalDdho solve gamma omega y0 v0 t0 in solution gamma omega y0 v0 t0 (oAmp o) (oAmpDeriv o).
Proof.
  intros Hs H1 H2 H3. unfold generalDdho, baseDdho. cbv zeta. set (o1 := first gamma). set (o2 := second gamma). set (e := fun o t => cexp (kmul o (RC t))). fold (iw omega).
  assert (R1 := first_root gamma). assert (R2 := second_root gamma). fold o1 in R1. fold o2 in R2.
  assert (W : ksub (kmul (cexp (kmul o1 (RC t0))) (kmul o2 (cexp (kmul o2 (RC t0))))) (kmul (cexp (kmul o2 (RC t0))) (kmul o1 (cexp (kmul o1 (RC t0))))) <> k0).
  { replace (ksub _ _) with (kmul (kmul (cexp (kmul o1 (RC t0))) (cexp (kmul o2 (RC t0)))) (ksub o2 o1)) by ring. apply kmul_nz; [apply kmul_nz; apply cexp_nz|now apply roots_differ]. }
  assert (S := Hs _ _ _ _ (ksub y0 (drivenPart gamma omega t0)) (ksub v0 (kmul (iw omega) (drivenPart gamma omega t0))) W).
  destruct (solve _ _ _ _ _ _) as [x y]. destruct S as [S1 S2]. cbn [oAmp oAmpDeriv ddA0 ddA1 ddGamma ddOmega]. fold (iw omega).
  assert (D1 := cderiv_exp o1). assert (D2 := cderiv_exp o2). assert (D3 := driven_deriv gamma omega).
  split; [|split; [|split]].
  - rewrite S1. ring.
  - rewrite S2. ring.
  - eapply cderiv_ext; [| |apply (cderiv_add _ _ _ _ (cderiv_add _ _ _ _ (cderiv_scal x _ _ D1) (cderiv_scal y _ _ D2)) D3)]; intros t; cbn beta; ring.
  - exists (fun t => kadd (kadd (kmul (kmul (kmul o1 o1) (cexp (kmul o1 (RC t)))) x) (kmul (kmul (kmul o2 o2) (cexp (kmul o2 (RC t)))) y)) (kmul (iw omega) (kmul (iw omega) (drivenPart gamma omega t)))).
    split.
    + eapply cderiv_ext; [| |apply (cderiv_add _ _ _ _ (cderiv_add _ _ _ _ (cderiv_scal (kmul o1 x) _ _ D1) (cderiv_scal (kmul o2 y) _ _ D2)) (cderiv_scal (iw omega) _ _ D3))]; intros t; cbn beta; ring.
    + intros t. rewrite <- (driven_solves gamma omega t H3).
      match goal with |- ?l = ?r => transitivity (kadd (kadd (kmul (kadd (kadd (kmul o1 o1) (kmul (RC (2 * gamma)) o1)) k1) (kmul (cexp (kmul o1 (RC t))) x)) (kmul (kadd (kadd (kmul o2 o2) (kmul (RC (2 * gamma)) o2)) k1) (kmul (cexp (kmul o2 (RC t))) y))) r) end; [ring|]. rewrite R1, R2. ring.
Qed.

Lemma critical_solution solve omega y0 v0 t0 : solver solve ->
  let o := criticalDdho solve omega y0 v0 t0 in solution 1 omega y0 v0 t0 (oAmp o) (oAmpDeriv o).
Proof.
  intros Hs. unfold criticalDdho, baseDdho. cbv zeta. fold (iw omega).
  assert (H3 : ~ (1 = 0 /\ omega * omega = 1)) by lra.
  assert (W : ksub (kmul (RC (exp (- t0))) (RC (- (t0 - 1) * exp (- t0)))) (kmul (RC (t0 * exp (- t0))) (RC (- exp (- t0)))) <> k0).
  { intros H. apply (f_equal fst) in H. cbn in H. assert (P := exp_pos (- t0)). nra. }
  assert (S := Hs _ _ _ _ (ksub y0 (drivenPart 1 omega t0)) (ksub v0 (kmul (iw omega) (drivenPart 1 omega t0))) W).
  destruct (solve _ _ _ _ _ _) as [x y]. destruct S as [S1 S2]. cbn [oAmp oAmpDeriv ddA0 ddA1 ddGamma ddOmega]. fold (iw omega).
  assert (D3 := driven_deriv 1 omega).
  assert (D1 : cderiv (fun t => RC (exp (- t))) (fun t => RC (- exp (- t)))) by (apply cderiv_real; intros t; apply is_derive_Reals; auto_derive; auto; ring).
  assert (D2 : cderiv (fun t => RC (t * exp (- t))) (fun t => RC (- (t - 1) * exp (- t)))) by (apply cderiv_real; intros t; apply is_derive_Reals; auto_derive; auto; ring).
  assert (D4 : cderiv (fun t => RC (- exp (- t))) (fun t => RC (exp (- t)))) by (apply cderiv_real; intros t; apply is_derive_Reals; auto_derive; auto; ring).
  assert (D5 : cderiv (fun t => RC ((t - 1) * exp (- t))) (fun t => RC (- (t - 2) * exp (- t)))) by (apply cderiv_real; intros t; apply is_derive_Reals; auto_derive; auto; ring).
  assert (F : forall t, RC (- (t - 1) * exp (- t)) = kopp (RC ((t - 1) * exp (- t)))) by (intros t; rewrite RC_opp; f_equal; ring).
  split; [|split; [|split]].
  - rewrite S1. ring.
  - rewrite F in S2. transitivity (kadd (kadd (kmul (RC (- exp (- t0))) x) (kmul (kopp (RC ((t0 - 1) * exp (- t0)))) y)) (kmul (iw omega) (drivenPart 1 omega t0))); [ring|]. rewrite S2. ring.
  - eapply cderiv_ext; [| |apply (cderiv_add _ _ _ _ (cderiv_add _ _ _ _ (cderiv_scal x _ _ D1) (cderiv_scal y _ _ D2)) D3)]; intros t; cbn beta; rewrite ?F; ring.
  - exists (fun t => kadd (ksub (kmul (RC (exp (- t))) x) (kmul (RC (- (t - 2) * exp (- t))) y)) (kmul (iw omega) (kmul (iw omega) (drivenPart 1 omega t)))).
    split.
    + eapply cderiv_ext; [| |apply (cderiv_add _ _ _ _ (cderiv_sub _ _ _ _ (cderiv_scal x _ _ D4) (cderiv_scal y _ _ D5)) (cderiv_scal (iw omega) _ _ D3))]; intros t; cbn beta; ring.
    + intros t. rewrite <- (driven_solves 1 omega t H3). generalize (drivenPart 1 omega t). intros p. clear S1 S2. destruct x as [xa xb], y as [ya yb], p as [pa pb]. apply cr_eq; cbn; ring.
Qed.

Lemma ddho_solution solve gamma omega y0 v0 t0 : solver solve -> gamma <> -1 -> ~ (gamma = 0 /\ omega * omega = 1) ->
  let o := makeDdho solve gamma omega y0 v0 t0 in solution gamma omega y0 v0 t0 (oAmp o) (oAmpDeriv o).
Proof.
  intros Hs H1 H2. unfold makeDdho. destruct (Reqb gamma 1) eqn:E.
  - assert (gamma = 1) by (revert E; unfold Reqb; destruct (Req_EM_T gamma 1); [auto|discriminate]). subst. now apply critical_solution.
  - apply general_solution; auto. intros ->. revert E. unfold Reqb. destruct (Req_EM_T 1 1); [discriminate|lra].
Qed.

(** uniqueness *)
Lemma unique_real gamma (d d1 d2 : R -> R) t0 : (forall t, derivable_pt_lim d t (d1 t)) -> (forall t, derivable_pt_lim d1 t (d2 t)) ->
  (forall t, d2 t + 2 * gamma * d1 t + d t = 0) -> d t0 = 0 -> d1 t0 = 0 -> forall t, d t = 0.
Proof.
  intros D D1 E Z Z1 t. set (E0 := fun s => d s * d s + d1 s * d1 s).
  assert (DE : forall s, derivable_pt_lim E0 s (- 4 * gamma * (d1 s * d1 s))).
  { intros s. replace (- 4 * gamma * (d1 s * d1 s)) with (d1 s * d s + d s * d1 s + (d2 s * d1 s + d1 s * d2 s)).
    - apply derivable_pt_lim_plus; now apply derivable_pt_lim_mult.
    - replace (d2 s) with (- (2 * gamma * d1 s) - d s) by (specialize (E s); lra). ring. }
  assert (DF : forall k s, derivable_pt_lim (fun u => E0 u * exp (k * u)) s ((- 4 * gamma * (d1 s * d1 s) + k * E0 s) * exp (k * s))).
  { intros k s. replace ((- 4 * gamma * (d1 s * d1 s) + k * E0 s) * exp (k * s)) with (- 4 * gamma * (d1 s * d1 s) * exp (k * s) + E0 s * (k * exp (k * s))) by ring.
    apply (derivable_pt_lim_mult E0 (fun u => exp (k * u))); [apply DE|]. apply is_derive_Reals. auto_derive; auto. ring. }
  assert (Z0 : E0 t0 = 0) by (unfold E0; rewrite Z, Z1; ring).
  set (k := 4 * Rabs gamma). assert (G := Rle_abs gamma). assert (G' := Rle_abs (- gamma)). rewrite Rabs_Ropp in G'. assert (G0 := Rabs_pos gamma).
  assert (B : forall s, - (k * E0 s) <= - 4 * gamma * (d1 s * d1 s) <= k * E0 s).
  { intros s. unfold k, E0. assert (0 <= d1 s * d1 s) by nra. assert (0 <= d s * d s) by nra. split; nra. }
  assert (P : E0 t <= 0).
  { destruct (Rtotal_order t t0) as [L|[->|L]]; [|lra|].
    - destruct (MVT_cor2 (fun u => E0 u * exp (k * u)) (fun s => (- 4 * gamma * (d1 s * d1 s) + k * E0 s) * exp (k * s)) t t0 L) as [c [Hc _]]; [intros; apply DF|].
      rewrite Z0 in Hc. assert (X := exp_pos (k * c)). assert (X' := exp_pos (k * t)). specialize (B c). assert (0 <= (- 4 * gamma * (d1 c * d1 c) + k * E0 c) * exp (k * c)) by (apply Rmult_le_pos; lra).
      assert (0 <= (- 4 * gamma * (d1 c * d1 c) + k * E0 c) * exp (k * c) * (t0 - t)) by (apply Rmult_le_pos; lra). assert (E0 t * exp (k * t) <= 0) by lra. destruct (Rle_lt_dec (E0 t) 0) as [|F]; [auto|]. assert (0 < E0 t * exp (k * t)) by (apply Rmult_lt_0_compat; auto). lra.
    - destruct (MVT_cor2 (fun u => E0 u * exp (- k * u)) (fun s => (- 4 * gamma * (d1 s * d1 s) + - k * E0 s) * exp (- k * s)) t0 t L) as [c [Hc _]]; [intros; apply DF|].
      rewrite Z0 in Hc. assert (X := exp_pos (- k * c)). assert (X' := exp_pos (- k * t)). specialize (B c). assert (0 <= - (- 4 * gamma * (d1 c * d1 c) + - k * E0 c) * exp (- k * c)) by (apply Rmult_le_pos; lra).
      assert (0 <= - (- 4 * gamma * (d1 c * d1 c) + - k * E0 c) * exp (- k * c) * (t - t0)) by (apply Rmult_le_pos; lra). assert (E0 t * exp (- k * t) <= 0) by lra. destruct (Rle_lt_dec (E0 t) 0) as [|F]; [auto|]. assert (0 < E0 t * exp (- k * t)) by (apply Rmult_lt_0_compat; auto). lra. }
  unfold E0 in P. nra.
Qed.
Lemma solution_unique gamma omega y0 v0 t0 y y' z z' : solution gamma omega y0 v0 t0 y y' -> solution gamma omega y0 v0 t0 z z' -> forall t, y t = z t.
Proof.
  intros [A1 [A2 [A3 [y'' [A4 A5]]]]] [B1 [B2 [B3 [z'' [B4 B5]]]]] t.
  assert (E : forall t, kadd (kadd (ksub (y'' t) (z'' t)) (kmul (RC (2 * gamma)) (ksub (y' t) (z' t)))) (ksub (y t) (z t)) = k0).
  { intros s. transitivity (ksub (kadd (kadd (y'' s) (kmul (RC (2 * gamma)) (y' s))) (y s)) (kadd (kadd (z'' s) (kmul (RC (2 * gamma)) (z' s))) (z s))); [ring|]. rewrite A5, B5. ring. }
  assert (D := cderiv_sub _ _ _ _ A3 B3). assert (D' := cderiv_sub _ _ _ _ A4 B4).
  apply cr_eq.
  - apply Rminus_diag_uniq. apply (unique_real gamma (fun s => fst (y s) - fst (z s)) (fun s => fst (y' s) - fst (z' s)) (fun s => fst (y'' s) - fst (z'' s)) t0).
    + intros s. apply (D s).
    + intros s. apply (D' s).
    + intros s. assert (H := f_equal fst (E s)). cbn in H. lra.
    + rewrite A1, B1. ring.
    + rewrite A2, B2. ring.
  - apply Rminus_diag_uniq. apply (unique_real gamma (fun s => snd (y s) - snd (z s)) (fun s => snd (y' s) - snd (z' s)) (fun s => snd (y'' s) - snd (z'' s)) t0).
    + intros s. apply (D s).
    + intros s. apply (D' s).
    + intros s. assert (H := f_equal snd (E s)). cbn in H. lra.
    + rewrite A1, B1. ring.
    + rewrite A2, B2. ring.
Qed.
(** Cramer's rule is a solver *)
Definition cramer (a b c d u v : CR) : CR * CR :=
  let D := ksub (kmul a d) (kmul b c) in (cdiv (ksub (kmul u d) (kmul b v)) D, cdiv (ksub (kmul a v) (kmul u c)) D).
Lemma cramer_solver : solver cramer.
Proof.
  intros a b c d u v H. unfold cramer. cbv zeta. split.
  - transitivity (cdiv (kmul u (ksub (kmul a d) (kmul b c))) (ksub (kmul a d) (kmul b c))); [unfold cdiv; ring|]. rewrite <- (cdiv_mul u _ H) at 2. unfold cdiv. ring.
  - transitivity (cdiv (kmul v (ksub (kmul a d) (kmul b c))) (ksub (kmul a d) (kmul b c))); [unfold cdiv; ring|]. rewrite <- (cdiv_mul v _ H) at 2. unfold cdiv. ring.
Qed.
Lemma ddho_solution_damped solve gamma omega y0 v0 t0 : solver solve -> 0 <= gamma -> ~ (gamma = 0 /\ omega * omega = 1) ->
  let o := makeDdho solve gamma omega y0 v0 t0 in solution gamma omega y0 v0 t0 (oAmp o) (oAmpDeriv o).
Proof. intros Hs Hg. apply ddho_solution; [exact Hs|lra]. Qed.
Lemma ddho_unique solve gamma omega y0 v0 t0 y y' : solver solve -> 0 <= gamma -> ~ (gamma = 0 /\ omega * omega = 1) ->
  solution gamma omega y0 v0 t0 y y' -> forall t, oAmp (makeDdho solve gamma omega y0 v0 t0) t = y t.
Proof. intros Hs Hg Hr H. eapply solution_unique; [|exact H]. now apply ddho_solution_damped. Qed.
