(** The Q function and the scan: proofs of C88 and C89. *)
From Coq Require Import List Arith Lia Reals Lra.
From Verif Require Import Star CReal PureModel DdhoModel InitialModel InitialSpec InitialProofs PhaseModel PhaseSpec PhaseProofs PhaseFacts.
Import ListNotations.
Local Open Scope R_scope.
Add Ring cring_phase3 : (k_ring CR).

Lemma fold_ksum (f : nat -> CR) l : forall a, fold_left (fun acc n => kadd acc (f n)) l a = kadd a (ksum f l).
Proof. induction l as [|b l IH]; intros a; cbn [fold_left ksum fold_right]; [ring|]. rewrite IH. fold (ksum f l). ring. Qed.
Lemma fold_ksum2 (f : nat -> nat -> CR) l l' : forall a, fold_left (fun acc m => fold_left (fun acc n => kadd acc (f m n)) l' acc) l a = kadd a (ksum (fun m => ksum (f m) l') l).
Proof. induction l as [|b l IH]; intros a; cbn [fold_left ksum fold_right]; [ring|]. rewrite IH, fold_ksum. fold (ksum (fun m => ksum (f m) l') l). ring. Qed.
Lemma cpow_conj z n : cpow (kconj z) n = kconj (cpow z n).
Proof. induction n; cbn [cpow]; [now rewrite kconj_1|]. now rewrite kconj_mul, IHn. Qed.
Lemma cdiv_RC_conj z x : cdiv (kconj z) (RC x) = kconj (cdiv z (RC x)).
Proof. unfold cdiv. rewrite !kconj_mul, !RC_conj. reflexivity. Qed.
Lemma element_conj n alpha : coherentElement n (kconj alpha) = kconj (coherentElement n alpha).
Proof.
  unfold coherentElement. destruct (n =? 0)%nat; [now rewrite kconj_1|]. destruct (n <? maxFactorial)%nat.
  - now rewrite cpow_conj, cdiv_RC_conj.
  - now rewrite cdiv_RC_conj, cpow_conj, kconj_mul, RC_conj.
Qed.
Lemma q_overlap rho dim x y t : qFunction rho dim x y t = cre (expectation dim rho (coherent ((x, y) : CR) dim)).
Proof.
  unfold qFunction, expectation. set (alpha := ((x, y) : CR)). rewrite fold_ksum2, <- cre_scal. f_equal.
  replace (RC (exp (- csq alpha))) with (kmul (RC (exp (- csq alpha / 2))) (RC (exp (- csq alpha / 2)))).
  2:{ rewrite RC_mul, <- exp_plus. f_equal. f_equal. field. }
  set (e := RC _). transitivity (kmul (kmul e e) (ksum (fun m => ksum (fun n => kmul (kmul (coherentElement n alpha) (coherentElement m (kconj alpha))) (rho m n)) (seq 0 dim)) (seq 0 dim))); [f_equal; ring|].
  rewrite <- ksum_scal_l. apply ksum_ext. intros m Hm. rewrite <- ksum_scal_l. apply ksum_ext. intros n Hn. apply in_seq in Hm, Hn.
  rewrite !nth_coherent by lia. rewrite element_conj, kconj_mul. fold e. assert (E : kconj e = e) by apply RC_conj. rewrite E. ring.
Qed.
Lemma coherent_is alpha dim : (dim <= 170)%nat -> coherent_state alpha dim (coherent alpha dim).
Proof.
  intros H. split; [apply length_coherent|]. split; [|now apply coherent_eigen]. intros P. rewrite nth_coherent by exact P. change (coherentElement 0 alpha) with (k1 : CR). ring.
Qed.
Lemma coherent_unique alpha dim phi : (dim <= 170)%nat -> coherent_state alpha dim phi -> phi = coherent alpha dim.
Proof.
  intros Hd (HL & H0 & HE). destruct (coherent_is alpha dim Hd) as (GL & G0 & GE).
  apply (nth_ext _ _ k0 k0); [now rewrite HL, GL|]. rewrite HL. intros n. induction n as [|n IH]; intros Hn; [now rewrite H0, G0|].
  apply (sqrt_cancel n). assert (E1 := HE n). assert (E2 := GE n). rewrite HL in E1. rewrite GL in E2. rewrite !Nat.add_1_r, S_INR in *.
  rewrite E1, E2, IH by lia. reflexivity.
Qed.
Lemma q_fact rho dim phi x y t : (dim <= 170)%nat -> coherent_state ((x, y) : CR) dim phi -> qFunction rho dim x y t = cre (expectation dim rho phi).
Proof. intros H C. rewrite (coherent_unique _ _ _ H C). apply q_overlap. Qed.

(** ** The range *)
Lemma expectation_mixture dim parts phi : expectation dim (mixture parts) phi = ksum (fun p => RC (fst p * csq (overlap_with dim phi (snd p)))) parts.
Proof.
  unfold expectation, mixture.
  transitivity (ksum (fun p => kmul (RC (fst p)) (kmul (overlap_with dim phi (snd p)) (kconj (overlap_with dim phi (snd p))))) parts).
  - rewrite (ksum_ext _ (fun m => ksum (fun p => ksum (fun n => kmul (kmul (kconj (nth m phi k0)) (kmul (RC (fst p)) (kmul (nth m (snd p) k0) (kconj (nth n (snd p) k0))))) (nth n phi k0)) (seq 0 dim)) parts)).
    2:{ intros m _. rewrite ksum_swap. apply ksum_ext. intros n _. now rewrite <- ksum_scal_l, <- ksum_scal_r. }
    rewrite ksum_swap. apply ksum_ext. intros p _. unfold overlap_with. rewrite ksum_conj, <- ksum_scal_r, <- ksum_scal_l. apply ksum_ext. intros m _.
    rewrite <- !ksum_scal_l. apply ksum_ext. intros n _. rewrite kconj_mul, kconj_invol. ring.
  - apply ksum_ext. intros p _. rewrite <- RC_mul. f_equal. rewrite <- csq_conj. ring.
Qed.
Lemma cre_RC_sum {A} (f : A -> R) l : cre (ksum (fun a => RC (f a)) l) = fold_right (fun a s => f a + s) 0 l.
Proof. rewrite cre_ksum. reflexivity. Qed.
Lemma norm_sum psi : forall dim, length psi = dim -> norm_of psi = rsum (fun m => csq (nth m psi k0)) (seq 0 dim).
Proof.
  unfold rsum. induction psi as [|z psi IH]; intros [|dim] H; cbn in H; try lia; [reflexivity|]. cbn [norm_of fold_right seq nth]. f_equal.
  rewrite <- seq_shift. fold (norm_of psi). rewrite (IH dim) by now injection H.
  clear. generalize (seq 0 dim). intros l. induction l as [|a l IHl]; [reflexivity|]. cbn [map fold_right nth]. now rewrite IHl.
Qed.
(** Cauchy-Schwarz *)
Lemma rsum_add {A} (f g : A -> R) l : rsum (fun a => f a + g a) l = rsum f l + rsum g l.
Proof. unfold rsum. induction l; cbn; [ring|]. rewrite IHl. ring. Qed.
Lemma rsum_nonneg {A} (f : A -> R) l : (forall a, In a l -> 0 <= f a) -> 0 <= rsum f l.
Proof. unfold rsum. induction l; cbn; intros H; [lra|]. assert (0 <= f a) by (apply H; now left). assert (0 <= fold_right (fun a s => f a + s) 0 l) by (apply IHl; auto). lra. Qed.
Lemma cauchy_schwarz {A} (f g : A -> CR) l : csq (ksum (fun a => kmul (kconj (f a)) (g a)) l) <= rsum (fun a => csq (f a)) l * rsum (fun a => csq (g a)) l.
Proof.
  set (s := ksum _ l). set (F := rsum (fun a => csq (f a)) l). set (G := rsum (fun a => csq (g a)) l).
  assert (HF : 0 <= F) by (apply rsum_nonneg; intros; apply CReal.csq_nonneg). assert (HG : 0 <= G) by (apply rsum_nonneg; intros; apply CReal.csq_nonneg).
  (* sum |u g - w f|^2 >= 0 for u = F, w = s *)
  assert (Q : forall (u : R) (w : CR), 0 <= u * u * G - 2 * u * cre (kmul (kconj w) s) + csq w * F).
  { intros u w.
    assert (E : rsum (fun a => csq (ksub (kmul (RC u) (g a)) (kmul w (f a)))) l = u * u * G - 2 * u * cre (kmul (kconj w) s) + csq w * F).
    { unfold F, G, s. rewrite <- ksum_scal_l, cre_ksum.
      replace (u * u * rsum (fun a => csq (g a)) l - 2 * u * rsum (fun a => cre (kmul (kconj w) (kmul (kconj (f a)) (g a)))) l + csq w * rsum (fun a => csq (f a)) l)
        with (rsum (fun a => (u * u) * csq (g a)) l + (rsum (fun a => (- (2 * u)) * cre (kmul (kconj w) (kmul (kconj (f a)) (g a)))) l + rsum (fun a => csq w * csq (f a)) l))
        by (rewrite !rsum_scal; ring).
      rewrite <- !rsum_add. apply rsum_ext'. intros a _. destruct w, (f a), (g a). unfold csq, cre. cbn. ring. }
    rewrite <- E. apply rsum_nonneg. intros. apply CReal.csq_nonneg. }
  assert (E : cre (kmul (kconj s) s) = csq s) by (rewrite csq_conj; reflexivity).
  assert (Q1 := Q F s). rewrite E in Q1. destruct (Req_dec F 0) as [Z|Z].
  - assert (N := CReal.csq_nonneg s). destruct (Req_dec (csq s) 0) as [C|C]; [rewrite C, Z; lra|]. exfalso.
    set (w := (G + 1) / (2 * csq s)). assert (Q2 := Q 1 (kmul (RC w) s)). rewrite kconj_mul, RC_conj in Q2.
    replace (cre (kmul (kmul (RC w) (kconj s)) s)) with (w * csq s) in Q2.
    2:{ transitivity (cre (kmul (RC w) (kmul (kconj s) s))); [|f_equal; ring]. now rewrite cre_scal, E. }
    rewrite Z in Q2. replace (w * csq s) with ((G + 1) / 2) in Q2 by (unfold w; field; exact C). lra.
  - apply (Rmult_le_reg_l F); [lra|]. nra.
Qed.
Lemma q_range dim parts x y t : (dim <= 170)%nat -> proper_mixture dim parts -> 0 <= qFunction (mixture parts) dim x y t <= 1.
Proof.
  intros Hd [HP HS]. rewrite q_overlap, expectation_mixture, cre_RC_sum. set (phi := coherent _ dim).
  assert (N : rsum (fun m => csq (nth m phi k0)) (seq 0 dim) <= 1).
  { assert (E := coherent_norm ((x, y) : CR) dim Hd). unfold normSq in E. rewrite length_coherent in E. rewrite total_rsum. apply E. }
  assert (B : forall p, In p parts -> 0 <= csq (overlap_with dim phi (snd p)) <= 1).
  { intros p Hp. destruct (HP p Hp) as (_ & L1 & N1). split; [apply CReal.csq_nonneg|]. rewrite (norm_sum _ _ L1) in N1.
    assert (C := cauchy_schwarz (fun m => nth m phi k0) (fun m => nth m (snd p) k0) (seq 0 dim)). cbv beta in C. rewrite N1 in C. unfold overlap_with. lra. }
  assert (G : 0 <= fold_right (fun p s => fst p * csq (overlap_with dim phi (snd p)) + s) 0 parts <= fold_right (fun p s => fst p + s) 0 parts); [|lra].
  clear HS. induction parts as [|p l IH]; cbn [fold_right]; [lra|].
  assert (I := IH (fun q Hq => HP q (or_intror Hq)) (fun q Hq => B q (or_intror Hq))). destruct (HP p (or_introl eq_refl)) as (P0 & _). assert (B0 := B p (or_introl eq_refl)). nra.
Qed.

(** ** The scan *)
Lemma below_exists lower upper step : 0 < step -> exists n, points_below lower upper step n.
Proof.
  intros Hs. assert (E : exists n, upper <= lower + INR n * step).
  { destruct (archimed ((upper - lower) / step)) as [A _]. exists (Z.to_nat (up ((upper - lower) / step))).
    destruct (Z_le_gt_dec 0 (up ((upper - lower) / step))) as [Q|Q].
    - rewrite INR_IZR_INZ, Z2Nat.id by exact Q. apply Rgt_lt, (Rmult_lt_compat_r step) in A; [|exact Hs]. unfold Rdiv in A. rewrite Rmult_assoc, Rinv_l in A by lra. lra.
    - replace (Z.to_nat (up ((upper - lower) / step))) with 0%nat by lia. cbn [INR].
      assert (U : IZR (up ((upper - lower) / step)) <= 0) by (apply IZR_le; lia).
      assert (V : (upper - lower) / step < 0) by lra. apply (Rmult_lt_compat_r step) in V; [|exact Hs]. unfold Rdiv in V. rewrite Rmult_assoc, Rinv_l in V by lra. lra. }
  destruct E as [n Hn]. revert Hn. induction n as [|n IH]; intros Hn.
  - exists 0%nat. intros i. split; [lia|]. intros C. assert (P := pos_INR i). exfalso. cbn [INR] in Hn. nra.
  - destruct (Rle_lt_dec upper (lower + INR n * step)) as [H|H]; [now apply IH|]. exists (Datatypes.S n). intros i. split; intros C.
    + assert (Q : INR i <= INR n) by (apply le_INR; lia). nra.
    + apply INR_lt. destruct (Rlt_le_dec (INR i) (INR (Datatypes.S n))) as [Q|Q]; [exact Q|]. exfalso. nra.
Qed.
Lemma loops_grid upper step : forall n lower, points_below lower upper step n -> loops upper step lower (grid lower step n).
Proof.
  induction n as [|n IH]; intros lower H.
  - apply loops_end. destruct (Rle_lt_dec upper lower) as [Q|Q]; [exact Q|]. assert (B : (0 < 0)%nat) by (apply H; cbn; lra). lia.
  - unfold grid. cbn [seq map]. replace (lower + INR 0 * step) with lower by (cbn; ring). apply loops_step.
    + assert (B := proj1 (H 0%nat) ltac:(lia)). cbn in B. lra.
    + rewrite <- seq_shift, map_map. rewrite (map_ext _ (fun i => (lower + step) + INR i * step)) by (intros i; rewrite S_INR; ring). apply IH.
      intros i. assert (B := H (Datatypes.S i)). rewrite S_INR in B. split; intros C.
      * assert (D : (Datatypes.S i < Datatypes.S n)%nat) by lia. apply B in D. lra.
      * assert (D : (Datatypes.S i < Datatypes.S n)%nat) by (apply B; lra). lia.
Qed.
Lemma loops_unique upper step l : forall x, loops upper step x l -> forall l', loops upper step x l' -> l = l'.
Proof.
  intros x H. induction H as [x H|x l H H' IH]; intros l' G; inversion G; subst; try reflexivity; try lra. f_equal. now apply IH.
Qed.
Lemma loops_endless upper step l : step <= 0 -> forall x, loops upper step x l -> x < upper -> False.
Proof. intros Hs x H. induction H; intros; [lra|]. apply IHloops. lra. Qed.
Lemma scans_unique f p xs out : scans f p xs out -> forall out', scans f p xs out' -> out = out'.
Proof.
  intros H. induction H as [|x xs ys out HL HS IH]; intros out' G; inversion G; subst; [reflexivity|].
  f_equal; [f_equal; eapply loops_unique; eassumption|]. f_equal. now apply IH.
Qed.
Lemma scans_made f p ys : loops (sYU p) (sStep p) (sYL p) ys -> forall xs, scans f p xs (flat_map (fun x => map (fun y => SPoint x y (f x y)) ys ++ [SEmpty]) xs).
Proof. intros H xs. induction xs; cbn [flat_map]; [constructor|]. rewrite <- app_assoc. cbn [app]. now constructor. Qed.
Lemma limits_fact p : let q := scanLimits p in sStep q = sStep p /\
  (sXL q, sXU q) = (if Req_EM_T (sXUL p) 0 then (sXL p, sXU p) else (- sXUL p, sXUL p)) /\
  (sYL q, sYU q) = (if Req_EM_T (sYUL p) 0 then (sYL p, sYU p) else (- sYUL p, sYUL p)).
Proof. cbv zeta. unfold scanLimits. destruct (Req_EM_T (sXUL p) 0); cbn [sXUL sYUL sXL sXU sYL sYU sStep]; destruct (Req_EM_T (sYUL p) 0); cbn; auto. Qed.
Lemma scan_fact f p : 0 < sStep p ->
  let (xl, xu) := if Req_EM_T (sXUL p) 0 then (sXL p, sXU p) else (- sXUL p, sXUL p) in
  let (yl, yu) := if Req_EM_T (sYUL p) 0 then (sYL p, sYU p) else (- sYUL p, sYUL p) in
  exists n m, points_below xl xu (sStep p) n /\ points_below yl yu (sStep p) m /\
    forall out, scanFunction f p out <-> out = flat_map (fun x => map (fun y => SPoint x y (f x y)) (grid yl (sStep p) m) ++ [SEmpty]) (grid xl (sStep p) n).
Proof.
  intros Hs. destruct (limits_fact p) as (ES & EX & EY). rewrite <- EX, <- EY. set (q := scanLimits p) in *.
  destruct (below_exists (sXL q) (sXU q) (sStep p) Hs) as [n Hn]. destruct (below_exists (sYL q) (sYU q) (sStep p) Hs) as [m Hm].
  exists n, m. split; [exact Hn|]. split; [exact Hm|]. rewrite <- ES in *. intros out. unfold scanFunction. fold q.
  assert (LX := loops_grid _ _ _ _ Hn). assert (LY := loops_grid _ _ _ _ Hm). split.
  - intros (xs & HX & HO). rewrite (loops_unique _ _ _ _ HX _ LX) in HO. eapply scans_unique; [exact HO|]. now apply scans_made.
  - intros ->. exists (grid (sXL q) (sStep q) n). split; [exact LX|]. now apply scans_made.
Qed.
Lemma scan_endless f p out : sStep p <= 0 -> sXUL p = 0 -> sXL p < sXU p -> ~ scanFunction f p out.
Proof.
  intros Hs HX HL (xs & H & _). destruct (limits_fact p) as (ES & EX & _). destruct (Req_EM_T (sXUL p) 0); [|easy]. injection EX as E1 E2. rewrite ES, E1, E2 in H.
  eapply loops_endless; eassumption.
Qed.

(** ** Cases *)
Definition half : R := 1 / 2.
Lemma wigner_case : exists W, wigner_family W /\ polar_angle angleOf /\ selfadjoint 3 vacuumRho /\ vacuumRho 0%nat 0%nat = k1 /\
  wigner_of W 3 vacuumRho 0 0 = RC (2 / PI) /\ laguerre 2 1 2 = -1.
Proof.
  exists V. split; [apply V_family|]. split; [apply angle_polar|]. split; [|split; [reflexivity|split]].
  - intros m n _ _. unfold vacuumRho. destruct m, n; cbn [Nat.eqb]; rewrite ?kconj_1, ?kconj_0; reflexivity.
  - unfold wigner_of. rewrite (ksum_ext _ (fun m => if (m =? 0)%nat then V 0 0 0 0 else k0)).
    2:{ intros m _. unfold vacuumRho. destruct m; cbn [Nat.eqb seq ksum fold_right]; ring. }
    cbn [seq ksum fold_right Nat.eqb]. unfold V. cbn [Nat.leb Nat.sub]. unfold Z, gg, c0. cbn [cpow pow Nat.add fact INR]. rewrite L0. change (minusOneTo 0) with 1.
    replace (1 / 1) with 1 by field. rewrite sqrt_1. replace (-2 * (0 * 0 + 0 * 0)) with 0 by ring. rewrite exp_0. replace (2 / PI * 1 * 1 * 1 * (1 * 1)) with (2 / PI) by ring. ring.
  - unfold laguerre. cbn [laguerrePair fst]. cbn [INR]. field.
Qed.
Lemma q_case : proper_mixture 2 [(half, [k1; k0]); (half, [k0; CI])] /\ qFunction (mixture [(half, [k1; k0]); (half, [k0; CI])]) 2 0 0 0 = half /\
  coherent_state k0 2 [k1; k0].
Proof.
  assert (C : coherent_state k0 2 [k1; k0]).
  { split; [reflexivity|]. split.
    - intros _. cbn [nth]. replace (- csq k0 / 2) with 0 by (unfold csq; cbn; field). now rewrite exp_0.
    - intros n Hn. cbn in Hn. replace n with 0%nat by lia. cbn [Nat.add nth]. ring. }
  split; [|split; [|exact C]].
  - split; [|cbn; unfold half; lra]. intros p [<-|[<-|[]]]; cbn; unfold half, csq; cbn; repeat split; lra.
  - rewrite (q_fact _ _ [k1; k0]); [|lia|exact C]. rewrite expectation_mixture, cre_RC_sum. unfold overlap_with, half, csq. cbn. lra.
Qed.
Lemma scan_case : 0 < sStep (mkScan 0 1 0 1 5 7 1) /\ points_below 0 1 1 1 /\ points_below (-1) 1 1 2 /\ grid (-1) 1 2 = [-1; 0].
Proof.
  split; [cbn; lra|]. split; [|split].
  - intros i. split; intros H.
    + replace i with 0%nat by lia. cbn. lra.
    + apply INR_lt. cbn [INR]. lra.
  - intros i. split; intros H.
    + assert (E : INR i <= 1) by (apply (le_INR i 1); lia). lra.
    + apply INR_lt. cbn [INR]. lra.
  - unfold grid. cbn [seq map INR]. f_equal; [ring|]. f_equal. ring.
Qed.
