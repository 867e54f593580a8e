From Coq Require Import List Arith Reals Lra Lia Bool.
From Verif Require Import Star CReal PureModel DdhoModel DdhoProofs FourierModel FourierSpec FourierProofs.
Import ListNotations.
Local Open Scope nat_scope.
Add Ring CRFourierF : (k_ring CR).

Lemma ffCV_some fin psi dir : ffTransformCV (2 ^ fin) psi dir = Some (ffLine (2 ^ fin) psi dir).
Proof.
  unfold ffLine. destruct (ffTransformCV (2 ^ fin) psi dir) eqn:E; [reflexivity|]. apply transform_refused in E. exfalso. apply E. right. now exists fin.
Qed.
Lemma fourier_vector fin dk : dk <> 0%R -> exists c, csq c = 1%R /\ (2 <= fin -> c = k1) /\ forall psi, exists p x,
  ffTransformCV (2 ^ fin) psi DIR_XK = Some p /\ ffTransformCV (2 ^ fin) psi DIR_KX = Some x /\
  forall k, k < 2 ^ fin -> p k = kmul c (to_momentum (2 ^ fin) dk psi k) /\ x k = kmul (kconj c) (to_position (2 ^ fin) dk psi k).
Proof.
  intros H. exists (common fin). split; [apply common_csq|]. split; [intros L; destruct fin as [|[|fin]]; [lia|lia|reflexivity]|].
  intros psi. exists (ffLine (2 ^ fin) psi DIR_XK), (ffLine (2 ^ fin) psi DIR_KX). rewrite !ffCV_some. split; [reflexivity|]. split; [reflexivity|]. intros k K. now apply fin_wave.
Qed.
Lemma common_cc fin : kmul (kconj (common fin)) (common fin) = k1.
Proof. rewrite csq_conj, common_csq. reflexivity. Qed.
Lemma to_momentum_ext N dk f g k : (forall j, j < N -> f j = g j) -> to_momentum N dk f k = to_momentum N dk g k.
Proof. intros H. apply ksum_ext. intros j Hj. apply in_seq in Hj. rewrite H by lia. reflexivity. Qed.
Lemma to_position_ext N dk f g k : (forall j, j < N -> f j = g j) -> to_position N dk f k = to_position N dk g k.
Proof. intros H. apply ksum_ext. intros j Hj. apply in_seq in Hj. rewrite H by lia. reflexivity. Qed.
Lemma to_momentum_scal N dk c f k : to_momentum N dk (fun j => kmul c (f j)) k = kmul c (to_momentum N dk f k).
Proof. unfold to_momentum. rewrite <- ksum_scal_l. apply ksum_ext. intros j _. ring. Qed.
Lemma to_position_scal N dk c f k : to_position N dk (fun j => kmul c (f j)) k = kmul c (to_position N dk f k).
Proof. unfold to_position. rewrite <- ksum_scal_l. apply ksum_ext. intros j _. ring. Qed.
Lemma one_nz : 1%R <> 0%R. Proof. lra. Qed.
Lemma ffLine_inverse fin psi dir k : k < 2 ^ fin -> ffLine (2 ^ fin) (ffLine (2 ^ fin) psi dir) (reverse dir) k = psi k.
Proof.
  intros K. assert (C := common_cc fin). destruct dir; cbn [reverse].
  - rewrite (proj2 (fin_wave fin 1 _ k one_nz K)). rewrite (to_position_ext _ _ _ (fun j => kmul (common fin) (to_momentum (2 ^ fin) 1 psi j))) by (intros j J; apply (fin_wave fin 1 psi j one_nz J)).
    rewrite to_position_scal, position_momentum by (auto; exact one_nz). transitivity (kmul (kmul (kconj (common fin)) (common fin)) (psi k)); [ring|]. rewrite C. ring.
  - rewrite (proj1 (fin_wave fin 1 _ k one_nz K)). rewrite (to_momentum_ext _ _ _ (fun j => kmul (kconj (common fin)) (to_position (2 ^ fin) 1 psi j))) by (intros j J; apply (fin_wave fin 1 psi j one_nz J)).
    rewrite to_momentum_scal, momentum_position by (auto; exact one_nz). transitivity (kmul (kmul (kconj (common fin)) (common fin)) (psi k)); [ring|]. rewrite C. ring.
Qed.
Lemma overlap_ext N f f' g g' : (forall j, j < N -> f j = f' j) -> (forall j, j < N -> g j = g' j) -> overlap N f g = overlap N f' g'.
Proof. intros H H'. apply ksum_ext. intros j Hj. apply in_seq in Hj. rewrite H, H' by lia. reflexivity. Qed.
Lemma overlap_scal N c f g : overlap N (fun j => kmul c (f j)) (fun j => kmul c (g j)) = kmul (kmul (kconj c) c) (overlap N f g).
Proof. unfold overlap. rewrite <- ksum_scal_l. apply ksum_ext. intros j _. rewrite kconj_mul. ring. Qed.
Lemma ffLine_KX_overlap fin phi psi : overlap (2 ^ fin) (ffLine (2 ^ fin) phi DIR_KX) (ffLine (2 ^ fin) psi DIR_KX) = overlap (2 ^ fin) phi psi.
Proof.
  rewrite (overlap_ext _ _ (fun j => kmul (kconj (common fin)) (to_position (2 ^ fin) 1 phi j)) _ (fun j => kmul (kconj (common fin)) (to_position (2 ^ fin) 1 psi j))); try (intros j J; apply (fin_wave fin 1 _ j one_nz J)).
  rewrite overlap_scal, kconj_invol. replace (kmul (common fin) (kconj (common fin))) with (kmul (kconj (common fin)) (common fin)) by ring. rewrite common_cc, overlap_position by exact one_nz. ring.
Qed.
Lemma ffLine_overlap fin phi psi dir : overlap (2 ^ fin) (ffLine (2 ^ fin) phi dir) (ffLine (2 ^ fin) psi dir) = overlap (2 ^ fin) phi psi.
Proof.
  destruct dir; [|apply ffLine_KX_overlap]. rewrite <- ffLine_KX_overlap. apply overlap_ext; intros j J; exact (ffLine_inverse fin _ DIR_XK j J).
Qed.
Lemma fourier_unitary fin dir phi psi : exists phi' psi' psi'', ffTransformCV (2 ^ fin) phi dir = Some phi' /\ ffTransformCV (2 ^ fin) psi dir = Some psi' /\
  overlap (2 ^ fin) phi' psi' = overlap (2 ^ fin) phi psi /\ ffTransformCV (2 ^ fin) psi' (reverse dir) = Some psi'' /\ forall k, k < 2 ^ fin -> psi'' k = psi k.
Proof.
  exists (ffLine (2 ^ fin) phi dir), (ffLine (2 ^ fin) psi dir), (ffLine (2 ^ fin) (ffLine (2 ^ fin) psi dir) (reverse dir)). rewrite !ffCV_some. repeat split; auto.
  - apply ffLine_overlap.
  - intros k K. now apply ffLine_inverse.
Qed.

(** multipartite *)
Lemma transformable_pow2 fin : transformable (2 ^ fin) = true.
Proof. unfold transformable. rewrite isPower2_pow. apply orb_true_r. Qed.
Lemma at_replaced p v y : at_position p v y = replaced p v y.
Proof. revert p. induction y as [|a y IH]; intros [|p]; cbn; auto; now rewrite IH. Qed.
Lemma ffLine_ext n f g dir k : (forall j, f j = g j) -> ffLine n f dir k = ffLine n g dir k.
Proof. intros H. rewrite !ffLine_closed. destruct (_ && _); [|apply H]. apply ksum_ext. intros j _. now rewrite H. Qed.
Lemma fourier_axis dims p fin dk psi : dk <> 0%R -> nth p dims 0 = 2 ^ fin -> exists c, csq c = 1%R /\ (2 <= fin -> c = k1) /\ exists a b,
  ffTransform dims [p] (Pure psi) DIR_XK = Some (Pure a) /\ ffTransform dims [p] (Pure psi) DIR_KX = Some (Pure b) /\
  forall y, nth p y 0 < 2 ^ fin -> a y = kmul c (to_momentum (2 ^ fin) dk (fun v => psi (replaced p v y)) (nth p y 0)) /\ b y = kmul (kconj c) (to_position (2 ^ fin) dk (fun v => psi (replaced p v y)) (nth p y 0)).
Proof.
  intros H E. exists (common fin). split; [apply common_csq|]. split; [intros L; destruct fin as [|[|fin]]; [lia|lia|reflexivity]|].
  exists (fftWorkerSV dims DIR_XK psi p), (fftWorkerSV dims DIR_KX psi p). unfold ffTransform. cbn [forallb fold_left]. rewrite E, transformable_pow2. cbn [andb]. split; [reflexivity|]. split; [reflexivity|].
  intros y Y. unfold fftWorkerSV. rewrite E. rewrite !(ffLine_ext _ (fun v => psi (at_position p v y)) (fun v => psi (replaced p v y))) by (intros; now rewrite at_replaced). now apply fin_wave.
Qed.
Lemma fourier_sequence dims V W m dir : ffTransform dims (V ++ W) m dir = match ffTransform dims V m dir with Some m' => ffTransform dims W m' dir | None => None end.
Proof.
  unfold ffTransform. rewrite forallb_app. destruct (forallb (fun p => transformable (nth p dims 0)) V); cbn [andb]; [|reflexivity].
  destruct m; destruct (forallb _ W); auto; now rewrite fold_left_app.
Qed.
Lemma ffLine_sum {A} n (l : list A) (c : A -> CR) (f : A -> line) dir k : ffLine n (fun m => ksum (fun a => kmul (c a) (f a m)) l) dir k = ksum (fun a => kmul (c a) (ffLine n (f a) dir k)) l.
Proof.
  rewrite ffLine_closed. rewrite (ksum_ext (fun a => kmul (c a) (ffLine n (f a) dir k)) (fun a => kmul (c a) (if (2 <=? n) && isPower2 n && (k <? n) then ksum (fun j => kmul (kernel dir n k j) (f a j)) (seq 0 n) else f a k))) by (intros; now rewrite ffLine_closed).
  destruct (_ && _); [|reflexivity].
  rewrite (ksum_ext (fun a => kmul (c a) _) (fun a => ksum (fun j => kmul (kernel dir n k j) (kmul (c a) (f a j))) (seq 0 n))). 2:{ intros a _. rewrite <- ksum_scal_l. apply ksum_ext. intros; ring. }
  rewrite ksum_swap. apply ksum_ext. intros j _. now rewrite ksum_scal_l.
Qed.
Lemma ffLine_conj n (f : line) dir k : ffLine n (fun m => kconj (f m)) (reverse dir) k = kconj (ffLine n f dir k).
Proof. rewrite !ffLine_closed. destruct (_ && _); [|reflexivity]. rewrite ksum_conj. apply ksum_ext. intros j _. now rewrite kconj_mul, kernel_conj. Qed.
Lemma ffMatrix_ext n r s dir i j : (forall v w, r v w = s v w) -> ffMatrix n r dir i j = ffMatrix n s dir i j.
Proof. intros H. unfold ffMatrix. apply ffLine_ext. intros m. apply ffLine_ext. intros v. apply H. Qed.
Lemma ffMatrix_sum {A} n (l : list A) (c : A -> CR) (f g : A -> line) dir i j :
  ffMatrix n (fun v w => ksum (fun a => kmul (c a) (kmul (f a v) (kconj (g a w)))) l) dir i j = ksum (fun a => kmul (c a) (kmul (ffLine n (f a) dir i) (kconj (ffLine n (g a) dir j)))) l.
Proof.
  unfold ffMatrix.
  rewrite (ffLine_ext n _ (fun m => ksum (fun a => kmul (kmul (c a) (ffLine n (f a) dir i)) (kconj (g a m))) l)).
  - rewrite (ffLine_sum n l (fun a => kmul (c a) (ffLine n (f a) dir i)) (fun a m => kconj (g a m))). apply ksum_ext. intros a _. rewrite ffLine_conj. ring.
  - intros m. rewrite (ffLine_ext n _ (fun v => ksum (fun a => kmul (kmul (c a) (kconj (g a m))) (f a v)) l)) by (intros; apply ksum_ext; intros; ring).
    rewrite (ffLine_sum n l (fun a => kmul (c a) (kconj (g a m))) f). apply ksum_ext. intros; ring.
Qed.
Definition advanced (T : amps -> amps) (l : list (CR * amps)) : list (CR * amps) := map (fun e => (fst e, T (snd e))) l.
Lemma worker_mixture dims dir rho l p : (forall y z, rho y z = mixture l y z) -> forall y z, fftWorkerDO dims dir rho p y z = mixture (advanced (fun psi => fftWorkerSV dims dir psi p) l) y z.
Proof.
  intros H y z. unfold fftWorkerDO. rewrite (ffMatrix_ext _ _ (fun v w => ksum (fun e => kmul (fst e) (kmul (snd e (at_position p v y)) (kconj (snd e (at_position p w z))))) l)) by (intros; apply H).
  rewrite (ffMatrix_sum _ l fst (fun e v => snd e (at_position p v y)) (fun e w => snd e (at_position p w z))). unfold mixture, advanced. rewrite ksum_map. reflexivity.
Qed.
Lemma fold_mixture dims dir V : forall rho l, (forall y z, rho y z = mixture l y z) ->
  forall y z, fold_left (fftWorkerDO dims dir) V rho y z = mixture (advanced (fun psi => fold_left (fftWorkerSV dims dir) V psi) l) y z.
Proof.
  induction V as [|p V IH]; intros rho l H y z; cbn [fold_left].
  - rewrite H. unfold advanced, mixture. rewrite ksum_map. reflexivity.
  - rewrite (IH _ _ (worker_mixture dims dir rho l p H)). unfold advanced. rewrite map_map. reflexivity.
Qed.
Lemma fourier_mixed dims V dir : (forall m, ffTransform dims V m dir = None) \/
  exists T, (forall psi, ffTransform dims V (Pure psi) dir = Some (Pure (T psi))) /\
  forall l rho, (forall y z, rho y z = mixture l y z) -> exists rho', ffTransform dims V (Mixed rho) dir = Some (Mixed rho') /\ forall y z, rho' y z = mixture (map (fun e => (fst e, T (snd e))) l) y z.
Proof.
  unfold ffTransform. destruct (forallb _ V); [right|left; auto]. exists (fun psi => fold_left (fftWorkerSV dims dir) V psi). split; [reflexivity|].
  intros l rho H. eexists. split; [reflexivity|]. intros y z. exact (fold_mixture dims dir V rho l H y z).
Qed.

(** averages of a particle *)
Lemma space_grid fin dk j : dk <> 0%R -> spaceK fin dk j = gridK (2 ^ fin) dk j /\ spaceX fin dk j = gridX (2 ^ fin) dk j.
Proof.
  intros H. pose proof (pow2_pos fin) as P. assert (INR (2 ^ fin) <> 0%R) by (apply not_0_INR; lia). pose proof PI_RGT_0. unfold spaceK, spaceX, kMax, deltaX, xMax, gridK, gridX. split; field; repeat split; auto; lra.
Qed.
(** a matrix diagonal in position space *)
Definition inX (N : nat) (f : nat -> R) (m n : nat) : CR := ksum (fun j => kmul (RC (f j)) (kmul (kconj (wave N 1 m j)) (wave N 1 n j))) (seq 0 N).
Definition prob (N : nat) (rho : nat -> nat -> CR) (j : nat) : CR := ksum (fun m => ksum (fun n => kmul (kmul (wave N 1 n j) (rho n m)) (kconj (wave N 1 m j))) (seq 0 N)) (seq 0 N).
Lemma inX_average N f rho : average_of N (inX N f) rho = ksum (fun j => kmul (RC (f j)) (prob N rho j)) (seq 0 N).
Proof.
  unfold average_of, inX, prob. 
  rewrite (ksum_ext (fun m => ksum (fun n => kmul _ (rho n m)) (seq 0 N)) (fun m => ksum (fun j => ksum (fun n => kmul (RC (f j)) (kmul (kmul (wave N 1 n j) (rho n m)) (kconj (wave N 1 m j)))) (seq 0 N)) (seq 0 N))).
  - rewrite ksum_swap. apply ksum_ext. intros j _. rewrite <- ksum_scal_l. apply ksum_ext. intros m _. now rewrite ksum_scal_l.
  - intros m _. rewrite ksum_swap. apply ksum_ext. intros n _. rewrite <- ksum_scal_r. apply ksum_ext. intros j _. ring.
Qed.
Lemma inX_product fin f g m n : product (2 ^ fin) (inX (2 ^ fin) f) (inX (2 ^ fin) g) m n = inX (2 ^ fin) (fun j => (f j * g j)%R) m n.
Proof.
  set (N := 2 ^ fin). unfold product, inX.
  rewrite (ksum_ext (fun l => kmul _ _) (fun l => ksum (fun j => ksum (fun i => kmul (kmul (wave N 1 l j) (kconj (wave N 1 l i))) (kmul (kmul (RC (f j)) (kconj (wave N 1 m j))) (kmul (RC (g i)) (wave N 1 n i)))) (seq 0 N)) (seq 0 N))).
  - rewrite ksum_swap. apply ksum_ext. intros j Hj. apply in_seq in Hj. rewrite ksum_swap.
    rewrite (ksum_ext _ (fun i => kmul (if i =? j then k1 else k0) (kmul (kmul (RC (f j)) (kconj (wave N 1 m j))) (kmul (RC (g i)) (wave N 1 n i))))).
    + rewrite (ksum_pick (fun i => kmul (kmul (RC (f j)) (kconj (wave N 1 m j))) (kmul (RC (g i)) (wave N 1 n i))) j N) by lia. rewrite <- RC_mul. ring.
    + intros i Hi. apply in_seq in Hi. rewrite ksum_scal_r. f_equal. unfold N. rewrite wave_orth by (auto using one_nz; fold N; lia). now rewrite Nat.eqb_sym.
  - intros l _. rewrite <- ksum_scal_r. apply ksum_ext. intros j _. rewrite <- ksum_scal_l. apply ksum_ext. intros i _. ring.
Qed.
Lemma prob_mixed fin rho j : j < 2 ^ fin -> ffMatrix (2 ^ fin) rho DIR_KX j j = prob (2 ^ fin) rho j.
Proof.
  intros J. unfold ffMatrix. cbn [reverse]. rewrite (proj1 (fin_wave fin 1 _ j one_nz J)). set (N := 2 ^ fin) in *.
  rewrite (to_momentum_ext _ _ _ (fun m => kmul (kconj (common fin)) (to_position N 1 (fun v => rho v m) j))) by (intros m _; exact (proj2 (fin_wave fin 1 (fun v => rho v m) j one_nz J))).
  rewrite to_momentum_scal. transitivity (kmul (kmul (kconj (common fin)) (common fin)) (to_momentum N 1 (fun m => to_position N 1 (fun v => rho v m) j) j)); [ring|]. rewrite common_cc.
  transitivity (to_momentum N 1 (fun m => to_position N 1 (fun v => rho v m) j) j); [ring|]. unfold to_momentum, to_position, prob. apply ksum_ext. intros m _. rewrite <- ksum_scal_l. apply ksum_ext. intros n _. unfold N. rewrite (wave_sym fin 1 j m) by exact one_nz. ring.
Qed.
Lemma prob_pure N psi j : prob N (fun m n => kmul (psi m) (kconj (psi n))) j = kmul (kconj (to_position N 1 psi j)) (to_position N 1 psi j).
Proof.
  unfold prob, to_position. rewrite ksum_conj, <- ksum_scal_r. apply ksum_ext. intros m _. rewrite <- ksum_scal_l. apply ksum_ext. intros n _. rewrite kconj_mul. ring.
Qed.
Lemma ksum_ext_range (f g : nat -> CR) N : (forall j, j < N -> f j = g j) -> ksum f (seq 0 N) = ksum g (seq 0 N).
Proof. intros H. apply ksum_ext. intros j J. apply in_seq in J. apply H. lia. Qed.
Lemma rsum_ext_range (f g : nat -> R) N : (forall j, j < N -> f j = g j) -> rsum f (seq 0 N) = rsum g (seq 0 N).
Proof. intros H. assert (G : forall l, (forall j, In j l -> j < N) -> rsum f l = rsum g l). { induction l as [|a l IH]; intros L; [reflexivity|]. unfold rsum in *. cbn [fold_right]. rewrite H by (apply L; now left). rewrite IH; [reflexivity|]. intros; apply L; now right. } apply G. intros j J. apply in_seq in J. lia. Qed.
Lemma cre_sum (f : nat -> CR) l : cre (ksum f l) = rsum (fun j => cre (f j)) l.
Proof. induction l as [|a l IH]; [reflexivity|]. unfold rsum in *. cbn [ksum fold_right]. rewrite <- IH. reflexivity. Qed.
Lemma cre_RC x z : cre (kmul (RC x) z) = (x * cre z)%R.
Proof. destruct z as [a b]. cbn. ring. Qed.
Lemma momentum_average N rho : average_of N (momentum N 1) rho = ksum (fun m => kmul (RC (gridK N 1 m)) (rho m m)) (seq 0 N).
Proof.
  unfold average_of, momentum. apply ksum_ext_range. intros m M.
  rewrite (ksum_ext_range _ (fun n => kmul (if n =? m then k1 else k0) (kmul (RC (gridK N 1 m)) (rho n m)))); [now apply (ksum_pick (fun n => kmul (RC (gridK N 1 m)) (rho n m)))|].
  intros n _. rewrite (Nat.eqb_sym n m). destruct (m =? n); ring.
Qed.
Lemma momentum_sq_average N rho : average_of N (product N (momentum N 1) (momentum N 1)) rho = ksum (fun m => kmul (RC (gridK N 1 m * gridK N 1 m)) (rho m m)) (seq 0 N).
Proof.
  unfold average_of. apply ksum_ext_range. intros m M.
  rewrite (ksum_ext_range _ (fun n => kmul (if n =? m then k1 else k0) (kmul (RC (gridK N 1 m * gridK N 1 m)) (rho n m)))); [now apply (ksum_pick (fun n => kmul (RC (gridK N 1 m * gridK N 1 m)) (rho n m)))|].
  intros n L. replace (product N (momentum N 1) (momentum N 1) m n) with (if n =? m then RC (gridK N 1 m * gridK N 1 m) else k0); [destruct (n =? m); ring|].
  unfold product, momentum. rewrite (ksum_ext_range _ (fun l => kmul (if l =? m then k1 else k0) (kmul (RC (gridK N 1 m)) (if l =? n then RC (gridK N 1 l) else k0)))).
  - rewrite (ksum_pick (fun l => kmul (RC (gridK N 1 m)) (if l =? n then RC (gridK N 1 l) else k0)) m N M). rewrite (Nat.eqb_sym n m). destruct (m =? n); [now rewrite RC_mul|ring].
  - intros l _. rewrite (Nat.eqb_sym l m). destruct (m =? l); ring.
Qed.
(** variances are not negative *)
Lemma variance_nonneg (x p : nat -> R) (N : nat) : (forall j, j < N -> (0 <= p j)%R) -> rsum p (seq 0 N) = 1%R ->
  (0 <= rsum (fun j => x j * x j * p j) (seq 0 N) - rsum (fun j => x j * p j) (seq 0 N) * rsum (fun j => x j * p j) (seq 0 N))%R.
Proof.
  intros H T. set (m := rsum (fun j => x j * p j)%R (seq 0 N)).
  assert (E : rsum (fun j => (x j - m) * (x j - m) * p j)%R (seq 0 N) = (rsum (fun j => x j * x j * p j) (seq 0 N) - 2 * m * rsum (fun j => x j * p j) (seq 0 N) + m * m * rsum p (seq 0 N))%R).
  { generalize (seq 0 N). intros l. unfold rsum. induction l as [|a l IH]; cbn [fold_right]; [ring|]. rewrite IH. ring. }
  fold m in E. rewrite T in E. assert (P : (0 <= rsum (fun j => (x j - m) * (x j - m) * p j) (seq 0 N))%R).
  { assert (G : forall l, (forall j, In j l -> j < N) -> (0 <= rsum (fun j => (x j - m) * (x j - m) * p j) l)%R).
    { induction l as [|a l IH]; intros L; [cbn; lra|]. unfold rsum in *. cbn [fold_right]. assert (0 <= p a)%R by (apply H, L; now left). assert (0 <= (x a - m) * (x a - m))%R by apply Rle_0_sqr. assert (0 <= (x a - m) * (x a - m) * p a)%R by (apply Rmult_le_pos; auto). specialize (IH (fun j J => L j (or_intror J))). lra. }
    apply G. intros j J. apply in_seq in J. lia. }
  lra.
Qed.
Lemma prob_trace fin rho : ksum (prob (2 ^ fin) rho) (seq 0 (2 ^ fin)) = ksum (fun m => rho m m) (seq 0 (2 ^ fin)).
Proof.
  set (N := 2 ^ fin). unfold prob. rewrite ksum_swap. apply ksum_ext_range. intros m M. rewrite ksum_swap.
  rewrite (ksum_ext_range _ (fun n => kmul (if n =? m then k1 else k0) (rho n m))); [now apply (ksum_pick (fun n => rho n m))|].
  intros n L. rewrite (ksum_ext _ (fun j => kmul (kmul (wave N 1 j n) (kconj (wave N 1 j m))) (rho n m))). 2:{ intros j _. unfold N. rewrite (wave_sym fin 1 n j), (wave_sym fin 1 m j) by exact one_nz. ring. }
  rewrite ksum_scal_r. f_equal. unfold N. now rewrite wave_orth by (auto using one_nz).
Qed.
Lemma prob_nonneg N rho j : is_state N rho -> (0 <= cre (prob N rho j))%R.
Proof.
  intros [_ H]. specialize (H (fun m => kconj (wave N 1 m j))). eapply Rle_trans; [exact H|]. apply Req_le. f_equal. unfold prob. rewrite ksum_swap. apply ksum_ext. intros m _. apply ksum_ext. intros n _. rewrite kconj_invol. reflexivity.
Qed.
Lemma displayed fin matrix rho : is_state (2 ^ fin) rho ->
  (forall i, i < 2 ^ fin -> diagOf matrix i = cre (rho i i)) ->
  (forall mX, ffTransform [2 ^ fin] [0] matrix DIR_KX = Some mX -> forall i, i < 2 ^ fin -> diagOf mX i = cre (prob (2 ^ fin) rho i)) ->
  exists a, particleAverage fin matrix = Some a /\ particleProcess a = Some (particleColumns (2 ^ fin) rho).
Proof.
  intros S D DX. unfold particleAverage. destruct (ffTransform [2 ^ fin] [0] matrix DIR_KX) as [mX|] eqn:F.
  2:{ exfalso. unfold ffTransform in F. cbn [forallb nth] in F. rewrite transformable_pow2 in F. cbn [andb] in F. destruct matrix; discriminate. }
  specialize (DX mX eq_refl). eexists. split; [reflexivity|]. set (N := 2 ^ fin) in *.
  assert (EP : rsum (fun i => spaceK fin 1 i * diagOf matrix i)%R (seq 0 N) = cre (average_of N (momentum N 1) rho)).
  { rewrite momentum_average, cre_sum. apply rsum_ext_range. intros i I. rewrite cre_RC, D by exact I. unfold N. now rewrite (proj1 (space_grid fin 1 i one_nz)). }
  assert (EPP : rsum (fun i => spaceK fin 1 i * spaceK fin 1 i * diagOf matrix i)%R (seq 0 N) = cre (average_of N (product N (momentum N 1) (momentum N 1)) rho)).
  { rewrite momentum_sq_average, cre_sum. apply rsum_ext_range. intros i I. rewrite cre_RC, D by exact I. unfold N. now rewrite (proj1 (space_grid fin 1 i one_nz)). }
  assert (EX : rsum (fun i => spaceX fin 1 i * diagOf mX i)%R (seq 0 N) = cre (average_of N (position N 1) rho)).
  { change (position N 1) with (inX N (gridX N 1)). rewrite inX_average, cre_sum. apply rsum_ext_range. intros i I. rewrite cre_RC, DX by exact I. unfold N. now rewrite (proj2 (space_grid fin 1 i one_nz)). }
  assert (EXX : rsum (fun i => spaceX fin 1 i * spaceX fin 1 i * diagOf mX i)%R (seq 0 N) = cre (average_of N (product N (position N 1) (position N 1)) rho)).
  { transitivity (cre (average_of N (inX N (fun j => gridX N 1 j * gridX N 1 j)%R) rho)).
    - rewrite inX_average, cre_sum. apply rsum_ext_range. intros i I. rewrite cre_RC, DX by exact I. unfold N. now rewrite (proj2 (space_grid fin 1 i one_nz)).
    - f_equal. unfold average_of. apply ksum_ext. intros m _. apply ksum_ext. intros n _. f_equal. unfold N. symmetry. apply (inX_product fin (gridX (2 ^ fin) 1) (gridX (2 ^ fin) 1)). }
  unfold particleProcess. assert (V := variance_nonneg (spaceX fin 1) (diagOf mX) N).
  destruct (Rlt_dec _ 0) as [L|L].
  - exfalso. apply (Rlt_not_le _ _ L), V.
    + intros j J. rewrite DX by exact J. now apply prob_nonneg.
    + rewrite (rsum_ext_range _ (fun j => cre (prob N rho j))) by exact DX. rewrite <- cre_sum. unfold N. rewrite prob_trace. destruct S as [S _]. fold N. rewrite S. reflexivity.
  - cbv zeta in *. rewrite EP, EPP, EX, EXX. reflexivity.
Qed.
Lemma displayed_mixed fin rho : is_state (2 ^ fin) (fun m n => rho [m] [n]) ->
  exists a, particleAverage fin (Mixed rho) = Some a /\ particleProcess a = Some (particleColumns (2 ^ fin) (fun m n => rho [m] [n])).
Proof.
  intros S. apply displayed; [exact S|reflexivity|]. intros mX F i I. unfold ffTransform in F. cbn [forallb nth] in F. rewrite transformable_pow2 in F. cbn [andb fold_left] in F. injection F as <-.
  cbn [diagOf]. unfold fftWorkerDO. cbn [nth at_position]. now rewrite prob_mixed.
Qed.
Lemma pure_state N psi : overlap N psi psi = k1 -> is_state N (fun m n => kmul (psi m) (kconj (psi n))).
Proof.
  intros H. split.
  - rewrite <- H. apply ksum_ext. intros; ring.
  - intros phi. set (z := overlap N phi psi). replace (ksum _ _) with (kmul (kconj z) z); [rewrite csq_conj; cbn; apply csq_nonneg|].
    replace (kmul (kconj z) z) with (kmul z (kconj z)) by ring. unfold z, overlap. rewrite ksum_conj, <- ksum_scal_r. apply ksum_ext. intros m _. rewrite <- ksum_scal_l. apply ksum_ext. intros n _. rewrite kconj_mul, kconj_invol. ring.
Qed.
Lemma displayed_pure fin psi : overlap (2 ^ fin) (fun m => psi [m]) (fun m => psi [m]) = k1 ->
  exists a, particleAverage fin (Pure psi) = Some a /\ particleProcess a = Some (particleColumns (2 ^ fin) (fun m n => kmul (psi [m]) (kconj (psi [n])))).
Proof.
  intros S. apply displayed.
  - exact (pure_state (2 ^ fin) (fun m => psi [m]) S).
  - intros i _. cbn [diagOf]. replace (kmul (psi [i]) (kconj (psi [i]))) with (kmul (kconj (psi [i])) (psi [i])) by ring. now rewrite csq_conj.
  - intros mX F i I. unfold ffTransform in F. cbn [forallb nth] in F. rewrite transformable_pow2 in F. cbn [andb fold_left] in F. injection F as <-.
    cbn [diagOf]. unfold fftWorkerSV. cbn [nth at_position]. rewrite (prob_pure (2 ^ fin) (fun m => psi [m])). rewrite (proj2 (fin_wave fin 1 (fun v => psi [v]) i one_nz I)). rewrite csq_mul, csq_conj. cbn [cre RC fst].
    assert (E : csq (kconj (common fin)) = 1%R) by (rewrite <- (common_csq fin); destruct (common fin); unfold csq; cbn; ring). rewrite E. apply Rmult_1_l.
Qed.
