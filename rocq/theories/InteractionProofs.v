(** From rotating operators to generators of interactions. *)
From Coq Require Import List Arith Bool ZArith Lia Reals Lra.
From Verif Require Import Star CReal Arr SliceSpec HermSpec DensitySpec TriModel TriSpec TriProofs TriPropagate TriLemmas FreeExactModel FreeExactSpec ElementModel ElementSpec ModeModel ModeProofs CompositeModel
  CompositeSpec CompositeProofs EmbedProofs ParticleModel ParticleSpec InteractionModel InteractionSpec RotProofs RotOps.
Import ListNotations.
Add Ring CRIp : (k_ring CR).
Local Open Scope nat_scope.

(** ** products of matrices *)
Lemma kron_app l1 l2 y1 y2 x1 x2 : length y1 = length l1 -> length x1 = length l1 -> kron (l1 ++ l2) (y1 ++ y2) (x1 ++ x2) = kmul (kron l1 y1 x1) (kron l2 y2 x2).
Proof.
  revert y1 x1. induction l1 as [|m l1 IH]; intros [|i y1] [|j x1]; try discriminate; intros H1 H2; cbn [app kron].
  - ring.
  - rewrite IH by (cbn in *; lia). ring.
Qed.
Lemma together_app e1 e2 y1 y2 : length y1 = length e1 -> together (e1 ++ e2) (y1 ++ y2) = kadd (together e1 y1) (together e2 y2).
Proof.
  revert y1. induction e1 as [|e e1 IH]; intros [|i y1]; try discriminate; intros H1; cbn [app together].
  - ring.
  - rewrite IH by (cbn in *; lia). ring.
Qed.
Lemma kron_adj l : forall y x, kconj (kron l x y) = kron (map adj l) y x.
Proof.
  induction l as [|m l IH]; intros [|i y] [|j x]; cbn [map kron]; try apply kconj_1. rewrite kconj_mul, IH. reflexivity.
Qed.
Lemma prod_kron b s1 s2 e1 e2 l1 l2 t1 t2 : length s1 = length e1 -> length s1 = length l1 -> rot b s1 (rate e1) t1 (kron l1) -> rot b s2 (rate e2) t2 (kron l2) ->
  exists t, prod t1 t2 = Ok t /\ rot b (s1 ++ s2) (rate (e1 ++ e2)) t (kron (l1 ++ l2)).
Proof.
  intros L1 L2 H1 H2. destruct (rot_direct b s1 s2 _ _ t1 t2 _ _ H1 H2) as [t [E H]]. exists t. split; [exact E|].
  eapply rot_D; [|eapply rot_ext; [|exact H]].
  - intros y Hy. destruct (inr_split _ _ _ Hy) as (y1 & y2 & -> & Y1 & Y2 & Y3). unfold dsum. rewrite firstn_len, skipn_len by auto. unfold rate. rewrite together_app by congruence. ring.
  - intros y x Hy Hx. destruct (inr_split _ _ _ Hy) as (y1 & y2 & -> & Y1 & Y2 & Y3). destruct (inr_split _ _ _ Hx) as (x1 & x2 & -> & X1 & X2 & X3).
    unfold tensor. rewrite !firstn_len, !skipn_len by auto. rewrite kron_app by congruence. reflexivity.
Qed.
(** an operator D-diagonal in the first factor and without frequencies in both, D general in the first *)
Lemma rot_dagger_kron b sh D t l : rot b sh D t (kron l) -> rot b sh D (dagger t) (kron (map adj l)).
Proof. intros H. eapply rot_ext; [|exact (rot_dagger _ _ _ _ _ H)]. intros y x _ _. apply kron_adj. Qed.
Lemma adj_annihilation : forall m n, adj annihilation m n = creation m n.
Proof. intros m n. apply annihilation_conj. Qed.

(** ** the action of the list *)
Definition rotated (s : R) (D : list nat -> CR) (M : lop) : lop := fun y x => kmul (kmul (cexp (kmul (RC s) (D y))) (M y x)) (cexp (kopp (kmul (RC s) (D x)))).
Definition after (dts : list R) (t : triC) : triC := fold_left (fun x s => propagate s x) dts t.
Lemma after_dims dts : forall t, dims (after dts t) = dims t /\ diffs (after dts t) = diffs t.
Proof. induction dts as [|s dts IH]; intros t; [auto|]. unfold after. cbn [fold_left]. destruct (IH (propagate s t)) as [A B]. unfold after in *. rewrite A, B. auto. Qed.
Lemma after_apply sh D t M dts s psi d y : rots sh D t M -> inr sh y ->
  apply (propagate s (after dts t)) psi d y = kadd (d y) (isum sh (fun x => kmul (rotated s D M y x) (psi x))).
Proof.
  intros H Hy. pose proof H as (A1 & A2 & A3 & A4 & _). destruct (after_dims dts t) as [E1 E2]. rewrite apply_matrix.
  - cbn [propagate dims]. rewrite E1, A4. f_equal. apply isum_ext. intros x Hx. f_equal. unfold after. rewrite (eqt_tmat _ _ y x (propagate_path dts s t)). now rewrite (rots_time sh D t M s y x H Hy Hx).
  - cbn [propagate diffs]. unfold rankOf. cbn [propagate dims]. rewrite E1, E2. destruct A1 as (_ & L & _). exact L.
  - cbn [propagate dims]. rewrite E1, A4. exact Hy.
Qed.
Definition zeroM : lop := fun _ _ => k0.
Definition sumM (Ms : list lop) : lop := fold_right plusO zeroM Ms.
Lemma isum_rot_add sh s D A B psi y : isum sh (fun x => kmul (rotated s D (plusO A B) y x) (psi x)) =
  kadd (isum sh (fun x => kmul (rotated s D A y x) (psi x))) (isum sh (fun x => kmul (rotated s D B y x) (psi x))).
Proof. rewrite <- isum_add. apply isum_ext. intros x _. unfold rotated, plusO. ring. Qed.
Lemma list_action sh D dts s psi ts Ms : Forall2 (rots sh D) ts Ms -> forall d y, inr sh y ->
  fold_left (fun d h => apply h psi d) (map (propagate s) (map (after dts) ts)) d y = kadd (d y) (isum sh (fun x => kmul (rotated s D (sumM Ms) y x) (psi x))).
Proof.
  induction 1 as [|t M ts Ms H1 H2 IH]; intros d y Hy; cbn [map fold_left sumM fold_right].
  - rewrite (isum_zero sh); [ring|]. intros b _. unfold rotated, zeroM. ring.
  - rewrite IH by auto. rewrite (after_apply sh D t M dts s psi d y H1 Hy). fold (sumM Ms). rewrite isum_rot_add. ring.
Qed.

(** ** the state after earlier calls *)
Definition afterGen (dts : list R) (g : generalH) : generalH :=
  mkGen (after dts (gFirst g)) (after dts (gFirstT g)) (after dts (gSecond g)) (after dts (gSecondT g)).
Lemma intAfter_eq dts : forall h, intAfter dts h = mkIntH (ihDims h) (map (after dts) (ihList h)) (option_map (afterGen dts) (ihGen h)).
Proof.
  induction dts as [|s dts IH]; intros [ds hs [g|]]; unfold intAfter in *; cbn [fold_left].
  - cbn [option_map ihDims ihList ihGen]. unfold afterGen, after. cbn [fold_left]. rewrite map_id. now destruct g.
  - cbn [option_map ihDims ihList ihGen]. unfold after. cbn [fold_left]. now rewrite map_id.
  - rewrite IH. cbn [intContribution addContribution ihDims ihList ihGen fst option_map]. rewrite map_map. reflexivity.
  - rewrite IH. cbn [intContribution addContribution ihDims ihList ihGen fst option_map]. rewrite map_map. reflexivity.
Qed.

(** ** back to the Schroedinger picture *)
Lemma carried_back sh es s G psi y : carried es s (fun y => isum sh (fun x => kmul (rotated s (rate es) G y x) (psi x))) y = isum sh (fun x => kmul (G y x) (carried es s psi x)).
Proof.
  unfold carried. rewrite <- isum_scal_l. apply isum_ext. intros x _. unfold rotated, rate.
  replace (kmul (RC s) (kopp (together es y))) with (kopp (kmul (RC s) (together es y))) by ring.
  replace (kopp (kmul (RC s) (kopp (together es x)))) with (kmul (RC s) (together es x)) by ring.
  pose proof (cexp_inv (kmul (RC s) (together es y))) as H. revert H. generalize (cexp (kmul (RC s) (together es y))) (cexp (kopp (kmul (RC s) (together es y)))) (cexp (kmul (RC s) (together es x))) (G y x) (psi x).
  intros a b c g p H. replace (kmul a (kmul (kmul (kmul b g) c) p)) with (kmul (kmul a b) (kmul g (kmul c p))) by ring. rewrite H. ring.
Qed.
Lemma generator_list sh es ts Ms : Forall2 (rots sh (rate es)) ts Ms -> has_generator (mkIntH sh ts None) es any_state (sumM Ms).
Proof.
  intros H dts dt psi dpsidt _. rewrite intAfter_eq. cbn [ihDims ihList ihGen option_map intContribution addContribution snd]. eexists. split; [reflexivity|].
  intros y Hy. rewrite <- carried_back. unfold carried. f_equal. rewrite (list_action sh (rate es) dts dt psi ts Ms H dpsidt y Hy). ring.
Qed.
Lemma generator_ext h es P G G' : (forall y x, inr (ihDims h) y -> inr (ihDims h) x -> G y x = G' y x) -> has_generator h es P G -> has_generator h es P G'.
Proof.
  intros E H dts dt psi d HP. destruct (H dts dt psi d HP) as [d' [E1 E2]]. exists d'. split; [exact E1|]. intros y Hy. rewrite E2 by auto. apply isum_ext. intros x Hx. now rewrite E.
Qed.
Lemma generator_one sh es t M : rots sh (rate es) t M -> has_generator (mkIntH sh [t] None) es any_state M.
Proof.
  intros H. eapply generator_ext; [|apply (generator_list sh es [t] [M]); auto]. intros y x _ _. cbn [sumM fold_right]. unfold plusO, zeroM. ring.
Qed.
Lemma generator_none sh es : has_generator (mkIntH sh [] None) es any_state zeroM.
Proof. exact (generator_list sh es [] [] (Forall2_nil _)). Qed.
Lemma generator_P h es (P P' : array -> Prop) G : (forall psi, P' psi -> P psi) -> has_generator h es P G -> has_generator h es P' G.
Proof. intros E H dts dt psi d HP. apply H. now apply E. Qed.

(** ** the general path: a second operator acting on the last constituent *)
Definition mmulC (n : nat) (A B : mat) : mat := fun i j => lsum n (fun k => kmul (A i k) (B k j)).
Lemma coords_firstn (y : list nat) : forall n off z, n <= length y -> (forall k, nth (off + k) z 0 = nth k y 0) -> map (fun v => nth v z 0) (seq off n) = firstn n y.
Proof.
  induction y as [|i y IH]; intros [|n] off z Hn H; try reflexivity; [cbn in Hn; lia|]. cbn [seq map firstn]. f_equal.
  - specialize (H 0). rewrite Nat.add_0_r in H. exact H.
  - apply IH; [cbn in Hn; lia|]. intros k. specialize (H (S k)). replace (S off + k) with (off + S k) by lia. exact H.
Qed.
Lemma others_last n : others (n + 1) [n] = seq 0 n.
Proof.
  unfold others. rewrite seq_app, filter_app. cbn [seq filter]. rewrite Nat.add_0_l. destruct (in_dec Nat.eq_dec n [n]) as [_|H]; [|exfalso; apply H; now left]. rewrite app_nil_r.
  assert (G : forall l, (forall v, In v l -> v < n) -> filter (fun o => if in_dec Nat.eq_dec o [n] then false else true) l = l).
  { induction l as [|v l IH]; intros H; [reflexivity|]. cbn [filter]. destruct (in_dec Nat.eq_dec v [n]) as [[->|[]]|_]; [specialize (H v (or_introl eq_refl)); lia|]. f_equal. apply IH. intros w Hw. apply H. now right. }
  apply G. intros v Hv. apply in_seq in Hv. lia.
Qed.
Lemma embed_last sh n (M : lop) y i x j : length y = length sh -> length x = length sh -> embed [length sh] (sh ++ [n]) M (y ++ [i]) (x ++ [j]) = if listnat_eqb y x then M [i] [j] else k0.
Proof.
  intros Ly Lx. unfold embed. rewrite app_length. cbn [length]. rewrite others_last. unfold coords. cbn [map].
  assert (E : forall z k, length z = length sh -> map (fun v => nth v (z ++ [k]) 0) (seq 0 (length sh)) = z /\ nth (length sh) (z ++ [k]) 0 = k).
  { intros z k Lz. split.
    - rewrite (coords_firstn (z ++ [k]) (length sh) 0 (z ++ [k])); [|rewrite app_length; cbn; lia|reflexivity]. now apply firstn_len.
    - rewrite <- Lz. apply nth_middle. }
  destruct (E y i Ly) as [-> ->], (E x j Lx) as [-> ->]. reflexivity.
Qed.
Lemma embed_last_sum sh n (M : lop) (g : list nat -> CR) y i : inr sh y -> isum (sh ++ [n]) (fun k => kmul (embed [length sh] (sh ++ [n]) M (y ++ [i]) k) (g k)) = lsum n (fun k => kmul (M [i] [k]) (g (y ++ [k]))).
Proof.
  intros Hy. rewrite isum_app. rewrite (isum_single sh _ y Hy).
  - rewrite isum1. apply ElementProofs.lsum_ext. intros k _. rewrite embed_last by (now apply inr_length). now rewrite listnat_eqb_refl.
  - intros b Hb Hne. rewrite isum1. apply ElementProofs.lsum_zero. intros k _. rewrite embed_last by (now apply inr_length). destruct (listnat_eqb_spec y b) as [->|_]; [congruence|]. ring.
Qed.
Lemma lsum_isum n sh (f : nat -> list nat -> CR) : lsum n (fun k => isum sh (f k)) = isum sh (fun x => lsum n (fun k => f k x)).
Proof. pose proof (isum_swap [n] sh (fun l x => f (nth 0 l 0) x)) as H. rewrite isum1 in H. cbn [nth] in H. etransitivity; [exact H|]. apply isum_ext. intros x _. now rewrite isum1. Qed.

Definition lastMul (n : nat) (g : mat) (M : lop) : lop := fun y x => lsum n (fun k => kmul (g (last y 0) k) (M (removelast y ++ [k]) x)).
Lemma last_app (y : list nat) i : last (y ++ [i]) 0 = i /\ removelast (y ++ [i]) = y.
Proof. split; [apply last_last|apply removelast_last]. Qed.
Lemma inr_last sh n y : inr (sh ++ [n]) y -> exists y' i, y = y' ++ [i] /\ inr sh y' /\ i < n /\ length y' = length sh.
Proof.
  intros H. destruct (inr_split _ _ _ H) as (y1 & y2 & -> & Y1 & Y2 & Y3). destruct (inr1_inv _ _ Y2) as [i [-> Hi]]. eauto 8.
Qed.
Lemma rotated_twice es e s g M n y i psi sh : length y = length es ->
  lsum n (fun k => kmul (rotated s (rate [e]) (kron [g]) [i] [k]) (isum (sh ++ [n]) (fun x => kmul (rotated s (rate (es ++ [e])) M (y ++ [k]) x) (psi x)))) =
  isum (sh ++ [n]) (fun x => kmul (rotated s (rate (es ++ [e])) (lastMul n g M) (y ++ [i]) x) (psi x)).
Proof.
  intros L. transitivity (isum (sh ++ [n]) (fun x => lsum n (fun k => kmul (rotated s (rate [e]) (kron [g]) [i] [k]) (kmul (rotated s (rate (es ++ [e])) M (y ++ [k]) x) (psi x))))).
  - rewrite <- lsum_isum. apply ElementProofs.lsum_ext. intros k _. now rewrite isum_scal_l.
  - apply isum_ext. intros x _. unfold rotated at 3. unfold lastMul. destruct (last_app y i) as [-> ->]. unfold lsum. rewrite <- ksum_scal_l, <- !ksum_scal_r.
    apply ksum_ext. intros k _. unfold rotated, rate. rewrite kron1, !together_app by auto. cbn [together].
    set (Y := together es y). set (X := together (es ++ [e]) x). set (P := psi x). set (Q := M (y ++ [k]) x). set (R1 := g i k).
    replace (kmul (RC s) (kopp (kadd (e i) k0))) with (kmul (RC s) (kopp (e i))) by ring.
    replace (kopp (kmul (RC s) (kopp (kadd (e k) k0)))) with (kmul (RC s) (e k)) by ring.
    replace (kmul (RC s) (kopp (kadd Y (kadd (e k) k0)))) with (kadd (kmul (RC s) (kopp Y)) (kopp (kmul (RC s) (e k)))) by ring.
    replace (kmul (RC s) (kopp (kadd Y (kadd (e i) k0)))) with (kadd (kmul (RC s) (kopp Y)) (kmul (RC s) (kopp (e i)))) by ring.
    rewrite !cexp_add. pose proof (cexp_inv (kmul (RC s) (e k))) as H. revert H.
    generalize (cexp (kmul (RC s) (e k))) (cexp (kopp (kmul (RC s) (e k)))) (cexp (kmul (RC s) (kopp (e i)))) (cexp (kmul (RC s) (kopp Y))) (cexp (kopp (kmul (RC s) (kopp X)))).
    intros a a' b c d H. replace (kmul (kmul (kmul b R1) a) (kmul (kmul (kmul (kmul c a') Q) d) P)) with (kmul (kmul a a') (kmul (kmul (kmul (kmul c b) (kmul R1 Q)) d) P)) by ring. rewrite H. ring.
Qed.
Lemma second_stage sh n es e dts dt tF MF tS g psi d : (forall k, In k (sh ++ [n]) -> 0 < k) -> length sh = length es ->
  rots (sh ++ [n]) (rate (es ++ [e])) tF MF -> rots [n] (rate [e]) tS (kron [g]) ->
  exists d', onSlices2 (sh ++ [n]) [length sh] (fun s d => apply (propagate dt (after dts tS)) s d) (apply (propagate dt (after dts tF)) psi (fun _ => k0)) d = Some d' /\
    forall y, inr (sh ++ [n]) y -> d' y = kadd (d y) (isum (sh ++ [n]) (fun x => kmul (rotated dt (rate (es ++ [e])) (lastMul n g MF) y x) (psi x))).
Proof.
  intros Hpos L HF HS.
  assert (GP : good_positions (length (sh ++ [n])) [length sh]).
  { split; [constructor; [intros []|constructor]|]. intros v [<-|[]]. rewrite app_length. cbn. lia. }
  assert (Cd : coords [length sh] (sh ++ [n]) = [n]) by (unfold coords; cbn [map]; now rewrite nth_middle).
  destruct (onSlices2_embed (sh ++ [n]) [length sh] GP Hpos (fun s d => apply (propagate dt (after dts tS)) s d) (rotated dt (rate [e]) (kron [g]))
              (apply (propagate dt (after dts tF)) psi (fun _ => k0)) d) as [d' [E H]].
  - intros psi0 d0 s0. rewrite Cd. intros Hs. apply (after_apply [n] (rate [e]) tS _ dts dt psi0 d0 s0 HS Hs).
  - exists d'. split; [exact E|]. intros y Hy. rewrite H by auto. f_equal. destruct (inr_last _ _ _ Hy) as (y' & i & -> & Hy' & Hi & Ly).
    rewrite embed_last_sum by auto. rewrite <- (rotated_twice es e dt g MF n y' i psi sh) by congruence. apply ElementProofs.lsum_ext. intros k Hk. f_equal.
    rewrite (after_apply (sh ++ [n]) (rate (es ++ [e])) tF MF dts dt psi (fun _ => k0) (y' ++ [k]) HF); [ring|]. apply Forall2_app; [exact Hy'|]. now apply inr1.
Qed.
Lemma generator_general sh n es e ts Ms tF MF tFT MFT tS g tST gT :
  (forall k, In k (sh ++ [n]) -> 0 < k) -> length sh = length es -> Forall2 (rots (sh ++ [n]) (rate (es ++ [e]))) ts Ms ->
  rots (sh ++ [n]) (rate (es ++ [e])) tF MF -> rots (sh ++ [n]) (rate (es ++ [e])) tFT MFT -> rots [n] (rate [e]) tS (kron [g]) -> rots [n] (rate [e]) tST (kron [gT]) ->
  has_generator (mkIntH (sh ++ [n]) ts (Some (mkGen tF tFT tS tST))) (es ++ [e]) any_state (plusO (sumM Ms) (plusO (lastMul n g MF) (lastMul n gT MFT))).
Proof.
  intros Hpos L Hts HF HFT HS HST dts dt psi dpsidt _. rewrite intAfter_eq. cbn [ihDims ihList ihGen option_map intContribution addContribution snd afterGen propagateGen gFirst gFirstT gSecond gSecondT].
  replace (length (sh ++ [n]) - 1) with (length sh) by (rewrite app_length; cbn; lia).
  set (d0 := fold_left _ _ dpsidt).
  destruct (second_stage sh n es e dts dt tF MF tS g psi d0 Hpos L HF HS) as [d1 [E1 H1]]. rewrite E1.
  destruct (second_stage sh n es e dts dt tFT MFT tST gT psi d1 Hpos L HFT HST) as [d2 [E2 H2]]. exists d2. split; [exact E2|].
  intros y Hy. rewrite <- carried_back. unfold carried. f_equal. rewrite H2, H1 by auto. unfold d0. rewrite (list_action (sh ++ [n]) (rate (es ++ [e])) dts dt psi ts Ms Hts dpsidt y Hy), !isum_rot_add. ring.
Qed.
