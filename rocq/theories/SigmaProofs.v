(** Direct products with |L><R| and the multi-level Jaynes-Cummings interaction: proofs of C90 and C91. *)
From Coq Require Import List Arith Bool Lia Reals Lra.
From Verif Require Import Star CReal Arr TriModel TriSpec TriProofs TriPropagate TriLemmas ElementModel ElementSpec ModeModel ModeProofs CompositeModel CompositeSpec CompositeProofs ParticleModel
  InteractionModel InteractionSpec RotProofs RotOps InteractionProofs InteractionFacts InteractionLaws SigmaModel SigmaSpec.
Import ListNotations.
Add Ring CRSig : (k_ring CR).
Local Open Scope nat_scope.

Lemma lsum_pick n r (f : nat -> CR) : r < n -> lsum n (fun k => kmul (if k =? r then k1 else k0) (f k)) = f r.
Proof.
  intros H. unfold lsum. rewrite (ksum_single _ (seq 0 n) r).
  - rewrite Nat.eqb_refl. ring.
  - apply seq_NoDup.
  - apply in_seq. lia.
  - intros b _ Hb. destruct (Nat.eqb_spec b r); [congruence|]. ring.
Qed.
Lemma isum_head n sh l r i (M : list nat -> CR) (psi : array) : r < n ->
  isum (n :: sh) (fun x => kmul (kmul (ketbra l r i (hd 0 x)) (M (tl x))) (psi x)) = if i =? l then isum sh (fun x => kmul (M x) (psi (r :: x))) else k0.
Proof.
  intros Hr. change (n :: sh) with ([n] ++ sh). rewrite isum_app, isum1. cbn [app hd tl].
  rewrite (ElementProofs.lsum_ext n _ (fun k => kmul (if k =? r then k1 else k0) (if i =? l then isum sh (fun x => kmul (M x) (psi (k :: x))) else k0))).
  2:{ intros k _. unfold ketbra. destruct (i =? l); cbn [andb].
      - rewrite <- isum_scal_l. apply isum_ext. intros x _. ring.
      - rewrite (isum_zero sh); [ring|]. intros x _. ring. }
  now rewrite lsum_pick.
Qed.
Lemma isum_tail n sh l r i (M : list nat -> CR) (psi : array) : r < n ->
  isum (sh ++ [n]) (fun x => kmul (kmul (M (removelast x)) (ketbra l r i (last x 0))) (psi x)) = if i =? l then isum sh (fun x => kmul (M x) (psi (x ++ [r]))) else k0.
Proof.
  intros Hr. rewrite isum_app. destruct (Nat.eqb_spec i l) as [->|Hi].
  - apply isum_ext. intros x _. rewrite isum1.
    rewrite (ElementProofs.lsum_ext n _ (fun k => kmul (if k =? r then k1 else k0) (kmul (M x) (psi (x ++ [k]))))).
    + now rewrite lsum_pick.
    + intros k _. rewrite last_last, removelast_last. unfold ketbra. rewrite Nat.eqb_refl. cbn [andb]. ring.
  - apply isum_zero. intros x _. rewrite isum1. apply ElementProofs.lsum_zero. intros k _. rewrite last_last. unfold ketbra. destruct (Nat.eqb_spec i l); [congruence|]. cbn [andb]. ring.
Qed.
(** any operator acting as a matrix, in place of OTHER *)
Definition actsAs (sh : list nat) (f : array -> array -> array) (M : lop) : Prop :=
  forall psi d y, inr sh y -> f psi d y = kadd (d y) (isum sh (fun x => kmul (M y x) (psi x))).
Lemma head_acts n sh l r f M : l < n -> r < n -> actsAs sh f M ->
  actsAs (n :: sh) (fun psi d => writeBack true d l (f (partialProject true psi r) (partialProject true d l))) (fun y x => kmul (ketbra l r (hd 0 y) (hd 0 x)) (M (tl y) (tl x))).
Proof.
  intros Hl Hr Hf psi d y Hy. inversion Hy as [|i ? y' ? Hi Hy']; subst. cbn [hd tl]. rewrite (isum_head n sh l r i (fun x => M y' x) psi Hr).
  unfold writeBack. destruct (Nat.eqb_spec i l) as [->|_]; [|ring]. rewrite Hf by exact Hy'. reflexivity.
Qed.
Lemma tail_acts n sh l r f M : l < n -> r < n -> actsAs sh f M ->
  actsAs (sh ++ [n]) (fun psi d => writeBack false d l (f (partialProject false psi r) (partialProject false d l))) (fun y x => kmul (M (removelast y) (removelast x)) (ketbra l r (last y 0) (last x 0))).
Proof.
  intros Hl Hr Hf psi d y Hy. destruct (inr_last _ _ _ Hy) as (y' & i & -> & Hy' & Hi & _). rewrite last_last, removelast_last. rewrite (isum_tail n sh l r i (fun x => M y' x) psi Hr).
  unfold writeBack. rewrite last_last, removelast_last. destruct (Nat.eqb_spec i l) as [->|_]; [|ring]. rewrite Hf by exact Hy'. reflexivity.
Qed.
Lemma product_fact o : forall sh, fitsDims sh o -> forall psi d y, inr sh y -> dpApply o psi d y = kadd (d y) (isum sh (fun x => kmul (productOf o y x) (psi x))).
Proof.
  induction o as [l r|t|l r o IH|l r o IH]; intros sh H.
  - destruct H as (n & -> & Hl & Hr). intros psi d y Hy. destruct (inr1_inv _ _ Hy) as [i [-> Hi]]. cbn [dpApply productOf hd]. rewrite isum1.
    rewrite (ElementProofs.lsum_ext n _ (fun k => kmul (if k =? r then k1 else k0) (if i =? l then psi [k] else k0))).
    2:{ intros k _. unfold ketbra. cbn [hd]. destruct (i =? l), (k =? r); cbn [andb]; ring. }
    rewrite lsum_pick by exact Hr. destruct (listnat_eqb_spec [i] [l]) as [E|E]; destruct (Nat.eqb_spec i l) as [F|F]; try congruence. ring.
  - destruct H as (<- & H). intros psi d y Hy. cbn [dpApply productOf]. apply apply_matrix; [|exact Hy]. destruct H as (_ & L & _). exact L.
  - destruct H as (n & sh' & -> & Hl & Hr & H). exact (head_acts n sh' l r _ _ Hl Hr (IH sh' H)).
  - destruct H as (n & sh' & -> & Hl & Hr & H). exact (tail_acts n sh' l r _ _ Hl Hr (IH sh' H)).
Qed.
Lemma dagger_fact s i j : ketbra (fst (sigmaDagger s)) (snd (sigmaDagger s)) i j = kconj (ketbra (fst s) (snd s) j i).
Proof. destruct s as [l r]. unfold ketbra. cbn [sigmaDagger fst snd]. rewrite andb_comm. destruct ((j =? l) && (i =? r)); now rewrite ?kconj_1, ?kconj_0. Qed.

(** ** MLJC *)
Lemma mljcAfter_eq dts : forall ds, mljcAfter dts ds = map (fun d => mkMD (mdI d) (mdJ d) (after dts (mdA d)) (after dts (mdAdagger d))) ds.
Proof.
  induction dts as [|s dts IH]; intros ds; unfold mljcAfter in *; cbn [fold_left].
  - unfold after. cbn [fold_left]. rewrite <- map_id at 1. apply map_ext. now intros [].
  - rewrite IH. cbn [mljcContribution fst]. rewrite map_map. apply map_ext. now intros [].
Qed.
Section Term.
Variables (NL : nat) (m : cavity) (b : bool).
Hypothesis (Hm : cavIs b m) (Hd : 0 < cvDim m).
Let es := [no_rate; cavRate m].
Lemma rotated_head l r i n (A : mat) s x : inr [NL; cvDim m] x ->
  kmul (ketbra l r i (hd 0 x)) (rotated s (rate [cavRate m]) (kron [A]) [n] (tl x)) = rotated s (rate es) (kron [ketbra l r; A]) [i; n] x.
Proof.
  intros Hx. destruct (inr2_inv _ _ _ Hx) as (j & k & -> & Hj & Hk). cbn [hd tl]. unfold rotated, rate. rewrite kron1, kron2. cbn [together es]. unfold es, no_rate. cbn [together].
  replace (kadd k0 (kadd (cavRate m n) k0)) with (kadd (cavRate m n) k0) by ring. replace (kadd k0 (kadd (cavRate m k) k0)) with (kadd (cavRate m k) k0) by ring. ring.
Qed.
Lemma term_acts l r t A dts s : l < NL -> r < NL -> rot b [cvDim m] (rate [cavRate m]) t (kron [A]) ->
  actsAs [NL; cvDim m] (dpApply (DHead l r (DTri (propagate s (after dts t))))) (rotated s (rate es) (kron [ketbra l r; A])).
Proof.
  intros Hl Hr [H _] psi d y Hy. cbn [dpApply].
  rewrite (head_acts NL [cvDim m] l r (apply (propagate s (after dts t))) (rotated s (rate [cavRate m]) (kron [A])) Hl Hr).
  - f_equal. apply isum_ext. intros x Hx. f_equal. destruct (inr2_inv _ _ _ Hy) as (i & n & -> & Hi & Hn). cbn [hd tl]. now apply rotated_head.
  - intros psi0 d0 y0 Hy0. exact (after_apply [cvDim m] (rate [cavRate m]) t (kron [A]) dts s psi0 d0 y0 H Hy0).
  - exact Hy.
Qed.
Lemma make_md c : exists a, cavAop m = Ok a /\ rot b [cvDim m] (rate [cavRate m]) (scale (kopp (cG c)) a) (kron [fun i j => kmul (kopp (cG c)) (annihilation i j)]) /\
  rot b [cvDim m] (rate [cavRate m]) (dagger (scale (cG c) a)) (kron [fun i j => kmul (kconj (cG c)) (creation i j)]).
Proof.
  destruct (cav_rot b m Hm Hd) as [a [E H]]. exists a. split; [exact E|]. split; [exact (kron_scale1 _ _ _ _ _ _ H)|].
  eapply rot_ext; [|exact (rot_dagger_kron _ _ _ _ _ (kron_scale1 _ _ _ _ (cG c) _ H))].
  intros y x Hy Hx. destruct (inr1_inv _ _ Hy) as [i [-> _]]. destruct (inr1_inv _ _ Hx) as [j [-> _]]. cbn [map]. rewrite !kron1. unfold adj. rewrite kconj_mul. f_equal. apply adj_annihilation.
Qed.
Lemma term_matrix c y x : inr [NL; cvDim m] y -> inr [NL; cvDim m] x ->
  kadd (kron [ketbra (cI c) (cJ c); fun i j => kmul (kconj (cG c)) (creation i j)] y x) (kron [ketbra (cJ c) (cI c); fun i j => kmul (kopp (cG c)) (annihilation i j)] y x) =
  overI (hJaynesCummings (cG c) (ketbra (cI c) (cJ c))) y x.
Proof.
  intros Hy Hx. destruct (inr2_inv _ _ _ Hy) as (i & n & -> & _). destruct (inr2_inv _ _ _ Hx) as (j & k & -> & _). unfold overI, hJaynesCummings, timesO, plusO, hc. rewrite !kron2, !kconj_mul.
  assert (E1 : kconj (ketbra (cI c) (cJ c) j i) = ketbra (cJ c) (cI c) i j) by (symmetry; exact (dagger_fact (cI c, cJ c) i j)).
  assert (E2 : kconj (creation k n) = annihilation n k) by (rewrite <- adj_annihilation; apply kconj_invol). rewrite E1, E2, kconj_invol.
  generalize (ketbra (cI c) (cJ c) i j) (ketbra (cJ c) (cI c) i j) (creation n k) (annihilation n k) (cG c). intros [p1 p2] [q1 q2] [r1 r2] [s1 s2] [g1 g2]. apply cr_eq; cbn; ring.
Qed.
Lemma mljc_acts gs : (forall c, In c gs -> cI c < NL /\ cJ c < NL) -> exists ds, makeAll m gs = Ok ds /\
  forall dts s, actsAs [NL; cvDim m] (fun psi d => fold_left (mdApply psi) (map (mdPropagate s) (mljcAfter dts ds)) d) (rotated s (rate es) (overI (hMLJC gs))).
Proof.
  induction gs as [|c gs IH]; intros HI.
  - exists []. split; [reflexivity|]. intros dts s psi d y Hy. rewrite mljcAfter_eq. cbn [map fold_left]. rewrite (isum_zero [NL; cvDim m]); [ring|].
    intros x _. unfold rotated, overI, timesO, hMLJC. cbn [ksum fold_right]. ring.
  - destruct IH as [ds [E H]]; [intros; apply HI; now right|]. destruct (make_md c) as [a [Ea [Ha Hb]]]. destruct (HI c (or_introl eq_refl)) as [I1 I2].
    eexists. cbn [makeAll]. unfold makeModeDynamics. rewrite Ea. cbn [bind]. rewrite E. cbn [bind]. split; [reflexivity|].
    intros dts s psi d y Hy. specialize (H dts s). rewrite mljcAfter_eq in *. cbn [map fold_left mdPropagate]. rewrite H by exact Hy.
    unfold mdApply, mdPropagate. cbn [mdI mdJ mdA mdAdagger sigmaDagger fst snd].
    rewrite (term_acts (cJ c) (cI c) _ _ dts s I2 I1 Ha psi _ y Hy), (term_acts (cI c) (cJ c) _ _ dts s I1 I2 Hb psi d y Hy).
    assert (ES : isum [NL; cvDim m] (fun x => kmul (rotated s (rate es) (overI (hMLJC (c :: gs))) y x) (psi x)) =
      kadd (kadd (isum [NL; cvDim m] (fun x => kmul (rotated s (rate es) (kron [ketbra (cI c) (cJ c); fun i j => kmul (kconj (cG c)) (creation i j)]) y x) (psi x)))
                 (isum [NL; cvDim m] (fun x => kmul (rotated s (rate es) (kron [ketbra (cJ c) (cI c); fun i j => kmul (kopp (cG c)) (annihilation i j)]) y x) (psi x))))
           (isum [NL; cvDim m] (fun x => kmul (rotated s (rate es) (overI (hMLJC gs)) y x) (psi x)))).
    { rewrite <- !isum_add. apply isum_ext. intros x Hx. unfold rotated.
      replace (overI (hMLJC (c :: gs)) y x) with (kadd (overI (hJaynesCummings (cG c) (ketbra (cI c) (cJ c))) y x) (overI (hMLJC gs) y x)).
      - rewrite <- (term_matrix c y x Hy Hx). ring.
      - unfold overI, timesO, hMLJC. cbn [ksum fold_right]. ring. }
    rewrite ES. ring.
Qed.
End Term.
Lemma herm_mljc sh gs : hermitian sh (hMLJC gs).
Proof.
  intros y x Hy Hx. unfold hMLJC. rewrite ksum_conj. apply ksum_ext. intros c _. exact (herm_jc sh (cG c) _ y x Hy Hx).
Qed.
Lemma mljc_fact NL b m gs : cavIs b m -> 0 < cvDim m -> (forall c, In c gs -> cI c < NL /\ cJ c < NL) ->
  exists ds, makeMLJC false m gs = MMade (Ok ds) /\ mljc_generator [NL; cvDim m] [no_rate; cavRate m] ds (overI (hMLJC gs)).
Proof.
  intros Hm Hd HI. destruct (mljc_acts NL m b Hm Hd gs HI) as [ds [E H]]. exists ds. unfold makeMLJC. rewrite E. split; [reflexivity|].
  intros dts dt psi d y Hy. rewrite <- carried_back. unfold carried. f_equal. cbn [mljcContribution snd]. rewrite (H dts dt psi d y Hy). ring.
Qed.
Lemma mljc_norm NL b m gs : cavIs b m -> 0 < cvDim m -> (forall c, In c gs -> cI c < NL /\ cJ c < NL) ->
  exists ds, makeMLJC false m gs = MMade (Ok ds) /\ forall dts dt psi,
    norm_rate [NL; cvDim m] (carried [no_rate; cavRate m] dt psi) (carried [no_rate; cavRate m] dt (snd (mljcContribution dt (mljcAfter dts ds) psi (fun _ => k0)))) = k0.
Proof.
  intros Hm Hd HI. destruct (mljc_fact NL b m gs Hm Hd HI) as [ds [E H]]. exists ds. split; [exact E|]. intros dts dt psi. apply (hermitian_norm _ (hMLJC gs)); [apply herm_mljc|].
  intros y Hy. rewrite <- (H dts dt psi (fun _ => k0) y Hy). unfold carried. ring.
Qed.
Lemma mljc_refused m gs : makeMLJC true m gs = MNotImplemented <-> gs <> [].
Proof. destruct gs; cbn; split; congruence. Qed.
Lemma case_entry : overI (hMLJC [mkCoupling 0 2 ((1, 1)%R : CR); mkCoupling 1 2 ((0, 3)%R : CR)]) [0; 1] [2; 0] = ((1, -1)%R : CR).
Proof.
  unfold overI, timesO, hMLJC. cbn [ksum fold_right map cI cJ cG]. unfold hJaynesCummings, plusO, hc, timesO. rewrite !kron2. unfold ketbra, creation. cbn [Nat.eqb andb].
  apply cr_eq; cbn; rewrite ?sqrt_1; ring.
Qed.
