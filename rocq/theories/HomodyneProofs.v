From Coq Require Import List Arith Bool Lia Reals Lra.
From Verif Require Import Star CReal Arr PureModel PureProofs TriModel TriSpec TriProofs TriPropagate FreeExactModel FreeExactSpec
  ElementModel ElementSpec ElementProofs ElementLemmas ElementFacts ModeModel ModeSpec ModeProofs ModeFacts DampSpec DampProofs.
Import ListNotations.
Add Ring CRHo : (k_ring CR).

(** h^* a + h a^dagger *)
Definition quadM (h : CR) : mat := fun m n => kadd (kmul (kconj h) (annihilation m n)) (kmul h (creation m n)).
Definition homoC (p : modePars) : R := (sqrt (pKappa p / 2) * (sqrt (pNTh p) + sqrt (pNTh p + 1)))%R.
Definition homoM (h : CR) (p : modePars) : mat := fun m n => ksub (modeGenerator p m n) (kmul (RC (homoC p)) (quadM h m n)).

Lemma homodyne_generator h p : (0 < pCutoff p)%nat -> (0 < pKappa p)%R -> (0 <= pNTh p)%R ->
  exists sys, homodyneMode h p = Ok sys /\ msDim sys = pCutoff p /\ msLindblads sys = homodyned (pCutoff p) h (pKappa p) (pNTh p) /\
    no_jump_generator sys (homoM h p).
Proof.
  intros Hd Hk Hn. set (dim := pCutoff p) in *. set (z := ((pKappa p * (2 * pNTh p + 1), - pDelta p)%R : CR)).
  assert (Hz : z <> k0) by (apply pair_nonzero, kappa_nonzero; lra).
  assert (Ez : isNonZero z = true) by now apply isNonZero_spec.
  destruct (hOverI_good z (pEta p) (pKerr p) dim Hd (or_introl Hz)) as (f & k & Ef & Hk1 & [Mf [Gf HMf]]). rewrite Ez in HMf.
  destruct (kerr_good dim (pKerrAlter p) Hd) as (kt & Ek & (K1 & K2 & K3 & K4 & K5 & K6)).
  destruct (aop_good dim Hd) as (a & Ea & Ga).
  destruct (plusHC_good dim _ 1 _ (scale_good _ _ _ _ (kconj h) Ga)) as (x & Ex & Gx).
  destruct (add_good dim f (neg (scale (RC (homoC p)) x)) k 1 _ _ Gf (neg_good _ _ _ _ (scale_good _ _ _ _ (RC (homoC p)) Gx))) as (f' & Ef' & Gf'); [lia|].
  eexists. unfold homodyneMode, hamiltonianSch. fold dim. change (decayRate true p, - pDelta p)%R with z.
  rewrite Ef. cbn [bind]. rewrite Ek. cbn [bind]. rewrite Ea. cbn [bind]. rewrite Ex. cbn [bind]. fold (homoC p).
  unfold sub. rewrite Ef'. cbn [bind]. split; [reflexivity|]. split; [reflexivity|]. split; [reflexivity|].
  intros ts t. unfold generator_at. cbn [msExact msH msDim]. intros psi m Hm.
  destruct Gf' as (B1 & B2 & B3 & B4 & B5 & B6).
  rewrite (sch_action f' kt dim (if k =? 0 then 1 else k) 0 (fun m n => ksub (hOverIM z (pEta p) (pKerr p) m n) (kmul (RC (homoC p)) (quadM h m n))) (kerrM (pKerrAlter p)) ts t psi m); auto.
  - apply lsum_ext. intros n Hn'. unfold homoM. rewrite <- (gen_sch p z (pKerr p) eq_refl eq_refl m n). ring.
  - intros y x' Hy Hx. rewrite B6, HMf by auto. rewrite !annihM_spec by auto. unfold quadM.
    rewrite kconj_mul, annihilation_conj, kconj_invol. ring.
  - intros y x' Hy Hx. apply K6.
Qed.

Lemma homoC_spec p : (0 <= pKappa p)%R -> (0 <= pNTh p)%R ->
  homoC p = ((sqrt (2 * (pKappa p * (pNTh p + 1))) + sqrt (2 * (pKappa p * pNTh p))) / 2)%R.
Proof.
  intros Hk Hn. unfold homoC.
  assert (E : sqrt (pKappa p / 2) = (sqrt (2 * pKappa p) / 2)%R).
  { apply sqrt_lem_1; [lra|apply Rmult_le_pos; [apply sqrt_pos|lra]|].
    replace (sqrt (2 * pKappa p) / 2 * (sqrt (2 * pKappa p) / 2))%R with (sqrt (2 * pKappa p) * sqrt (2 * pKappa p) / 4)%R by field.
    rewrite sqrt_sqrt by lra. field. }
  rewrite E. replace (2 * (pKappa p * (pNTh p + 1)))%R with ((2 * pKappa p) * (pNTh p + 1))%R by ring.
  replace (2 * (pKappa p * pNTh p))%R with ((2 * pKappa p) * pNTh p)%R by ring.
  rewrite !sqrt_mult by lra. field.
Qed.
Lemma identity_left dim (f : nat -> CR) m : m < dim -> lsum dim (fun k => kmul (identity m k) (f k)) = f m.
Proof.
  intros H. rewrite (lsum_at dim _ m H); [unfold identity; rewrite Nat.eqb_refl; ring|].
  intros n _ Hn. unfold identity. destruct (Nat.eqb_spec m n); [congruence|ring].
Qed.
Lemma identity_sym m n : identity m n = identity n m.
Proof. unfold identity. now rewrite Nat.eqb_sym. Qed.
Lemma identity_real m n : kconj (identity m n) = identity m n.
Proof. unfold identity. destruct (m =? n); [apply kconj_1|apply kconj_0]. Qed.
Lemma csq_kconj (c : CR) : csq (kconj c) = csq c.
Proof. destruct c. unfold csq. cbn. ring. Qed.
Lemma jdagj_shift dim c x A m n : m < dim -> n < dim ->
  jdagj dim (homodyneOp c x A) m n =
  kadd (kadd (if m =? n then RC (csq c) else k0) (kadd (kmul (kconj c) (kmul (RC x) (A m n))) (kmul c (kmul (RC x) (kconj (A n m))))))
       (jdagj dim (mscale x A) m n).
Proof.
  intros Hm Hn. unfold jdagj, homodyneOp.
  rewrite (lsum_ext dim _ (fun k => kadd (kadd (kmul (identity m k) (kmul (kmul (kconj c) c) (identity k n))) (kadd (kmul (identity m k) (kmul (kconj c) (mscale x A k n))) (kmul (identity n k) (kmul c (kconj (mscale x A k m))))))
                                        (kmul (kconj (mscale x A k m)) (mscale x A k n)))).
  - unfold lsum. rewrite !ksum_add.
    fold (lsum dim (fun k => kmul (identity m k) (kmul (kmul (kconj c) c) (identity k n)))).
    fold (lsum dim (fun k => kmul (identity m k) (kmul (kconj c) (mscale x A k n)))).
    fold (lsum dim (fun k => kmul (identity n k) (kmul c (kconj (mscale x A k m))))).
    rewrite (identity_left dim (fun k => kmul (kmul (kconj c) c) (identity k n))) by exact Hm.
    rewrite (identity_left dim (fun k => kmul (kconj c) (mscale x A k n))) by exact Hm.
    rewrite (identity_left dim (fun k => kmul c (kconj (mscale x A k m)))) by exact Hn.
    f_equal. unfold mscale. rewrite kconj_mul, RC_conj. f_equal. unfold identity. destruct (m =? n); [|ring]. destruct c as [a b]. unfold csq. apply cr_eq; cbn; ring.
  - intros k Hk. rewrite kconj_add, kconj_mul, identity_real, (identity_sym k m), (identity_sym n k). ring.
Qed.
Lemma sandwich_shift dim c x A rho m n : m < dim -> n < dim ->
  sandwich dim (homodyneOp c x A) rho m n =
  kadd (kadd (kmul (RC (csq c)) (rho m n))
             (kadd (kmul (kconj c) (lsum dim (fun k => kmul (kmul (RC x) (A m k)) (rho k n)))) (kmul c (lsum dim (fun k => kmul (rho m k) (kconj (kmul (RC x) (A n k))))))))
       (sandwich dim (mscale x A) rho m n).
Proof.
  intros Hm Hn. unfold sandwich, homodyneOp.
  assert (In : forall k, lsum dim (fun l => kmul (kmul (kadd (kmul c (identity m k)) (mscale x A m k)) (rho k l)) (kconj (kadd (kmul c (identity n l)) (mscale x A n l)))) =
     kadd (kmul (kmul (kadd (kmul c (identity m k)) (mscale x A m k)) (rho k n)) (kconj c))
          (kmul (kadd (kmul c (identity m k)) (mscale x A m k)) (lsum dim (fun l => kmul (rho k l) (kconj (mscale x A n l)))))).
  { intros k. set (u := kadd (kmul c (identity m k)) (mscale x A m k)).
    rewrite (lsum_ext dim _ (fun l => kadd (kmul (identity n l) (kmul (kmul u (rho k l)) (kconj c))) (kmul u (kmul (rho k l) (kconj (mscale x A n l)))))).
    - unfold lsum. rewrite ksum_add, ksum_scal_l. fold (lsum dim (fun l => kmul (identity n l) (kmul (kmul u (rho k l)) (kconj c)))).
      now rewrite (identity_left dim (fun l => kmul (kmul u (rho k l)) (kconj c))) by exact Hn.
    - intros l Hl. rewrite kconj_add, kconj_mul, identity_real. ring. }
  rewrite (lsum_ext dim _ (fun k => kadd (kadd (kmul (identity m k) (kmul (kmul c (kconj c)) (rho k n))) (kmul (kconj c) (kmul (mscale x A m k) (rho k n))))
      (kadd (kmul (identity m k) (kmul c (lsum dim (fun l => kmul (rho k l) (kconj (mscale x A n l)))))) (kmul (mscale x A m k) (lsum dim (fun l => kmul (rho k l) (kconj (mscale x A n l)))))))).
  - unfold lsum at 1. rewrite !ksum_add, ksum_scal_l.
    fold (lsum dim (fun k => kmul (identity m k) (kmul (kmul c (kconj c)) (rho k n)))).
    fold (lsum dim (fun k => kmul (identity m k) (kmul c (lsum dim (fun l => kmul (rho k l) (kconj (mscale x A n l))))))).
    rewrite (identity_left dim (fun k => kmul (kmul c (kconj c)) (rho k n))) by exact Hm.
    rewrite (identity_left dim (fun k => kmul c (lsum dim (fun l => kmul (rho k l) (kconj (mscale x A n l)))))) by exact Hm.
    assert (S : ksum (fun k => kmul (mscale x A m k) (lsum dim (fun l => kmul (rho k l) (kconj (mscale x A n l))))) (seq 0 dim) =
                lsum dim (fun k => lsum dim (fun l => kmul (kmul (mscale x A m k) (rho k l)) (kconj (mscale x A n l))))).
    { apply ksum_ext. intros k _. unfold lsum. rewrite <- ksum_scal_l. apply ksum_ext. intros l _. ring. }
    rewrite S. change (ksum (fun k => kmul (mscale x A m k) (rho k n)) (seq 0 dim)) with (lsum dim (fun k => kmul (kmul (RC x) (A m k)) (rho k n))).
    change (lsum dim (fun l => kmul (rho m l) (kconj (mscale x A n l)))) with (lsum dim (fun k => kmul (rho m k) (kconj (kmul (RC x) (A n k))))).
    replace (RC (csq c)) with (kmul c (kconj c)) by (destruct c as [a b]; unfold csq; apply cr_eq; cbn; ring). ring.
  - intros k Hk. rewrite In. ring.
Qed.
Lemma jdagj_thermal p m n : (0 <= pKappa p)%R -> (0 <= pNTh p)%R -> m < pCutoff p -> n < pCutoff p ->
  ksum (fun J => jdagj (pCutoff p) J m n) (thermalJumps p) =
  diagR (fun m => (2 * (pKappa p * (pNTh p + 1)) * INR m + 2 * (pKappa p * pNTh p) * (if m + 1 <? pCutoff p then INR (m + 1) else 0))%R) m n.
Proof.
  intros Hk Hn Hm Hn'. assert (0 <= pKappa p * pNTh p)%R by now apply Rmult_le_pos. unfold thermalJumps, ksum. cbn [map fold_right].
  rewrite jdagj_loss, jdagj_absorption by (auto; lra). unfold diagR. destruct (m =? n); [|ring].
  destruct (m + 1 <? pCutoff p); apply cr_eq; cbn; ring.
Qed.
Lemma quadM_herm h m n : kconj (quadM h n m) = quadM h m n.
Proof. unfold quadM. rewrite kconj_add, !kconj_mul, kconj_invol, annihilation_conj, creation_conj. ring. Qed.
Lemma homoM_herm h p m n : kadd (homoM h p m n) (kconj (homoM h p n m)) =
  ksub (diagR (fun m => (- 2 * INR m * (pKappa p * (2 * pNTh p + 1)))%R) m n) (kmul (RC (2 * homoC p)) (quadM h m n)).
Proof.
  unfold homoM. rewrite kconj_sub, kconj_mul, RC_conj, quadM_herm.
  transitivity (ksub (kadd (modeGenerator p m n) (kconj (modeGenerator p n m))) (kadd (kmul (RC (homoC p)) (quadM h m n)) (kmul (RC (homoC p)) (quadM h m n)))); [ring|].
  f_equal.
  - set (z := ((pKappa p * (2 * pNTh p + 1), - pDelta p)%R : CR)). rewrite <- !(gen_sch p z (pKerr p) eq_refl eq_refl). rewrite kconj_add.
    transitivity (kadd (kadd (hOverIM z (pEta p) (pKerr p) m n) (kconj (hOverIM z (pEta p) (pKerr p) n m)))
      (kadd (kerrM (pKerrAlter p) m n) (kconj (kerrM (pKerrAlter p) n m)))); [ring|]. rewrite herm_hOverI, herm_kerr. cbn [cre fst z]. ring.
  - generalize (quadM h m n). intros [a b]. apply cr_eq; cbn; ring.
Qed.
Lemma homodyne_damping h p : (0 < pCutoff p)%nat -> (0 < pKappa p)%R -> (0 <= pNTh p)%R ->
  exists sys, homodyneMode h p = Ok sys /\ msDim sys = pCutoff p /\ Forall2 (describes (pCutoff p)) (msLindblads sys) (homodyneJumps h p) /\
    forall G, no_jump_generator sys G -> damping_matches (pCutoff p) (below_top p) G (2 * csq h + 2 * pKappa p * pNTh p) (homodyneJumps h p).
Proof.
  intros Hd Hk Hn. destruct (homodyne_generator h p Hd Hk Hn) as (sys & E1 & E2 & E3 & E4). exists sys. split; [exact E1|]. split; [exact E2|].
  split; [rewrite E3; now apply homodyne_ok|]. intros G HG m n Hm Hn' Hkeep.
  assert (U : forall i j, i < pCutoff p -> j < pCutoff p -> G i j = homoM h p i j).
  { intros i j Hi Hj. apply (generator_unique sys [] 0%R G _ (HG [] 0%R) (E4 [] 0%R)); rewrite E2; auto. }
  rewrite !U, homoM_herm, homoC_spec by (auto; lra). unfold homodyneJumps.
  pose proof (jdagj_thermal p m n (Rlt_le _ _ Hk) Hn Hm Hn') as T. unfold thermalJumps, ksum in T. cbn [map fold_right] in T.
  unfold ksum. cbn [map fold_right]. rewrite !jdagj_shift by auto.
  set (s := sqrt (2 * (pKappa p * (pNTh p + 1)))) in *. set (s' := sqrt (2 * (pKappa p * pNTh p))) in *.
  set (j1 := jdagj (pCutoff p) (mscale s annihilation) m n) in *. set (j2 := jdagj (pCutoff p) (mscale s' creation) m n) in *.
  assert (T' : j1 = ksub (diagR (fun m => (2 * (pKappa p * (pNTh p + 1)) * INR m + 2 * (pKappa p * pNTh p) * (if m + 1 <? pCutoff p then INR (m + 1) else 0))%R) m n) j2).
  { rewrite <- T. ring. }
  rewrite T'. clear T T'. clearbody j1 j2 s s'. rewrite kconj_invol, annihilation_conj, creation_conj, csq_kconj. unfold quadM.
  assert (D : ksub (diagR (fun m => (- 2 * INR m * (pKappa p * (2 * pNTh p + 1)))%R) m n) (if m =? n then RC (2 * pKappa p * pNTh p) else k0) =
     kopp (diagR (fun m => (2 * (pKappa p * (pNTh p + 1)) * INR m + 2 * (pKappa p * pNTh p) * (if m + 1 <? pCutoff p then INR (m + 1) else 0))%R) m n)).
  { unfold diagR. destruct (Nat.eqb_spec m n) as [->|]; [|ring]. rewrite plus_INR. destruct Hkeep as [Hz|[Hlt|]]; [| |congruence].
    - rewrite Hz. destruct (n + 1 <? pCutoff p); apply cr_eq; cbn; ring.
    - apply Nat.ltb_lt in Hlt. rewrite Hlt. apply cr_eq; cbn; ring. }
  set (d1 := diagR (fun m => (- 2 * INR m * (pKappa p * (2 * pNTh p + 1)))%R) m n) in *. set (d2 := diagR _ m n) in D |- *. clearbody d1 d2.
  assert (D' : d1 = ksub (if m =? n then RC (2 * pKappa p * pNTh p) else k0) d2).
  { transitivity (kadd (ksub d1 (if m =? n then RC (2 * pKappa p * pNTh p) else k0)) (if m =? n then RC (2 * pKappa p * pNTh p) else k0)); [ring|]. rewrite D. ring. }
  rewrite D'. replace (RC (2 * ((s + s') / 2))) with (kadd (RC s) (RC s')) by (apply cr_eq; cbn; field).
  destruct (m =? n); [|ring].
  replace (RC (2 * csq h + 2 * pKappa p * pNTh p)) with (kadd (kadd (RC (csq h)) (RC (csq h))) (RC (2 * pKappa p * pNTh p))) by (apply cr_eq; cbn; ring). ring.
Qed.

(** averaged dynamics *)
Lemma masterOf_ext dim G G' Js rho m n : (forall i j, i < dim -> j < dim -> G i j = G' i j) -> m < dim -> n < dim -> masterOf dim G Js rho m n = masterOf dim G' Js rho m n.
Proof. intros H Hm Hn. unfold masterOf. do 2 f_equal; apply lsum_ext; intros k Hk; now rewrite H. Qed.
Lemma masterOf_homodyne h p rho m n : (0 < pKappa p)%R -> (0 <= pNTh p)%R -> m < pCutoff p -> n < pCutoff p ->
  masterOf (pCutoff p) (homoM h p) (homodyneJumps h p) rho m n =
  kadd (masterOf (pCutoff p) (modeGenerator (withEta p (drive p h))) (thermalJumps p) rho m n) (kmul (RC (2 * csq h)) (rho m n)).
Proof.
  intros Hk Hn Hm Hn'. set (dim := pCutoff p) in *. unfold masterOf, homodyneJumps, thermalJumps, ksum. cbn [map fold_right].
  fold dim. rewrite !sandwich_shift by auto.
  set (s := sqrt (2 * (pKappa p * (pNTh p + 1)))) in *. set (s' := sqrt (2 * (pKappa p * pNTh p))) in *.
  set (w1 := sandwich dim (mscale s annihilation) rho m n). set (w2 := sandwich dim (mscale s' creation) rho m n).
  rewrite kconj_invol, csq_kconj.
  (* G *)
  assert (E : forall i j, modeGenerator (withEta p (drive p h)) i j =
     kadd (homoM h p i j) (kadd (kmul (kconj h) (kmul (RC s) (annihilation i j))) (kmul h (kmul (RC s') (creation i j))))).
  { intros i j. unfold homoM. rewrite homoC_spec by lra. fold s s'. unfold modeGenerator, withEta, drive, quadM. cbn [pDelta pKerr pKerrAlter pCutoff pEta pKappa pNTh]. fold s s'.
    rewrite kconj_sub, kconj_mul, RC_conj. set (D := if i =? j then _ else _). clearbody D.
    replace (RC ((s - s') / 2)) with (kmul (RC (/ 2)) (ksub (RC s) (RC s'))) by (apply cr_eq; cbn; field).
    replace (RC ((s + s') / 2)) with (kmul (RC (/ 2)) (kadd (RC s) (RC s'))) by (apply cr_eq; cbn; field).
    assert (H2 : forall u : CR, u = kadd (kmul (RC (/ 2)) u) (kmul (RC (/ 2)) u)) by (intros [a b]; apply cr_eq; cbn; field).
    set (A1 := kmul (kconj h) (kmul (RC s) (annihilation i j))). rewrite (H2 A1). set (A2 := kmul h (kmul (RC s') (creation i j))). rewrite (H2 A2).
    unfold A1, A2. ring. }
  assert (L1 : lsum dim (fun k => kmul (modeGenerator (withEta p (drive p h)) m k) (rho k n)) =
    kadd (lsum dim (fun k => kmul (homoM h p m k) (rho k n)))
      (kadd (kmul (kconj h) (lsum dim (fun k => kmul (kmul (RC s) (annihilation m k)) (rho k n)))) (kmul h (lsum dim (fun k => kmul (kmul (RC s') (creation m k)) (rho k n)))))).
  { unfold lsum. rewrite <- !ksum_scal_l, <- !ksum_add. apply ksum_ext. intros k _. rewrite E. ring. }
  assert (L2 : lsum dim (fun k => kmul (rho m k) (kconj (modeGenerator (withEta p (drive p h)) n k))) =
    kadd (lsum dim (fun k => kmul (rho m k) (kconj (homoM h p n k))))
      (kadd (kmul h (lsum dim (fun k => kmul (rho m k) (kconj (kmul (RC s) (annihilation n k)))))) (kmul (kconj h) (lsum dim (fun k => kmul (rho m k) (kconj (kmul (RC s') (creation n k)))))))).
  { unfold lsum. rewrite <- !ksum_scal_l, <- !ksum_add. apply ksum_ext. intros k _. rewrite E. rewrite !kconj_add, !kconj_mul, kconj_invol. ring. }
  rewrite L1, L2. replace (RC (2 * csq h)) with (kadd (RC (csq h)) (RC (csq h))) by (apply cr_eq; cbn; ring). ring.
Qed.
Lemma homodyne_average h p : (0 < pCutoff p)%nat -> (0 < pKappa p)%R -> (0 <= pNTh p)%R ->
  exists sys, homodyneMode h p = Ok sys /\ Forall2 (describes (pCutoff p)) (msLindblads sys) (homodyneJumps h p) /\
    forall G, no_jump_generator sys G -> forall rho m n, m < pCutoff p -> n < pCutoff p ->
      masterOf (pCutoff p) G (homodyneJumps h p) rho m n =
      kadd (masterOf (pCutoff p) (modeGenerator (withEta p (drive p h))) (thermalJumps p) rho m n) (kmul (RC (2 * csq h)) (rho m n)).
Proof.
  intros Hd Hk Hn. destruct (homodyne_generator h p Hd Hk Hn) as (sys & E1 & E2 & E3 & E4). exists sys. split; [exact E1|].
  split; [rewrite E3; now apply homodyne_ok|]. intros G HG rho m n Hm Hn'. rewrite <- masterOf_homodyne by auto.
  apply masterOf_ext; auto. intros i j Hi Hj. apply (generator_unique sys [] 0%R G _ (HG [] 0%R) (E4 [] 0%R)); rewrite E2; auto.
Qed.
(** the vacuum under homodyne detection: amplitude 1, kappa = 2, zero temperature, no drive *)
Definition homoPars : modePars := mkPars 0 0 0 2 k0 2 0.
Lemma homodyne_average_refuted : exists h p sys rho, (0 < pCutoff p)%nat /\ (0 < pKappa p)%R /\ (0 <= pNTh p)%R /\ homodyneMode h p = Ok sys /\
  forall G c, no_jump_generator sys G -> ~ (forall m n, m < pCutoff p -> n < pCutoff p ->
    masterOf (pCutoff p) G (homodyneJumps h p) rho m n = kadd (masterOf (pCutoff p) (modeGenerator p) (thermalJumps p) rho m n) (kmul c (rho m n))).
Proof.
  destruct (homodyne_average k1 homoPars) as (sys & E1 & _ & E2); try (cbn; lia || lra).
  exists k1, homoPars, sys, (fun m n => if andb (m =? 0) (n =? 0) then k1 else k0). split; [cbn; lia|]. split; [cbn; lra|]. split; [cbn; lra|]. split; [exact E1|].
  intros G c HG H. specialize (H 1%nat 0%nat ltac:(cbn; lia) ltac:(cbn; lia)). rewrite E2 in H by (auto; cbn; lia).
  unfold masterOf, thermalJumps, sandwich, modeGenerator, withEta, drive, lsum, ksum, mscale, annihilation, creation in H.
  cbn [pCutoff homoPars seq map fold_right Nat.eqb andb Nat.add pDelta pKerr pKerrAlter pEta pKappa pNTh] in H.
  replace (2 * (2 * (0 + 1)))%R with (2 * 2)%R in H by ring. rewrite sqrt_square in H by lra.
  replace (2 * (2 * 0))%R with 0%R in H by ring. rewrite sqrt_0 in H. replace (INR 1) with 1%R in H by reflexivity. rewrite sqrt_1 in H.
  destruct c as [a b]. apply (f_equal fst) in H. cbn in H. lra.
Qed.
