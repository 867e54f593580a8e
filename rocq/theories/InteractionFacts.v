(** The generators of the interactions of modes, qbits and spins. *)
From Coq Require Import List Arith Bool ZArith Lia Reals Lra.
From Verif Require Import Star CReal Arr TriModel TriSpec TriProofs TriPropagate TriLemmas FreeExactModel FreeExactSpec ElementModel ElementSpec ElementProofs ModeModel ModeProofs SpinProofs CompositeModel ParticleModel
  ParticleProofs InteractionModel InteractionSpec RotProofs RotOps InteractionProofs RotSums.
Import ListNotations.
Add Ring CRIf : (k_ring CR).
Local Open Scope nat_scope.

Lemma inr2_inv a b y : inr [a; b] y -> exists i j, y = [i; j] /\ i < a /\ j < b.
Proof. intros H. destruct (inr_split [a] [b] y H) as (y1 & y2 & -> & H1 & H2 & _). destruct (inr1_inv _ _ H1) as [i [-> Hi]]. destruct (inr1_inv _ _ H2) as [j [-> Hj]]. exists i, j. auto. Qed.
Lemma inr3_inv a b c y : inr [a; b; c] y -> exists i j k, y = [i; j; k] /\ i < a /\ j < b /\ k < c.
Proof. intros H. destruct (inr_split [a] [b; c] y H) as (y1 & y2 & -> & H1 & H2 & _). destruct (inr1_inv _ _ H1) as [i [-> Hi]]. destruct (inr2_inv _ _ _ H2) as (j & k & -> & Hj & Hk). exists i, j, k. auto. Qed.
Lemma kron2 A B i j k l : kron [A; B] [i; j] [k; l] = kmul (A i k) (B j l). Proof. cbn [kron]. ring. Qed.
Lemma kron3 A B C i j k l m n : kron [A; B; C] [i; j; k] [l; m; n] = kmul (A i l) (kmul (B j m) (C k n)). Proof. cbn [kron]. ring. Qed.
Lemma rot_overI b sh D t M : rot b sh D t M -> exists h, plusHCoverI t = Ok h /\ rot b sh D h (overI (plusO M (hc M))).
Proof.
  intros H. destruct (rot_plusHC _ _ _ _ _ H) as [x [E Hx]]. unfold plusHCoverI. rewrite E. cbn [bind]. eexists. split; [reflexivity|]. exact (rot_scale _ _ _ _ _ _ Hx).
Qed.
Lemma zero_isNonZero (g : CR) : isNonZero g = false -> g = k0.
Proof. unfold isNonZero. intros H. apply CReqb_eq. destruct (CReqb g k0); [reflexivity|discriminate]. Qed.

Lemma add_same (t t' : triC) : wf t -> wf t' -> dims t' = dims t -> diffs t' = diffs t -> freqs t' = freqs t -> exists m, add CReqb t t' = Ok m.
Proof.
  intros W W' E1 E2 E3. pose proof (add_no_ub CReqb t t' W W' E1) as Hub. unfold add in *. rewrite E2, mergeDiffs_refl in *.
  destruct (existsb _ _); [congruence|]. rewrite E3. replace (existsb _ _) with false; [eauto|]. symmetry.
  clear. induction (seq 0 (3 ^ rankOf t)) as [|i l IH]; cbn; auto. rewrite (freqClash_refl CReqb _ CReqb_refl). exact IH.
Qed.
Lemma prod11 b d1 d2 e1 e2 A B t1 t2 : rot b [d1] (rate [e1]) t1 (kron [A]) -> rot b [d2] (rate [e2]) t2 (kron [B]) ->
  exists t, prod t1 t2 = Ok t /\ rot b [d1; d2] (rate [e1; e2]) t (kron [A; B]).
Proof. exact (prod_kron b [d1] [d2] [e1] [e2] [A] [B] t1 t2 eq_refl eq_refl). Qed.
Lemma prod21 b d1 d2 d3 e1 e2 e3 A B C t1 t2 : rot b [d1; d2] (rate [e1; e2]) t1 (kron [A; B]) -> rot b [d3] (rate [e3]) t2 (kron [C]) ->
  exists t, prod t1 t2 = Ok t /\ rot b [d1; d2; d3] (rate [e1; e2; e3]) t (kron [A; B; C]).
Proof. exact (prod_kron b [d1; d2] [d3] [e1; e2] [e3] [A; B] [C] t1 t2 eq_refl eq_refl). Qed.

(** ** JaynesCummings *)
Lemma jc_gen b a m g : atomIs b a -> cavIs b m -> 0 < cvDim m ->
  exists h, makeJaynesCummings a m g = Ok h /\ ihDims h = [atomDim a; cvDim m] /\ has_generator h [atomRate a; cavRate m] any_state (overI (hJaynesCummings g (lowering a))).
Proof.
  intros Ha Hm Hd. unfold makeJaynesCummings. cbn zeta. destruct (isNonZero g) eqn:Eg.
  - destruct (sigma_rot b a Ha) as [s [Es Hs]]. destruct (cav_rot b m Hm Hd) as [c [Ec Hc]]. rewrite Es, Ec. cbn [bind].
    pose proof (kron_scale1 _ _ _ _ (kconj g) _ Hs) as Hs'. pose proof (rot_dagger_kron _ _ _ _ _ Hc) as Hc'. cbn [map] in Hc'.
    destruct (prod11 b _ _ _ _ _ _ _ _ Hs' Hc') as [t [Et Ht]]. rewrite Et. cbn [bind]. destruct (rot_minusHC _ _ _ _ _ Ht) as [h [Eh Hh]]. rewrite Eh. cbn [bind].
    eexists. split; [reflexivity|]. split; [reflexivity|]. eapply generator_ext; [|exact (generator_one _ [atomRate a; cavRate m] h _ (proj1 Hh))].
    cbn [ihDims]. intros y x Hy Hx. destruct (inr2_inv _ _ _ Hy) as (i & j & -> & Hi & Hj). destruct (inr2_inv _ _ _ Hx) as (k & l & -> & Hk & Hl). 
    unfold overI, hJaynesCummings, timesO, plusO, hc. rewrite !kron2, !adj_annihilation, !kconj_mul, !kconj_invol.
    generalize (lowering a i k) (kconj (lowering a k i)) (creation j l) (kconj (creation l j)). intros [p1 p2] [q1 q2] [r1 r2] [s1 s2]. destruct g as [g1 g2]. apply cr_eq; cbn; ring.
  - apply zero_isNonZero in Eg. subst g. eexists. split; [reflexivity|]. split; [reflexivity|]. eapply generator_ext; [|apply generator_none].
    intros y x _ _. unfold zeroM, overI, hJaynesCummings, timesO, plusO, hc. generalize (kron [lowering a; creation] y x) (kron [lowering a; creation] x y). intros [u1 u2] [v1 v2]. apply cr_eq; cbn; ring.
Qed.

(** ** CoupledModes *)
Lemma cavX_rot b m : cavIs b m -> 0 < cvDim m -> exists x, cavXop m = Ok x /\ rot b [cvDim m] (rate [cavRate m]) x (kron [position]).
Proof.
  intros Hm Hd. destruct (cav_rot b m Hm Hd) as [a [Ea Ha]]. unfold cavXop. rewrite Ea. cbn [bind]. destruct (rot_plusHC _ _ _ _ _ Ha) as [x [Ex Hx]]. rewrite Ex. cbn [bind]. eexists. split; [reflexivity|].
  eapply rot_ext; [|exact (rot_scale _ _ _ _ _ _ Hx)]. intros y z Hy Hz. destruct (inr1_inv _ _ Hy) as [i [-> Hi]]. destruct (inr1_inv _ _ Hz) as [j [-> Hj]]. rewrite !kron1. unfold position.
  rewrite <- (adj_annihilation i j). reflexivity.
Qed.
(** the pictures in which the frequencies are right *)
Definition coupledPictures (c : coupling) (m1 m2 : cavity) : Prop :=
  match c with CM_NX => cavIs false m2 | _ => exists b, cavIs b m1 /\ cavIs b m2 end.
Lemma coupled_gen c m1 m2 u : coupledPictures c m1 m2 -> 0 < cvDim m1 -> 0 < cvDim m2 ->
  exists h, makeCoupledModes c m1 m2 u = Ok h /\ ihDims h = [cvDim m1; cvDim m2] /\ has_generator h [cavRate m1; cavRate m2] any_state (overI (hCoupledModes c u)).
Proof.
  intros Hp D1 D2. unfold makeCoupledModes. cbn zeta. destruct (isNonZero u) eqn:Eu.
  - assert (G : exists h, coupledH c m1 m2 u = Ok h /\ rots [cvDim m1; cvDim m2] (rate [cavRate m1; cavRate m2]) h (overI (hCoupledModes c u))).
    { destruct c; cbn [coupledPictures coupledH] in *.
      - destruct (cavN_rot m1 (rate [cavRate m1]) D1) as [n [En Hn]]. destruct (cavX_rot false m2 Hp D2) as [x [Ex Hx]]. rewrite En, Ex. cbn [bind].
        destruct (prod11 false _ _ _ _ _ _ _ _ (kron_scale1 _ _ _ _ (RC (cre u)) _ Hn) Hx) as [t [Et Ht]]. rewrite Et. cbn [bind]. eexists. split; [reflexivity|].
        eapply rots_ext; [|exact (proj1 (rot_scale _ _ _ _ _ _ Ht))]. intros y z Hy Hz. destruct (inr2_inv _ _ _ Hy) as (i & j & -> & Hi & Hj). destruct (inr2_inv _ _ _ Hz) as (k & l & -> & Hk & Hl). 
        unfold overI, hCoupledModes, timesO. rewrite !kron2. ring.
      - destruct Hp as [b [P1 P2]]. destruct (cavX_rot b m1 P1 D1) as [n [En Hn]]. destruct (cavX_rot b m2 P2 D2) as [x [Ex Hx]]. rewrite En, Ex. cbn [bind].
        destruct (prod11 b _ _ _ _ _ _ _ _ (kron_scale1 _ _ _ _ (RC (cre u)) _ Hn) Hx) as [t [Et Ht]]. rewrite Et. cbn [bind]. eexists. split; [reflexivity|].
        eapply rots_ext; [|exact (proj1 (rot_scale _ _ _ _ _ _ Ht))]. intros y z Hy Hz. destruct (inr2_inv _ _ _ Hy) as (i & j & -> & Hi & Hj). destruct (inr2_inv _ _ _ Hz) as (k & l & -> & Hk & Hl). 
        unfold overI, hCoupledModes, timesO. rewrite !kron2. ring.
      - destruct Hp as [b [P1 P2]]. destruct (cav_rot b m1 P1 D1) as [n [En Hn]]. destruct (cav_rot b m2 P2 D2) as [x [Ex Hx]]. rewrite En, Ex. cbn [bind].
        pose proof (rot_dagger_kron _ _ _ _ _ Hx) as Hx'. cbn [map] in Hx'.
        destruct (prod11 b _ _ _ _ _ _ _ _ (kron_scale1 _ _ _ _ (kconj u) _ Hn) Hx') as [t [Et Ht]]. rewrite Et. cbn [bind]. destruct (rot_minusHC _ _ _ _ _ Ht) as [h [Eh Hh]]. exists h. split; [exact Eh|].
        eapply rots_ext; [|exact (proj1 Hh)]. intros y z Hy Hz. destruct (inr2_inv _ _ _ Hy) as (i & j & -> & Hi & Hj). destruct (inr2_inv _ _ _ Hz) as (k & l & -> & Hk & Hl). 
        unfold overI, hCoupledModes, timesO, plusO, hc. rewrite !kron2, !adj_annihilation, !kconj_mul, !kconj_invol.
        generalize (annihilation i k) (kconj (annihilation k i)) (creation j l) (kconj (creation l j)). intros [p1 p2] [q1 q2] [r1 r2] [s1 s2]. destruct u as [g1 g2]. apply cr_eq; cbn; ring. }
    destruct G as [h [E H]]. rewrite E. cbn [bind]. eexists. split; [reflexivity|]. split; [reflexivity|]. exact (generator_one _ _ _ _ H).
  - apply zero_isNonZero in Eu. subst u. eexists. split; [reflexivity|]. split; [reflexivity|]. eapply generator_ext; [|apply generator_none].
    intros y x _ _. unfold zeroM, overI, hCoupledModes, timesO, plusO, hc. destruct c.
    + generalize (kron [number; position] y x). intros [u1 u2]. apply cr_eq; cbn; ring.
    + generalize (kron [position; position] y x). intros [u1 u2]. apply cr_eq; cbn; ring.
    + generalize (kron [annihilation; creation] y x) (kron [annihilation; creation] x y). intros [u1 u2] [v1 v2]. apply cr_eq; cbn; ring.
Qed.

(** ** GeneralDicke *)
Lemma dicke_gen b m s u y : cavIs b m -> spinIs b s -> 0 < cvDim m ->
  exists h, generalDicke m s u y = Ok h /\ ihDims h = [cvDim m; spDim s] /\ has_generator h [cavRate m; spinRate s] any_state (overI (hGeneralDicke (spTwoS s) u y)).
Proof.
  intros Hm Hs Hd. pose proof (spDim_pos s) as Hsd. unfold generalDicke.
  destruct (cavN_rot m (rate [cavRate m]) Hd) as [n [En Hn]]. rewrite En. cbn [bind].
  destruct (diag_rot (spDim s) (fun i => RC (INR i - INR (spTwoS s) / 2)) (rate [spinRate s]) Hsd) as [z [Ez Hz]]. unfold szOf, sz. rewrite Ez. cbn [bind].
  destruct (identity_pop (spDim s) (fun _ => k0) Hsd) as [one [Eo [No Po]]]. rewrite Eo. cbn [bind].
  assert (Ho : rot false [spDim s] (rate [spinRate s]) one (kron [waveM 0])).
  { split; [|exact No]. apply (main_rots _ (fun _ => k0)); [|exact (main_identity _ _ Eo)]. destruct Po as (P1 & P2 & P3 & P4 & _ & _ & _ & P8).
    apply (plain_rot [spDim s] one); auto. intros i j Hi Hj. destruct (inr1_inv _ _ Hi) as [k [-> Hk]]. destruct (inr1_inv _ _ Hj) as [l [-> Hl]]. rewrite kron1. auto. }
  assert (Kd : diffs (scale (RC (INR (spTwoS s) / 2)) one) = diffs z).
  { cbn [scale diffs]. destruct (main_identity _ _ Eo) as (_ & -> & _). destruct (main_ofDiagonal _ _ _ Ez) as (_ & -> & _). unfold rankOf. destruct Ho as [(_ & _ & _ & -> & _) _], Hz as [(_ & _ & _ & -> & _) _]. reflexivity. }
  pose proof (kron_scale1 _ _ _ _ (RC (INR (spTwoS s) / 2)) _ Ho) as Ho'.
  destruct (rots_add_main [spDim s] (rate [spinRate s]) _ z _ _ _ (proj1 Hz) (main_ofDiagonal _ _ _ Ez) (proj1 Ho')) as [z' [Ez' _]]. rewrite Ez'. cbn [bind].
  pose proof (rots_add false _ _ _ _ _ _ _ Hz Ho' Kd Ez') as Hz'.
  assert (Mz : onlyMain z') by (apply (main_add z (scale (RC (INR (spTwoS s) / 2)) one)); [exact (main_ofDiagonal _ _ _ Ez)|apply main_scale; exact (main_identity _ _ Eo)| |exact Ez']; cbn [scale dims]; destruct Ho as [(_ & _ & _ & -> & _) _], Hz as [(_ & _ & _ & -> & _) _]; reflexivity).
  assert (Hz2 : rot false [spDim s] (rate [spinRate s]) z' (kron [number])).
  { eapply rot_ext; [|exact Hz']. intros i j Hi Hj. destruct (inr1_inv _ _ Hi) as [k [-> Hk]]. destruct (inr1_inv _ _ Hj) as [l [-> Hl]]. rewrite !kron1. unfold number, waveM.
    destruct (Nat.eqb_spec k l) as [->|Hne].
    - rewrite Z.add_0_r, Z.eqb_refl. apply cr_eq; cbn -[INR]; field.
    - destruct (Z.eqb_spec (Z.of_nat k) (Z.of_nat l + 0)); [lia|]. apply cr_eq; cbn -[INR]; ring. }
  destruct (prod11 false _ _ _ _ _ _ _ _ (kron_scale1 _ _ _ _ u _ Hn) Hz2) as [t1 [Et1 Ht1]]. rewrite Et1. cbn [bind].
  destruct (cav_rot b m Hm Hd) as [a [Ea Ha]]. rewrite Ea. cbn [bind].
  assert (Ex : exists x, add CReqb (dagger a) a = Ok x /\ rot b [cvDim m] (rate [cavRate m]) x (kron [fun i j => kadd (annihilation i j) (creation i j)])).
  { pose proof (rot_dagger _ _ _ _ _ Ha) as Hda. destruct (add_same (dagger a) a (proj1 (proj1 Hda)) (proj1 (proj1 Ha)) eq_refl eq_refl eq_refl) as [x Ex]. exists x. split; [exact Ex|].
    eapply rot_ext; [|exact (rots_add b _ _ (dagger a) a x _ _ Hda Ha eq_refl Ex)]. intros i j Hi Hj. destruct (inr1_inv _ _ Hi) as [k [-> Hk]]. destruct (inr1_inv _ _ Hj) as [l [-> Hl]]. rewrite !kron1.
    fold (adj annihilation k l). rewrite adj_annihilation. ring. }
  destruct Ex as [x [Ex Hx]]. rewrite Ex. cbn [bind]. destruct (sx_rot b s Hs) as [sx [Es Hsx]]. rewrite Es. cbn [bind].
  destruct (prod11 b _ _ _ _ _ _ _ _ (kron_scale1 _ _ _ _ y _ Hx) Hsx) as [t2 [Et2 Ht2]]. rewrite Et2. cbn [bind].
  assert (M1 : onlyMain t1).
  { apply (main_prod (scale u n) z'); [apply main_scale; exact (main_ofDiagonal _ _ _ En)|exact Mz|exact Et1]. }
  destruct (rots_add_main _ _ _ t1 t2 _ _ (proj1 Ht1) M1 (proj1 Ht2)) as [t [Et Ht]]. rewrite Et. cbn [bind]. eexists. split; [reflexivity|]. split; [reflexivity|].
  eapply generator_ext; [|exact (generator_one _ [cavRate m; spinRate s] _ _ (rots_scale _ _ _ _ (kopp CI) Ht))].
  cbn [ihDims]. intros i j Hi Hj. destruct (inr2_inv _ _ _ Hi) as (i1 & i2 & -> & _). destruct (inr2_inv _ _ _ Hj) as (j1 & j2 & -> & _).  unfold overI, hGeneralDicke, timesO, plusO. rewrite !kron2. ring.
Qed.
