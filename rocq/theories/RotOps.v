(** The elementary operators of modes, spins and particles as rotating operators. *)
From Coq Require Import List Arith Bool ZArith Lia Reals Lra.
From Coquelicot Require Import Coquelicot.
From Verif Require Import Star CReal Arr TriModel TriSpec TriProofs TriPropagate TriLemmas FreeExactModel FreeExactSpec ElementModel ElementSpec ModeModel ModeProofs CompositeModel ParticleModel ParticleSpec ParticleWaves
  ParticleProofs ParticleFacts ParticleComposition ParticlePictures InteractionModel InteractionSpec RotProofs.
Import ListNotations.
Add Ring CRRp : (k_ring CR).
Local Open Scope nat_scope.

Definition rate (es : list (nat -> CR)) : list nat -> CR := fun y => kopp (together es y).
Lemma plain_rot sh (t : triC) M : wf t -> noFreqs t -> time t = 0%R -> dims t = sh -> (forall y x, inr sh y -> inr sh x -> tmat t y x = M y x) -> rot false sh (fun _ => k0) t M.
Proof.
  intros H1 H2 H3 H4 H5. split; [|exact H2]. split; [exact H1|]. split; [now apply noFreqs_wf|]. split; [exact H3|]. split; [exact H4|]. split; [|split; [|exact H5]].
  - intros dg y c n _ _ _ _ H. rewrite H2 in H. discriminate.
  - intros dg y c n _ _ _ _ _ _. reflexivity.
Qed.
Lemma inr1_inv d y : inr [d] y -> exists i, y = [i] /\ i < d.
Proof. intros H. inversion H as [|i ? y' ? Hi Hy]; subst. inversion Hy; subst. eauto. Qed.
Lemma kron1 A i j : kron [A] [i] [j] = A i j. Proof. cbn [kron]. ring. Qed.
(** diagonal operators *)
Lemma diag_rot d f D : 0 < d -> exists t, ofDiagonal (vecOf d f) = Ok t /\ rot false [d] D t (kron [fun y x => if y =? x then f y else k0]).
Proof.
  intros Hd. destruct (ofDiagonal_good d f Hd) as [t [E (A1 & A2 & A3 & A4 & A5 & A6)]]. exists t. split; [exact E|]. split; [|exact A2].
  split; [exact A1|]. split; [now apply noFreqs_wf|]. split; [exact A3|]. split; [exact A4|]. split; [|split].
  - intros dg y c n _ _ _ _ H. rewrite A2 in H. discriminate.
  - intros dg y c n Hdg Hy Hc Hp Hn _. unfold rankOf in Hdg. rewrite A4 in Hdg, Hy, Hc. rewrite A5 in Hp.
    destruct (inr1_inv _ _ Hy) as [i [-> _]]. destruct (inr1_inv _ _ Hc) as [j [-> _]].
    assert (Ed : diags t = fun i => match i with 0 => vecOf d f | 1 => noDiag | 2 => noDiag | _ => emptyArr 1 end).
    { unfold ofDiagonal, unary in E. cbn iota in E. destruct (_ || _) in E; [discriminate|]. apply Ok_inj in E. now subst t. }
    destruct (digits1 dg Hdg) as [->|[->| ->]]; apply place1 in Hp; cbn [code length Nat.pow Nat.mul Nat.add] in *.
    + now destruct Hp as [-> _].
    + exfalso. unfold present in Hn. rewrite Ed in Hn. cbn in Hn. intuition discriminate.
    + exfalso. unfold present in Hn. rewrite Ed in Hn. cbn in Hn. intuition discriminate.
  - intros y x Hy Hx. destruct (inr1_inv _ _ Hy) as [i [-> _]]. destruct (inr1_inv _ _ Hx) as [j [-> _]]. rewrite kron1. apply A6.
Qed.
(** off-diagonal operators with frequencies *)
Lemma furn_rot d k (t t' : triC) f M : wf t -> noFreqs t -> time t = 0%R -> dims t = [d] -> diffs t = [k] -> nonempty (diags t 0) = false ->
  (forall y x, y < d -> x < d -> tmat t [y] [x] = M y x) -> furnish t (vecOf d f) = Ok t' -> k <= d -> rot true [d] (fun y => f (nth 0 y 0)) t' (kron [M]).
Proof.
  intros A1 A2 A3 A4 A5 A6 A7 E Hk. destruct (furnish_spec t t' d k (vecOf d f) A4 A5 (noFreqs_wf _ A2) E) as (B1 & B2 & B3 & B4 & B5 & B6).
  assert (W : wf t') by (destruct A1 as (W1 & W2 & W3); split; [now rewrite B1|]; unfold rankOf; rewrite B1, B2, B3; split; [exact W2|exact W3]).
  assert (Emp : k = d -> nonempty (diags t' 1) = false /\ nonempty (diags t' 2) = false).
  { intros ->. destruct A1 as (_ & _ & W3). rewrite B3. assert (X : forall i, i = 1 \/ i = 2 -> nonempty (diags t i) = false).
    { intros i Hi. destruct (nonempty (diags t i)) eqn:En; [|reflexivity]. destruct (W3 [i]) as [Sh _].
      - unfold rankOf. rewrite A4. constructor; [lia|constructor].
      - cbn. now rewrite Nat.mul_1_r, Nat.add_0_r.
      - cbn in Sh. rewrite Nat.mul_1_r, Nat.add_0_r, A4, A5 in Sh. unfold nonempty, asize in En. rewrite Sh in En. destruct Hi as [-> | ->]; cbn in En; rewrite Nat.sub_diag in En; discriminate. }
    auto. }
  assert (Pk : forall dg, inr (repeat 3 1) dg -> present t' dg -> k < d /\ (dg = [1] \/ dg = [2])).
  { intros dg Hdg Hn. unfold present in Hn. destruct (digits1 dg Hdg) as [->|[->| ->]]; cbn [map flipd code length Nat.pow Nat.mul Nat.add] in Hn; rewrite B3 in Hn.
    - rewrite A6 in Hn. intuition discriminate.
    - split; [|auto]. destruct (Nat.eq_dec k d) as [Ek|]; [|lia]. destruct (Emp Ek) as [E1 E2]. rewrite B3 in *. cbn in Hn. rewrite E1, E2 in Hn. intuition discriminate.
    - split; [|auto]. destruct (Nat.eq_dec k d) as [Ek|]; [|lia]. destruct (Emp Ek) as [E1 E2]. rewrite B3 in *. cbn in Hn. rewrite E1, E2 in Hn. intuition discriminate. }
  assert (R1 : rankOf t' = 1) by (unfold rankOf; now rewrite B1, A4).
  split; [split; [exact W|]; split; [exact B5|]; split; [congruence|]; split; [congruence|]; split; [|split]|].
  - intros dg y c n Hdg Hy Hc Hp Hn. rewrite R1 in Hdg. rewrite B1, A4 in Hy, Hc. rewrite B2, A5 in Hp.
    destruct (inr1_inv _ _ Hy) as [i [-> Hi]]. destruct (inr1_inv _ _ Hc) as [j [-> Hj]]. cbn [nth].
    destruct (digits1 dg Hdg) as [->|[->| ->]]; apply place1 in Hp; cbn [code length Nat.pow Nat.mul Nat.add] in *; destruct Hp as [-> ->].
    + destruct B5 as [B5 _]. congruence.
    + destruct B6 as (_ & _ & V & _); [lia|]. apply V.
    + destruct B6 as (_ & _ & _ & V); [lia|]. apply V.
  - intros dg y c n Hdg Hy Hc Hp Hn Hf. rewrite R1 in Hdg. destruct (Pk dg Hdg Hn) as [Hlt Hd]. destruct (B6 Hlt) as (F1 & F2 & _).
    destruct Hd as [-> | ->]; cbn [code length Nat.pow Nat.mul Nat.add] in Hf; congruence.
  - intros y x Hy Hx. destruct (inr1_inv _ _ Hy) as [i [-> Hi]]. destruct (inr1_inv _ _ Hx) as [j [-> Hj]]. rewrite kron1, <- A7 by auto.
    apply tmat_ext; auto; intros; now rewrite B3.
  - intros dg Hdg Hn. rewrite R1 in Hdg. destruct (Pk dg Hdg Hn) as [Hlt Hd]. destruct (B6 Hlt) as (F1 & F2 & _).
    destruct Hd as [-> | ->]; cbn [code length Nat.pow Nat.mul Nat.add]; congruence.
Qed.
Lemma furnish_exists d k (t : triC) f : dims t = [d] -> diffs t = [k] -> k <= d -> exists t', furnish t (vecOf d f) = Ok t'.
Proof.
  intros A3 A4 H. unfold furnish. rewrite A3, A4. cbn [nth]. destruct (Nat.ltb_spec d k); [lia|]. destruct (d - k =? 0); [eauto|].
  unfold asize, vecOf. cbn [ash fold_right]. rewrite Nat.mul_1_r, Nat.ltb_irrefl. eauto.
Qed.
Lemma off_empty0 k mi pl (t : triC) : unary 0%R noDiag k mi pl false = Ok t -> nonempty (diags t 0) = false.
Proof. unfold unary. cbn iota. destruct (_ || _); [discriminate|]. intros E. apply Ok_inj in E. now subst t. Qed.

(** the ladder operator of a mode *)
Lemma cav_rot b m : cavIs b m -> 0 < cvDim m -> exists a, cavAop m = Ok a /\ rot b [cvDim m] (rate [cavRate m]) a (kron [annihilation]).
Proof.
  intros Hb Hd. destruct (aop_good (cvDim m) Hd) as [t [E (A1 & A2 & A3 & A4 & A5 & A6)]]. unfold cavAop. rewrite E. cbn [bind].
  assert (HM : forall y x, y < cvDim m -> x < cvDim m -> tmat t [y] [x] = annihilation y x) by (intros; rewrite A6; now apply annihM_spec).
  unfold cavIs in Hb. unfold cavRate. destruct (cvExact m) as [[z o]|]; [destruct Hb as [-> ->]|subst b].
  - destruct (furnish_exists (cvDim m) 1 t (fun i => kadd (kmul (RC (INR i)) z) (kerrElem 0 i)) A4 A5 ltac:(lia)) as [t' Et]. exists t'. split; [exact Et|].
    eapply rot_D; [|exact (furn_rot _ _ t t' _ annihilation A1 A2 A3 A4 A5 (off_empty0 _ _ _ _ E) HM Et ltac:(lia))].
    intros y Hy. destruct (inr1_inv _ _ Hy) as [i [-> _]]. cbn [nth]. unfold rate, together, eigenvalue, kerrElem. apply cr_eq; cbn -[INR]; ring.
  - exists t. split; [reflexivity|]. eapply rot_D; [|apply (plain_rot [cvDim m] t); auto].
    + intros y Hy. destruct (inr1_inv _ _ Hy) as [i [-> _]]. unfold rate, together. apply cr_eq; cbn; ring.
    + intros y x Hy Hx. destruct (inr1_inv _ _ Hy) as [i [-> Hi]]. destruct (inr1_inv _ _ Hx) as [j [-> Hj]]. rewrite kron1. auto.
Qed.
Lemma cavN_rot m D : 0 < cvDim m -> exists n, cavNop m = Ok n /\ rot false [cvDim m] D n (kron [number]).
Proof.
  intros Hd. unfold cavNop, mainDiagonal. destruct (diag_rot (cvDim m) (fun i => kadd (kmul (RC (INR i)) k1) (kerrElem 0 i)) D Hd) as [t [E H]]. exists t. split; [exact E|].
  eapply rot_ext; [|exact H]. intros y x Hy Hx. destruct (inr1_inv _ _ Hy) as [i [-> Hi]]. destruct (inr1_inv _ _ Hx) as [j [-> Hj]]. rewrite !kron1. unfold number.
  destruct (i =? j); [|reflexivity]. unfold kerrElem. apply cr_eq; cbn -[INR]; ring.
Qed.

(** ** particles *)
Lemma rotOf_rate p i : rotOf p i = kopp (partRate p i).
Proof. apply rot_eigen. Qed.
Definition lap (p : particle) : list nat -> CR := rate [partRate p].
Lemma lap_nth p y : inr [pDim p] y -> rotOf p (nth 0 y 0) = lap p y.
Proof. intros Hy. destruct (inr1_inv _ _ Hy) as [i [-> _]]. cbn [nth]. rewrite rotOf_rate. unfold lap, rate, together. ring. Qed.
Lemma pop_wf dim D t k M : pop dim D t k M -> wf t /\ time t = 0%R /\ dims t = [dim] /\ diffs t = [k].
Proof. intros (A1 & A2 & A3 & A4 & _). auto. Qed.
(** without frequencies everything is plain *)
Lemma sch_rot p t M : pExact p = None -> wf t -> noFreqs t -> time t = 0%R -> dims t = [pDim p] -> (forall y x, y < pDim p -> x < pDim p -> tmat t [y] [x] = M y x) ->
  rot false [pDim p] (lap p) t (kron [M]).
Proof.
  intros Hp H1 H2 H3 H4 H5. eapply rot_D; [|apply (plain_rot [pDim p] t); auto].
  - intros y Hy. rewrite <- lap_nth by auto. unfold rotOf. now rewrite Hp.
  - intros y x Hy Hx. destruct (inr1_inv _ _ Hy) as [i [-> Hi]]. destruct (inr1_inv _ _ Hx) as [j [-> Hj]]. rewrite kron1. auto.
Qed.
Lemma exp_rot p K omrec : pExact p = Some omrec -> K <> 0%Z -> (Z.abs K <= Z.of_nat (pDim p))%Z ->
  exists t, expINKX p K = Ok t /\ diffs t = [Z.to_nat (Z.abs K)] /\ rot true [pDim p] (lap p) t (kron [waveM K]).
Proof.
  intros Hp HK Hf. destruct (exp0_pop (pDim p) K (pDim_pos p) Hf) as [t [E [NF (A1 & A2 & A3 & A4 & A5 & A6 & A7 & A8)]]]. unfold expINKX. rewrite E, Hp. cbn [bind].
  assert (E0 : nonempty (diags t 0) = false).
  { unfold expINKX0 in E. destruct (Z.ltb _ 0) eqn:El; [apply Z.ltb_lt in El; destruct (Z.ltb_spec 0 K); lia|]. destruct (Z.ltb_spec 0 K).
    - exact (off_empty0 _ _ _ _ E).
    - destruct (Z.eqb_spec K 0); [lia|]. exact (off_empty0 _ _ _ _ E). }
  destruct (furnish_exists (pDim p) _ t (fun i => kmul (kmul CI (RC omrec)) (RC (gridK (pFin p) 1 i * gridK (pFin p) 1 i))) A3 A4 ltac:(lia)) as [t' Et]. exists t'. split; [exact Et|].
  split; [destruct (furnish_spec t t' _ _ _ A3 A4 (noFreqs_wf _ NF) Et) as (_ & B2 & _); congruence|].
  eapply rot_D; [|exact (furn_rot _ _ t t' _ (waveM K) A1 NF A2 A3 A4 E0 A8 Et ltac:(lia))].
  intros y Hy. rewrite <- lap_nth by auto. unfold rotOf. now rewrite Hp.
Qed.
Lemma same_add p a b K t (M1 M2 : mat) : rot true [pDim p] (lap p) a (kron [M1]) -> rot true [pDim p] (lap p) b (kron [M2]) -> diffs a = [K] -> diffs b = [K] -> add CReqb a b = Ok t ->
  rot true [pDim p] (lap p) t (kron [fun y x => kadd (M1 y x) (M2 y x)]).
Proof.
  intros H1 H2 E1 E2 E. eapply rot_ext; [|exact (rots_add true _ _ a b t _ _ H1 H2 ltac:(congruence) E)]. intros y x Hy Hx.
  destruct (inr1_inv _ _ Hy) as [i [-> Hi]]. destruct (inr1_inv _ _ Hx) as [j [-> Hj]]. now rewrite !kron1.
Qed.
Lemma kron_scale1 b d D t c (M : mat) : rot b [d] D t (kron [M]) -> rot b [d] D (scale c t) (kron [fun y x => kmul c (M y x)]).
Proof.
  intros H. eapply rot_ext; [|exact (rot_scale _ _ _ _ _ c H)]. intros y x Hy Hx. destruct (inr1_inv _ _ Hy) as [i [-> Hi]]. destruct (inr1_inv _ _ Hx) as [j [-> Hj]]. now rewrite !kron1.
Qed.
Lemma kron_neg1 b d D t (M : mat) : rot b [d] D t (kron [M]) -> rot b [d] D (neg t) (kron [fun y x => kopp (M y x)]).
Proof.
  intros H. eapply rot_ext; [|exact (rot_neg _ _ _ _ _ H)]. intros y x Hy Hx. destruct (inr1_inv _ _ Hy) as [i [-> Hi]]. destruct (inr1_inv _ _ Hx) as [j [-> Hj]]. now rewrite !kron1.
Qed.
(** mode functions with a wave number, in the interaction picture *)
Lemma cos_rot p K omrec : pExact p = Some omrec -> K <> 0%Z -> (Z.abs K <= Z.of_nat (pDim p))%Z ->
  exists t, cosNKX p K = Ok t /\ rot true [pDim p] (lap p) t (kron [cosM K]).
Proof.
  intros Hp HK Hf. destruct (exp_rot p K omrec Hp HK Hf) as [a [Ea [Da Ra]]]. destruct (exp_rot p (- K) omrec Hp ltac:(lia) ltac:(lia)) as [b [Eb [Db Rb]]].
  destruct (block_cos p K) as [t [E _]]. exists t. split; [exact E|]. unfold cosNKX in E. rewrite Ea, Eb in E. cbn [bind] in E.
  destruct (add CReqb a b) as [s| | | | |] eqn:Es; try discriminate. cbn [bind] in E. apply Ok_inj in E. subst t. rewrite Z.abs_opp in Db.
  exact (kron_scale1 _ _ _ _ (RC (/ 2)) _ (same_add p a b _ s _ _ Ra Rb Da Db Es)).
Qed.
Lemma sin_rot p K omrec : pExact p = Some omrec -> K <> 0%Z -> (Z.abs K <= Z.of_nat (pDim p))%Z ->
  exists t, sinNKX p K = Ok t /\ rot true [pDim p] (lap p) t (kron [sinM K]).
Proof.
  intros Hp HK Hf. destruct (exp_rot p K omrec Hp HK Hf) as [a [Ea [Da Ra]]]. destruct (exp_rot p (- K) omrec Hp ltac:(lia) ltac:(lia)) as [b [Eb [Db Rb]]].
  destruct (block_sin p K) as [t [E _]]. exists t. split; [exact E|]. unfold sinNKX in E. rewrite Ea, Eb in E. cbn [bind] in E.
  destruct (sub CReqb a b) as [s| | | | |] eqn:Es; try discriminate. cbn [bind] in E. apply Ok_inj in E. subst t. rewrite Z.abs_opp in Db.
  eapply rot_ext; [|exact (kron_scale1 _ _ _ _ ((0, - / 2)%R : CR) _ (same_add p a (neg b) _ s _ _ Ra (kron_neg1 _ _ _ _ _ Rb) Da Db Es))].
  intros y x Hy Hx. destruct (inr1_inv _ _ Hy) as [i [-> Hi]]. destruct (inr1_inv _ _ Hx) as [j [-> Hj]]. rewrite !kron1. unfold sinM. f_equal.
Qed.
Definition mfM (mf : modeFunction) : mat :=
  match fst mf with MSin => sinM (snd mf) | MCos => cosM (snd mf) | MPlus => waveM (snd mf) | MMinus => waveM (- snd mf) end.
Lemma mfM_mult p mf : multiplies (pDim p) (pK p) (mfValue mf) (mfM mf).
Proof.
  destruct mf as [k K]. unfold mfM, mfValue. cbn [fst snd]. destruct k.
  - now apply mult_sin.
  - now apply mult_cos.
  - apply mult_wave.
  - eapply mult_ext; [|apply mult_wave]. intros x. unfold wave. f_equal. rewrite opp_IZR. apply cr_eq; cbn; ring.
Qed.
Lemma mf_block p mf : exists t, mfNKX p mf = Ok t /\ ((Z.abs (snd mf) <= Z.of_nat (pDim p))%Z -> pop (pDim p) (rotOf p) t (Z.to_nat (Z.abs (snd mf))) (mfM mf)).
Proof.
  destruct mf as [k K]. unfold mfNKX, mfM. cbn [fst snd]. destruct k.
  - destruct (block_sin p K) as [t [E H]]. exists t. split; [exact E|]. intros Hf. destruct H as [[_ H]|[H _]]; [exact H|lia].
  - destruct (block_cos p K) as [t [E H]]. exists t. split; [exact E|]. intros Hf. destruct H as [[_ H]|[H _]]; [exact H|lia].
  - destruct (block_exp p K) as [t [E H]]. exists t. split; [exact E|]. intros Hf. destruct H as [[_ H]|[H _]]; [exact H|lia].
  - destruct (block_exp p (- K)) as [t [E H]]. exists t. split; [exact E|]. rewrite Z.abs_opp in H. intros Hf. destruct H as [[_ H]|[H _]]; [exact H|lia].
Qed.
Lemma mf_noFreqs p mf t : pExact p = None -> mfNKX p mf = Ok t -> noFreqs t.
Proof. intros Hp. unfold mfNKX. destruct (fst mf); [apply sin_noFreqs|apply cos_noFreqs|apply exp_noFreqs|apply exp_noFreqs]; exact Hp. Qed.
Lemma mf_rot b p mf : partIs b p -> (b = true -> snd mf <> 0%Z) -> (Z.abs (snd mf) <= Z.of_nat (pDim p))%Z ->
  exists t, mfNKX p mf = Ok t /\ rot b [pDim p] (lap p) t (kron [mfM mf]).
Proof.
  intros Hb HK Hf. unfold partIs in Hb. destruct (pExact p) as [omrec|] eqn:Hp; subst b.
  - specialize (HK eq_refl). destruct mf as [k K]. unfold mfNKX, mfM. cbn [fst snd] in *. destruct k.
    + now apply (sin_rot p K omrec).
    + now apply (cos_rot p K omrec).
    + destruct (exp_rot p K omrec Hp HK Hf) as [t [E [_ H]]]. eauto.
    + destruct (exp_rot p (- K) omrec Hp ltac:(lia) ltac:(lia)) as [t [E [_ H]]]. eauto.
  - destruct (mf_block p mf) as [t [E P]]. exists t. split; [exact E|]. specialize (P Hf). destruct (pop_wf _ _ _ _ _ P) as (P1 & P2 & P3 & P4).
    apply sch_rot; auto; [now apply (mf_noFreqs p mf)|]. apply P.
Qed.
