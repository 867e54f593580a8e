From Coq Require Import List Arith Bool ZArith Lia Reals Lra.
From Coquelicot Require Import Coquelicot.
From Verif Require Import Star CReal Arr TriModel TriSpec TriProofs TriPropagate TriLemmas FreeExactModel FreeExactSpec ElementSpec ModeModel ModeSpec ModeProofs ModeFacts
  ParticleModel ParticleSpec ParticleWaves ParticleProofs ParticleFacts ParticleComposition.
Import ListNotations.
Add Ring CRPi : (k_ring CR).
Local Open Scope nat_scope.

Lemma rot_eigen p i : rotOf p i = kopp (eigenOf (pExact p) (pK p) i).
Proof. unfold rotOf, eigenOf. destruct (pExact p); apply cr_eq; cbn; ring. Qed.
Lemma mult_is_operator p o f : is_mult p o f -> operator_of p o f.
Proof.
  intros [M [[t [E A]] HM]]. exists t. split; [exact E|]. split.
  - eapply multiplies_ext; [reflexivity| |exact HM]. intros i j Hi Hj. destruct (A i j Hi Hj) as [A1 _]. now rewrite <- A1.
  - intros s i j Hi Hj. destruct (A i j Hi Hj) as [A1 A2]. unfold matrixOf. rewrite A2, A1, !rot_eigen.
    replace (kmul (RC s) (kopp (eigenOf (pExact p) (pK p) i))) with (kopp (kmul (RC s) (eigenOf (pExact p) (pK p) i))) by ring.
    replace (kopp (kmul (RC s) (kopp (eigenOf (pExact p) (pK p) j)))) with (kmul (RC s) (eigenOf (pExact p) (pK p) j)) by ring. reflexivity.
Qed.

(** ** the pumped particle *)
Definition bare (fin : nat) : particle := mkParticle fin None.
Lemma expINKX_bare fin nK : expINKX (bare fin) nK = expINKX0 (2 ^ fin) nK.
Proof. unfold expINKX. cbn. destruct (expINKX0 _ nK); reflexivity. Qed.
Lemma cosNKX_bare fin nK : cosNKX (bare fin) nK = cosNKX0 (2 ^ fin) nK.
Proof. unfold cosNKX, cosNKX0. now rewrite !expINKX_bare. Qed.
Lemma rot_bare fin i : rotOf (bare fin) i = k0. Proof. reflexivity. Qed.

Definition pumpFactor (vClass : R) (f : modeFunction) : CR := kmul ((0, - / 2)%R : CR) (RC (vClass * match fst f with MSin => -1 | _ => 1 end)).
(** its matrix, H/i, without frequencies *)
Definition potM (vClass : R) (f : modeFunction) : mat :=
  if isComplexMF (fst f) then fun _ _ => k0 else fun y x => kmul (pumpFactor vClass f) (cosM (2 * snd f) y x).
Lemma add_noFreqs (a b t : tri CR R) : noFreqs a -> noFreqs b -> add CReqb a b = Ok t -> noFreqs t.
Proof.
  intros Ha Hb. unfold add. destruct (mergeDiffs _ _); [|discriminate]. destruct (existsb _ _); [discriminate|]. destruct (existsb _ _); [discriminate|].
  intros E i. apply Ok_inj in E. subst t. cbn [freqs]. now rewrite addFreq_nonempty, Ha, Hb.
Qed.
Lemma sub_noFreqs (a b t : tri CR R) : noFreqs a -> noFreqs b -> sub CReqb a b = Ok t -> noFreqs t.
Proof. intros Ha Hb. apply add_noFreqs; auto. Qed.
Lemma exp0_noFreqs dim nK t : expINKX0 dim nK = Ok t -> noFreqs t.
Proof.
  unfold expINKX0. destruct (Z.ltb _ 0); [apply unary_noFreqs|]. destruct (Z.ltb 0 nK); [apply unary_noFreqs|]. destruct (Z.eqb nK 0); apply unary_noFreqs.
Qed.
Lemma exp_noFreqs p nK t : pExact p = None -> expINKX p nK = Ok t -> noFreqs t.
Proof. unfold expINKX. intros ->. destruct (expINKX0 (pDim p) nK) as [a| | | | |] eqn:E; try discriminate. cbn. intros H. apply Ok_inj in H. subst. now apply exp0_noFreqs in E. Qed.
Lemma cos_noFreqs p nK t : pExact p = None -> cosNKX p nK = Ok t -> noFreqs t.
Proof.
  intros Hp. unfold cosNKX. destruct (expINKX p nK) as [a| | | | |] eqn:Ea; try discriminate. destruct (expINKX p (- nK)) as [b| | | | |] eqn:Eb; try discriminate. cbn [bind].
  destruct (add CReqb a b) as [s| | | | |] eqn:Es; try discriminate. cbn [bind]. intros H. apply Ok_inj in H. subst t.
  exact (add_noFreqs a b s (exp_noFreqs p _ _ Hp Ea) (exp_noFreqs p _ _ Hp Eb) Es).
Qed.
Lemma sin_noFreqs p nK t : pExact p = None -> sinNKX p nK = Ok t -> noFreqs t.
Proof.
  intros Hp. unfold sinNKX. destruct (expINKX p nK) as [a| | | | |] eqn:Ea; try discriminate. destruct (expINKX p (- nK)) as [b| | | | |] eqn:Eb; try discriminate. cbn [bind].
  destruct (sub CReqb a b) as [s| | | | |] eqn:Es; try discriminate. cbn [bind]. intros H. apply Ok_inj in H. subst t.
  exact (sub_noFreqs a b s (exp_noFreqs p _ _ Hp Ea) (exp_noFreqs p _ _ Hp Eb) Es).
Qed.

(** either empty, or an operator without frequencies *)
Definition pumpOp (fin : nat) (h : tri CR R) (M : mat) : Prop :=
  noFreqs h /\ ((mute h /\ forall y x, y < 2 ^ fin -> x < 2 ^ fin -> M y x = k0) \/ exists k, k <= 2 ^ fin /\ pop (2 ^ fin) (fun _ => k0) h k M).
Lemma hOverI_pump fin vClass f : exists h, partHOverI (2 ^ fin) vClass f = Ok h /\ pumpOp fin h (potM vClass f).
Proof.
  unfold partHOverI, potM. destruct (isComplexMF (fst f)) eqn:Ec.
  { rewrite andb_false_r. destruct empty_mute as [t [E M]]. exists t. split; [exact E|]. split; [apply M|]. left. split; [exact M|reflexivity]. }
  rewrite andb_true_r. unfold Reqb. destruct (Req_EM_T vClass 0) as [->|Hv]; cbn [negb].
  { destruct empty_mute as [t [E M]]. exists t. split; [exact E|]. split; [apply M|]. left. split; [exact M|]. intros. unfold pumpFactor.
    rewrite Rmult_0_l. change (RC 0) with (k0 : CR). ring. }
  replace (Z.shiftl (snd f) 1) with (2 * snd f)%Z by (rewrite Z.shiftl_mul_pow2 by lia; change (2 ^ 1)%Z with 2%Z; ring).
  rewrite <- cosNKX_bare. destruct (block_cos (bare fin) (2 * snd f)) as [t [E B]]. rewrite E. cbn [bind]. eexists. split; [reflexivity|].
  split; [exact (cos_noFreqs (bare fin) _ _ eq_refl E)|].
  assert (Em : forall y x, kmul (pumpFactor vClass f) (cosM (2 * snd f) y x) =
     kmul ((0, - / 2)%R : CR) (kmul (RC (vClass * match fst f with MSin => -1 | _ => 1 end)) (cosM (2 * snd f) y x))) by (intros; unfold pumpFactor; ring).
  destruct B as [[B1 B2]|[B1 [B2 B3]]].
  - right. exists (Z.to_nat (Z.abs (2 * snd f))). split; [unfold pDim in B1; cbn [pFin bare] in B1; lia|]. eapply pop_ext; [intros; symmetry; apply Em|].
    now repeat apply pop_scale.
  - left. split; [now repeat apply mute_scale|]. intros y x Hy Hx. rewrite B3 by auto. ring.
Qed.
Lemma pot_mult fin vClass f : exists W, multiplies (2 ^ fin) (gridK fin 1) (potential vClass f) W /\
  forall y x, y < 2 ^ fin -> x < 2 ^ fin -> potM vClass f y x = kmul (kopp CI) (W y x).
Proof.
  pose proof (mult_cos (bare fin) (2 * snd f) (fun x => RC (cos (IZR (2 * snd f) * x))) (fun _ => eq_refl)) as MC.
  unfold potM, potential. destruct f as [m K]. cbn [fst snd] in *. destruct m; cbn [isComplexMF].
  - eexists. split; [eapply (multiplies_ext (2 ^ fin)); [|reflexivity|exact (mult_scale (bare fin) (RC (- (vClass / 2))) _ _ MC)]|].
    + intros x. cbn beta. rewrite cos2. unfold mfValue. cbn [fst snd]. rewrite csq_RC.
      pose proof (sin2_cos2 (IZR K * x)) as H. unfold Rsqr in H. apply (f_equal (Rmult vClass)) in H. apply cr_eq; cbn; [|ring]. rewrite ?Rmult_1_r in *. nra.
    + intros y x _ _. unfold pumpFactor. cbn [fst]. generalize (cosM (2 * K) y x). intros c. apply cr_eq; cbn; field.
  - eexists. split; [eapply (multiplies_ext (2 ^ fin)); [|reflexivity|exact (mult_scale (bare fin) (RC (vClass / 2)) _ _ MC)]|].
    + intros x. cbn beta. rewrite cos2. unfold mfValue. cbn [fst snd]. rewrite csq_RC.
      pose proof (sin2_cos2 (IZR K * x)) as H. unfold Rsqr in H. apply (f_equal (Rmult vClass)) in H. apply cr_eq; cbn; [|ring]. rewrite ?Rmult_1_r in *. nra.
    + intros y x _ _. unfold pumpFactor. cbn [fst]. generalize (cosM (2 * K) y x). intros c. apply cr_eq; cbn; field.
  - eexists. split; [eapply (multiplies_ext (2 ^ fin)); [|reflexivity|exact (mult_scale (bare fin) k0 _ _ MC)]|].
    + intros x. cbn beta. unfold mfValue. cbn [fst snd]. rewrite exp_iu. unfold csq. cbn [fst snd].
      pose proof (sin2_cos2 (IZR K * x)) as H. unfold Rsqr in H. apply (f_equal (Rmult vClass)) in H. apply cr_eq; cbn; [|ring]. rewrite ?Rmult_1_r in *. nra.
    + intros y x _ _. cbn beta. ring.
  - eexists. split; [eapply (multiplies_ext (2 ^ fin)); [|reflexivity|exact (mult_scale (bare fin) k0 _ _ MC)]|].
    + intros x. cbn beta. unfold mfValue. cbn [fst snd]. rewrite exp_iu, cos_neg, sin_neg. unfold csq. cbn [fst snd].
      pose proof (sin2_cos2 (IZR K * x)) as H. unfold Rsqr in H. apply (f_equal (Rmult vClass)) in H. apply cr_eq; cbn; [|ring]. rewrite ?Rmult_1_r in *. nra.
    + intros y x _ _. cbn beta. ring.
Qed.

(** the action of a list of one operator *)
Lemma dims_after (ts : list R) (t : R) (x : tri CR R) : dims (propagate t (fold_left (fun x s => propagate s x) ts x)) = dims x /\ diffs (propagate t (fold_left (fun x s => propagate s x) ts x)) = diffs x.
Proof. destruct (propagate_path ts t x) as (P1 & P2 & _). split; [exact P1|exact P2]. Qed.
Lemma single_action (td : bool) (h : tri CR R) (dim k : nat) (A : mat) (ts : list R) (t : R) (psi : nat -> CR) (m : nat) : dims h = [dim] -> diffs h = [k] -> m < dim ->
  (forall y x, y < dim -> x < dim -> tmat (if td then propagate t h else h) [y] [x] = A y x) ->
  hAction td (afterCalls td ts [h]) t psi m = lsum dim (fun n => kmul (A m n) (psi n)).
Proof.
  intros E1 E2 Hm HA. unfold hAction. destruct td.
  - rewrite after_td. cbn [map addContribution snd fold_left]. destruct (dims_after ts t h) as [D1 D2].
    rewrite (apply1 _ dim k A); [cbn [nth]; ring|congruence|congruence| |exact Hm]. intros y x Hy Hx. rewrite (eqt_tmat _ _ _ _ (propagate_path ts t h)). now apply HA.
  - rewrite after_const. cbn [addContribution snd fold_left]. rewrite (apply1 _ dim k A) by auto. cbn [nth]. ring.
Qed.
Lemma partU dim omrec k t m : m < dim -> particleUpdateU dim omrec k t (fun _ => k0) m = cexp (kmul (RC t) (eigenvalue (EParticle omrec k) m)).
Proof. intros H. unfold particleUpdateU, eigenvalue. apply Nat.ltb_lt in H. rewrite H. f_equal. apply cr_eq; cbn; ring. Qed.

Definition kinM (fin : nat) (omrec : R) : mat := fun m n => if m =? n then eigenvalue (EParticle omrec (gridK fin 1)) m else k0.
Lemma pow2_pos fin : 0 < 2 ^ fin. Proof. pose proof (Nat.pow_nonzero 2 fin). lia. Qed.
Lemma pumped_generator sch fin omrec vClass f : exists sys, makePumpedParticle sch fin omrec vClass f = Ok sys /\ psFin sys = fin /\
  part_generator sys (fun m n => kadd (kinM fin omrec m n) (potM vClass f m n)).
Proof.
  destruct (hOverI_pump fin vClass f) as [h [Eh [Nh Hh]]]. unfold makePumpedParticle. destruct sch.
  - unfold partHamSch. rewrite Eh. destruct (ofDiagonal_good (2 ^ fin) (fun i => kmul (kmul CI (RC (- omrec))) (RC (gridK fin 1 i * gridK fin 1 i))) (pow2_pos fin)) as [d [Ed Gd]].
    change (ofDiagonal (partDiagonal fin (- omrec)) = Ok d) in Ed. rewrite Ed. cbn [bind].
    assert (Gd' : pop (2 ^ fin) (fun _ => k0) d 0 (kinM fin omrec)).
    { destruct Gd as (G1 & G2 & G3 & G4 & G5 & G6). split; [exact G1|]. split; [exact G3|]. split; [exact G4|]. split; [exact G5|]. split; [apply G2|].
      split; [split; rewrite G2; discriminate|]. split; [now apply (gen_noFreqs0 (2 ^ fin) 0)|]. intros y x _ _. rewrite G6. unfold kinM.
      destruct (y =? x); [|reflexivity]. apply cr_eq; cbn; ring. }
    assert (S : exists s k, add CReqb d h = Ok s /\ dims s = [2 ^ fin] /\ diffs s = [k] /\
                forall y x, y < 2 ^ fin -> x < 2 ^ fin -> tmat s [y] [x] = kadd (kinM fin omrec y x) (potM vClass f y x)).
    { destruct Hh as [[Mh Zh]|[k [Hk Ph]]].
      - destruct (Gd) as (G1 & G2 & G3 & G4 & G5 & G6).
        assert (Pd : plain d).
        { split; [now rewrite G4|]. split; [exact G5|]. split; [exact G2|].
          assert (O : nonempty (diags d 1) = true \/ nonempty (diags d 2) = true -> False).
          { intros H. apply (offdiag_k d 0 G1 G5) in H; [lia|unfold rankOf; now rewrite G4]. }
          destruct (nonempty (diags d 1)), (nonempty (diags d 2)); auto; exfalso; auto. }
        assert (Dm : forall t, add CReqb d h = Ok t -> dims t = dims d).
        { intros t. unfold add. destruct (mergeDiffs _ _); [|discriminate]. destruct (existsb _ _); [discriminate|]. destruct (existsb _ _); [discriminate|].
          intros E. apply Ok_inj in E. now subst t. }
        destruct (plain_add_mute d h Pd Mh) as [s [Es [Ps Qs]]]. exists s, 0. split; [exact Es|]. split; [rewrite (Dm s Es); exact G4|].
        split; [apply Ps|]. intros y x Hy Hx. rewrite Qs, Zh by auto. destruct Gd' as (_ & _ & _ & _ & _ & _ & _ & T). rewrite T by auto. ring.
      - destruct (pop_add _ _ _ _ _ _ _ _ Gd' Ph) as [s [Es Ps]]; [right; left; split; [reflexivity|apply Gd]|].
        exists s, k. split; [exact Es|]. destruct Ps as (_ & _ & P3 & P4 & _ & _ & _ & P8). cbn [Nat.eqb] in P4. split; [exact P3|]. split; [exact P4|]. exact P8. }
    destruct S as [s [k [Es [S1 [S2 S3]]]]]. rewrite Es. cbn [bind]. eexists. split; [reflexivity|]. split; [reflexivity|].
    unfold part_generator. cbn [psExact psH psFin]. intros ts t psi m Hm. exact (single_action false s (2 ^ fin) k _ ts t psi m S1 S2 Hm S3).
  - unfold partHamIP. rewrite Eh. cbn [bind].
    assert (S : exists h', furnish h (partDiagonal fin omrec) = Ok h' /\
               ((mute h' /\ forall y x, y < 2 ^ fin -> x < 2 ^ fin -> potM vClass f y x = k0) \/
                exists k, dims h' = [2 ^ fin] /\ diffs h' = [k] /\ forall t y x, y < 2 ^ fin -> x < 2 ^ fin ->
                  tmat (propagate t h') [y] [x] = kmul (kmul (cexp (kopp (kmul (RC t) (eigenvalue (EParticle omrec (gridK fin 1)) y)))) (potM vClass f y x))
                                                       (cexp (kmul (RC t) (eigenvalue (EParticle omrec (gridK fin 1)) x))))).
    { destruct Hh as [[Mh Zh]|[k [Hk Ph]]].
      - destruct (furnish_mute h (partDiagonal fin omrec) Mh) as [h' [E M]]. exists h'. split; [exact E|]. left. split; [exact M|exact Zh].
      - destruct (furnish_pop (2 ^ fin) h k _ (fun i => kmul (kmul CI (RC omrec)) (RC (gridK fin 1 i * gridK fin 1 i))) Ph Nh Hk (pow2_pos fin)) as [h' [E P]].
        exists h'. split; [exact E|]. right. exists k. split; [apply P|]. split; [apply P|]. intros t y x Hy Hx. rewrite (pop_time _ _ _ _ _ t y x P Hy Hx).
        f_equal; [f_equal|]; f_equal; apply cr_eq; cbn; ring. }
    destruct S as [h' [Ef S]]. rewrite Ef. cbn [bind]. eexists. split; [reflexivity|]. split; [reflexivity|].
    unfold part_generator. cbn [psExact psH psFin]. intros ts t psi m Hm. cbv zeta. rewrite (partU _ _ _ _ _ Hm).
    destruct S as [[Mh Zh]|[k [S1 [S2 S3]]]].
    + unfold hAction. rewrite after_td. cbn [map addContribution snd fold_left]. rewrite apply_empty by (destruct (dims_after ts t h') as [-> _]; apply Mh).
      transitivity (k0 : CR); [ring|]. symmetry. unfold lsum. apply ksum_zero. intros n Hn. apply in_seq in Hn. rewrite Zh by lia. unfold kinM. ring.
    + rewrite (single_action true h' (2 ^ fin) k (fun y x => kmul (kmul (cexp (kopp (kmul (RC t) (eigenvalue (EParticle omrec (gridK fin 1)) y)))) (potM vClass f y x))
                                                       (cexp (kmul (RC t) (eigenvalue (EParticle omrec (gridK fin 1)) x)))) ts t psi m S1 S2 Hm (S3 t)).
      unfold lsum. rewrite <- ksum_scal_l. apply ksum_ext. intros n Hn. apply in_seq in Hn. rewrite (partU _ _ _ _ n) by lia.
      fold (kinM fin omrec m n). pose proof (cexp_inv (kmul (RC t) (eigenvalue (EParticle omrec (gridK fin 1)) m))) as Hi.
      set (e := cexp (kmul (RC t) (eigenvalue (EParticle omrec (gridK fin 1)) m))) in *. set (e' := cexp (kopp (kmul (RC t) (eigenvalue (EParticle omrec (gridK fin 1)) m)))) in *.
      transitivity (kmul (kmul (kmul e e') (potM vClass f m n)) (kmul (cexp (kmul (RC t) (eigenvalue (EParticle omrec (gridK fin 1)) n))) (psi n))); [ring|]. rewrite Hi. ring.
Qed.
Lemma pumped_particle sch fin omrec vClass f : exists sys G, makePumpedParticle sch fin omrec vClass f = Ok sys /\ psFin sys = fin /\
  part_generator sys G /\ kinetic_and fin omrec (potential vClass f) G.
Proof.
  destruct (pumped_generator sch fin omrec vClass f) as [sys [E [F G]]]. destruct (pot_mult fin vClass f) as [W [H1 H2]].
  exists sys, (fun m n => kadd (kinM fin omrec m n) (potM vClass f m n)). split; [exact E|]. split; [exact F|]. split; [exact G|]. exists W. split; [exact H1|].
  intros m n Hm Hn. rewrite H2 by auto. unfold kinM. destruct (m =? n); [|ring]. generalize (W m n). intros w. apply cr_eq; cbn; ring.
Qed.
Lemma free_particle sch fin omrec : exists sys G, makeParticle sch fin omrec = Ok sys /\ psFin sys = fin /\
  part_generator sys G /\ kinetic_and fin omrec (fun _ => k0) G.
Proof.
  assert (K : kinetic_and fin omrec (fun _ => k0) (kinM fin omrec)).
  { exists (fun _ _ => k0). split.
    - pose proof (mult_scale (bare fin) k0 _ _ (mult_one (bare fin) (fun _ => k1) (fun _ => eq_refl))) as H.
      eapply multiplies_ext; [| |exact H]; intros; cbn beta; ring.
    - intros m n _ _. unfold kinM. destruct (m =? n); [|ring]. apply cr_eq; cbn; ring. }
  unfold makeParticle. destruct sch.
  - destruct (ofDiagonal_good (2 ^ fin) (fun i => kmul (kmul CI (RC (- omrec))) (RC (gridK fin 1 i * gridK fin 1 i))) (pow2_pos fin)) as [d [Ed Gd]].
    change (ofDiagonal (partDiagonal fin (- omrec)) = Ok d) in Ed. rewrite Ed. cbn [bind]. eexists. exists (kinM fin omrec). split; [reflexivity|]. split; [reflexivity|].
    split; [|exact K]. destruct Gd as (G1 & G2 & G3 & G4 & G5 & G6). unfold part_generator. cbn [psExact psH psFin]. intros ts t psi m Hm.
    apply (single_action false d (2 ^ fin) 0 _ ts t psi m G4 G5 Hm). intros y x _ _. rewrite G6. unfold kinM. destruct (y =? x); [|reflexivity]. apply cr_eq; cbn; ring.
  - eexists. exists (kinM fin omrec). split; [reflexivity|]. split; [reflexivity|]. split; [|exact K]. unfold part_generator. cbn [psExact psH psFin]. intros m n _ _. reflexivity.
Qed.
