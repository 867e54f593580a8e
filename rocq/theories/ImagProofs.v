(** Proofs for ImagProperties.v *)
From Coq Require Import List Arith Bool Lia Reals Lra.
From Verif Require Import Star CReal Arr PureModel TriModel FreeExactModel FreeExactSpec ElementModel ElementSpec ElementProofs ModeModel ModeSpec ModeProofs ModeFacts DampSpec CompositeModel ParticleModel InteractionModel InteractionSpec InteractionProofs InteractionFacts InteractionLaws
  MatHamModel MatHamSpec MatHamProofs PhaseScan AverageSpec ScriptSpec CavScriptModel CavScriptSpec CavScriptProofs CavScriptFacts CavRing CavRingCases ScriptProofs ScriptFacts ScriptCases OptoSpec OptoProofs ImagModel ImagSpec.
Import ListNotations.
Add Ring CRim : (k_ring CR).
Local Open Scope nat_scope.
Local Open Scope K_scope.

Lemma imag_made p : 0 < pCutoff (iMode p) -> pNTh (iMode p) = 0%R -> pKerr (iMode p) = 0%R -> pKerrAlter (iMode p) = 0%R ->
  exists s, imagScript p = Ok s /\ ihDims (imInt s) = imDims p /\ imag_simulates s (imaginary (hDicke p) (- (sOmega (iSpin p) * (INR (sTwoS (iSpin p)) / 2)))).
Proof.
  intros C T K1 K2. set (q := iMode (mapped (prepared p))). set (sp := iSpin (mapped (prepared p))).
  destruct (make_generator q IP) as (sm & M & D & L & G). { exact C. } { cbn. rewrite T. lra. } { split; left; assumption. }
  destruct (make_ip _ _ M) as [z E].
  assert (MM : makeLossy q IP = make (undriven q) IP) by apply lossy_make.
  change (undriven q) with q in MM.
  set (sc := mkSpin (sTwoS sp) (sDimPar sp) (msExact (spinSys sp))).
  destruct (dicke_gen true (cavityOf q sm) sc (iU (mapped (prepared p))) (iY (mapped (prepared p)))) as (h & H1 & H2 & H3).
  { unfold cavIs, cavityOf. rewrite E. split; [reflexivity|exact K1]. } { reflexivity. } { exact C. }
  exists (mkImag sm (spinSys sp) h). split.
  { unfold imagScript. cbn zeta. fold q sp. rewrite MM, M. cbn [bind]. fold sc. rewrite H1. reflexivity. }
  cbn [imInt imM imS]. split; [rewrite H2; reflexivity|]. unfold imag_simulates. cbn [imInt imM imS]. rewrite H2. split; [rewrite D; reflexivity|].
  exists (modeGenerator q), (fun m n => if m =? n then eigenvalue (EMode ((sGamma sp, sOmega sp) : CR)) m else k0), (overI (hGeneralDicke (sTwoS sp) (iU (mapped (prepared p))) (iY (mapped (prepared p))))).
  split; [exact G|]. split; [intros ts t; unfold generator_at; cbn [msExact msH msDim spinSys]; reflexivity|]. split.
  - eapply generator_rates; [|exact H3]. intros y. destruct y as [|i [|j y]]; cbn [together]; rewrite ?cav_rate; reflexivity.
  - intros y x Hy Hx. apply inr2 in Hy as (i & i' & -> & _). apply inr2 in Hx as (j & j' & -> & _).
    unfold imaginary, hDicke, overI, hGeneralDicke, plusO, timesO. rewrite !kron2. unfold modeGenerator, q, sp. cbn -[INR sqrt annihilation creation spinX number one spinZ kmul kadd ksub kopp kconj k0 k1 kron K].
    generalize (kadd (annihilation i j) (creation i j)). intros X.
    set (u := RC (/ INR (sTwoS (iSpin p) + 1)) * iU p). set (w := RC (/ sqrt (INR (sTwoS (iSpin p) + 1))) * iY p).
    generalize (spinX (sTwoS (iSpin p)) i' j'). intros Y. generalize (annihilation i j) (creation i j). intros a b.
    assert (II : CI * CI = - k1) by (apply cr_eq; cbn; ring).
    transitivity (- (RC (- pDelta (iMode p)) * (number i j * one i' j') + RC (sOmega (iSpin p)) * (one i j * spinZ (sTwoS (iSpin p)) i' j')) + RC (- (sOmega (iSpin p) * (INR (sTwoS (iSpin p)) / 2))) * (one i j * one i' j')
                  + (CI * CI) * (u * (number i j * number i' j') + w * (X * Y))); [rewrite II; ring|].
    match goal with |- ?A + _ = ?B + ?C => assert (EQ : A = B) end.
    { rewrite T, K1, K2. unfold number, one, ElementSpec.identity, spinZ, eigenvalue. destruct (i =? j), (i' =? j'); destruct a as [a1 a2], b as [b1 b2]; apply cr_eq; cbn -[INR]; field. }
    rewrite EQ. f_equal. ring.
Qed.

(** ** The energy *)
Section Energy.
Variables (dims : list nat) (H : op).
Hypothesis HH : hermitian dims H.
Lemma braket_conj f g : kconj (braket dims f g) = braket dims g f.
Proof. unfold braket. rewrite isum_conj. apply isum_ext. intros y _. rewrite kconj_mul, kconj_invol. ring. Qed.
Lemma braket_herm f g : braket dims f (acting dims H g) = braket dims (acting dims H f) g.
Proof.
  unfold braket, acting. transitivity (isum dims (fun y => isum dims (fun x => kconj (f y) * (H y x * g x)))).
  { apply isum_ext. intros y _. now rewrite isum_scal_l. }
  rewrite isum_swap. apply isum_ext. intros x Hx. rewrite isum_conj, <- isum_scal_r. apply isum_ext. intros y Hy. rewrite (HH y x Hy Hx), kconj_mul. ring.
Qed.
Lemma braket_lin f g h (c : R) : braket dims f (fun y => - g y + RC c * h y) = - braket dims f g + RC c * braket dims f h.
Proof.
  unfold braket. rewrite <- isum_scal_l. transitivity ((- k1) * isum dims (fun y => kconj (f y) * g y) + isum dims (fun x => RC c * (kconj (f x) * h x))); [|ring].
  rewrite <- isum_scal_l, <- isum_add. apply isum_ext. intros y _. ring.
Qed.
Lemma norm2_rsum f : norm2 dims f = rsum (fun y => csq (f y)) (indices dims).
Proof. unfold norm2, braket, isum. rewrite (ksum_ext _ (fun y => RC (csq (f y)))) by (intros; apply csq_conj). apply cre_RC_sum. Qed.
Lemma descent psi (c : R) d : (forall y, inr dims y -> d y = - acting dims H psi y + RC c * psi y) -> (0 < norm2 dims psi)%R -> (energy_rate dims H psi d <= 0)%R.
Proof.
  intros Hd Hn. set (Hp := acting dims H psi).
  assert (R1 : forall f, braket dims f d = - braket dims f Hp + RC c * braket dims f psi).
  { intros f. rewrite <- braket_lin. unfold braket. apply isum_ext. intros y Hy. now rewrite Hd. }
  assert (R2 : forall f, braket dims d f = kconj (- braket dims f Hp + RC c * braket dims f psi)).
  { intros f. rewrite <- R1. symmetry. apply braket_conj. }
  assert (Q : (csq (braket dims psi Hp) <= norm2 dims psi * norm2 dims Hp)%R) by (rewrite !norm2_rsum; apply cauchy_schwarz).
  unfold energy_rate. cbn zeta. rewrite braket_herm. fold Hp. rewrite !R1, !R2.
  assert (R3 : braket dims Hp psi = braket dims psi Hp) by (symmetry; apply braket_herm). rewrite R3.
  assert (I1 : cim (braket dims psi Hp) = 0%R).
  { pose proof (braket_conj psi Hp) as X. rewrite R3 in X. destruct (braket dims psi Hp) as [a b]. apply (f_equal (fun z : CR => cim z)) in X. cbn in X |- *. lra. }
  assert (I2 : cim (braket dims psi psi) = 0%R).
  { pose proof (braket_conj psi psi) as X. destruct (braket dims psi psi) as [a b]. apply (f_equal (fun z : CR => cim z)) in X. cbn in X |- *. lra. }
  assert (I3 : cim (braket dims Hp Hp) = 0%R).
  { pose proof (braket_conj Hp Hp) as X. destruct (braket dims Hp Hp) as [a b]. apply (f_equal (fun z : CR => cim z)) in X. cbn in X |- *. lra. }
  unfold norm2 in *. destruct (braket dims psi Hp) as [a a'], (braket dims psi psi) as [b b'], (braket dims Hp Hp) as [e e']. unfold csq, cre, cim in *. cbn in *. subst a' b' e'.
  assert (0 < b * b)%R by nra. apply (Rmult_le_reg_r (b * b)); [lra|]. unfold Rdiv. rewrite Rmult_assoc, Rinv_l by lra. nra.
Qed.
End Energy.
Lemma one_herm i j : one i j = kconj (one j i).
Proof. unfold one, ElementSpec.identity. rewrite (Nat.eqb_sym j i). destruct (i =? j); apply cr_eq; cbn; ring. Qed.
Lemma spinZ_herm n i j : spinZ n i j = kconj (spinZ n j i).
Proof. unfold spinZ. rewrite (Nat.eqb_sym j i). destruct (Nat.eqb_spec i j) as [->|]; apply cr_eq; cbn; ring. Qed.
Lemma hDicke_herm p (u y : R) : iU p = RC u -> iY p = RC y -> hermitian (imDims p) (hDicke p).
Proof.
  intros Hu Hy. unfold imDims, hDicke. rewrite Hu, Hy.
  assert (E1 : forall x w : R, RC x * RC w = RC (x * w)) by (intros; apply cr_eq; cbn; ring). rewrite !E1.
  apply herm_plus; [|apply herm_dicke]. apply herm_plus; apply herm_kron2; intros; first [apply number_herm|apply one_herm|apply spinZ_herm].
Qed.
Lemma imag_descent p (u y c : R) psi : iU p = RC u -> iY p = RC y -> (0 < norm2 (imDims p) psi)%R ->
  (energy_rate (imDims p) (hDicke p) psi (acting (imDims p) (imaginary (hDicke p) c) psi) <= 0)%R.
Proof.
  intros Hu Hy Hn. apply (descent (imDims p) (hDicke p) (hDicke_herm p u y Hu Hy) psi c); [|exact Hn]. intros z Hz. unfold acting at 1.
  rewrite (isum_ext _ _ (fun x => (- k1) * (hDicke p z x * psi x) + RC c * (if listnat_eqb x z then psi x else k0))).
  - rewrite isum_add, !isum_scal_l. f_equal; [unfold acting; ring|]. f_equal. rewrite (isum_single _ _ z Hz).
    + now rewrite listnat_eqb_refl.
    + intros b _ Hb. destruct (listnat_eqb b z) eqn:E; [|reflexivity]. apply listnat_eqb_eq in E. contradiction.
  - intros x Hx. unfold imDims in Hz, Hx. apply inr2 in Hz as (i & i' & -> & _). apply inr2 in Hx as (j & j' & -> & _).
    unfold imaginary, plusO, timesO. rewrite kron2. unfold one, ElementSpec.identity. cbn [listnat_eqb]. rewrite (Nat.eqb_sym j i), (Nat.eqb_sym j' i'). destruct (i =? j), (i' =? j'); cbn [andb]; ring.
Qed.

(** ** The states *)
Definition halfSpin : imPars := mkIm (mkPars 0 0 0 2 k0 0 0) (mkSpinPars 1 0 0 0 0 0) k0 (RC (2 * sqrt 2)).
Lemma half_y : iY (prepared halfSpin) = RC 2.
Proof. pose proof (sqrt_lt_R0 2 ltac:(lra)). cbn -[sqrt INR]. replace (INR 2) with 2%R by (cbn; ring). assert (S2 : (sqrt 2 * / sqrt 2 = 1)%R) by (field; lra). transitivity (RC (2 * (sqrt 2 * / sqrt 2))); [apply cr_eq; cbn -[sqrt]; ring|rewrite S2; f_equal; ring]. Qed.
Lemma half_u : iU (prepared halfSpin) = k0.
Proof. cbn -[sqrt INR]. apply cr_eq; cbn -[INR]; ring. Qed.
Lemma states_refuted : exists h, generalDicke (mkCavity 2 None) (mkSpin 1 0 None) (iU (prepared halfSpin)) (iY (prepared halfSpin)) = Ok h /\
  forall res0 nops, let M := calculateMatrix (intAct 0) [2; 2]%nat h res0 in ~ Forall (is_eigenvector 4 M) (projectionStates M 4 nops false).
Proof.
  rewrite half_u, half_y. destruct (dicke_gen false (mkCavity 2 None) (mkSpin 1 0 None) k0 (RC 2)) as (h & H1 & H2 & H3); [reflexivity|reflexivity|cbn; lia|].
  exists h. split; [exact H1|]. intros res0 nops M F. change (ihDims h = [2; 2]%nat) in H2.
  assert (V : forall l, (l < 4)%nat -> M 0%nat l = if l =? 3 then k1 else k0).
  { intros l Hl. unfold M. rewrite <- H2. rewrite (matrix_of_int0 h _ _ res0 0 l H3) by (rewrite H2; cbn; lia). rewrite H2. unfold overI, hGeneralDicke, timesO, plusO. cbn [spTwoS].
    destruct l as [|[|[|[|l]]]]; [| | | |lia]; cbn [at1D indices seq flat_map map app nth Nat.eqb]; rewrite !kron2; unfold number, spinX, spinLower, annihilation, creation; cbn [Nat.eqb Nat.add Nat.mul Nat.sub];
    rewrite ?INR_1, ?sqrt_1; apply cr_eq; cbn -[INR sqrt]; rewrite ?INR_1, ?sqrt_1; cbn [INR]; rewrite ?sqrt_1; field. }
  unfold projectionStates in F. cbn [seq map] in F. inversion F as [|? ? [_ [e E]] _]. specialize (E 0%nat ltac:(lia)). cbn [seq ksum] in E. unfold ksum in E. cbn [fold_right map] in E.
  rewrite !V in E by lia. cbn [Nat.eqb] in E. apply (f_equal (fun z : CR => cre z)) in E. cbn in E. destruct e as [e1 e2]. cbn in E. lra.
Qed.
Lemma states_not : (exists h, generalDicke (mkCavity 2 None) (mkSpin 1 0 None) (iU (prepared halfSpin)) (iY (prepared halfSpin)) = Ok h /\
    forall res0 nops, let M := calculateMatrix (intAct 0) [2; 2]%nat h res0 in ~ Forall (is_eigenvector 4 M) (projectionStates M 4 nops false)) /\
  forall M dim nops, nops < dim -> length (projectionStates M dim nops false) <> nops.
Proof. split; [exact states_refuted|]. intros. unfold projectionStates. rewrite map_length, seq_length. lia. Qed.
Lemma imag_case : 0 < pCutoff (iMode halfSpin) /\ pNTh (iMode halfSpin) = 0%R /\ pKerr (iMode halfSpin) = 0%R /\ pKerrAlter (iMode halfSpin) = 0%R /\ iU halfSpin = RC 0 /\ iY halfSpin = RC (2 * sqrt 2) /\
  (0 < norm2 (imDims halfSpin) (unit_state [0; 0]%nat))%R.
Proof.
  repeat split; cbn [iMode halfSpin pCutoff]; auto. unfold norm2, braket. rewrite (isum_single _ _ [0; 0]%nat).
  - unfold unit_state. rewrite listnat_eqb_refl. cbn. lra.
  - repeat constructor; cbn; lia.
  - intros b _ Hb. unfold unit_state. destruct (listnat_eqb b [0; 0]%nat) eqn:E; [apply listnat_eqb_eq in E; contradiction|apply cr_eq; cbn; ring].
Qed.
