(** The mode driven at two frequencies: proofs of C92. *)
From Coq Require Import List Arith Bool Lia Reals Lra.
From Verif Require Import Star CReal Arr PureModel PureProofs TriModel TriSpec TriProofs TriPropagate TriLemmas FreeExactModel FreeExactSpec FreeExactProofs
  ElementModel ElementSpec ElementProofs ElementLemmas ModeModel ModeSpec ModeProofs ModeFacts BichromaticModel BichromaticSpec.
Import ListNotations.
Add Ring CRBi : (k_ring CR).
Local Open Scope nat_scope.

Lemma hAction_snoc hs o dim k A ts t psi m : dims o = [dim] -> diffs o = [k] -> m < dim ->
  (forall y x, y < dim -> x < dim -> tmat (propagate t o) [y] [x] = A y x) ->
  hAction true (afterCalls true ts (hs ++ [o])) t psi m = kadd (hAction true (afterCalls true ts hs) t psi m) (lsum dim (fun n => kmul (A m n) (psi n))).
Proof.
  intros E1 E2 Hm HA. unfold hAction. rewrite !after_td. cbn [addContribution snd]. rewrite !map_app, fold_left_app. cbn [map fold_left].
  destruct (propagate_path ts t o) as (P1 & P2 & _). cbn [dims diffs] in P1, P2.
  rewrite (apply1 _ dim k A); [reflexivity|now rewrite P1|now rewrite P2| |exact Hm].
  intros y x Hy Hx. rewrite (eqt_tmat _ _ _ _ (propagate_path ts t o)). now apply HA.
Qed.
Lemma uDiag_phase dim z z' t m : m < dim -> kmul (uDiag dim z t m) (cexp (kmul (RC t) (mainM z' 0 m))) = cexp (kmul (RC (t * INR m)) (ksub z' z)).
Proof.
  intros H. rewrite uDiag_spec by exact H. rewrite <- cexp_add. f_equal. unfold mainM, eigenvalue. rewrite kerrElem_0, <- RC_opp, <- RC_mul. ring.
Qed.
Lemma phase_uDiag dim z z' t m : m < dim -> cexp (kopp (kmul (RC t) (mainM z' 0 m))) = kmul (cexp (kopp (kmul (RC (t * INR m)) (ksub z' z)))) (uDiag dim z t m).
Proof.
  intros H. rewrite uDiag_spec by exact H. rewrite <- cexp_add. f_equal. unfold mainM, eigenvalue. rewrite kerrElem_0, <- RC_opp, <- RC_mul. ring.
Qed.
Lemma pump_phase eta w t m n : cre w = 0%R ->
  kmul (kmul (cexp (kmul (RC (t * INR m)) w)) (pumpM eta m n)) (cexp (kopp (kmul (RC (t * INR n)) w))) = pumpM (kmul eta (cexp (kmul (RC t) w))) m n.
Proof.
  intros Hw. unfold pumpM. rewrite kconj_mul, <- cexp_conj.
  assert (Ec : kconj (kmul (RC t) w) = kopp (kmul (RC t) w)) by (destruct w as [a b]; cbn in Hw; subst a; apply cr_eq; cbn; ring).
  rewrite Ec. unfold creation, annihilation.
  assert (P1 : kmul (cexp (kmul (RC (t * INR (n + 1))) w)) (cexp (kopp (kmul (RC (t * INR n)) w))) = cexp (kmul (RC t) w)).
  { rewrite <- cexp_add. f_equal. rewrite plus_INR. cbn [INR]. destruct w. apply cr_eq; cbn; ring. }
  assert (P2 : kmul (cexp (kmul (RC (t * INR m)) w)) (cexp (kopp (kmul (RC (t * INR (m + 1))) w))) = cexp (kopp (kmul (RC t) w))).
  { rewrite <- cexp_add. f_equal. rewrite plus_INR. cbn [INR]. destruct w. apply cr_eq; cbn; ring. }
  destruct (Nat.eqb_spec m (n + 1)) as [E1|H1]; destruct (Nat.eqb_spec n (m + 1)) as [E2|H2]; try lia; try ring.
  - subst m. rewrite <- P1. ring.
  - subst n. rewrite <- P2. ring.
Qed.
Lemma cre_diff a b c : cre (ksub ((a, b)%R : CR) ((a, c)%R : CR)) = 0%R. Proof. cbn. ring. Qed.
Lemma second_phase p t a : kmul (RC t) (ksub ((a, - biDeltaOther p)%R : CR) ((a, - pDelta (biMode p))%R : CR)) = kmul CI (RC ((pDelta (biMode p) - biDeltaOther p) * t)).
Proof. apply cr_eq; cbn; ring. Qed.

Lemma bichromatic_at p qmp : 0 < pCutoff (biMode p) -> (0 <= pNTh (biMode p))%R -> pKerr (biMode p) = 0%R -> biEtaOther p <> k0 ->
  exists sys, makeBichromatic p qmp = Ok sys /\ msDim sys = pCutoff (biMode p) /\ forall t t0, evolves_with sys t t0 (biGenerator p (t - t0)).
Proof.
  intros Hd Hn Hk He. unfold makeBichromatic. rewrite (proj2 (isNonZero_spec _) He). cbn [negb]. set (q := biMode p) in *. unfold cBichromatic. cbv zeta. fold q.
  set (temp := negb (Reqb (pNTh q) 0)). pose proof (decay_at q) as Ed. fold temp in Ed. set (z := (decayRate temp q, - pDelta q)%R : CR). set (z' := (decayRate temp q, - biDeltaOther p)%R : CR).
  destruct (hamiltonianIP_ok k0 z (pEta q) (pKerr q) (pKerrAlter q) (pCutoff q) Hd) as [hs [Eh _]].
  destruct (withIP_generator k0 z (pEta q) q (modeLindblads temp false q) Hd (or_introl Hk)) as (sys & E1 & E2 & E3 & E4).
  assert (Esys : sys = mkMode (pCutoff q) (Some z) (Some (true, hs)) (modeLindblads temp false q)).
  { unfold withIP in E1. rewrite Eh in E1. cbn [bind] in E1. now apply Ok_inj in E1. }
  rewrite E1. cbn [bind]. destruct (pumping_good (pCutoff q) (biEtaOther p) Hd) as [pm [Ep Gp]]. rewrite Ep. cbn [bind].
  destruct (furnish_good (pCutoff q) pm 1 _ (mainDiagonal z' 0 (pCutoff q)) Gp ltac:(lia) eq_refl Hd) as (o & Eo & D1 & D2 & D3). rewrite Eo. cbn [bind].
  rewrite Esys. cbn [msH msDim msExact msLindblads]. eexists. split; [reflexivity|]. split; [reflexivity|].
  intros t t0 ts. unfold oneTime. set (s := (t - t0)%R). unfold generator_at. cbn [msH msDim msExact]. intros psi m Hm.
  rewrite (hAction_snoc hs o (pCutoff q) 1 _ ts s psi m D1 D2 Hm (fun y x => D3 s y x)).
  specialize (E4 ts s). rewrite Esys in E4. unfold generator_at in E4. cbn [msH msDim msExact] in E4. specialize (E4 psi m Hm).
  transitivity (kadd (kmul (uDiag (pCutoff q) z s m) (hAction true (afterCalls true ts hs) s psi m))
    (lsum (pCutoff q) (fun n => kmul (pumpM (secondDrive p s) m n) (kmul (uDiag (pCutoff q) z s n) (psi n))))).
  { match goal with |- kmul ?a (kadd ?b ?c) = _ => transitivity (kadd (kmul a b) (kmul a c)); [ring|] end. f_equal.
    unfold lsum. rewrite <- ksum_scal_l. apply ksum_ext. intros n Hn'. apply in_seq in Hn'. cbn [mainDiagonal vecOf av nth].
    fold (mainM z' 0 m) (mainM z' 0 n). rewrite (phase_uDiag (pCutoff q) z z' s n) by lia.
    transitivity (kmul (kmul (kmul (kmul (kmul (uDiag (pCutoff q) z s m) (cexp (kmul (RC s) (mainM z' 0 m)))) (pumpM (biEtaOther p) m n)) (cexp (kopp (kmul (RC (s * INR n)) (ksub z' z))))) (uDiag (pCutoff q) z s n)) (psi n)); [ring|].
    rewrite uDiag_phase by exact Hm. rewrite pump_phase by apply cre_diff. unfold z, z', secondDrive. rewrite (second_phase p s). fold q. ring. }
  rewrite E4. unfold lsum. rewrite <- ksum_add. apply ksum_ext. intros n Hn'.
  replace (ksub (biGenerator p s m n) (if m =? n then eigenvalue (EMode z) m else k0)) with
    (kadd (ksub (modeGenerator q m n) (if m =? n then eigenvalue (EMode z) m else k0)) (pumpM (secondDrive p s) m n)) by (unfold biGenerator, pumpM; fold q; ring).
  rewrite isNonZero_0. rewrite <- (gen_ip q k0 z 0%R).
  - ring.
  - unfold z. rewrite Ed. apply cr_eq; cbn; ring.
  - now symmetry.
Qed.
Lemma bichromatic_single p qmp : biEtaOther p = k0 -> makeBichromatic p qmp = make (biMode p) qmp.
Proof. intros E. unfold makeBichromatic. now rewrite E, isNonZero_0. Qed.
Lemma second_same p t : pDelta (biMode p) = biDeltaOther p -> secondDrive p t = biEtaOther p.
Proof.
  intros E. unfold secondDrive. rewrite E. replace (kmul CI (RC ((biDeltaOther p - biDeltaOther p) * t))) with (k0 : CR) by (apply cr_eq; cbn; ring). rewrite cexp_0. ring.
Qed.
Lemma bichromatic_degenerate p qmp : 0 < pCutoff (biMode p) -> (0 <= pNTh (biMode p))%R -> pKerr (biMode p) = 0%R -> biEtaOther p <> k0 -> pDelta (biMode p) = biDeltaOther p ->
  exists sys, makeBichromatic p qmp = Ok sys /\ no_jump_generator sys (modeGenerator (bothDrives p)) /\ forall t t0, evolves_with sys t t0 (biGenerator p t).
Proof.
  intros Hd Hn Hk He E. destruct (bichromatic_at p qmp Hd Hn Hk He) as (sys & Es & _ & H). exists sys. split; [exact Es|]. split.
  - intros ts t. specialize (H t 0%R ts). unfold oneTime in H. rewrite Rminus_0_r in H. eapply at_ext; [|exact H]. intros m n _ _. unfold biGenerator. rewrite (second_same p t E).
    unfold modeGenerator, bothDrives. cbn [pEta pDelta pKappa pNTh pKerr pKerrAlter]. rewrite kconj_add. ring.
  - intros t t0 ts. eapply at_ext; [|apply H]. intros m n _ _. unfold biGenerator. now rewrite !(second_same p _ E).
Qed.
(** after a propagation the second drive is back where it was at time zero, though by then it should be opposite *)
Lemma bichromatic_wrong p qmp : 1 < pCutoff (biMode p) -> (0 <= pNTh (biMode p))%R -> pKerr (biMode p) = 0%R -> biEtaOther p <> k0 -> pDelta (biMode p) <> biDeltaOther p ->
  exists sys t0, makeBichromatic p qmp = Ok sys /\ evolves_with sys t0 t0 (biGenerator p 0) /\ ~ evolves_with sys t0 t0 (biGenerator p t0).
Proof.
  intros Hd Hn Hk He E. destruct (bichromatic_at p qmp ltac:(lia) Hn Hk He) as (sys & Es & Dm & H). set (D := (pDelta (biMode p) - biDeltaOther p)%R). assert (HD : D <> 0%R) by (unfold D; lra).
  exists sys, (PI / D)%R. split; [exact Es|].
  assert (H0 : evolves_with sys (PI / D) (PI / D) (biGenerator p 0)) by (intros ts; specialize (H (PI / D) (PI / D) ts)%R; now replace (PI / D - PI / D)%R with 0%R in H by ring).
  split; [exact H0|]. intros H1. pose proof (generator_unique sys [] _ _ _ (H0 []) (H1 []) 1 0 ltac:(lia) ltac:(lia)) as X.
  unfold biGenerator in X. assert (C1 : creation 1 0 = k1) by (unfold creation; cbn [Nat.eqb Nat.add INR]; rewrite sqrt_1; reflexivity). assert (A1 : annihilation 1 0 = k0) by reflexivity. rewrite C1, A1 in X.
  assert (Y : secondDrive p 0 = secondDrive p (PI / D)).
  { transitivity (ksub (kadd (modeGenerator (biMode p) 1 0) (ksub (kmul (secondDrive p 0) k1) (kmul (kconj (secondDrive p 0)) k0))) (modeGenerator (biMode p) 1 0)); [ring|]. rewrite X. ring. }
  unfold secondDrive in Y. fold D in Y. replace (D * (PI / D))%R with PI in Y by (field; exact HD).
  replace (kmul CI (RC (D * 0))) with (k0 : CR) in Y by (apply cr_eq; cbn; ring). rewrite cexp_0 in Y.
  assert (Epi : cexp (kmul CI (RC PI)) = kopp k1).
  { unfold cexp. apply cr_eq; cbn; rewrite ?Rmult_0_l, ?Rmult_0_r, ?Rmult_1_l, ?Rplus_0_l, ?Rplus_0_r, ?Rminus_0_r, ?cos_PI, ?sin_PI, ?exp_0; try ring.
    all: replace (0 * PI - 1 * 0)%R with 0%R by ring; rewrite exp_0; ring. }
  rewrite Epi in Y. apply He. destruct (biEtaOther p) as [a b]. pose proof (f_equal fst Y) as Ya. pose proof (f_equal snd Y) as Yb. cbn in Ya, Yb. apply cr_eq; cbn; lra.
Qed.
