(** The two-level atom, the two drives and the systems made, for ScriptProperties.v *)
From Coq Require Import List Arith Lia Reals Lra.
From Verif Require Import Star CReal Arr HermSpec MasterSpec MasterProofs MasterLemmas TriModel ElementModel ElementSpec ElementProofs ElementFacts ModeModel ModeSpec ModeProofs ModeFacts DampSpec DampProofs CompositeModel ParticleModel InteractionModel InteractionSpec InteractionProofs InteractionFacts AverageSpec AverageProofs MatHamModel BichromaticModel BichromaticSpec BichromaticProofs ScriptModel ScriptSpec ScriptProofs ScriptFacts ScriptCases.
Import ListNotations.
Local Open Scope nat_scope.
Local Open Scope K_scope.
Add Ring CRsb : (k_ring CR).

Lemma mean2x A X : mean [2] (kron [A]) X = A 0%nat 0%nat * X [0%nat] [0%nat] + A 0%nat 1%nat * X [1%nat] [0%nat] + (A 1%nat 0%nat * X [0%nat] [1%nat] + A 1%nat 1%nat * X [1%nat] [1%nat]).
Proof. rewrite mean1. unfold bmean. rewrite !ls2. reflexivity. Qed.
Lemma is2 (f : list nat -> CR) : isum [2] f = f [0%nat] + f [1%nat].
Proof. rewrite isum_cons. unfold ksum. cbn [seq map fold_right]. rewrite !isum_nil. ring. Qed.
Lemma evol2 G J rho i j : evolution [2] (kron [G]) [kron [J]] rho [i] [j] =
  (G i 0%nat * rho [0%nat] [j] + G i 1%nat * rho [1%nat] [j]) + (rho [i] [0%nat] * kconj (G j 0%nat) + rho [i] [1%nat] * kconj (G j 1%nat)) +
  (J i 0%nat * (rho [0%nat] [0%nat] * kconj (J j 0%nat) + rho [0%nat] [1%nat] * kconj (J j 1%nat)) + J i 1%nat * (rho [1%nat] [0%nat] * kconj (J j 0%nat) + rho [1%nat] [1%nat] * kconj (J j 1%nat))).
Proof.
  unfold evolution, conjugated, mmul, hc, dag, ksum. cbn [map fold_right]. rewrite !is2. cbn [kron]. rewrite !kconj_mul, !kconj_1. ring.
Qed.
Definition atB (k : nat) : nat -> CR := fun n => if n =? k then k1 else k0.
Lemma at_gen (f : (nat -> CR) -> nat -> CR) (G : mat) : (forall psi m, m < 2 -> f psi m = lsum 2 (fun n => G m n * psi n)) -> forall m n, m < 2 -> n < 2 -> G m n = f (atB n) m.
Proof.
  intros H m n Hm Hn. rewrite H by auto. rewrite ls2. unfold atB. destruct n as [|[|n]]; try lia; cbn [Nat.eqb]; ring.
Qed.
Lemma atom_entries gamma delta eta G J : (0 <= gamma)%R -> atom_is gamma delta eta G J ->
  (G 0 0 = k0 /\ G 0 1 = kconj eta /\ G 1 0 = - eta /\ G 1 1 = ((- gamma, delta)%R : CR))%nat /\
  (J 0 0 = k0 /\ J 0 1 = RC (sqrt (2 * gamma)) /\ J 1 0 = k0 /\ J 1 1 = k0)%nat.
Proof.
  intros Hg [H1 H2]. split.
  - pose proof (at_gen _ _ H1) as E. rewrite !E by lia. unfold twoLevelContribution, matApply, twoLevelZa, atB, ksum. cbn [seq map fold_right Nat.eqb twoLevelH].
    destruct eta. repeat split; apply cr_eq; cbn; ring.
  - inversion H2 as [|l J' ls js Hd _]; subst. destruct Hd as [Hd _]. pose proof (at_gen _ _ Hd) as E. rewrite !E by lia. cbn [lbJump]. unfold upd, atB, twoLevelZa. cbn [Nat.eqb cre fst].
    replace (-2 * - gamma)%R with (2 * gamma)%R by ring. repeat split; apply cr_eq; cbn; ring.
Qed.
Lemma state_entries rho : state [2] rho -> exists a c d : R,
  rho [0%nat] [0%nat] = (a, 0)%R /\ rho [1%nat] [1%nat] = (1 - a, 0)%R /\ rho [0%nat] [1%nat] = (c, d) /\ rho [1%nat] [0%nat] = (c, (- d)%R).
Proof.
  intros [Ht Hh]. assert (I0 : inr [2] [0%nat]) by (apply inr1'; lia). assert (I1 : inr [2] [1%nat]) by (apply inr1'; lia).
  pose proof (Hh _ _ I0 I0) as E00. pose proof (Hh _ _ I1 I1) as E11. pose proof (Hh _ _ I1 I0) as E10. unfold dag in *.
  unfold mtrace in Ht. rewrite is2 in Ht.
  destruct (rho [0%nat] [0%nat]) as [a b] eqn:R00. destruct (rho [1%nat] [1%nat]) as [a1 b1] eqn:R11. destruct (rho [0%nat] [1%nat]) as [c d] eqn:R01. destruct (rho [1%nat] [0%nat]) as [c' d'] eqn:R10.
  cbn in *. injection E00 as E0. injection E11 as E1. injection E10 as E2 E3. injection Ht as T1 T2.
  exists a, c, d. repeat split; f_equal; lra.
Qed.
Lemma bloch_start rho : state [2] rho -> ptlaStart rho = bloch rho.
Proof.
  intros H. destruct (state_entries rho H) as (a & c & d & E1 & E2 & E3 & E4). unfold ptlaStart, bloch. rewrite !mean2x. rewrite E1, E2, E3, E4. unfold ketbra. cbn.
  f_equal; [f_equal|]; ring.
Qed.
Lemma bloch_rate gamma delta eta G J rho : (0 <= gamma)%R -> atom_is gamma delta eta G J -> state [2] rho ->
  bloch (evolution [2] (kron [G]) [kron [J]] rho) = ptlaRhs gamma delta eta (bloch rho).
Proof.
  intros Hg Ha H. rewrite <- (bloch_start rho H). destruct (state_entries rho H) as (a & c & d & E1 & E2 & E3 & E4). destruct (atom_entries _ _ _ _ _ Hg Ha) as ((G1 & G2 & G3 & G4) & J1 & J2 & J3 & J4).
  unfold ptlaStart, bloch. rewrite !mean2x, !evol2, G1, G2, G3, G4, J1, J2, J3, J4, E1, E2, E3, E4.
  assert (S : (sqrt (2 * gamma) * sqrt (2 * gamma) = 2 * gamma)%R) by (apply sqrt_sqrt; lra). set (s := sqrt (2 * gamma)) in *.
  destruct eta as [er ei]. unfold ptlaRhs, ketbra. cbn. f_equal; [f_equal|]; ring [S].
Qed.
Lemma hl_rate gamma delta eta G J rho : (0 <= gamma)%R -> atom_is gamma delta eta G J -> state [2] rho ->
  let d := evolution [2] (kron [G]) [kron [J]] rho in let b := ptlaHLRhs gamma delta eta (ptlaHLStart rho) in
  ptlaHLStart rho = (cre (mean [2] (kron [sigmaMinus]) rho), cim (mean [2] (kron [sigmaMinus]) rho)) /\
  mean [2] (kron [sigmaMinus]) d = ((fst b, snd b) : CR) + (k1 + k1) * eta * mean [2] (kron [ketbra 1 1]) rho.
Proof.
  intros Hg Ha H. cbv zeta. destruct (state_entries rho H) as (a & c & d & E1 & E2 & E3 & E4). destruct (atom_entries _ _ _ _ _ Hg Ha) as ((G1 & G2 & G3 & G4) & J1 & J2 & J3 & J4).
  unfold ptlaHLStart. rewrite !mean2x, !evol2, G1, G2, G3, G4, J1, J2, J3, J4, E1, E2, E3, E4.
  destruct eta as [er ei]. unfold ptlaHLRhs, sigmaMinus, ketbra. cbn. split; [f_equal; ring|]. apply cr_eq; cbn; ring.
Qed.
Lemma atom_made gamma delta eta : (0 <= gamma)%R -> atom_is gamma delta eta (twoLevelH (twoLevelZa gamma delta) eta) (mscale (sqrt (2 * gamma)) (ketbra 0 1)).
Proof.
  intros Hg. split; [|apply (twoLevel_damping gamma delta eta Hg)].
  intros psi m Hm. rewrite ls2. unfold twoLevelContribution, matApply, ksum. cbn [seq map fold_right]. ring.
Qed.

(** ** The mode with two drives *)
Definition allJumps (p : modePars) : list mat :=
  if Reqb (pNTh p) 0 then [mscale (sqrt (2 * pKappa p)) annihilation]
  else [mscale (sqrt (2 * (pKappa p * (pNTh p + 1)))) annihilation; mscale (sqrt (2 * (pKappa p * pNTh p))) creation].
Lemma all_sum d p A i j : (0 <= pKappa p)%R -> (0 <= pNTh p)%R ->
  ksum (fun J => mm d (adj J) (mm d A J) i j) (allJumps p) = ksum (fun J => mm d (adj J) (mm d A J) i j) (modeJumps p).
Proof.
  intros Hk Hn. unfold modeJumps. destruct (Reqb (pKappa p) 0) eqn:E; [|reflexivity]. assert (K : pKappa p = 0%R) by (unfold Reqb in E; now destruct (Req_EM_T (pKappa p) 0)).
  unfold allJumps, ksum. rewrite K. replace (2 * (0 * (pNTh p + 1)))%R with 0%R by ring. replace (2 * (0 * pNTh p))%R with 0%R by ring. replace (2 * 0)%R with 0%R by ring.
  rewrite sqrt_0. destruct (Reqb (pNTh p) 0); cbn [map fold_right]; rewrite ?jump_zero; ring.
Qed.
Lemma all_mean d p G A rho : (0 <= pKappa p)%R -> (0 <= pNTh p)%R ->
  mean [d] (kron [A]) (evolution [d] (kron [G]) (ops (allJumps p)) rho) = mean [d] (kron [A]) (evolution [d] (kron [G]) (ops (modeJumps p)) rho).
Proof.
  intros Hk Hn. rewrite !mean_evolution. apply mean_ext. intros y x Hy Hx. apply inr1 in Hy as [i [-> Hi]]. apply inr1 in Hx as [j [-> Hj]].
  rewrite !heis1 by auto. unfold heisM. now rewrite all_sum.
Qed.
Lemma bi_gen p t m n : biGenerator p t m n = modeGenerator (withEta (biMode p) (pEta (biMode p) + secondDrive p t)) m n.
Proof. unfold biGenerator, modeGenerator, withEta. cbn [pEta pDelta pKappa pNTh pKerr pKerrAlter]. rewrite kconj_add. ring. Qed.
Lemma evolution_ext dims G G' Js rho y x : inr dims y -> inr dims x -> (forall y x, inr dims y -> inr dims x -> G y x = G' y x) -> evolution dims G Js rho y x = evolution dims G' Js rho y x.
Proof.
  intros Hy Hx H. unfold evolution. f_equal. f_equal; apply mmul_ext'; auto. intros k Hk. unfold hc. now rewrite H.
Qed.
Lemma mean_extr dims A r s : (forall y x, inr dims y -> inr dims x -> r y x = s y x) -> mean dims A r = mean dims A s.
Proof. intros H. unfold mean, mtrace, mmul. apply isum_ext. intros y Hy. apply isum_ext. intros x Hx. now rewrite H. Qed.
Lemma bi_rate p Js rho t : let q := biMode p in let N := pCutoff q in plain q -> mtrace [N] rho = k1 -> room N rho -> Js = modeJumps q \/ Js = allJumps q ->
  mean_rate [N] (kron [annihilation]) rho (evolution [N] (kron [biGenerator p t]) (ops Js) rho) =
  ((- pKappa q, pDelta q)%R : CR) * mean [N] (kron [annihilation]) rho + pEta q + secondDrive p t.
Proof.
  intros q N Hq Ht Hr HJ. set (q' := withEta q (pEta q + secondDrive p t)). pose proof (mode_rate q' rho Hq Ht Hr) as X.
  change (pCutoff q') with N in X. change (modeJumps q') with (modeJumps q) in X. cbn [pKappa pDelta pEta q' withEta] in X.
  set (zz := ((- pKappa q, pDelta q)%R : CR)) in *. replace (zz * mean [N] (kron [annihilation]) rho + pEta q + secondDrive p t) with (zz * mean [N] (kron [annihilation]) rho + (pEta q + secondDrive p t)) by ring.
  rewrite <- X. unfold mean_rate. rewrite !trace1. destruct Hq as (_ & Hk & Hn & _).
  assert (E : forall A, mean [N] (kron [A]) (evolution [N] (kron [biGenerator p t]) (ops Js) rho) = mean [N] (kron [A]) (evolution [N] (kron [modeGenerator q']) (ops (modeJumps q)) rho)).
  { intros A. transitivity (mean [N] (kron [A]) (evolution [N] (kron [biGenerator p t]) (ops (modeJumps q)) rho)).
    - destruct HJ as [->|HJ]; [reflexivity|]. rewrite HJ. now apply all_mean.
    - apply mean_extr. intros y x Hy Hx. apply evolution_ext; auto. intros y' x' Hy' Hx'. apply inr1 in Hy' as [i [-> Hi]]. apply inr1 in Hx' as [j [-> Hj]]. cbn [kron]. now rewrite bi_gen. }
  now rewrite !E.
Qed.
Lemma plain_kerr q qmp : plain q -> kerr_honoured q qmp.
Proof. intros (_ & _ & _ & K1 & K2). split; auto. Qed.
Lemma bi_made p qmp : let q := biMode p in plain q -> exists sys Js, makeBichromatic p qmp = Ok sys /\ msDim sys = pCutoff q /\ Forall2 (describes (pCutoff q)) (msLindblads sys) Js /\
  (Js = modeJumps q \/ Js = allJumps q) /\ forall t, evolves_with sys t 0 (biGenerator p t).
Proof.
  intros q Hq. pose proof Hq as (Hd & Hk & Hn & K1 & K2).
  assert (D : biEtaOther p = k0 \/ biEtaOther p <> k0).
  { destruct (biEtaOther p) as [a b]. destruct (Req_dec a 0) as [->|]; [destruct (Req_dec b 0) as [->|]|]; auto; right; intros E; injection E; auto. }
  destruct D as [E|E].
  - rewrite (bichromatic_single p qmp E). destruct (make_generator q qmp Hd Hn (plain_kerr q qmp Hq)) as (sys & M1 & M2 & M3 & M4).
    exists sys, (modeJumps q). split; [exact M1|]. split; [exact M2|]. split; [rewrite M3; now apply modeJumps_describe|]. split; [auto|].
    intros t ts. eapply at_ext; [|apply M4]. intros m n _ _. unfold biGenerator, secondDrive. rewrite E. fold q.
    replace (k0 * cexp (CI * RC ((pDelta q - biDeltaOther p) * t))) with (k0 : CR) by ring. rewrite kconj_0. ring.
  - destruct (bichromatic_at p qmp Hd Hn K1 E) as (sys & M1 & M2 & M3). exists sys, (allJumps q). split; [exact M1|]. split; [exact M2|]. split.
    + unfold makeBichromatic in M1. rewrite (proj2 (isNonZero_spec _) E) in M1. cbn [negb] in M1. unfold cBichromatic in M1. cbv zeta in M1. fold q in M1.
      unfold withIP in M1.
      destruct (hamiltonianIP _ _ _ _ _ _); cbn [bind] in M1; try discriminate.
      destruct (pumping _ _); cbn [bind] in M1; try discriminate. destruct (furnish _ _); cbn [bind] in M1; try discriminate. cbn [msH msLindblads msDim msExact] in M1.
      injection M1 as <-. cbn [msLindblads].
      destruct (mode_superoperators false (pCutoff q) (pKappa q) (pNTh q) Hk Hn) as [A B]. unfold modeLindblads, allJumps. destruct (Reqb (pNTh q) 0); cbn [negb]; assumption.
    + split; [auto|]. intros t. specialize (M3 t 0%R). now rewrite Rminus_0_r in M3.
Qed.
Lemma second_other p t : biEtaOther p = k0 \/ biDeltaOther p = 0%R -> secondDrive p t = biEtaOther p * cexp (CI * RC t * RC (biDeltaOther p + pDelta (biMode p))).
Proof.
  intros [E|E]; unfold secondDrive; rewrite E; [ring|]. f_equal. f_equal. apply cr_eq; cbn; ring.
Qed.
(** ** The systems made for the atom in the cavity *)
Lemma jc_is_made q gamma delta eta g : plain q -> (0 <= gamma)%R -> jc_made q gamma delta eta g.
Proof.
  intros Hq Hg. pose proof Hq as (Hd & Hk & Hn & K1 & K2). set (p := qbitPars delta gamma eta).
  assert (Hp : plain p) by (unfold plain, p; cbn; repeat split; auto; lra).
  destruct (make_generator q SCH Hd Hn (plain_kerr q SCH Hq)) as (sm & M1 & M2 & M3 & M4).
  destruct (make_generator p SCH ltac:(cbn; lia) ltac:(cbn; lra) (plain_kerr p SCH Hp)) as (sq & Q1 & Q2 & Q3 & Q4).
  destruct (jc_gen false (AQbit None) (mkCavity (pCutoff q) None) g eq_refl eq_refl Hd) as (h & H1 & _ & H3).
  exists sq, sm, h. split; [exact Q1|]. split; [exact M1|]. split; [exact H1|]. split; [exact Q4|]. split; [exact M4|]. split; [exact H3|].
  split; [rewrite Q3; change 2%nat with (pCutoff p); apply modeJumps_describe; cbn; lra|rewrite M3; now apply modeJumps_describe].
Qed.
Lemma cexp_pi_neg z s : s = 1%R \/ s = (-1)%R -> cexp (z + CI * RC (s * PI)) = - cexp z.
Proof.
  intros H. rewrite cexp_add. replace (cexp (CI * RC (s * PI))) with (- k1 : CR); [ring|]. unfold cexp. symmetry.
  assert (E1 : fst (CI * RC (s * PI) : CR) = 0%R) by (cbn; ring). assert (E2 : snd (CI * RC (s * PI) : CR) = (s * PI)%R) by (cbn; ring).
  rewrite E1, E2, exp_0.
  assert (E3 : cos (s * PI) = (-1)%R) by (destruct H as [-> | ->]; [rewrite Rmult_1_l; apply cos_PI|replace (-1 * PI)%R with (- PI)%R by ring; rewrite cos_neg; apply cos_PI]).
  assert (E4 : sin (s * PI) = 0%R) by (destruct H as [-> | ->]; [rewrite Rmult_1_l; apply sin_PI|replace (-1 * PI)%R with (- PI)%R by ring; rewrite sin_neg, sin_PI; ring]).
  rewrite E3, E4. apply cr_eq; cbn; ring.
Qed.
Lemma cexp_ne z : cexp z <> k0.
Proof.
  intros E. assert (X := f_equal fst E). assert (Y := f_equal snd E). unfold cexp in *. cbn in X, Y. pose proof (exp_pos (fst z)). pose proof (sin2_cos2 (snd z)) as S. unfold Rsqr in S. cbn in *.
  apply Rmult_integral in X as [X|X]; [lra|]. apply Rmult_integral in Y as [Y|Y]; [lra|]. rewrite X, Y in S. lra.
Qed.
Lemma cr_int (a b : CR) : a * b = k0 -> a = k0 \/ b = k0.
Proof.
  intros E. destruct a as [a1 a2], b as [b1 b2]. assert (X := f_equal cre E). assert (Y := f_equal cim E). cbn in X, Y.
  destruct (Req_dec (a1 * a1 + a2 * a2) 0) as [H|H].
  - left. assert (a1 = 0)%R by nra. assert (a2 = 0)%R by nra. subst. reflexivity.
  - right. assert (B1 : ((a1 * a1 + a2 * a2) * b1 = 0)%R) by (transitivity (a1 * (a1 * b1 - a2 * b2) + a2 * (a1 * b2 + a2 * b1))%R; [ring|rewrite X, Y; ring]).
    assert (B2 : ((a1 * a1 + a2 * a2) * b2 = 0)%R) by (transitivity (a1 * (a1 * b2 + a2 * b1) - a2 * (a1 * b1 - a2 * b2))%R; [ring|rewrite X, Y; ring]).
    apply Rmult_integral in B1 as [B1|B1]; [lra|]. apply Rmult_integral in B2 as [B2|B2]; [lra|]. subst. reflexivity.
Qed.
Lemma bi_wrong p : let q := biMode p in plain q -> biEtaOther p <> k0 -> biDeltaOther p <> 0%R ->
  exists sys Js t, makeBichromatic p SCH = Ok sys /\ evolves_with sys t 0 (biGenerator p t) /\ Forall2 (describes (pCutoff q)) (msLindblads sys) Js /\ (0 < t)%R /\
    forall rho, mtrace [pCutoff q] rho = k1 -> room (pCutoff q) rho ->
      mean_rate [pCutoff q] (kron [annihilation]) rho (evolution [pCutoff q] (kron [biGenerator p t]) (ops Js) rho) <> modeRhs p (mean [pCutoff q] (kron [annihilation]) rho) t.
Proof.
  intros q Hq He Hd. destruct (bi_made p SCH Hq) as (sys & Js & M1 & M2 & M3 & M4 & M5). set (d := biDeltaOther p) in *.
  assert (Hs : exists s, (s = 1 \/ s = -1)%R /\ (0 < s / d)%R).
  { destruct (Rtotal_order d 0) as [L|[L|L]]; [exists (-1)%R|lra|exists 1%R]; (split; [auto|]).
    - unfold Rdiv. apply Rinv_lt_0_compat in L. lra.
    - unfold Rdiv. apply Rinv_0_lt_compat in L. lra. }
  destruct Hs as (s & Hs & Hp). pose proof PI_RGT_0 as HPI. set (t := (s / d * (PI / 2))%R). assert (Htp : (0 < t)%R) by (apply Rmult_lt_0_compat; lra).
  exists sys, Js, t. split; [exact M1|]. split; [apply M5|]. split; [exact M3|]. split; [exact Htp|]. intros rho Ht Hr E.
  pose proof (bi_rate p Js rho t Hq Ht Hr M4) as X. cbv zeta in X. fold q in X. rewrite X in E. unfold modeRhs in E. fold q d in E.
  set (A := ((- pKappa q, pDelta q)%R : CR) * mean [pCutoff q] (kron [annihilation]) rho + pEta q) in E.
  assert (E' : secondDrive p t = biEtaOther p * cexp (CI * RC t * RC (d + pDelta q))).
  { transitivity (A + secondDrive p t - A); [ring|]. rewrite E. unfold A. ring. }
  unfold secondDrive in E'. fold q d in E'.
  replace (CI * RC t * RC (d + pDelta q)) with (CI * RC ((pDelta q - d) * t) + CI * RC (s * PI)) in E'.
  2:{ unfold t. apply cr_eq; cbn; [ring|]. field. exact Hd. }
  rewrite (cexp_pi_neg _ s Hs) in E'. set (e := cexp (CI * RC ((pDelta q - d) * t))) in *.
  assert (Z : (k1 + k1) * (biEtaOther p * e) = k0) by (transitivity (biEtaOther p * e - biEtaOther p * - e); [ring|rewrite E'; ring]).
  apply cr_int in Z as [Z|Z]; [apply (f_equal fst) in Z; cbn in Z; lra|]. apply cr_int in Z as [Z|Z]; [now apply He|]. now apply cexp_ne in Z.
Qed.
Lemma bi_right p qmp : let q := biMode p in plain q -> biEtaOther p = k0 \/ biDeltaOther p = 0%R ->
  exists sys Js, makeBichromatic p qmp = Ok sys /\ Forall2 (describes (pCutoff q)) (msLindblads sys) Js /\
    forall t, evolves_with sys t 0 (biGenerator p t) /\ forall rho, mtrace [pCutoff q] rho = k1 -> room (pCutoff q) rho ->
      mean_rate [pCutoff q] (kron [annihilation]) rho (evolution [pCutoff q] (kron [biGenerator p t]) (ops Js) rho) = modeRhs p (mean [pCutoff q] (kron [annihilation]) rho) t.
Proof.
  intros q Hq Ho. destruct (bi_made p qmp Hq) as (sys & Js & M1 & M2 & M3 & M4 & M5). exists sys, Js. split; [exact M1|]. split; [exact M3|]. intros t. split; [apply M5|].
  intros rho Ht Hr. pose proof (bi_rate p Js rho t Hq Ht Hr M4) as X. cbv zeta in X. fold q in X. rewrite X. unfold modeRhs. fold q. now rewrite second_other.
Qed.
Lemma bi_value p qmp : let q := biMode p in plain q ->
  exists sys Js, makeBichromatic p qmp = Ok sys /\ Forall2 (describes (pCutoff q)) (msLindblads sys) Js /\
    forall t, evolves_with sys t 0 (biGenerator p t) /\ forall rho, mtrace [pCutoff q] rho = k1 -> room (pCutoff q) rho ->
      mean_rate [pCutoff q] (kron [annihilation]) rho (evolution [pCutoff q] (kron [biGenerator p t]) (ops Js) rho) =
      kadd (kadd (kmul ((- pKappa q, pDelta q)%R : CR) (mean [pCutoff q] (kron [annihilation]) rho)) (pEta q)) (secondDrive p t).
Proof.
  intros q Hq. destruct (bi_made p qmp Hq) as (sys & Js & M1 & M2 & M3 & M4 & M5). exists sys, Js. split; [exact M1|]. split; [exact M3|]. intros t. split; [apply M5|].
  intros rho Ht Hr. exact (bi_rate p Js rho t Hq Ht Hr M4).
Qed.

(** ** The atom in the cavity *)
Lemma jc_wrong q gamma delta eta g : plain q -> (0 <= gamma)%R -> cim g <> 0%R ->
  jc_made q gamma delta eta g /\ forall rho, mtrace [2; pCutoff q] rho = k1 -> room (pCutoff q) rho -> let m A := mean [2; pCutoff q] A rho in m atomAmplitude <> k0 ->
    mean_rate [2; pCutoff q] modeAmplitude rho (evolution [2; pCutoff q] (jcGenerator q gamma delta eta g) (jcJumps q gamma delta eta) rho) <>
    fst (qbitModeRhs q gamma delta eta g (m modeAmplitude, m atomAmplitude)).
Proof.
  intros Hq Hg Hi. split; [now apply jc_is_made|]. intros rho Ht Hr m Hs E. rewrite (jc_mode q delta gamma eta g rho Hq Hg Ht Hr) in E.
  unfold qbitModeRhs in E. cbn [fst snd] in E. fold (m modeAmplitude) (m atomAmplitude) in E.
  set (X := ((- pKappa q, pDelta q)%R : CR) * m modeAmplitude) in E.
  assert (Z : (g - kconj g) * m atomAmplitude = k0) by (transitivity (X + g * m atomAmplitude + pEta q - (X + kconj g * m atomAmplitude + pEta q)); [ring|rewrite E; ring]).
  apply cr_int in Z as [Z|Z]; [|now apply Hs]. destruct g as [a b]. apply (f_equal cim) in Z. cbn in Z, Hi. lra.
Qed.
Lemma jc_right q gamma delta eta g : plain q -> (0 <= gamma)%R -> cim g = 0%R ->
  jc_made q gamma delta eta g /\ forall rho, mtrace [2; pCutoff q] rho = k1 -> room (pCutoff q) rho -> let m A := mean [2; pCutoff q] A rho in
    mean_rate [2; pCutoff q] modeAmplitude rho (evolution [2; pCutoff q] (jcGenerator q gamma delta eta g) (jcJumps q gamma delta eta) rho) =
    fst (qbitModeRhs q gamma delta eta g (m modeAmplitude, m atomAmplitude)).
Proof.
  intros Hq Hg Hi. split; [now apply jc_is_made|]. intros rho Ht Hr m. rewrite (jc_mode q delta gamma eta g rho Hq Hg Ht Hr).
  unfold qbitModeRhs. cbn [fst snd]. replace (kconj g) with g; [reflexivity|]. destruct g as [a b]. cbn in Hi. subst. apply cr_eq; cbn; ring.
Qed.
Lemma jc_atom_rate q gamma delta eta g : plain q -> (0 <= gamma)%R ->
  jc_made q gamma delta eta g /\ forall rho, mtrace [2; pCutoff q] rho = k1 -> room (pCutoff q) rho -> let m A := mean [2; pCutoff q] A rho in
    mean_rate [2; pCutoff q] atomAmplitude rho (evolution [2; pCutoff q] (jcGenerator q gamma delta eta g) (jcJumps q gamma delta eta) rho) =
    kadd (snd (qbitModeRhs q gamma delta eta g (m modeAmplitude, m atomAmplitude))) (kmul (RC 2) (kadd (kmul eta (m excitation)) (kmul g (m excitationAmplitude)))).
Proof.
  intros Hq Hg. split; [now apply jc_is_made|]. intros rho Ht Hr m. rewrite (jc_atom q delta gamma eta g rho Hq Hg Ht Hr).
  unfold qbitModeRhs. cbn [fst snd]. f_equal. f_equal. apply cr_eq; cbn; ring.
Qed.
(** an atom between its levels in the empty cavity *)
Definition between : op := fun y x => if andb (last y 0%nat =? 0) (last x 0%nat =? 0) then RC (1/2) else k0.
Lemma between_case : mtrace [2; 2] between = k1 /\ room 2 between /\ mean [2; 2] atomAmplitude between = RC (1/2).
Proof.
  assert (I : forall f : list nat -> CR, isum [2; 2] f = f [0; 0]%nat + f [0; 1]%nat + (f [1; 0]%nat + f [1; 1]%nat)).
  { intros f. rewrite isum_cons. unfold ksum at 1. cbn [seq map fold_right]. rewrite !is2. ring. }
  split; [|split].
  - unfold mtrace. rewrite I. unfold between. cbn [last Nat.eqb andb]. apply cr_eq; cbn; lra.
  - intros y x H. unfold between. destruct (Nat.eqb_spec (last y 0%nat) 0), (Nat.eqb_spec (last x 0%nat) 0); try reflexivity. lia.
  - unfold mean, mtrace, mmul. rewrite I, !I. unfold atomAmplitude, between, sigmaMinus, ketbra, one, ElementSpec.identity. cbn [kron last Nat.eqb andb]. ring.
Qed.
(** ** Cases *)
(** the vacuum of a mode *)
Definition vacuum : op := fun y x => if andb (last y 0%nat =? 0) (last x 0%nat =? 0) then k1 else k0.
Lemma vacuum_case : mtrace [2] vacuum = k1 /\ room 2 vacuum /\ state [2] vacuum.
Proof.
  assert (T : mtrace [2] vacuum = k1) by (unfold mtrace; rewrite is2; unfold vacuum; cbn [last Nat.eqb andb]; ring).
  split; [exact T|]. split.
  - intros y x H. unfold vacuum. destruct (Nat.eqb_spec (last y 0%nat) 0), (Nat.eqb_spec (last x 0%nat) 0); try reflexivity. lia.
  - split; [exact T|]. intros y x _ _. unfold dag, vacuum. rewrite Bool.andb_comm. destruct (_ && _)%bool; [apply kconj_1|apply kconj_0].
Qed.
Definition littlePars : modePars := mkPars 0 0 0 2 ((1, 0)%R : CR) 1 0.
Lemma little_plain : plain littlePars.
Proof. unfold plain, littlePars. cbn. repeat split; auto; lra. Qed.
