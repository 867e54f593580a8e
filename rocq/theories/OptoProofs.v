(** Proofs for OptoProperties.v *)
From Coq Require Import List Arith Bool ZArith Lia Reals Lra.
From Coquelicot Require Import Coquelicot.
From Verif Require Import Star CReal Arr HermSpec MasterSpec MasterProofs MasterLemmas TriModel TriSpec FreeExactModel FreeExactSpec ElementModel ElementSpec ElementProofs ModeModel ModeSpec ModeProofs ModeFacts DampSpec DampProofs CompositeModel ParticleModel ParticleSpec RotOps
  InteractionModel InteractionSpec InteractionProofs InteractionFacts InteractionLaws InteractionCases AverageSpec AverageProofs MatHamModel ScriptSpec ScriptProofs ScriptFacts ScriptCases ScriptBloch
  CavScriptModel CavScriptSpec CavScriptProofs CavScriptFacts CavRing CavRingCases OptoModel OptoSpec.
Import ListNotations.
Add Ring CRop : (k_ring CR).
Local Open Scope nat_scope.
Local Open Scope K_scope.

Lemma lossy_make q qmp : makeLossy q qmp = make (undriven q) qmp.
Proof.
  unfold make, makePumped. cbn [undriven pEta pKappa pNTh].
  rewrite isNonZero_0. cbn [negb]. unfold makeLossy. cbn [undriven pKappa]. destruct (Reqb (pKappa q) 0); reflexivity.
Qed.
Lemma undriven_plain q : plain q -> plain (undriven q).
Proof. intros H. exact H. Qed.
Lemma coupling_same u i i' j j' : overI (hCoupledModes CM_NX (RC (- sqrt 2 * u))) [i; i'] [j; j'] = overI (hOpto u) [i; i'] [j; j'].
Proof.
  unfold overI, hCoupledModes, hOpto, timesO. rewrite !kron2. unfold position, displacement. cbn [cre RC].
  assert (E : RC (cre (RC (- sqrt 2 * u))) * RC (/ sqrt 2) = RC (- u)).
  { pose proof (sqrt_lt_R0 2 ltac:(lra)). apply cr_eq; cbn; field; lra. }
  rewrite <- E. ring.
Qed.
Lemma opto_made qA qB u : plain qA -> plain qB ->
  exists s, optoScript qA qB u SCH = Ok s /\ opto_simulates s (optoGenerator qA (undriven qB) u) (modeJumps qA) (modeJumps (undriven qB)).
Proof.
  intros HA HB. pose proof (undriven_plain qB HB) as HB'. destruct HA as (A1 & A2 & A3 & A4 & A5). destruct HB' as (B1 & B2 & B3 & B4 & B5).
  destruct (make_generator qA SCH A1 A3 (conj (or_introl A4) (or_introl A5))) as (sA & MA & DA & LA & GA).
  destruct (make_generator (undriven qB) SCH B1 B3 (conj (or_introl B4) (or_introl B5))) as (sB & MB & DB & LB & GB).
  pose proof (make_sch _ _ MA) as EA. pose proof (make_sch _ _ MB) as EB.
  destruct (coupled_gen CM_NX (cavityOf qA sA) (cavityOf qB sB) (RC (- sqrt 2 * u))) as (h & H1 & H2 & H3).
  { cbn [coupledPictures]. unfold cavityOf. rewrite EB. reflexivity. }
  { exact A1. } { exact B1. }
  exists (mkOpto sA sB h). unfold optoScript. rewrite lossy_make, MA, MB. cbn [bind]. rewrite H1. split; [reflexivity|]. unfold opto_simulates. cbn [osA osB osInt]. rewrite H2, DA, DB. split; [reflexivity|].
  split; [rewrite LA; now apply modeJumps_describe|]. split; [rewrite LB; now apply (modeJumps_describe (undriven qB))|].
  exists (modeGenerator qA), (modeGenerator (undriven qB)), (overI (hCoupledModes CM_NX (RC (- sqrt 2 * u)))). split; [exact GA|]. split; [exact GB|]. split.
  - eapply generator_rates; [|exact H3]. intros y. destruct y as [|i [|j y]]; cbn [together]; rewrite ?cav_rate; reflexivity.
  - intros y x Hy Hx. apply inr2 in Hy as (i & i' & -> & _). apply inr2 in Hx as (j & j' & -> & _). rewrite coupling_same. reflexivity.
Qed.

(** ** The interaction picture *)
Lemma lossy_freq q s qmp : qmp <> SCH -> makeLossy q qmp = Ok s -> exists k, msExact s = Some ((k, - pDelta q)%R : CR).
Proof.
  intros Hq. unfold makeLossy, makePlain, switch, cMode, cLossyMode, cLossyModeUIP, withIP. destruct qmp; [| |congruence];
  destruct (Reqb (pKappa q) 0); try match goal with |- context [hamiltonianIP ?a ?b ?c ?d ?e ?f] => destruct (hamiltonianIP a b c d e f) end; cbn [bind]; intros H; try discriminate H; injection H as <-; eexists; reflexivity.
Qed.
Lemma phase_one k w : (forall t, cexp (RC t * ((k, w)%R : CR)) = k1) -> w = 0%R.
Proof.
  intros H. destruct (Req_dec w 0) as [E|E]; [exact E|exfalso]. specialize (H (PI / w)%R). apply (f_equal (fun z : CR => cre z)) in H.
  set (z := RC (PI / w) * ((k, w)%R : CR)) in H. assert (S : snd z = PI) by (unfold z; cbn; field; exact E).
  assert (C : cre (cexp z) = (exp (fst z) * cos (snd z))%R) by reflexivity. rewrite C, S, cos_PI in H. change (cre (k1 : CR)) with 1%R in H. pose proof (exp_pos (fst z)). lra.
Qed.
Lemma opto_picture qA qB u qmp : plain qA -> plain qB -> 1 < pCutoff qA -> 1 < pCutoff qB -> qmp <> SCH -> u <> 0%R -> pDelta qB <> 0%R ->
  exists s, optoScript qA qB u qmp = Ok s /\ ~ has_generator (osInt s) [modeRate (osA s); modeRate (osB s)] any_state (overI (hOpto u)).
Proof.
  intros HA HB CA CB Hq Hu Hd. pose proof (undriven_plain qB HB) as HB'. pose proof HA as (A1 & A2 & A3 & A4 & A5). pose proof HB' as (B1 & B2 & B3 & B4 & B5).
  destruct (make_generator qA qmp A1 A3 (conj (or_introl A4) (or_introl A5))) as (sA & MA & DA & LA & GA).
  destruct (make_generator (undriven qB) qmp B1 B3 (conj (or_introl B4) (or_introl B5))) as (sB & MB & DB & LB & GB).
  rewrite <- lossy_make in MB. destruct (lossy_freq _ _ _ Hq MB) as [k EB].
  set (cA := cavityOf qA sA). set (cB := cavityOf qB sB). set (w := RC (- sqrt 2 * u)).
  destruct (cavN_rot cA (rate [cavRate cA]) A1) as [n [En Hn]].
  destruct (cavX_rot true cB) as [x [Ex Hx]]. { unfold cavIs, cB, cavityOf. rewrite EB. cbn. split; [reflexivity|exact B4]. } { exact B1. }
  destruct (prod_frozen _ _ _ _ _ _ _ _ _ _ (kron_scale1 _ _ _ _ (RC (cre w)) _ Hn) Hx (or_introl eq_refl)) as [t [Et Ht]].
  assert (NZ : isNonZero w = true).
  { destruct (isNonZero w) eqn:Z; auto. apply zero_isNonZero in Z. apply (f_equal (fun z : CR => cre z)) in Z. unfold w in Z. cbn in Z. pose proof (sqrt_lt_R0 2 ltac:(lra)). exfalso. apply Hu. nra. }
  exists (mkOpto sA sB (mkIntH [pCutoff qA; pCutoff qB] [scale (kopp CI) t] None)). split.
  { unfold optoScript. rewrite MA, MB. cbn [bind]. fold cA cB w. unfold makeCoupledModes, coupledH. cbn zeta. rewrite NZ, En. cbn [bind]. rewrite Ex. cbn [bind]. rewrite Et. reflexivity. }
  cbn [osA osB osInt]. intros HG. apply Hd. cut (- pDelta qB = 0)%R; [lra|]. apply (phase_one k). intros r.
  pose proof (frozen_generator [pCutoff qA; pCutoff qB] _ _ _ (frozen_scale _ (kopp CI) _ Ht) HG [1; 0]%nat [1; 1]%nat r ltac:(repeat constructor; auto; lia) ltac:(repeat constructor; auto)) as X.
  cbn [together] in X. set (eA := modeRate sA 1) in X.
  assert (Z0 : modeRate sB 0 = k0) by (unfold modeRate; rewrite EB; unfold eigenvalue; apply cr_eq; cbn; ring).
  assert (Z1 : modeRate sB 1 = - ((k, - pDelta qB)%R : CR)) by (unfold modeRate; rewrite EB; unfold eigenvalue; apply cr_eq; cbn; ring).
  rewrite Z0, Z1 in X. set (z := ((k, - pDelta qB)%R : CR)) in *.
  replace (RC r * (eA + (k0 + k0))) with (RC r * (eA + (- z + k0)) + RC r * z) in X by ring.
  rewrite cexp_add in X. set (E := cexp (RC r * (eA + (- z + k0)))) in X.
  assert (EN : E <> k0) by apply cexp_ne. set (g := overI (hOpto u) [1; 0]%nat [1; 1]%nat) in X.
  assert (GN : g <> k0).
  { unfold g, overI, hOpto, timesO. rewrite kron2. unfold number, displacement, annihilation, creation. cbn [Nat.eqb Nat.add]. intros Q. apply (f_equal (fun z : CR => cim z)) in Q. cbn [INR] in Q. rewrite sqrt_1 in Q. cbn in Q. lra. }
  assert (Y : (cexp (RC r * z) - k1) * (E * g) = k0) by (transitivity (E * cexp (RC r * z) * g - g * E); [ring|]; rewrite X; ring).
  apply cr_int in Y as [Y|Y].
  - transitivity (cexp (RC r * z) - k1 + k1); [ring|]. rewrite Y. ring.
  - apply cr_int in Y as [Y|Y]; contradiction.
Qed.

(** ** Equations of motion *)
Section Motion.
Variables (qA qB : modePars) (u : R) (rho : op).
Hypothesis HA : plain qA.
Hypothesis HB : plain qB.
Let NA := pCutoff qA.
Let NB := pCutoff qB.
Hypothesis Ht : mtrace [NA; NB] rho = k1.
Hypothesis Hr : room2 NA NB rho.
Let G := optoGenerator qA qB u.
Let Js := optoJumps qA qB.
Let two := (k1 + k1 : CR).
Let knA := RC (pKappa qA * pNTh qA).
Let knB := RC (pKappa qB * pNTh qB).

Lemma adj_number i j : adj number i j = number i j.
Proof. unfold adj, number. rewrite (Nat.eqb_sym j). destruct (Nat.eqb_spec i j) as [->|]; [apply RC_conj|apply kconj_0]. Qed.
Lemma adj_displacement i j : adj displacement i j = displacement i j.
Proof. unfold adj, displacement. rewrite kconj_add, annihilation_conj, creation_conj. ring. Qed.
Lemma opto_gi i i' j j' : overI (hOpto u) [i; i'] [j; j'] = timesO (CI * RC u) (kron [number; displacement]) [i; i'] [j; j'].
Proof. unfold overI, hOpto, timesO. replace (RC (- u)) with (- RC u) by (apply cr_eq; cbn; ring). ring. Qed.
Lemma opto_hc i i' j j' : hc (overI (hOpto u)) [i; i'] [j; j'] = timesO (- (CI * RC u)) (kron [number; displacement]) [i; i'] [j; j'].
Proof.
  unfold hc. rewrite opto_gi. unfold timesO. rewrite kconj_mul, kron_adj. cbn [map]. rewrite !kron2, adj_number, adj_displacement, kconj_mul, RC_conj.
  assert (E' : kconj CI = - CI) by (apply cr_eq; cbn; ring). rewrite E'. ring.
Qed.
Definition pull_ (A B : mat) (i i' j j' : nat) : CR := CI * RC u * (mm NA A number i j * mm NB B displacement i' j' - mm NA number A i j * mm NB displacement B i' j').
Lemma heis_opto A B i i' j j' : i < NA -> i' < NB -> j < NA -> j' < NB -> heis [NA; NB] G Js (kron [A; B]) [i; i'] [j; j'] =
  heisM NA (modeGenerator qA) (modeJumps qA) A i j * B i' j' + A i j * heisM NB (modeGenerator qB) (modeJumps qB) B i' j' + pull_ A B i i' j j'.
Proof.
  intros Hi Hi' Hj Hj'. assert (Iy := inr2' NA NB i i' Hi Hi'). assert (Ix := inr2' NA NB j j' Hj Hj').
  pose proof (heis2 NA NB (modeGenerator qA) (modeGenerator qB) (modeJumps qA) (modeJumps qB) k0 (fun _ _ => k0)) as X.
  specialize (X ltac:(intros; unfold jcOp, plusO, timesO; rewrite kconj_0; ring) A B i i' j j' Hi Hi' Hj Hj'). unfold comm in X. rewrite kconj_0 in X.
  transitivity (heis [NA; NB] (plusO (plusO (kron [modeGenerator qA; one]) (kron [one; modeGenerator qB])) (fun _ _ => k0)) Js (kron [A; B]) [i; i'] [j; j'] + pull_ A B i i' j j').
  2:{ unfold Js, optoJumps. rewrite X. ring. }
  clear X. unfold heis, G, optoGenerator. set (G0 := plusO (kron [modeGenerator qA; one]) (kron [one; modeGenerator qB])).
  rewrite !mmul_plus_r.
  rewrite (mmul_ext' _ (hc (plusO G0 (overI (hOpto u)))) (plusO (hc G0) (timesO (- (CI * RC u)) (kron [number; displacement]))) (kron [A; B]) (kron [A; B])); auto.
  2:{ intros k Hk. apply inr2 in Hk as (m & n & -> & _). transitivity (hc G0 [i; i'] [m; n] + hc (overI (hOpto u)) [i; i'] [m; n]); [unfold hc, plusO; apply kconj_add|]. rewrite opto_hc. reflexivity. }
  rewrite (mmul_ext' _ (hc (plusO G0 (fun _ _ => k0))) (hc G0) (kron [A; B]) (kron [A; B])); auto.
  2:{ intros k Hk. unfold hc, plusO. rewrite kconj_add, kconj_0. ring. }
  rewrite (mmul_ext' _ (kron [A; B]) (kron [A; B]) (overI (hOpto u)) (timesO (CI * RC u) (kron [number; displacement]))); auto.
  2:{ intros k Hk. apply inr2 in Hk as (m & n & -> & _). apply opto_gi. }
  rewrite mmul_plus_l, mmul_times_l, mmul_times_r, !mm2.
  assert (Z : mmul [NA; NB] (kron [A; B]) (fun _ _ => k0) [i; i'] [j; j'] = k0) by (unfold mmul; apply isum_zero; intros; ring). rewrite Z. unfold pull_. ring.
Qed.
Lemma mm_num_l d B i j : i < d -> mm d number B i j = RC (INR i) * B i j.
Proof.
  intros Hi. unfold mm. rewrite (lsum_at d _ i Hi).
  - unfold number. now rewrite Nat.eqb_refl.
  - intros n _ Hn. unfold number. destruct (Nat.eqb_spec i n); [congruence|ring].
Qed.
Lemma mm_num_r d B i j : j < d -> mm d B number i j = B i j * RC (INR j).
Proof.
  intros Hj. unfold mm. rewrite (lsum_at d _ j Hj).
  - unfold number. now rewrite Nat.eqb_refl.
  - intros n _ Hn. unfold number. destruct (Nat.eqb_spec n j); [congruence|ring].
Qed.
Lemma mm_disp_l d B i j : mm d displacement B i j = mm d annihilation B i j + mm d creation B i j.
Proof. unfold mm, lsum. rewrite <- ksum_add. apply ksum_ext. intros k _. unfold displacement. ring. Qed.
Lemma mm_disp_r d B i j : mm d B displacement i j = mm d B annihilation i j + mm d B creation i j.
Proof. unfold mm, lsum. rewrite <- ksum_add. apply ksum_ext. intros k _. unfold displacement. ring. Qed.

Let nr i j := (RC (INR i) * one i j : CR).
Lemma trace_opto : mtrace [NA; NB] (evolution [NA; NB] G Js rho) = two * knA + two * knB.
Proof.
  destruct HA as (_ & Hk & Hn & K1 & K2), HB as (_ & Hk' & Hn' & K1' & K2').
  rewrite trace2, mean_evolution. transitivity (mean [NA; NB] (fun y x => (two * knA + two * knB) * kron [one; one] y x) rho).
  - apply mean_room2; [exact Hr|]. intros i i' j j' Hi Hj Hi' Hj'. rewrite heis_opto by lia.
    pose proof (heis_1 qA Hk Hn K1 K2 i j Hi Hj) as X. fold NA knA in X. rewrite X.
    pose proof (heis_1 qB Hk' Hn' K1' K2' i' j' Hi' Hj') as X'. fold NB knB in X'. rewrite X'.
    unfold pull_. rewrite !mm_one_l, !mm_one_r by lia. cbn [kron]. unfold two. ring.
  - rewrite mean_scalA, <- trace2, Ht. ring.
Qed.
Let m A := mean [NA; NB] A rho.
Lemma mirror_rate : mean_rate [NA; NB] mirrorAmplitude rho (evolution [NA; NB] G Js rho) =
  ((- pKappa qB, pDelta qB)%R : CR) * m mirrorAmplitude + pEta qB + CI * RC u * m photons.
Proof.
  destruct HA as (_ & Hk & Hn & K1 & K2), HB as (_ & Hk' & Hn' & K1' & K2'). set (z := ((pKappa qB * (2 * pNTh qB + 1), - pDelta qB)%R : CR)).
  unfold mean_rate. rewrite trace_opto, mean_evolution. unfold mirrorAmplitude, photons.
  rewrite (mean_room2 NA NB (heis _ _ _ _) (fun y x => (- z + two * (two * knB) + two * knA) * kron [one; annihilation] y x + (pEta qB * kron [one; one] y x + CI * RC u * kron [number; one] y x)) rho Hr).
  - rewrite !mean_addA, !mean_scalA, <- trace2, Ht. fold (m (kron [one; annihilation])) (m (kron [number; one])).
    replace (((- pKappa qB)%R, pDelta qB) : CR) with (- z + two * knB); [unfold two; ring|]. unfold z, two, knB. apply cr_eq; cbn; ring.
  - intros i i' j j' Hi Hj Hi' Hj'. rewrite heis_opto by lia.
    pose proof (heis_a qB Hk' Hn' K1' K2' i' j' Hi' Hj') as X. fold NB z in X. rewrite X.
    pose proof (heis_1 qA Hk Hn K1 K2 i j Hi Hj) as X'. fold NA knA in X'. rewrite X'.
    unfold pull_. rewrite mm_one_l, mm_one_r, mm_disp_l, mm_disp_r by lia. pose proof (commutator NB i' j' Hi' Hj') as E. cbn [kron]. unfold knB, two.
    set (ac := mm NB annihilation creation i' j') in *. set (ca := mm NB creation annihilation i' j') in *. assert (E2 : ac = one i' j' + ca) by (rewrite <- E; ring). rewrite E2. ring.
Qed.
Lemma light_rate : mean_rate [NA; NB] lightAmplitude rho (evolution [NA; NB] G Js rho) =
  ((- pKappa qA, pDelta qA)%R : CR) * m lightAmplitude + pEta qA + CI * RC u * m lightTimesDisplacement.
Proof.
  destruct HA as (_ & Hk & Hn & K1 & K2), HB as (_ & Hk' & Hn' & K1' & K2'). set (z := ((pKappa qA * (2 * pNTh qA + 1), - pDelta qA)%R : CR)).
  unfold mean_rate. rewrite trace_opto, mean_evolution. unfold lightAmplitude, lightTimesDisplacement.
  rewrite (mean_room2 NA NB (heis _ _ _ _) (fun y x => (- z + two * (two * knA) + two * knB) * kron [annihilation; one] y x + (pEta qA * kron [one; one] y x + CI * RC u * kron [annihilation; displacement] y x)) rho Hr).
  - rewrite !mean_addA, !mean_scalA, <- trace2, Ht. fold (m (kron [annihilation; one])) (m (kron [annihilation; displacement])).
    replace (((- pKappa qA)%R, pDelta qA) : CR) with (- z + two * knA); [unfold two; ring|]. unfold z, two, knA. apply cr_eq; cbn; ring.
  - intros i i' j j' Hi Hj Hi' Hj'. rewrite heis_opto by lia.
    pose proof (heis_a qA Hk Hn K1 K2 i j Hi Hj) as X. fold NA z in X. rewrite X.
    pose proof (heis_1 qB Hk' Hn' K1' K2' i' j' Hi' Hj') as X'. fold NB knB in X'. rewrite X'.
    unfold pull_. rewrite mm_one_l, mm_one_r, mm_num_l, mm_num_r by lia. cbn [kron]. unfold knA, two.
    assert (E : annihilation i j * RC (INR j) - RC (INR i) * annihilation i j = annihilation i j).
    { unfold annihilation. destruct (Nat.eqb_spec j (i + 1)) as [->|]; [|ring]. rewrite RC_INR_add. change (RC (INR 1)) with (k1 : CR). ring. }
    transitivity ((- z + two * (two * knA) + two * knB) * (annihilation i j * one i' j') + pEta qA * (one i j * one i' j') + CI * RC u * ((annihilation i j * RC (INR j) - RC (INR i) * annihilation i j) * displacement i' j')); [unfold knA, two; ring|].
    rewrite E. unfold knA, two. ring.
Qed.
Lemma photon_rate : mean_rate [NA; NB] photons rho (evolution [NA; NB] G Js rho) = mean_rate [NA; NB] photons rho (evolution [NA; NB] (plusO (kron [modeGenerator qA; one]) (kron [one; modeGenerator qB])) Js rho).
Proof.
  assert (Q : forall A, (A = number \/ A = one) -> mean [NA; NB] (kron [A; one]) (evolution [NA; NB] G Js rho) = mean [NA; NB] (kron [A; one]) (evolution [NA; NB] (plusO (kron [modeGenerator qA; one]) (kron [one; modeGenerator qB])) Js rho)).
  { intros A HAA. rewrite !mean_evolution. apply mean_ext. intros y x Hy Hx. apply inr2 in Hy as (i & i' & -> & Hi & Hi'). apply inr2 in Hx as (j & j' & -> & Hj & Hj'). rewrite heis_opto by auto.
    pose proof (heis2 NA NB (modeGenerator qA) (modeGenerator qB) (modeJumps qA) (modeJumps qB) k0 (fun _ _ => k0)) as X.
    specialize (X ltac:(intros; unfold jcOp, plusO, timesO; rewrite kconj_0; ring) A one i i' j j' Hi Hi' Hj Hj'). unfold comm in X. rewrite kconj_0 in X.
    rewrite (heis_ext _ (plusO (kron [modeGenerator qA; one]) (kron [one; modeGenerator qB])) (plusO (plusO (kron [modeGenerator qA; one]) (kron [one; modeGenerator qB])) (fun _ _ => k0))); auto using inr2'.
    2:{ intros. unfold plusO. ring. }
    unfold Js, optoJumps. rewrite X. unfold pull_. rewrite mm_one_l, mm_one_r by auto.
    assert (E : mm NA A number i j = mm NA number A i j) by (destruct HAA as [-> | ->]; [reflexivity|rewrite mm_one_l, mm_one_r by auto; reflexivity]). rewrite E. ring. }
  unfold mean_rate, photons. rewrite (Q number (or_introl eq_refl)). f_equal. f_equal. rewrite !trace2. apply (Q one (or_intror eq_refl)).
Qed.
End Motion.
Lemma motion qA qB u rho : plain qA -> plain qB -> let dims := [pCutoff qA; pCutoff qB] in mtrace dims rho = k1 -> room2 (pCutoff qA) (pCutoff qB) rho ->
  let d := evolution dims (optoGenerator qA qB u) (optoJumps qA qB) rho in let m A := mean dims A rho in
  mean_rate dims mirrorAmplitude rho d = ((- pKappa qB, pDelta qB)%R : CR) * m mirrorAmplitude + pEta qB + CI * RC u * m photons /\
  mean_rate dims lightAmplitude rho d = ((- pKappa qA, pDelta qA)%R : CR) * m lightAmplitude + pEta qA + CI * RC u * m lightTimesDisplacement /\
  mean_rate dims photons rho d = mean_rate dims photons rho (evolution dims (plusO (kron [modeGenerator qA; one]) (kron [one; modeGenerator qB])) (optoJumps qA qB) rho).
Proof. intros HA HB dims Ht Hr d m. split; [now apply mirror_rate|]. split; [now apply light_rate|now apply photon_rate]. Qed.

(** ** A case: one photon, the mirror at rest *)
Definition lightPars := mkPars 1 0 0 3 k1 1 0.
Definition mirrorPars := mkPars 2 0 0 2 k0 1 1.
Definition onePhoton : op := fun y x => if listnat_eqb y [1; 0]%nat && listnat_eqb x [1; 0]%nat then k1 else k0.
Lemma is32 (f : list nat -> CR) : isum [3; 2]%nat f = f [0; 0]%nat + f [0; 1]%nat + f [1; 0]%nat + f [1; 1]%nat + f [2; 0]%nat + f [2; 1]%nat.
Proof. rewrite isum_cons. unfold ksum. cbn [seq map fold_right]. rewrite !isum_cons. unfold ksum. cbn [seq map fold_right]. rewrite !isum_nil. ring. Qed.
Lemma photon_case : plain lightPars /\ plain mirrorPars /\ 1 < pCutoff lightPars /\ 1 < pCutoff mirrorPars /\ pDelta mirrorPars <> 0%R /\
  mtrace [3; 2]%nat onePhoton = k1 /\ room2 3 2 onePhoton /\ mean [3; 2]%nat photons onePhoton = k1.
Proof.
  split; [repeat split; cbn; try lia; lra|]. split; [repeat split; cbn; try lia; lra|]. split; [cbn; lia|]. split; [cbn; lia|]. split; [cbn; lra|]. split; [|split].
  - unfold mtrace. rewrite is32. unfold onePhoton. cbn [listnat_eqb Nat.eqb andb]. ring.
  - intros i j y x H. unfold onePhoton. assert (E : listnat_eqb [i; j] [1; 0]%nat = false).
    { cbn [listnat_eqb]. destruct (Nat.eqb_spec i 1), (Nat.eqb_spec j 0); cbn; auto; lia. }
    rewrite E, andb_false_r. auto.
  - unfold mean, mtrace, mmul. rewrite is32, !is32. unfold onePhoton. cbn [listnat_eqb Nat.eqb andb]. unfold photons. cbn [kron]. unfold number, one, ElementSpec.identity. cbn [Nat.eqb INR]. change (RC 1) with (k1 : CR). ring.
Qed.
