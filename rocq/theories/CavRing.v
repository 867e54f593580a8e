(** The two modes of the ring with the particle at rest, for CavScriptProperties.v *)
From Coq Require Import List Arith Bool ZArith Lia Reals Lra.
From Verif Require Import Star CReal Arr HermSpec MasterSpec MasterProofs MasterLemmas TriModel ElementModel ElementSpec ElementProofs ModeModel ModeSpec ModeProofs ModeFacts DampSpec DampProofs CompositeModel ParticleModel ParticleSpec InteractionModel InteractionSpec
  InteractionProofs InteractionFacts AverageSpec AverageProofs MatHamModel ScriptSpec ScriptProofs ScriptFacts ScriptCases CavScriptModel CavScriptSpec.
Import ListNotations.
Add Ring CRcr : (k_ring CR).
Local Open Scope nat_scope.
Local Open Scope K_scope.

Lemma heis_ext dims G G' Js A y x : (forall y x, inr dims y -> inr dims x -> G y x = G' y x) -> inr dims y -> inr dims x -> heis dims G Js A y x = heis dims G' Js A y x.
Proof.
  intros H Hy Hx. unfold heis. f_equal. f_equal; apply mmul_ext'; auto. intros k Hk. unfold hc. now rewrite H.
Qed.
Lemma mean_room2 a b X Y rho : room2 a b rho -> (forall i i' j j', i + 1 < a -> j + 1 < a -> i' + 1 < b -> j' + 1 < b -> X [i; i'] [j; j'] = Y [i; i'] [j; j']) ->
  mean [a; b] X rho = mean [a; b] Y rho.
Proof.
  intros Hr H. unfold mean, mtrace, mmul. apply isum_ext. intros y Hy. apply isum_ext. intros x Hx. apply inr2 in Hy as (i & i' & -> & Hi & Hi'). apply inr2 in Hx as (j & j' & -> & Hj & Hj').
  destruct (le_lt_dec a (i + 1)); [rewrite (proj2 (Hr i i' [j; j'] [] (or_introl l))); ring|].
  destruct (le_lt_dec b (i' + 1)); [rewrite (proj2 (Hr i i' [j; j'] [] (or_intror l0))); ring|].
  destruct (le_lt_dec a (j + 1)); [rewrite (proj1 (Hr j j' [] [i; i'] (or_introl l1))); ring|].
  destruct (le_lt_dec b (j' + 1)); [rewrite (proj1 (Hr j j' [] [i; i'] (or_intror l2))); ring|].
  now rewrite H.
Qed.
Lemma commutator N i j : i + 1 < N -> j + 1 < N -> mm N annihilation creation i j - mm N creation annihilation i j = one i j.
Proof.
  intros Hi Hj. rewrite mm_ann_l by lia.
  assert (E : mm N creation annihilation i j = if i =? j then RC (INR i) else k0).
  { destruct i as [|i].
    - rewrite mm_cre_l0. destruct (0 =? j); reflexivity.
    - replace (S i) with (i + 1)%nat by lia. rewrite mm_cre_l by lia. unfold annihilation. rewrite (Nat.eqb_sym j). destruct (Nat.eqb_spec (i + 1) j) as [<-|]; [apply sq_sq|ring]. }
  rewrite E. unfold creation, one, ElementSpec.identity. destruct (Nat.eqb_spec i j) as [->|].
  - rewrite Nat.eqb_refl, sq_next. ring.
  - destruct (Nat.eqb_spec (i + 1) (j + 1)); [lia|ring].
Qed.
Lemma mixing_at c i i' j j' : overI (let T := timesO c (kron [creation; annihilation]) in plusO T (hc T)) [i; i'] [j; j'] = jcOp (CI * c) [i; i'] [j; j'].
Proof.
  cbv zeta. unfold overI, jcOp, plusO, timesO, hc. cbn [kron]. rewrite !kconj_mul, annihilation_conj, creation_conj, kconj_1.
  assert (E' : kconj CI = - CI) by (apply cr_eq; cbn; ring). rewrite E'. ring.
Qed.
Section Ring.
Variables (q0 q1 : modePars) (w0 w1 : R) (cf : CR) (rho : op).
Hypothesis H0 : plain q0.
Hypothesis H1 : plain q1.
Let N0 := pCutoff q0.
Let N1 := pCutoff q1.
Hypothesis Ht : mtrace [N0; N1] rho = k1.
Hypothesis Hr : room2 N0 N1 rho.
Let p0 := withDelta (pDelta q0 - w0) q0.
Let p1 := withDelta (pDelta q1 - w1) q1.
Let G : op := plusO (plusO (kron [modeGenerator q0; one]) (kron [one; modeGenerator q1]))
  (overI (plusO (plusO (timesO (RC w0) (kron [number; one])) (timesO (RC w1) (kron [one; number]))) (let T := timesO cf (kron [creation; annihilation]) in plusO T (hc T)))).
Let G' : op := plusO (plusO (kron [modeGenerator p0; one]) (kron [one; modeGenerator p1])) (overI (let T := timesO cf (kron [creation; annihilation]) in plusO T (hc T))).
Let Js := map (fun J => kron [J; one]) (modeJumps q0) ++ map (fun J => kron [one; J]) (modeJumps q1).
Lemma shifted_gen' q s m n : modeGenerator (withDelta (pDelta q - s) q) m n = modeGenerator q m n - CI * RC s * number m n.
Proof. unfold modeGenerator, withDelta, number. cbn [pKappa pNTh pDelta pKerr pKerrAlter pEta]. destruct (m =? n); apply cr_eq; cbn; ring. Qed.
Lemma G_same y x : inr [N0; N1] y -> inr [N0; N1] x -> G y x = G' y x.
Proof.
  intros Hy Hx. apply inr2 in Hy as (i & i' & -> & _). apply inr2 in Hx as (j & j' & -> & _). unfold G, G', p0, p1. cbv zeta. unfold overI, plusO, timesO. cbn [kron]. rewrite !shifted_gen'. ring.
Qed.
Lemma heis_ring A B i i' j j' : i < N0 -> i' < N1 -> j < N0 -> j' < N1 -> heis [N0; N1] G Js (kron [A; B]) [i; i'] [j; j'] =
  heisM N0 (modeGenerator p0) (modeJumps p0) A i j * B i' j' + A i j * heisM N1 (modeGenerator p1) (modeJumps p1) B i' j' + comm N0 N1 (CI * cf) A B i i' j j'.
Proof.
  intros. rewrite (heis_ext _ G G') by (auto using G_same, inr2'). unfold G', Js. change (modeJumps q0) with (modeJumps p0). change (modeJumps q1) with (modeJumps p1). apply heis2; auto. intros. apply mixing_at.
Qed.
Let kn0 := RC (pKappa q0 * pNTh q0).
Let kn1 := RC (pKappa q1 * pNTh q1).
Let two := (k1 + k1 : CR).
Lemma trace_ring : mtrace [N0; N1] (evolution [N0; N1] G Js rho) = two * kn0 + two * kn1.
Proof.
  destruct H0 as (_ & Hk & Hn & K1 & K2), H1 as (_ & Hk' & Hn' & K1' & K2').
  rewrite trace2, mean_evolution. transitivity (mean [N0; N1] (fun y x => (two * kn0 + two * kn1) * kron [one; one] y x) rho).
  - apply mean_room2; [exact Hr|]. intros i i' j j' Hi Hj Hi' Hj'. rewrite heis_ring by lia.
    pose proof (heis_1 p0 Hk Hn K1 K2 i j Hi Hj) as X. change (pCutoff p0) with N0 in X. change (RC (pKappa p0 * pNTh p0)) with kn0 in X. rewrite X.
    pose proof (heis_1 p1 Hk' Hn' K1' K2' i' j' Hi' Hj') as X'. change (pCutoff p1) with N1 in X'. change (RC (pKappa p1 * pNTh p1)) with kn1 in X'. rewrite X'.
    unfold comm. rewrite !mm_one_l, !mm_one_r by lia. cbn [kron]. unfold two. ring.
  - rewrite mean_scalA, <- trace2, Ht. ring.
Qed.
Let m A := mean [N0; N1] A rho.
Lemma rate_0 : mean_rate [N0; N1] (kron [annihilation; one]) rho (evolution [N0; N1] G Js rho) =
  ((- pKappa q0, pDelta q0 - w0)%R : CR) * m (kron [annihilation; one]) + pEta q0 - CI * cf * m (kron [one; annihilation]).
Proof.
  destruct H0 as (_ & Hk & Hn & K1 & K2), H1 as (_ & Hk' & Hn' & K1' & K2'). set (z := ((pKappa p0 * (2 * pNTh p0 + 1), - pDelta p0)%R : CR)).
  unfold mean_rate. rewrite trace_ring, mean_evolution.
  rewrite (mean_room2 N0 N1 (heis _ _ _ _) (fun y x => (- z + two * (two * kn0) + two * kn1) * kron [annihilation; one] y x + (pEta q0 * kron [one; one] y x + - (CI * cf) * kron [one; annihilation] y x)) rho Hr).
  - rewrite !mean_addA, !mean_scalA, <- trace2, Ht. fold (m (kron [annihilation; one])) (m (kron [one; annihilation])).
    replace (((- pKappa q0)%R, (pDelta q0 - w0)%R) : CR) with (- z + two * kn0); [unfold two; ring|]. unfold z, two, kn0, p0, withDelta. cbn [pKappa pNTh pDelta]. apply cr_eq; cbn; ring.
  - intros i i' j j' Hi Hj Hi' Hj'. rewrite heis_ring by lia.
    pose proof (heis_a p0 Hk Hn K1 K2 i j Hi Hj) as X. change (pCutoff p0) with N0 in X. change (RC (pKappa p0 * pNTh p0)) with kn0 in X. change (pEta p0) with (pEta q0) in X. fold z in X. rewrite X.
    pose proof (heis_1 p1 Hk' Hn' K1' K2' i' j' Hi' Hj') as X'. change (pCutoff p1) with N1 in X'. change (RC (pKappa p1 * pNTh p1)) with kn1 in X'. rewrite X'.
    unfold comm. rewrite !(mm_one_l N1), !(mm_one_r N1) by lia. pose proof (commutator N0 i j Hi Hj) as E. cbn [kron]. rewrite <- E. unfold two.
    set (ac := mm N0 annihilation creation i j) in *. set (ca := mm N0 creation annihilation i j) in *. rewrite !E. 
    assert (E2 : ac = one i j + ca) by (rewrite <- E; ring). rewrite E2. ring.
Qed.
Lemma rate_1 : mean_rate [N0; N1] (kron [one; annihilation]) rho (evolution [N0; N1] G Js rho) =
  ((- pKappa q1, pDelta q1 - w1)%R : CR) * m (kron [one; annihilation]) + pEta q1 - CI * kconj cf * m (kron [annihilation; one]).
Proof.
  destruct H0 as (_ & Hk & Hn & K1 & K2), H1 as (_ & Hk' & Hn' & K1' & K2'). set (z := ((pKappa p1 * (2 * pNTh p1 + 1), - pDelta p1)%R : CR)).
  unfold mean_rate. rewrite trace_ring, mean_evolution.
  rewrite (mean_room2 N0 N1 (heis _ _ _ _) (fun y x => (- z + two * (two * kn1) + two * kn0) * kron [one; annihilation] y x + (pEta q1 * kron [one; one] y x + - (CI * kconj cf) * kron [annihilation; one] y x)) rho Hr).
  - rewrite !mean_addA, !mean_scalA, <- trace2, Ht. fold (m (kron [annihilation; one])) (m (kron [one; annihilation])).
    replace (((- pKappa q1)%R, (pDelta q1 - w1)%R) : CR) with (- z + two * kn1); [unfold two; ring|]. unfold z, two, kn1, p1, withDelta. cbn [pKappa pNTh pDelta]. apply cr_eq; cbn; ring.
  - intros i i' j j' Hi Hj Hi' Hj'. rewrite heis_ring by lia.
    pose proof (heis_a p1 Hk' Hn' K1' K2' i' j' Hi' Hj') as X. change (pCutoff p1) with N1 in X. change (RC (pKappa p1 * pNTh p1)) with kn1 in X. change (pEta p1) with (pEta q1) in X. fold z in X. rewrite X.
    pose proof (heis_1 p0 Hk Hn K1 K2 i j Hi Hj) as X'. change (pCutoff p0) with N0 in X'. change (RC (pKappa p0 * pNTh p0)) with kn0 in X'. rewrite X'.
    unfold comm. rewrite !(mm_one_l N0), !(mm_one_r N0) by lia. pose proof (commutator N1 i' j' Hi' Hj') as E. cbn [kron].
    set (ac := mm N1 annihilation creation i' j') in *. set (ca := mm N1 creation annihilation i' j') in *. assert (E' : kconj CI = - CI) by (apply cr_eq; cbn; ring).
    assert (E2 : ac = one i' j' + ca) by (rewrite <- E; ring). rewrite E2, kconj_mul, E'. unfold two. ring.
Qed.
End Ring.

Lemma mfValue_1 k x : mfValue (k, 1%Z) x = modeFunctionAt k x.
Proof.
  unfold mfValue, modeFunctionAt. cbn [fst snd]. rewrite Rmult_1_l. destruct k; try reflexivity; f_equal; apply cr_eq; cbn; ring.
Qed.
Lemma mixing_sign u0 u1 c : mixing u0 u1 c -> c = (rsign u0 * sqrt (u0 * u1))%R.
Proof.
  intros [A B]. unfold rsign. destruct (Rlt_dec u0 0) as [L|L].
  - assert (c <= 0)%R by nra. rewrite <- A. replace (c * c)%R with ((- c) * (- c))%R by ring. rewrite sqrt_square by lra. ring.
  - destruct (Rle_lt_dec 0 c) as [P|P].
    + rewrite <- A, sqrt_square by exact P. ring.
    + assert (u0 = 0)%R by nra. subst u0. rewrite Rmult_0_l in A. assert (c = 0)%R by nra. lra.
Qed.
Lemma mixing_there u0 u1 : (0 <= u0 * u1)%R -> mixing u0 u1 (rsign u0 * sqrt (u0 * u1)).
Proof.
  intros H. pose proof (sqrt_sqrt _ H) as S. pose proof (sqrt_pos (u0 * u1)). unfold mixing, rsign. destruct (Rlt_dec u0 0); split; nra.
Qed.
Lemma ring_value p c rho b : plain (rP p) -> plain (rM p) -> mixing (rUnotP p) (rUnotM p) c -> let dims := [pCutoff (rP p); pCutoff (rM p)] in
  mtrace dims rho = k1 -> room2 (pCutoff (rP p)) (pCutoff (rM p)) rho ->
  let d := evolution dims (fixedGenerator p c) (bothJumps p) rho in let x := (PI * rX0 p)%R in
  b = (mean dims (kron [annihilation; one]) rho, mean dims (kron [one; annihilation]) rho) ->
  (mean_rate dims (kron [annihilation; one]) rho d, mean_rate dims (kron [one; annihilation]) rho d) =
  (((- pKappa (rP p), pDelta (rP p) - rUnotP p * csq (mfValue (rCavP p) x))%R : CR) * fst b + pEta (rP p) - CI * (RC c * overlap (rCavP p) (rCavM p) x) * snd b,
   ((- pKappa (rM p), pDelta (rM p) - rUnotM p * csq (mfValue (rCavM p) x))%R : CR) * snd b + pEta (rM p) - CI * kconj (RC c * overlap (rCavP p) (rCavM p) x) * fst b).
Proof.
  intros HP HM Hc dims Ht Hr d x ->. cbn [fst snd]. unfold d, dims, fixedGenerator, bothJumps, hFixed. cbv zeta. f_equal; [apply rate_0|apply rate_1]; auto.
Qed.
Lemma ring_right p c : plain (rP p) -> plain (rM p) -> mixing (rUnotP p) (rUnotM p) c -> snd (rCavP p) = 1%Z -> snd (rCavM p) = 1%Z -> follows p c (ringRhs p).
Proof.
  intros HP HM Hc KP KM rho dims Ht Hr d a0 a1. pose proof (ring_value p c rho _ HP HM Hc Ht Hr eq_refl) as X. cbv zeta in X. fold dims in X. fold a0 a1 d in X. rewrite X. clear X. cbn [fst snd].
  unfold ringRhs. cbv zeta. destruct (Rlt_dec (rUnotP p * rUnotM p) 0) as [L|_]; [destruct Hc; nra|]. rewrite <- (mixing_sign _ _ _ Hc). unfold overlap.
  destruct (rCavP p) as [fP KP'], (rCavM p) as [fM KM']. cbn [snd] in KP, KM. subst KP' KM'. rewrite !mfValue_1. cbn [fst snd].
  set (uP := (rUnotP p * csq _)%R). set (uM := (rUnotM p * csq _)%R). f_equal. f_equal.
  - f_equal; [f_equal; f_equal; apply cr_eq; cbn; ring|]. ring.
  - f_equal; [f_equal; f_equal; apply cr_eq; cbn; ring|]. rewrite !kconj_mul. ring.
Qed.
