(** The atom in the cavity and the two-level atom, for ScriptProperties.v *)
From Coq Require Import List Arith Lia Reals Lra.
From Verif Require Import Star CReal Arr HermSpec MasterSpec MasterProofs MasterLemmas TriModel ElementModel ElementSpec ElementProofs ModeModel ModeSpec ModeProofs ModeFacts DampSpec DampProofs CompositeModel ParticleModel InteractionModel InteractionSpec InteractionProofs InteractionFacts AverageSpec AverageProofs MatHamModel BichromaticModel BichromaticSpec BichromaticProofs ScriptModel ScriptSpec ScriptProofs ScriptFacts.
Import ListNotations.
Local Open Scope nat_scope.
Local Open Scope K_scope.
Add Ring CRsk : (k_ring CR).

Lemma mmul_plus_r dims K X Y y x : mmul dims K (plusO X Y) y x = mmul dims K X y x + mmul dims K Y y x.
Proof. unfold mmul, plusO. rewrite <- isum_add. apply isum_ext. intros k _. ring. Qed.
Lemma mmul_plus_l dims K X Y y x : mmul dims (plusO X Y) K y x = mmul dims X K y x + mmul dims Y K y x.
Proof. unfold mmul, plusO. rewrite <- isum_add. apply isum_ext. intros k _. ring. Qed.
Lemma mmul_times_r dims c K X y x : mmul dims K (timesO c X) y x = c * mmul dims K X y x.
Proof. unfold mmul, timesO. rewrite <- isum_scal_l. apply isum_ext. intros k _. ring. Qed.
Lemma mmul_times_l dims c K X y x : mmul dims (timesO c X) K y x = c * mmul dims X K y x.
Proof. unfold mmul, timesO. rewrite <- isum_scal_l. apply isum_ext. intros k _. ring. Qed.
Definition jcOp (g : CR) : op := plusO (timesO (kconj g) (kron [annihilation; creation])) (timesO (- g) (kron [creation; annihilation])).
Lemma jc_at g i i' j j' : overI (hJaynesCummings g annihilation) [i; i'] [j; j'] = jcOp g [i; i'] [j; j'].
Proof.
  unfold overI, hJaynesCummings, jcOp, plusO, timesO, hc. cbn [kron]. rewrite !kconj_mul, kconj_invol, annihilation_conj, creation_conj, kconj_1.
  assert (E : CI * CI = - (k1 : CR)) by (apply cr_eq; cbn; ring). assert (E' : kconj CI = - CI) by (apply cr_eq; cbn; ring). rewrite E'.
  transitivity (- (CI * CI) * (kconj g * (annihilation i j * creation i' j') - g * (creation i j * annihilation i' j'))); [ring|]. rewrite E. ring.
Qed.
Lemma jc_hc g i i' j j' : hc (jcOp g) [i; i'] [j; j'] = timesO (- (k1)) (jcOp g) [i; i'] [j; j'].
Proof.
  unfold jcOp, plusO, timesO, hc. cbn [kron]. rewrite !kconj_add, !kconj_mul, kconj_opp, kconj_invol, !annihilation_conj, !creation_conj, kconj_1. ring.
Qed.
Section Two.
Variables a b : nat.
Variables Gq Gm : mat.
Variables Jq Jm : list mat.
Variable g : CR.
Variable Gi : op.
Hypothesis HGi : forall i i' j j', Gi [i; i'] [j; j'] = jcOp g [i; i'] [j; j'].
Lemma pull k dims K (f : list nat -> list nat -> CR) : (forall y x, inr dims y -> inr dims x -> f y x = k y x) -> forall y x, inr dims y -> inr dims x -> mmul dims f K y x = mmul dims k K y x.
Proof. intros H y x Hy Hx. apply mmul_ext'; auto. Qed.
Definition comm (A B : mat) (i i' j j' : nat) : CR :=
  kconj g * (mm a A annihilation i j * mm b B creation i' j' - mm a annihilation A i j * mm b creation B i' j')
  - g * (mm a A creation i j * mm b B annihilation i' j' - mm a creation A i j * mm b annihilation B i' j').
Lemma heis2 A B i i' j j' : i < a -> i' < b -> j < a -> j' < b ->
  heis [a; b] (plusO (plusO (kron [Gq; one]) (kron [one; Gm])) Gi) (map (fun J => kron [J; one]) Jq ++ map (fun J => kron [one; J]) Jm) (kron [A; B]) [i; i'] [j; j'] =
  heisM a Gq Jq A i j * B i' j' + A i j * heisM b Gm Jm B i' j' + comm A B i i' j j'.
Proof.
  intros Hi Hi' Hj Hj'. assert (Iy := inr2' a b i i' Hi Hi'). assert (Ix := inr2' a b j j' Hj Hj').
  assert (A1 : forall i j, adj one i j = one i j). { intros m n. unfold adj, one, ElementSpec.identity. rewrite (Nat.eqb_sym n). destruct (m =? n); [apply kconj_1|apply kconj_0]. }
  assert (L1 : forall X k l, k < a -> mm a (adj one) X k l = X k l). { intros. rewrite <- (mm_one_l a X k l) by auto. apply mm_ext; auto. }
  assert (L2 : forall X k l, k < b -> mm b (adj one) X k l = X k l). { intros. rewrite <- (mm_one_l b X k l) by auto. apply mm_ext; auto. }
  unfold heis. rewrite !mmul_plus_r. rewrite (mmul_ext' _ (kron [A; B]) (kron [A; B]) Gi (jcOp g)); auto.
  2:{ intros k Hk. apply inr2 in Hk as (m & n & -> & _). apply HGi. }
  unfold jcOp at 1. rewrite mmul_plus_r, !mmul_times_r, !mm2, !mm_one_r by auto.
  rewrite (mmul_ext' _ (hc _) (plusO (plusO (kron [adj Gq; adj one]) (kron [adj one; adj Gm])) (timesO (- (k1)) (jcOp g))) (kron [A; B]) (kron [A; B])); auto.
  2:{ intros k Hk. apply inr2 in Hk as (m & n & -> & _). unfold hc, plusO. rewrite !kconj_add. rewrite HGi. f_equal; [f_equal; apply hc_kron2|apply jc_hc]. }
  rewrite !mmul_plus_l, mmul_times_l. unfold jcOp. rewrite mmul_plus_l, !mmul_times_l, !mm2, L1, L2 by auto.
  rewrite ksum_app, !ksum_map.
  rewrite (ksum_ext (fun x => mmul [a; b] (hc (kron [x; one])) (mmul [a; b] (kron [A; B]) (kron [x; one])) [i; i'] [j; j']) (fun J => mm a (adj J) (mm a A J) i j * B i' j')).
  2:{ intros J _. rewrite (mmul_ext' _ _ (kron [adj J; adj one]) _ (kron [mm a A J; B])); auto.
      - rewrite mm2, L2 by auto. reflexivity.
      - intros k Hk. apply inr2 in Hk as (m & n & -> & _). apply hc_kron2.
      - intros k Hk. apply inr2 in Hk as (m & n & -> & _). rewrite mm2, mm_one_r by auto. cbn [kron]. ring. }
  rewrite (ksum_ext (fun x => mmul [a; b] (hc (kron [one; x])) (mmul [a; b] (kron [A; B]) (kron [one; x])) [i; i'] [j; j']) (fun J => A i j * mm b (adj J) (mm b B J) i' j')).
  2:{ intros J _. rewrite (mmul_ext' _ _ (kron [adj one; adj J]) _ (kron [A; mm b B J])); auto.
      - rewrite mm2, L1 by auto. reflexivity.
      - intros k Hk. apply inr2 in Hk as (m & n & -> & _). apply hc_kron2.
      - intros k Hk. apply inr2 in Hk as (m & n & -> & _). rewrite mm2, mm_one_r by auto. cbn [kron]. ring. }
  rewrite ksum_scal_l, ksum_scal_r. unfold heisM, comm. ring.
Qed.
End Two.

(** ** The qbit *)
Lemma ls2 (f : nat -> CR) : lsum 2 f = f 0%nat + f 1%nat.
Proof. unfold lsum, ksum. cbn [seq map fold_right]. ring. Qed.
Lemma ann00 : annihilation 0 0 = k0. Proof. reflexivity. Qed.
Lemma ann01 : annihilation 0 1 = k1. Proof. unfold annihilation. cbn [Nat.eqb Nat.add INR]. now rewrite sqrt_1. Qed.
Lemma ann10 : annihilation 1 0 = k0. Proof. reflexivity. Qed.
Lemma ann11 : annihilation 1 1 = k0. Proof. reflexivity. Qed.
Lemma cre00 : creation 0 0 = k0. Proof. reflexivity. Qed.
Lemma cre10 : creation 1 0 = k1. Proof. unfold creation. cbn [Nat.eqb Nat.add INR]. now rewrite sqrt_1. Qed.
Lemma cre01 : creation 0 1 = k0. Proof. reflexivity. Qed.
Lemma cre11 : creation 1 1 = k0. Proof. reflexivity. Qed.
Ltac lv := rewrite ?ann00, ?ann01, ?ann10, ?ann11, ?cre00, ?cre01, ?cre10, ?cre11.
Lemma sigma_ann i j : i < 2 -> j < 2 -> sigmaMinus i j = annihilation i j.
Proof. intros. destruct i as [|[|i]], j as [|[|j]]; try lia; lv; reflexivity. Qed.
Section Qbit.
Variables (delta gamma : R) (eta : CR).
Hypothesis Hg : (0 <= gamma)%R.
Let p := qbitPars delta gamma eta.
Let z := ((gamma, - delta)%R : CR).
Lemma qgen m n : modeGenerator p m n = (if m =? n then - (RC (INR m) * z) else k0) + (- eta * creation m n + kconj eta * annihilation m n).
Proof.
  rewrite gen_at by reflexivity. unfold p, qbitPars. cbn [pKappa pNTh pDelta pEta]. rewrite kconj_opp. unfold z. replace (gamma * (2 * 0 + 1))%R with gamma by ring. ring.
Qed.
Lemma qconj m n : kconj (modeGenerator p m n) = (if m =? n then - (RC (INR m) * kconj z) else k0) + (- kconj eta * annihilation n m + eta * creation n m).
Proof.
  rewrite qgen, !kconj_add, !kconj_mul, kconj_opp, kconj_invol, creation_conj, annihilation_conj. f_equal. destruct (m =? n); [|apply kconj_0].
  now rewrite kconj_opp, kconj_mul, RC_conj.
Qed.
Lemma qjumps A i j : ksum (fun J => mm 2 (adj J) (mm 2 A J) i j) (modeJumps p) = RC (2 * gamma) * mm 2 creation (mm 2 A annihilation) i j.
Proof.
  rewrite jumps_sum by (unfold p; cbn; lra). unfold p, qbitPars. cbn [pKappa pNTh]. replace (2 * (gamma * (0 + 1)))%R with (2 * gamma)%R by ring.
  replace (2 * (gamma * 0))%R with 0%R by ring. change (RC 0) with (k0 : CR). ring.
Qed.
Lemma zc : kconj z = RC (2 * gamma) - z. Proof. unfold z. apply cr_eq; cbn; ring. Qed.
Ltac two i j := destruct i as [|[|i]], j as [|[|j]]; try lia.
Lemma qheis_1 i j : i < 2 -> j < 2 -> heisM 2 (modeGenerator p) (modeJumps p) one i j = k0.
Proof.
  intros Hi Hj. unfold heisM. rewrite qjumps. unfold mm. rewrite !ls2. unfold adj. rewrite !qconj, !qgen, zc.
  two i j; lv; cbn [Nat.eqb]; unfold one, ElementSpec.identity; cbn [Nat.eqb]; change (RC (INR 1)) with (k1 : CR); change (RC (INR 0)) with (k0 : CR); ring.
Qed.
Lemma qheis_s i j : i < 2 -> j < 2 -> heisM 2 (modeGenerator p) (modeJumps p) sigmaMinus i j = - z * sigmaMinus i j - eta * (one i j - (k1 + k1) * ketbra 1 1 i j).
Proof.
  intros Hi Hj. unfold heisM. rewrite qjumps. unfold mm. rewrite !ls2. unfold adj. rewrite !qconj, !qgen, zc.
  two i j; lv; cbn [Nat.eqb]; unfold one, ElementSpec.identity, sigmaMinus, ketbra; cbn [Nat.eqb andb]; change (RC (INR 1)) with (k1 : CR); change (RC (INR 0)) with (k0 : CR); ring.
Qed.
End Qbit.

(** ** Both *)
Section Both.
Variables (q : modePars) (delta gamma : R) (eta g : CR) (rho : op).
Hypothesis Hq : plain q.
Hypothesis Hg : (0 <= gamma)%R.
Hypothesis Ht : mtrace [2; pCutoff q] rho = k1.
Hypothesis Hr : room (pCutoff q) rho.
Let N := pCutoff q.
Let G := jcGenerator q gamma delta eta g.
Let Js := jcJumps q gamma delta eta.
Let m A := mean [2; N] A rho.
Let kn := RC (pKappa q * pNTh q).
Let zm := ((pKappa q * (2 * pNTh q + 1), - pDelta q)%R : CR).
Lemma heis_jc A B i i' j j' : i < 2 -> i' < N -> j < 2 -> j' < N -> heis [2; N] G Js (kron [A; B]) [i; i'] [j; j'] =
  heisM 2 (modeGenerator (qbitPars delta gamma eta)) (modeJumps (qbitPars delta gamma eta)) A i j * B i' j' + A i j * heisM N (modeGenerator q) (modeJumps q) B i' j' + comm 2 N g A B i i' j j'.
Proof. intros. unfold G, Js, jcGenerator, jcJumps. apply heis2; auto. intros. apply jc_at. Qed.
Lemma on_room X Y : (forall i i' j j', i < 2 -> j < 2 -> i' + 1 < N -> j' + 1 < N -> X [i; i'] [j; j'] = Y [i; i'] [j; j']) -> mean [2; N] X rho = mean [2; N] Y rho.
Proof.
  intros H. apply (mean_room [2; N] N); [exact Hr|]. intros y x Hy Hx. apply inr2 in Hy as (i & i' & -> & Hi & Hi'). apply inr2 in Hx as (j & j' & -> & Hj & Hj'). cbn [last]. auto.
Qed.
Lemma trace_jc : mtrace [2; N] (evolution [2; N] G Js rho) = (k1 + k1) * kn.
Proof.
  destruct Hq as (Hd & Hk & Hn & K1 & K2).
  rewrite trace2, mean_evolution. transitivity (mean [2; N] (fun y x => (k1 + k1) * kn * kron [one; one] y x) rho).
  - apply on_room. intros i i' j j' Hi Hj Hi' Hj'. rewrite heis_jc by lia. rewrite qheis_1 by auto.
    pose proof (heis_1 q Hk Hn K1 K2 i' j' Hi' Hj') as X. fold N kn in X. rewrite X.
    unfold comm. rewrite !mm_one_l, !mm_one_r by lia. cbn [kron]. ring.
  - rewrite mean_scalA, <- trace2. fold N in Ht. rewrite Ht. ring.
Qed.
Lemma jc_mode : mean_rate [2; N] modeAmplitude rho (evolution [2; N] G Js rho) = ((- pKappa q, pDelta q)%R : CR) * m modeAmplitude + kconj g * m atomAmplitude + pEta q.
Proof.
  destruct Hq as (Hd & Hk & Hn & K1 & K2).
  unfold mean_rate. rewrite trace_jc, mean_evolution. unfold modeAmplitude at 1.
  transitivity (mean [2; N] (fun y x => (- zm + (k1 + k1) * ((k1 + k1) * kn)) * modeAmplitude y x + (pEta q * kron [one; one] y x + kconj g * atomAmplitude y x)) rho - m modeAmplitude * ((k1 + k1) * kn)).
  - f_equal. apply on_room. intros i i' j j' Hi Hj Hi' Hj'. rewrite heis_jc by lia. rewrite qheis_1 by auto.
    pose proof (heis_a q Hk Hn K1 K2 i' j' Hi' Hj') as X. fold N kn zm in X. rewrite X.
    unfold comm. rewrite !mm_one_l, !mm_one_r by lia. rewrite (mm_ann_l N creation), (mm_ann_l N annihilation) by lia.
    assert (E1 : RC (sqrt (INR (i' + 1))) * creation (i' + 1) j' - mm N creation annihilation i' j' = one i' j').
    { assert (E : mm N creation annihilation i' j' = if i' =? j' then RC (INR i') else k0).
      { destruct i' as [|i'].
        - rewrite mm_cre_l0. destruct (0 =? j'); reflexivity.
        - replace (S i') with (i' + 1)%nat by lia. rewrite mm_cre_l by lia. unfold annihilation. rewrite (Nat.eqb_sym j'). destruct (Nat.eqb_spec (i' + 1) j') as [<-|]; [apply sq_sq|ring]. }
      rewrite E. unfold creation, one, ElementSpec.identity. destruct (Nat.eqb_spec i' j') as [->|].
      - rewrite Nat.eqb_refl, sq_next. ring.
      - destruct (Nat.eqb_spec (i' + 1) (j' + 1)); [lia|ring]. }
    unfold modeAmplitude, atomAmplitude. cbn [kron]. rewrite sigma_ann by auto.
    transitivity (one i j * ((- zm + (k1 + k1) * ((k1 + k1) * kn)) * annihilation i' j' + pEta q * one i' j') +
      kconj g * (annihilation i j * (RC (sqrt (INR (i' + 1))) * creation (i' + 1) j' - mm N creation annihilation i' j'))); [ring|]. rewrite E1. ring.
  - rewrite !mean_addA, !mean_scalA, <- trace2. fold N in Ht. rewrite Ht. fold (m modeAmplitude) (m atomAmplitude).
    replace (((- pKappa q)%R, pDelta q) : CR) with (- zm + (k1 + k1) * kn); [ring|]. unfold zm, kn. apply cr_eq; cbn; ring.
Qed.
Lemma jc_atom : mean_rate [2; N] atomAmplitude rho (evolution [2; N] G Js rho) =
  ((- gamma, delta)%R : CR) * m atomAmplitude - g * m modeAmplitude - eta + (k1 + k1) * (eta * m excitation + g * m excitationAmplitude).
Proof.
  destruct Hq as (Hd & Hk & Hn & K1 & K2).
  unfold mean_rate. rewrite trace_jc, mean_evolution. unfold atomAmplitude at 1. set (zq := ((gamma, - delta)%R : CR)).
  transitivity (mean [2; N] (fun y x => (- zq + (k1 + k1) * kn) * atomAmplitude y x + (- eta * kron [one; one] y x + ((k1 + k1) * eta * excitation y x + (- g * modeAmplitude y x + (k1 + k1) * g * excitationAmplitude y x)))) rho - m atomAmplitude * ((k1 + k1) * kn)).
  - f_equal. apply on_room. intros i i' j j' Hi Hj Hi' Hj'. rewrite heis_jc by lia. rewrite qheis_s by auto. fold zq.
    pose proof (heis_1 q Hk Hn K1 K2 i' j' Hi' Hj') as X. fold N kn in X. rewrite X.
    unfold comm. rewrite !(mm_one_l N), !(mm_one_r N) by lia.
    assert (E1 : mm 2 sigmaMinus annihilation i j = k0 /\ mm 2 annihilation sigmaMinus i j = k0 /\ mm 2 sigmaMinus creation i j = one i j - ketbra 1 1 i j /\ mm 2 creation sigmaMinus i j = ketbra 1 1 i j).
    { unfold mm. rewrite !ls2. destruct i as [|[|i]], j as [|[|j]]; try lia; lv; unfold sigmaMinus, ketbra, one, ElementSpec.identity; cbn [Nat.eqb andb]; repeat split; ring. }
    destruct E1 as (E1 & E2 & E3 & E4). rewrite E1, E2, E3, E4. unfold modeAmplitude, atomAmplitude, excitation, excitationAmplitude. cbn [kron]. ring.
  - rewrite !mean_addA, !mean_scalA, <- trace2. fold N in Ht. rewrite Ht. fold (m modeAmplitude) (m atomAmplitude) (m excitation) (m excitationAmplitude).
    replace (((- gamma)%R, delta) : CR) with (- zq); [ring|]. unfold zq. apply cr_eq; cbn; ring.
Qed.
End Both.
