(** Proofs for ScriptProperties.v *)
From Coq Require Import List Arith Lia Reals Lra.
From Verif Require Import Star CReal Arr HermSpec MasterSpec MasterProofs MasterLemmas TriModel ElementModel ElementSpec ElementProofs ModeModel ModeSpec ModeProofs ModeFacts DampSpec DampProofs CompositeModel ParticleModel InteractionModel InteractionSpec InteractionProofs InteractionFacts AverageSpec AverageProofs MatHamModel BichromaticModel BichromaticSpec BichromaticProofs ScriptModel ScriptSpec ScriptProofs.
Import ListNotations.
Local Open Scope nat_scope.
Local Open Scope K_scope.
Add Ring CRsf : (k_ring CR).

Lemma hc_kron1 G i j : hc (kron [G]) [i] [j] = kron [adj G] [i] [j].
Proof. unfold hc. apply kron_adj. Qed.
Lemma hc_kron2 G H i i' j j' : hc (kron [G; H]) [i; i'] [j; j'] = kron [adj G; adj H] [i; i'] [j; j'].
Proof. unfold hc. apply kron_adj. Qed.
Lemma mmul_ext' dims (a a' b b' : op) y x : inr dims y -> inr dims x -> (forall k, inr dims k -> a y k = a' y k) -> (forall k, inr dims k -> b k x = b' k x) -> mmul dims a b y x = mmul dims a' b' y x.
Proof. intros Hy Hx H1 H2. unfold mmul. apply isum_ext. intros k Hk. now rewrite H1, H2. Qed.
Lemma inr1' d i : i < d -> inr [d] [i]. Proof. repeat constructor; auto. Qed.
Lemma inr2' a b i j : i < a -> j < b -> inr [a; b] [i; j]. Proof. repeat constructor; auto. Qed.
Lemma heis1 d G Js A i j : i < d -> j < d -> heis [d] (kron [G]) (ops Js) (kron [A]) [i] [j] = heisM d G Js A i j.
Proof.
  intros Hi Hj. unfold heis, heisM, ops. rewrite mm1. f_equal; [f_equal|].
  - rewrite (mmul_ext' [d] (hc (kron [G])) (kron [adj G]) (kron [A]) (kron [A])); auto using inr1', mm1.
    intros k Hk. apply inr1 in Hk as [k' [-> _]]. apply hc_kron1.
  - rewrite ksum_map. apply ksum_ext. intros J _. rewrite <- mm1. apply mmul_ext'; auto using inr1'.
    + intros k Hk. apply inr1 in Hk as [k' [-> _]]. apply hc_kron1.
    + intros k Hk. apply inr1 in Hk as [k' [-> _]]. rewrite mm1. cbn [kron]. ring.
Qed.
Lemma trace1 d rho : mtrace [d] rho = mean [d] (kron [one]) rho.
Proof.
  unfold mean. apply mtrace_ext. intros y x Hy Hx. unfold mmul. rewrite (isum_single [d] _ y Hy).
  - apply inr1 in Hy as [i [-> _]]. cbn [kron]. unfold one, ElementSpec.identity. rewrite Nat.eqb_refl. ring.
  - intros b Hb Hn. apply inr1 in Hy as [i [-> _]]. apply inr1 in Hb as [k [-> _]]. cbn [kron]. unfold one, ElementSpec.identity. destruct (Nat.eqb_spec i k); [congruence|ring].
Qed.
Lemma trace2 a b rho : mtrace [a; b] rho = mean [a; b] (kron [one; one]) rho.
Proof.
  unfold mean. apply mtrace_ext. intros y x Hy Hx. unfold mmul. rewrite (isum_single [a; b] _ y Hy).
  - apply inr2 in Hy as (i & i' & -> & _). cbn [kron]. unfold one, ElementSpec.identity. rewrite !Nat.eqb_refl. ring.
  - intros c Hc Hn. apply inr2 in Hy as (i & i' & -> & _). apply inr2 in Hc as (k & k' & -> & _). cbn [kron]. unfold one, ElementSpec.identity.
    destruct (Nat.eqb_spec i k); [|ring]. destruct (Nat.eqb_spec i' k'); [congruence|ring].
Qed.

Lemma mode_rate p rho : plain p -> mtrace [pCutoff p] rho = k1 -> room (pCutoff p) rho ->
  mean_rate [pCutoff p] (kron [annihilation]) rho (evolution [pCutoff p] (kron [modeGenerator p]) (ops (modeJumps p)) rho) =
  ((- pKappa p, pDelta p)%R : CR) * mean [pCutoff p] (kron [annihilation]) rho + pEta p.
Proof.
  intros (Hd & Hk & Hn & K1 & K2) Ht Hr. set (N := pCutoff p) in *. unfold mean_rate. rewrite (trace1 N (evolution _ _ _ _)), !mean_evolution.
  set (z := ((pKappa p * (2 * pNTh p + 1), - pDelta p)%R : CR)). set (kn := RC (pKappa p * pNTh p)). set (two := (k1 + k1 : CR)).
  rewrite (mean_room [N] N (heis [N] _ _ (kron [annihilation])) (fun y x => (- z + two * (two * kn)) * kron [annihilation] y x + pEta p * kron [one] y x) rho Hr).
  - rewrite (mean_room [N] N (heis [N] _ _ (kron [one])) (fun y x => two * kn * kron [one] y x) rho Hr).
    + rewrite mean_addA, !mean_scalA, <- trace1, Ht.
      replace (((- pKappa p)%R, pDelta p) : CR) with (- z + two * kn); [unfold two; ring|]. unfold z, two, kn. apply cr_eq; cbn; ring.
    + intros y x Hy Hx Ly Lx. apply inr1 in Hy as [i [-> Hi]]. apply inr1 in Hx as [j [-> Hj]]. cbn [last] in Ly, Lx. rewrite heis1 by auto.
      pose proof (heis_1 p Hk Hn K1 K2 i j Ly Lx) as X. fold N in X. rewrite X. cbn [kron]. unfold kn, two. ring.
  - intros y x Hy Hx Ly Lx. apply inr1 in Hy as [i [-> Hi]]. apply inr1 in Hx as [j [-> Hj]]. cbn [last] in Ly, Lx. rewrite heis1 by auto.
    pose proof (heis_a p Hk Hn K1 K2 i j Ly Lx) as X. fold N in X. rewrite X. cbn [kron]. unfold z, kn, two. ring.
Qed.
