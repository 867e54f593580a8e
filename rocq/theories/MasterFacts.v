From Coq Require Import List Arith Bool Lia Reals Lra.
From Verif Require Import Star CReal Arr HermSpec OdeModel MasterModel MasterSpec MasterProofs MasterLemmas.
Import ListNotations.

Lemma lindblad_fact sys t0 rho t hnh js : (forall k, In k (qDims sys) -> (0 < k)%nat) ->
  hermitian (qDims sys) (asOp rho) -> hamiltonian_is (qDims sys) (option_map (fun h => h t t0) (qHa sys)) hnh ->
  Forall2 (channel_is (qDims sys)) (qLi sys t) js ->
  let d := asOp (derivative sys t0 rho t) in
  mmeq (qDims sys) d (lindblad (qDims sys) hnh js (asOp rho)) /\ hermitian (qDims sys) d /\
  (forall h, hermitian (qDims sys) h -> mmeq (qDims sys) hnh (nonHermitian (qDims sys) h js) -> mtrace (qDims sys) d = k0).
Proof.
  intros Hpos Hh Ha Hc. destruct (rhs_lindblad (qDims sys) _ hnh _ js rho Hpos Hh Ha Hc) as [d [E H]].
  unfold derivative. rewrite E. cbn zeta. split; [exact H|]. split.
  - intros i j Hi Hj. unfold dag. rewrite !H by auto. now apply (lindblad_hermitian (qDims sys) hnh js (asOp rho)).
  - intros h H1 H2. rewrite (mtrace_ext _ _ _ H). now apply (lindblad_trace (qDims sys) h).
Qed.

Lemma unit_fact odeTry sys odeFuel Dt x y e t rho u : (forall k, In k (qDims sys) -> (0 < k)%nat) ->
  step (odeTry (derivative sys (mT0 x))) odeFuel Dt (mOde x) (mTime x) (mRho x) = Some (e, t, rho) ->
  propagator_is sys t (mT0 x) u -> cre (mtrace (qDims sys) (asOp rho)) <> 0%R ->
  masterStep odeTry sys odeFuel Dt x = Some y ->
  hermitian (qDims sys) (asOp (mRho y)) /\ mtrace (qDims sys) (asOp (mRho y)) = k1 /\ mTime y = t /\
  (hermitian (qDims sys) (asOp rho) -> mtrace (qDims sys) (asOp rho) = k1 ->
   mmeq (qDims sys) (asOp (mRho y)) (conjugated (qDims sys) u (asOp rho))).
Proof.
  intros Hpos Es Hu Hn Ey. destruct (step_clean odeTry sys odeFuel Dt x y e t rho u Hpos Es Hu Hn Ey) as (H1 & H2 & H3 & H4).
  split; [auto|]. split; [auto|]. split; [auto|]. intros G1 G2 i j Hi Hj. rewrite H1 by auto. apply cleaned_good; auto.
  - now apply conjugated_hermitian.
  - rewrite <- G2. assert (Ht : isometric (qDims sys) u).
    { unfold propagator_is in Hu. destruct (qEx sys) as [f|]; [apply Hu|]. intros a b Ha Hb. unfold mmul.
      rewrite (isum_single (qDims sys) _ b Hb).
      - unfold dag. rewrite !Hu. rewrite listnat_eqb_refl. destruct (listnat_eqb_spec a b) as [->|Hab].
        + rewrite listnat_eqb_refl. apply cr_eq; cbn; lra.
        + replace (listnat_eqb b a) with false by (symmetry; apply listnat_eqb_neq; congruence). apply cr_eq; cbn; lra.
      - intros c _ Hcb. rewrite (Hu c b). replace (listnat_eqb c b) with false by (symmetry; now apply listnat_eqb_neq).
        set (z := dag u a c). clearbody z. apply cr_eq; cbn; lra. }
    now apply trace_isometric.
Qed.
