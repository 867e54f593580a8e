(** The properties of MCWF trajectories, proved. *)
From Coq Require Import List Arith Reals Lra Lia Sorting.Sorted.
From Verif Require Import Star CReal OdeModel DensityModel PureModel PureProofs McwfModel McwfSpec McwfProofs McwfLemmas McwfCases.
Import ListNotations.
Local Open Scope R_scope.

Section Facts.
Context {Rng : Type}.
Variable odeTry : (carr CR -> R -> carr CR) -> carr CR -> R -> R -> attempt (carr CR) * nat.
Variable sample : Rng -> R * Rng.
Variable sys : msystem.
Variables dpLimit tol : R.
Notation mstep := (mstep odeTry sample sys dpLimit tol).
Notation msteps := (msteps odeTry sample sys dpLimit tol).
Notation coherent := (coherent odeTry sys (Rng:=Rng)).

Lemma norm_fact : (forall f, forward_stepper (odeTry f)) -> keeps_nonzero odeTry sys ->
  (forall li, sysLi sys = Some li -> truthful_rates li) -> (forall rng, 0 <= fst (sample rng)) -> 0 < dpLimit -> 0 < tol ->
  forall psi dtInit rng Dts fuel odeFuel x ev, sqrNorm psi = 1 -> 0 < dtInit -> Forall (Rlt 0) Dts ->
  msteps fuel odeFuel Dts (newTraj sys dpLimit tol psi dtInit rng) = Some (x, ev) -> sqrNorm (tPsi x) = 1.
Proof.
  intros Hf Hk Ht Hs Hdp Htol psi dtInit rng Dts fuel odeFuel x ev Hp Hd HD E.
  destruct (newTraj_ready sys dpLimit tol Hdp Htol psi dtInit rng Hd) as (N1 & _ & _ & N4 & _).
  apply (msteps_ok _ _ _ _ _ Hf Hdp Htol _ _ _ HD _ _ _ N1 E); auto. now rewrite N4.
Qed.

Lemma limited_fact : (forall f, forward_stepper (odeTry f)) -> (forall rng, 0 <= fst (sample rng)) -> 0 < dpLimit -> 0 < tol ->
  forall li, sysLi sys = Some li -> forall fuel odeFuel Dt x r ev, 0 < Dt -> goes_forward sys x -> mstep fuel odeFuel Dt x = Some (r, ev) ->
  exists z y, tTime z = tTime x /\ tPsi z = tPsi x /\ coherent odeFuel Dt z = Some y /\
    tTime r = tTime y /\ dtDid (tOde r) = dtDid (tOde y) /\ tTime r = tTime x + dtDid (tOde r) /\
    (jumpsOf ev = [] -> tPsi r = tPsi y) /\
    let rate := total (channelRates li (tTime y) (tPsi y)) in
    rate * dtDid (tOde r) <= tol * dpLimit /\
    (0 < rate -> exists d, getTry r = Fin d /\ d <= dpLimit / rate).
Proof.
  intros Hf Hs Hdp Htol li El fuel odeFuel Dt x r ev HDt Hx Hm.
  destruct (mstep_attempt odeTry sample sys dpLimit tol li odeFuel Dt fuel El x r ev Hm) as (z & y & ev' & A1 & A2 & A3 & A4 & _ & A6 & A7 & A8 & A9 & A10).
  destruct (coherent_forward odeTry sys Hf _ _ _ _ HDt (A10 Hx Hdp) A6) as (C1 & C2 & _).
  destruct (mstep_accept odeTry sample sys dpLimit tol 0 odeFuel Dt li z y El A6 ltac:(lra) Hs A7) as (r' & ev2 & B1 & B2 & _ & B4 & B5 & B6 & B7).
  rewrite A8 in B1. injection B1 as <- <-. exists z, y. split; [exact A1|]. split; [exact A2|]. split; [exact A6|]. split; [exact B2|]. split; [exact B4|].
  split; [rewrite B2, B4, C2, A1; reflexivity|]. split.
  - intros Hj. rewrite A9 in Hj. destruct (chooseJump _ _); destruct B7 as [B7 B8]; [congruence|auto].
  - cbn zeta. split; [rewrite B4; exact A7|]. intros Hp. rewrite B6.
    pose proof (suggested_pos dpLimit Hdp _ (channelRates_nonneg li (tTime y) (tPsi y))) as Hg.
    destruct (suggested dpLimit _) as [d|]; [|lra]. destruct Hg as (S1 & S2 & S3).
    assert (Ed : d = dpLimit / total (channelRates li (tTime y) (tPsi y))) by (rewrite <- S3; field; lra). rewrite <- Ed.
    destruct (sysHa sys); [destruct (getTry y) as [d'|]|]; cbn; eexists; (split; [reflexivity|]); try lra. apply Rmin_r.
Qed.

Lemma which_fact : (forall f, forward_stepper (odeTry f)) -> (forall rng, 0 <= fst (sample rng)) -> 0 < dpLimit -> 0 < tol ->
  forall li, sysLi sys = Some li -> forall fuel odeFuel Dt x r ev, 0 < Dt -> goes_forward sys x -> mstep fuel odeFuel Dt x = Some (r, ev) ->
  exists z y, tTime z = tTime x /\ tPsi z = tPsi x /\ coherent odeFuel Dt z = Some y /\ tTime y = tTime r /\ dtDid (tOde y) = dtDid (tOde r) /\
    tRng r = snd (sample (tRng x)) /\
    let rates := channelRates li (tTime y) (tPsi y) in
    let v := fst (sample (tRng x)) / dtDid (tOde r) in
    (forall k, jumpsOf ev = [(tTime r, k)] <-> (k < length rates)%nat /\ cumulated k rates < v < cumulated (S k) rates) /\
    (forall k, jumpsOf ev = [(tTime r, k)] -> tPsi r = scaleBy (liJump li (tTime y) (tPsi y) k) (/ sqrt (nth k rates 0))) /\
    (total rates <= v -> jumpsOf ev = []) /\
    (jumpsOf ev = [] -> tPsi r = tPsi y).
Proof.
  intros Hf Hs Hdp Htol li El fuel odeFuel Dt x r ev HDt Hx Hm.
  destruct (mstep_attempt odeTry sample sys dpLimit tol li odeFuel Dt fuel El x r ev Hm) as (z & y & ev' & A1 & A2 & A3 & A4 & _ & A6 & A7 & A8 & A9 & A10).
  destruct (coherent_forward odeTry sys Hf _ _ _ _ HDt (A10 Hx Hdp) A6) as (C1 & C2 & _).
  destruct (mstep_accept odeTry sample sys dpLimit tol 0 odeFuel Dt li z y El A6 ltac:(lra) Hs A7) as (r' & ev2 & B1 & B2 & _ & B4 & B5 & B6 & B7).
  rewrite A8 in B1. injection B1 as <- <-. exists z, y. rewrite A4 in *. do 3 (split; [assumption|]). do 2 (split; [congruence|]). split; [exact B5|].
  cbn zeta. rewrite B4, A9, B2. pose proof (channelRates_nonneg li (tTime y) (tPsi y)) as Hn. set (rates := channelRates li (tTime y) (tPsi y)) in *.
  set (v := fst (sample (tRng x)) / dtDid (tOde y)) in *.
  assert (Hv : 0 <= v) by (apply Rmult_le_pos; [apply Hs|apply Rlt_le, Rinv_0_lt_compat; lra]).
  split; [|split; [|split]].
  - intros k. rewrite <- (chooseJump_spec rates v k Hn Hv). destruct (chooseJump v rates) as [j|]; destruct B7 as [-> _]; split; intros E; congruence.
  - intros k. destruct (chooseJump v rates) as [j|]; destruct B7 as [-> B8]; intros E; [|discriminate]. injection E as <-. exact B8.
  - intros Ht. rewrite (chooseJump_none rates v Hn Ht) in B7. apply B7.
  - destruct (chooseJump v rates) as [j|]; destruct B7 as [-> B8]; [discriminate|auto].
Qed.

(** channels of vanishing rate have an empty interval; the interval of channel k has length rate_k *)
Lemma interval_fact rates k : cumulated (S k) rates - cumulated k rates = nth k rates 0.
Proof. rewrite cumulated_S. ring. Qed.

Lemma finite_fact : (forall f, forward_stepper (odeTry f)) -> keeps_nonzero odeTry sys -> 0 < dpLimit -> 1 < tol ->
  forall li Rmax odeFuel Dt x, sysLi sys = Some li -> 0 < Dt -> 0 < Rmax -> (forall t psi, sqrNorm psi = 1 -> total (channelRates li t psi) <= Rmax) ->
  (forall f e t st, 0 < dtTry e -> step (odeTry f) odeFuel Dt e t st <> None) -> sqrNorm (tPsi x) <> 0 -> goes_forward sys x ->
  exists fuel, mstep fuel odeFuel Dt x <> None.
Proof. intros. eapply mstep_returns; eauto. Qed.

Lemma log_fact : (forall f, forward_stepper (odeTry f)) -> 0 < dpLimit -> 0 < tol ->
  forall psi dtInit rng Dts fuel odeFuel x ev, 0 < dtInit -> Forall (Rlt 0) Dts ->
  let x0 := newTraj sys dpLimit tol psi dtInit rng in msteps fuel odeFuel Dts x0 = Some (x, ev) ->
  nMCWFsteps (tLog x) = length Dts /\ countOf isDone ev = length Dts /\
  nTolOvershot (tLog x) = countOf isBack ev /\ countOf isNorm ev = (length Dts + countOf isBack ev)%nat /\
  nOvershot (tLog x) = (nOvershot (tLog x0) + countOf isOver ev)%nat /\
  lTraj (tLog x) = jumpsOf ev /\
  is_max 0 (backProbabilities ev) (dpTolMaxOvershoot (tLog x)) /\
  is_max 0 (normDeviations ev) (normMaxDeviation (tLog x)) /\
  (forall t k, In (t, k) (jumpsOf ev) -> 0 < t <= tTime x) /\ StronglySorted Rlt (map fst (jumpsOf ev)).
Proof.
  intros Hf Hdp Htol psi dtInit rng Dts fuel odeFuel x ev Hd HD x0 E.
  destruct (newTraj_ready sys dpLimit tol Hdp Htol psi dtInit rng Hd) as (N1 & N2 & _). fold x0 in N1, N2.
  destruct (msteps_log _ _ _ _ _ _ _ _ _ _ _ E) as (L1 & L2 & L3).
  destruct (msteps_times _ _ _ _ _ Hf Hdp Htol _ _ _ HD _ _ _ N1 E) as (T1 & T2 & T3 & T4).
  pose proof (fold_events ev (tLog x0)) as HF. cbn zeta in HF. rewrite <- L1 in HF. destruct HF as (F1 & F2 & F3 & F4 & F5 & F6).
  assert (H0 : nMCWFsteps (tLog x0) = 0%nat /\ nTolOvershot (tLog x0) = 0%nat /\ lTraj (tLog x0) = [] /\ dpTolMaxOvershoot (tLog x0) = 0 /\ normMaxDeviation (tLog x0) = 0).
  { unfold x0, newTraj. destruct (sysLi sys) as [li|]; [|cbn; auto 10].
    destruct (manageTimeStep sys dpLimit tol _ 0 0 false _) as [[] y] eqn:Em; cbn [snd].
    - destruct (manage_true _ _ _ _ _ _ _ _ _ Em) as (_ & _ & _ & _ & _ & _ & Hb & _). cbn in Hb. nra.
    - revert Em. unfold manageTimeStep. destruct (Rlt_dec _ _); [discriminate|]. cbn zeta. intros G. injection G as <-.
      match goal with |- context[setTry ?d _] => destruct d end; cbn [setTry tLog];
      match goal with |- context[if ?b then _ else _] => destruct b end; cbn; auto 10. }
  destruct H0 as (Z1 & Z2 & Z3 & Z4 & Z5). rewrite Z1 in F1. rewrite Z2 in F2. rewrite Z3 in F4. rewrite Z4 in F5. rewrite Z5 in F6. cbn in F1, F2, F4.
  rewrite N2 in *. repeat split; auto; try congruence; try (apply F5); try (apply F6); try (apply (T3 _ _ H)).
Qed.

Lemma load_exact_fact : (forall f, forward_stepper (odeTry f)) -> 0 < dpLimit -> 0 < tol -> sysEx sys <> None ->
  forall psi dtInit rng Dts fuel odeFuel x ev, 0 < dtInit -> Forall (Rlt 0) Dts ->
  msteps fuel odeFuel Dts (newTraj sys dpLimit tol psi dtInit rng) = Some (x, ev) -> forall y : traj Rng, load (save x) y = x.
Proof.
  intros Hf Hdp Htol Hex psi dtInit rng Dts fuel odeFuel x ev Hd HD E y.
  destruct (newTraj_ready sys dpLimit tol Hdp Htol psi dtInit rng Hd) as (N1 & N2 & N3 & _).
  apply load_same. apply (msteps_ok _ _ _ _ _ Hf Hdp Htol _ _ _ HD _ _ _ N1 E); auto. congruence.
Qed.

Lemma load_noexact_fact : sysEx sys = None -> (forall h t psi t0 t0', sysHa sys = Some h -> h t psi t0 = h t psi t0') ->
  forall x y Dts fuel odeFuel,
  msteps fuel odeFuel Dts (load (save x) y) = option_map (fun p => (withT0 (tTime x) (fst p), snd p)) (msteps fuel odeFuel Dts x).
Proof. intros He Hh x y Dts fuel odeFuel. rewrite load_t0. now apply msteps_t0. Qed.
End Facts.

(** hypotheses for the examples *)
Lemma atom_steps : exists x ev, msteps eulerTry (fixed (1/1000)) atomSys (1/10) 2 0 0 [1] atom0 = Some (x, ev) /\ tPsi x = vec2 k1 k0 /\ lTraj (tLog x) = [(1/10, 0%nat)].
Proof.
  destruct atom_jumps as (r & ev & E & J & P & T). exists r, (ev ++ []).
  assert (Em : msteps eulerTry (fixed (1/1000)) atomSys (1/10) 2 0 0 [1] atom0 = Some (r, ev ++ [])) by (unfold msteps; rewrite E; reflexivity).
  split; [exact Em|]. split; [exact P|].
  pose proof (log_fact eulerTry (fixed (1/1000)) atomSys (1/10) 2 euler_forward ltac:(lra) ltac:(lra) (vec2 k0 k1) 1 tt [1] 0 0 r (ev ++ []) ltac:(lra)
    ltac:(constructor; [lra|constructor]) Em) as L. cbn zeta in L. destruct L as (_ & _ & _ & _ & _ & L & _). rewrite L. unfold jumpsOf in *. rewrite flat_map_app, J. reflexivity.
Qed.
Lemma rot_finite : exists fuel, mstep eulerTry (fixed (1/2)) rotSys (1/100) 10 fuel 0 PI (rot0 PI) <> None.
Proof.
  apply (finite_fact eulerTry (fixed (1/2)) rotSys (1/100) 10 euler_forward rot_nonzero ltac:(lra) ltac:(lra) rotLi 1 0%nat PI (rot0 PI)); auto; try (pose proof PI_RGT_0; lra).
  - intros t psi _. rewrite rot_rates. cbn. lra.
  - intros f e t st He. unfold step. cbn [tries eulerTry]. discriminate.
  - cbn [tPsi rot0]. rewrite sqrNorm_vec2, !csq_RC. lra.
  - unfold goes_forward. cbn. apply PI_RGT_0.
Qed.
