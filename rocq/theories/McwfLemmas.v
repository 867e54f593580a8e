From Coq Require Import List Arith Reals Lra Lia FunctionalExtensionality Sorting.Sorted.
From Verif Require Import Star CReal OdeModel OdeProofs DensityModel PureModel PureProofs McwfModel McwfSpec McwfProofs.
Import ListNotations.
Local Open Scope R_scope.

Section Mcwf.
Context {Rng : Type}.
Variable odeTry : (carr CR -> R -> carr CR) -> carr CR -> R -> R -> attempt (carr CR) * nat.
Variable sample : Rng -> R * Rng.
Variable sys : msystem.
Variables dpLimit tol : R.
Notation coherent := (coherent odeTry sys (Rng:=Rng)).
Notation evolve := (evolve odeTry sys (Rng:=Rng)).
Notation manage := (manageTimeStep sys dpLimit tol (Rng:=Rng)).
Notation stepLoop := (stepLoop odeTry sample sys dpLimit tol).
Notation mstep := (mstep odeTry sample sys dpLimit tol).
Notation msteps := (msteps odeTry sample sys dpLimit tol).
Notation ready := (goes_forward sys (Rng:=Rng)).

(** * Finite number of step-backs *)
Section Finite.
Hypothesis Hfwd : forall f, forward_stepper (odeTry f).
Hypothesis Hdp : 0 < dpLimit.
Hypothesis Htol : 1 < tol.
Variables (li : liouvillean) (Dt Rmax : R) (odeFuel : nat).
Hypothesis Hli : sysLi sys = Some li.
Hypothesis HDt : 0 < Dt.
Hypothesis HR : 0 < Rmax.
Hypothesis Hbound : forall t psi, sqrNorm psi = 1 -> total (channelRates li t psi) <= Rmax.
Hypothesis Hnz : keeps_nonzero odeTry sys.
Hypothesis Hode : forall f e t st, 0 < dtTry e -> step (odeTry f) odeFuel Dt e t st <> None.

Lemma coherent_returns x : ready x -> exists y, coherent odeFuel Dt x = Some y.
Proof.
  intros Hx. unfold McwfModel.coherent, McwfModel.evolve, goes_forward, getTry in *. destruct (sysHa sys) as [h|].
  - destruct (tInf x); [discriminate|].
    destruct (step (odeTry (rhs h (tT0 x))) odeFuel Dt (tOde x) (tTime x) (tPsi x)) as [[[e t] psi]|] eqn:E.
    + eexists; reflexivity.
    + exfalso. now apply (Hode (rhs h (tT0 x)) (tOde x) (tTime x) (tPsi x) Hx).
  - eexists; reflexivity.
Qed.

Lemma loop_returns psiC tc dc fuel : sqrNorm psiC <> 0 -> forall x, sqrNorm (tPsi x) = 1 -> ready x -> 0 < dtDid (tOde x) ->
  dtDid (tOde x) * Rmax <= tol * dpLimit * tol ^ fuel -> stepLoop fuel odeFuel li Dt psiC tc dc x <> None.
Proof.
  intros HC. induction fuel as [|fuel IH]; intros x H1 Hx Hd Hb; cbn [McwfModel.stepLoop];
  destruct (ratesAt li x) as [rates sp] eqn:Er; destruct (manage rates tc dc true x) as [[] y] eqn:Em;
  try (destruct (performJump sample li rates sp y); discriminate).
  - destruct (manage_true _ _ _ _ _ _ _ _ _ Em) as (_ & _ & _ & _ & _ & _ & Ho & _).
    assert (Et : rates = channelRates li (tTime x) (tPsi x)) by (rewrite <- channelRates_ok, Er; reflexivity).
    rewrite Et in Ho. specialize (Hbound (tTime x) (tPsi x) H1). cbn in Hb. nra.
  - destruct (manage_true _ _ _ _ _ _ _ _ _ Em) as (_ & _ & _ & _ & _ & Ht & Ho & _).
    assert (Et : rates = channelRates li (tTime x) (tPsi x)) by (rewrite <- channelRates_ok, Er; reflexivity).
    set (z := mkTraj (tTime y) (tT0 y) psiC (tOde y) (tInf y) (tRng y) (tLog y)).
    assert (Hz : ready z).
    { rewrite Et in Em. exact (manage_ready sys dpLimit tol Hdp ltac:(lra) _ _ _ _ _ _ _ (channelRates_nonneg _ _ _) Hx Em). }
    destruct (coherent_returns z Hz) as [w Ew]. rewrite Ew.
    destruct (coherent_forward odeTry sys Hfwd _ _ _ _ HDt Hz Ew) as (C1 & _ & C3 & _ & _ & C6 & _).
    assert (Hl : stepLoop fuel odeFuel li Dt psiC tc dc w <> None).
    { apply IH; [exact (coherent_norm odeTry sys _ _ z _ Hnz HC Ew)|auto|lra|]. specialize (C6 ltac:(congruence)). change (getTry z) with (getTry y) in C6. rewrite Ht in C6.
      pose proof (suggested_pos dpLimit Hdp rates ltac:(rewrite Et; apply channelRates_nonneg)) as Hs.
      destruct (suggested dpLimit (total rates)) as [d|].
      - destruct Hs as (S1 & S2 & S3). cbn in Hb.
        assert (Hd2 : d * tol < dtDid (tOde x)).
        { apply (Rmult_lt_reg_r (total rates)); auto. replace (d * tol * total rates) with (tol * dpLimit) by (rewrite <- S3; ring). lra. }
        assert (d * Rmax <= tol * dpLimit * tol ^ fuel); [|nra].
        apply (Rmult_le_reg_r tol); [lra|]. nra.
      - rewrite Hs in Ho. nra. }
    destruct (stepLoop fuel odeFuel li Dt psiC tc dc w) as [[r ev]|]; [discriminate|congruence].
Qed.

Lemma mstep_returns x : sqrNorm (tPsi x) <> 0 -> ready x -> exists fuel, mstep fuel odeFuel Dt x <> None.
Proof.
  intros H0 Hx. destruct (coherent_returns x Hx) as [y Ey].
  destruct (coherent_forward odeTry sys Hfwd _ _ _ _ HDt Hx Ey) as (C1 & _ & C3 & _).
  destruct (Pow_x_infinity tol ltac:(rewrite Rabs_pos_eq; lra) (dtDid (tOde y) * Rmax / (tol * dpLimit))) as [N HN].
  exists N. unfold McwfModel.mstep. rewrite Ey, Hli.
  specialize (HN N (le_n _)). rewrite Rabs_pos_eq in HN by (apply pow_le; lra).
  assert (Hb : dtDid (tOde y) * Rmax <= tol * dpLimit * tol ^ N).
  { assert (0 < tol * dpLimit) by nra. apply Rge_le in HN.
    apply (Rmult_le_compat_r (tol * dpLimit)) in HN; [|lra]. unfold Rdiv in HN. rewrite Rmult_assoc, Rinv_l in HN by lra. lra. }
  pose proof (loop_returns (tPsi x) (tTime x) (dtDid (tOde x)) N H0 y (coherent_norm odeTry sys _ _ _ _ Hnz H0 Ey) C3 ltac:(lra) Hb) as HL.
  destruct (stepLoop N odeFuel li Dt (tPsi x) (tTime x) (dtDid (tOde x)) y) as [[z ev]|]; [discriminate|congruence].
Qed.
End Finite.

(** * Step-back *)
Lemma coherent_rng odeFuel Dt x y : coherent odeFuel Dt x = Some y -> tRng y = tRng x /\
  tT0 y = match sysEx sys with Some _ => tTime y | None => tT0 x end /\ tLog y = logNorm (normBefore odeTry sys odeFuel Dt x) (tLog x).
Proof.
  unfold McwfModel.coherent, normBefore. destruct (evolve odeFuel Dt x) as [z|] eqn:E; [|discriminate]. cbn [option_map]. intros G. injection G as <-.
  assert (H : tRng z = tRng x /\ tT0 z = tT0 x /\ tLog z = tLog x).
  { revert E. unfold McwfModel.evolve. destruct (sysHa sys).
    - destruct (tInf x); [discriminate|]. destruct (step _ _ _ _ _ _) as [[[e t] psi]|]; [|discriminate]. intros G. injection G as <-. auto.
    - intros G. injection G as <-. auto. }
  destruct H as (H1 & H2 & H3). unfold renormalise, applyExact. destruct (sysEx sys); cbn; rewrite ?H1, ?H2, ?H3; auto.
Qed.

Lemma step_back fuel odeFuel Dt li x y : sysLi sys = Some li -> coherent odeFuel Dt x = Some y ->
  let rate := total (channelRates li (tTime y) (tPsi y)) in
  tol * dpLimit < rate * dtDid (tOde y) ->
  exists z, tTime z = tTime x /\ tPsi z = tPsi x /\ dtDid (tOde z) = dtDid (tOde x) /\ tRng z = tRng x /\
    getTry z = suggested dpLimit rate /\
    tT0 z = match sysEx sys with Some _ => tTime y | None => tT0 x end /\
    mstep (S fuel) odeFuel Dt x =
      option_map (fun p => (fst p, ENorm (normBefore odeTry sys odeFuel Dt x) :: EBack (rate * dtDid (tOde y)) :: snd p)) (mstep fuel odeFuel Dt z).
Proof.
  intros El Ec rate Ho. destruct (coherent_rng _ _ _ _ Ec) as (R1 & R2 & R3).
  unfold McwfModel.mstep. rewrite Ec, El. cbn [McwfModel.stepLoop].
  pose proof (channelRates_ok li y) as Er. destruct (ratesAt li y) as [rates sp]. cbn [fst] in Er. subst rates. fold rate.
  destruct (manage (channelRates li (tTime y) (tPsi y)) (tTime x) (dtDid (tOde x)) true y) as [b y1] eqn:Em. destruct b.
  - destruct (manage_true _ _ _ _ _ _ _ _ _ Em) as (B1 & B2 & B3 & B4 & B5 & B6 & _).
    exists (mkTraj (tTime y1) (tT0 y1) (tPsi x) (tOde y1) (tInf y1) (tRng y1) (tLog y1)). cbn [tTime tPsi tOde tRng tT0].
    rewrite B2, B3, B4, B5. split; [auto|]. split; [auto|]. split; [auto|]. split; [auto|]. split; [exact B6|]. split; [exact R2|].
    rewrite <- B2. destruct (coherent odeFuel Dt (mkTraj _ _ _ _ _ _ _)) as [w|]; [|reflexivity].
    destruct (stepLoop fuel odeFuel li Dt (tPsi x) _ (dtDid (tOde x)) w) as [[r ev]|]; reflexivity.
  - destruct (manage_false _ _ _ _ _ _ _ _ _ Em) as (_ & _ & _ & _ & _ & B6 & _). fold rate in B6. lra.
Qed.

(** * The log *)
Definition applyEvent (l : mlog) (e : event) : mlog :=
  match e with
  | ENorm n => logNorm n l
  | EBack p => logStepBack p true l
  | EOver p => logOvershot p true l
  | EJump t k => logJump t k l
  | EDone => logStep l
  end.

Lemma manage_log rates tc dc x y : manage rates tc dc true x = (false, y) ->
  tLog y = fold_left applyEvent (match getTry x with
     | Fin d => if Rlt_dec dpLimit (total rates * d) then [EOver (Fin (total rates * d))] else []
     | Inf => if Rlt_dec 0 (total rates) then [EOver Inf] else [] end) (tLog x).
Proof.
  unfold manageTimeStep. destruct (Rlt_dec (tol * dpLimit) _) as [H|H]; [intros E; discriminate|].
  cbn zeta. match goal with |- context[if ?b then setLog ?l x else x] => set (x1 := if b then setLog l x else x) end. intros E.
  injection E as <-.
  assert (E2 : forall d, tLog (setTry d x1) = tLog x1) by (intros []; reflexivity). rewrite E2. clear E2. unfold x1.
  destruct (getTry x) as [d|].
  - destruct (Rlt_dec dpLimit (total rates * d)); reflexivity.
  - destruct (Rlt_dec 0 (total rates)) as [Hp|Hp]; [|reflexivity]. destruct (Req_EM_T (total rates) 0); [lra|reflexivity].
Qed.

Lemma stepLoop_log li Dt psiC tc dc odeFuel fuel : forall x r ev, stepLoop fuel odeFuel li Dt psiC tc dc x = Some (r, ev) ->
  tLog r = fold_left applyEvent ev (tLog x) /\ countOf isNorm ev = countOf isBack ev /\ countOf isDone ev = 0%nat /\
  (jumpsOf ev = [] \/ exists k, jumpsOf ev = [(tTime r, k)]).
Proof.
  assert (Hend : forall x rates sp y r jump, manage rates tc dc true x = (false, y) -> performJump sample li rates sp y = (r, jump) ->
    let ev := (match getTry x with
                | Fin d => if Rlt_dec dpLimit (total rates * d) then [EOver (Fin (total rates * d))] else []
                | Inf => if Rlt_dec 0 (total rates) then [EOver Inf] else []
                end) ++ match jump with Some k => [EJump (tTime r) k] | None => [] end in
    tLog r = fold_left applyEvent ev (tLog x) /\ countOf isNorm ev = countOf isBack ev /\ countOf isDone ev = 0%nat /\
    (jumpsOf ev = [] \/ exists k, jumpsOf ev = [(tTime r, k)])).
  { intros x rates sp y r jump Em Ej ev. pose proof (manage_log _ _ _ _ _ Em) as HL.
    destruct (performJump_keeps sample _ _ _ _ _ _ Ej) as (D1 & _ & _ & _ & D5 & D6). unfold ev. clear ev. rewrite fold_left_app, <- HL.
    unfold countOf, jumpsOf. rewrite !filter_app, !app_length, !flat_map_app.
    set (over := match getTry x with Fin d => _ | Inf => _ end).
    assert (Ho : over = [] \/ exists d, over = [EOver d]).
    { unfold over. destruct (getTry x) as [d|].
      - destruct (Rlt_dec dpLimit (total rates * d)); eauto.
      - destruct (Rlt_dec 0 (total rates)); eauto. }
    destruct jump as [k|].
    - rewrite (D6 k eq_refl). destruct Ho as [-> | [d ->]]; cbn; rewrite D1; repeat split; auto; right; exists k; reflexivity.
    - destruct (D5 eq_refl) as [_ ->]. destruct Ho as [-> | [d ->]]; cbn; repeat split; auto. }
  induction fuel as [|fuel IH]; intros x r ev; cbn [McwfModel.stepLoop];
  destruct (ratesAt li x) as [rates sp]; destruct (manage rates tc dc true x) as [[] y] eqn:Em; try discriminate.
  - destruct (performJump sample li rates sp y) as [r' jump] eqn:Ej. intros E. injection E as <- <-. eapply Hend; eauto.
  - set (z := mkTraj (tTime y) (tT0 y) psiC (tOde y) (tInf y) (tRng y) (tLog y)).
    destruct (coherent odeFuel Dt z) as [w|] eqn:Ec; [|discriminate].
    destruct (stepLoop fuel odeFuel li Dt psiC tc dc w) as [[r' ev']|] eqn:El; [|discriminate].
    intros E. injection E as <- <-. destruct (IH _ _ _ El) as (I1 & I2 & I3 & I4).
    destruct (coherent_rng _ _ _ _ Ec) as (_ & _ & C3). destruct (manage_true _ _ _ _ _ _ _ _ _ Em) as (_ & _ & _ & _ & _ & _ & _ & _ & _ & _ & B).
    cbn [fold_left applyEvent]. rewrite I1, C3. cbn [tLog z]. rewrite B. split; [reflexivity|].
    unfold countOf in *. cbn. rewrite I2, I3. repeat split; auto.
  - destruct (performJump sample li rates sp y) as [r' jump] eqn:Ej. intros E. injection E as <- <-. eapply Hend; eauto.
Qed.

Lemma mstep_log fuel odeFuel Dt x r ev : mstep fuel odeFuel Dt x = Some (r, ev) ->
  tLog r = fold_left applyEvent ev (tLog x) /\ countOf isDone ev = 1%nat /\ countOf isNorm ev = S (countOf isBack ev) /\
  (jumpsOf ev = [] \/ exists k, jumpsOf ev = [(tTime r, k)]).
Proof.
  unfold McwfModel.mstep. destruct (coherent odeFuel Dt x) as [y|] eqn:Ec; [|discriminate].
  destruct (coherent_rng _ _ _ _ Ec) as (_ & _ & C3). destruct (sysLi sys) as [li|].
  - destruct (stepLoop fuel odeFuel li Dt (tPsi x) (tTime x) (dtDid (tOde x)) y) as [[z ev']|] eqn:Es; [|discriminate].
    intros G. injection G as <- <-. destruct (stepLoop_log _ _ _ _ _ _ _ _ _ _ Es) as (I1 & I2 & I3 & I4).
    cbn [fold_left applyEvent]. rewrite fold_left_app, <- C3, <- I1. split; [reflexivity|].
    unfold countOf, jumpsOf in *. cbn. rewrite !filter_app, !app_length, !flat_map_app, I2, I3. cbn. rewrite app_nil_r. repeat split; auto; lia.
  - intros G. injection G as <- <-. cbn. rewrite C3. repeat split; auto.
Qed.

Lemma msteps_log fuel odeFuel Dts : forall x r ev, msteps fuel odeFuel Dts x = Some (r, ev) ->
  tLog r = fold_left applyEvent ev (tLog x) /\ countOf isDone ev = length Dts /\ countOf isNorm ev = (length Dts + countOf isBack ev)%nat.
Proof.
  induction Dts as [|Dt Dts IH]; intros x r ev; cbn [McwfModel.msteps].
  - intros E. injection E as <- <-. auto.
  - destruct (mstep fuel odeFuel Dt x) as [[y ev1]|] eqn:E1; [|discriminate].
    destruct (msteps fuel odeFuel Dts y) as [[z ev2]|] eqn:E2; [|discriminate]. intros G. injection G as <- <-.
    destruct (mstep_log _ _ _ _ _ _ E1) as (A1 & A2 & A3 & _). destruct (IH _ _ _ E2) as (B1 & B2 & B3).
    rewrite fold_left_app, <- A1, <- B1. unfold countOf in *. rewrite !filter_app, !app_length, A2, B2, A3, B3. cbn. repeat split; auto; lia.
Qed.

Lemma is_max_cons m0 a l m : is_max (Rmax m0 a) l m -> is_max m0 (a :: l) m.
Proof.
  intros [H1 H2]. split.
  - cbn in *. destruct H1 as [<-|H1]; auto. unfold Rmax. destruct (Rle_dec m0 a); auto.
  - intros x Hx. assert (Hm : Rmax m0 a <= m) by (apply H2; now left). pose proof (Rmax_l m0 a). pose proof (Rmax_r m0 a).
    destruct Hx as [<-|[<-|Hx]]; try lra. apply H2. now right.
Qed.
Lemma is_max_nil m : is_max m [] m.
Proof. split; [now left|]. intros x [<-|[]]. lra. Qed.

Lemma fold_events ev : forall l, let l' := fold_left applyEvent ev l in
  nMCWFsteps l' = (nMCWFsteps l + countOf isDone ev)%nat /\
  nTolOvershot l' = (nTolOvershot l + countOf isBack ev)%nat /\
  nOvershot l' = (nOvershot l + countOf isOver ev)%nat /\
  lTraj l' = lTraj l ++ jumpsOf ev /\
  is_max (dpTolMaxOvershoot l) (backProbabilities ev) (dpTolMaxOvershoot l') /\
  is_max (normMaxDeviation l) (normDeviations ev) (normMaxDeviation l').
Proof.
  induction ev as [|e ev IH]; intros l.
  - cbn. rewrite !Nat.add_0_r, app_nil_r. repeat split; auto using is_max_nil; try (now left); intros x [<-|[]]; lra.
  - cbn zeta. cbn [fold_left]. specialize (IH (applyEvent l e)). cbn zeta in IH.
    destruct IH as (H1 & H2 & H3 & H4 & H5 & H6). rewrite H1, H2, H3, H4. unfold countOf.
    destruct e; cbn [applyEvent filter isDone isBack isOver nMCWFsteps nTolOvershot nOvershot lTraj dpTolMaxOvershoot normMaxDeviation
      logNorm logStepBack logOvershot logJump logStep length jumpsOf flat_map backProbabilities normDeviations app] in *;
    repeat split; try lia; auto; try (rewrite <- app_assoc; reflexivity); try (now apply is_max_cons); try apply H5; try apply H6.
Qed.

(** jump times *)
Lemma msteps_times (Hfwd : forall f, forward_stepper (odeTry f)) (Hdp : 0 < dpLimit) (Htol : 0 < tol) fuel odeFuel Dts :
  Forall (Rlt 0) Dts -> forall x r ev, ready x -> msteps fuel odeFuel Dts x = Some (r, ev) ->
  ready r /\ tTime x <= tTime r /\ (forall t k, In (t, k) (jumpsOf ev) -> tTime x < t <= tTime r) /\
  StronglySorted Rlt (map fst (jumpsOf ev)).
Proof.
  induction 1 as [|Dt Dts HDt H IH]; intros x r ev Hx; cbn [McwfModel.msteps].
  - intros E. injection E as <- <-. cbn. repeat split; auto; try lra; try tauto. constructor.
  - destruct (mstep fuel odeFuel Dt x) as [[y ev1]|] eqn:E1; [|discriminate].
    destruct (msteps fuel odeFuel Dts y) as [[z ev2]|] eqn:E2; [|discriminate]. intros G. injection G as <- <-.
    destruct (mstep_ok _ _ _ _ _ Hfwd Hdp Htol _ _ _ _ _ _ HDt Hx E1) as (A1 & A2 & A3 & _).
    destruct (mstep_log _ _ _ _ _ _ E1) as (_ & _ & _ & A4). destruct (IH _ _ _ A3 E2) as (B1 & B2 & B3 & B4).
    split; [auto|]. split; [lra|]. unfold jumpsOf in *. rewrite flat_map_app. destruct A4 as [-> | [k ->]]; cbn [app map].
    + split; auto. intros t k Hk. specialize (B3 _ _ Hk). lra.
    + split.
      * intros t k' [E|Hk]; [injection E as <- <-; lra|]. specialize (B3 _ _ Hk). lra.
      * constructor; auto. apply Forall_forall. intros t Ht. apply in_map_iff in Ht. destruct Ht as [[t' k'] [<- Hk]].
        specialize (B3 _ _ Hk). cbn. lra.
Qed.

(** * Saving and loading *)
Lemma load_same (x y : traj Rng) : tT0 x = tTime x -> load (save x) y = x.
Proof. intros E. destruct x; cbn in *. now subst. Qed.

Notation setT0 := (withT0 (Rng:=Rng)).
Lemma load_t0 (x y : traj Rng) : load (save x) y = setT0 (tTime x) x.
Proof. destruct x; reflexivity. Qed.

Section NoT0.
Hypothesis Hex : sysEx sys = None.
Hypothesis Hha : forall h t psi t0 t0', sysHa sys = Some h -> h t psi t0 = h t psi t0'.

Lemma coherent_t0 odeFuel Dt c x : coherent odeFuel Dt (setT0 c x) = option_map (setT0 c) (coherent odeFuel Dt x) /\
  normBefore odeTry sys odeFuel Dt (setT0 c x) = normBefore odeTry sys odeFuel Dt x.
Proof.
  assert (E : evolve odeFuel Dt (setT0 c x) = option_map (setT0 c) (evolve odeFuel Dt x)).
  { unfold McwfModel.evolve, withT0. cbn [tInf tT0 tOde tTime tPsi tRng tLog getTry].
    destruct (sysHa sys) as [h|] eqn:Eh; [|reflexivity]. destruct (tInf x); [reflexivity|].
    replace (rhs h c) with (rhs h (tT0 x)).
    - destruct (step _ _ _ _ _ _) as [[[e t] psi]|]; reflexivity.
    - apply functional_extensionality. intros psi. apply functional_extensionality. intros t. unfold rhs. now apply Hha. }
  unfold McwfModel.coherent, normBefore. rewrite E. destruct (evolve odeFuel Dt x) as [y|]; cbn [option_map]; [|auto].
  unfold applyExact. rewrite Hex. split; reflexivity.
Qed.

Lemma setTry_t0 d c x : setTry d (setT0 c x) = setT0 c (setTry d x).
Proof. destruct d; reflexivity. Qed.
Lemma manage_t0 rates tc dc lc c x : manage rates tc dc lc (setT0 c x) = (fst (manage rates tc dc lc x), setT0 c (snd (manage rates tc dc lc x))).
Proof.
  unfold manageTimeStep. cbn zeta. change (getTry (setT0 c x)) with (getTry x). change (tOde (setT0 c x)) with (tOde x). change (tLog (setT0 c x)) with (tLog x).
  destruct (Rlt_dec (tol * dpLimit) _).
  - cbn [fst snd]. f_equal. destruct (suggested dpLimit (total rates)); reflexivity.
  - assert (E : forall (b : bool) l, (if b then setLog l (setT0 c x) else setT0 c x) = setT0 c (if b then setLog l x else x)) by (intros [] l; reflexivity).
    rewrite E, setTry_t0. reflexivity.
Qed.

Lemma performJump_t0 li rates sp c x : performJump sample li rates sp (setT0 c x) =
  (setT0 c (fst (performJump sample li rates sp x)), snd (performJump sample li rates sp x)).
Proof.
  unfold performJump. cbn [withT0 tRng tOde tTime tPsi tInf tLog tT0]. destruct (sample (tRng x)) as [u rng'].
  destruct (chooseJump _ _); reflexivity.
Qed.

Lemma stepLoop_t0 li Dt psiC tc dc odeFuel c fuel : forall x, stepLoop fuel odeFuel li Dt psiC tc dc (setT0 c x) =
  option_map (fun p => (setT0 c (fst p), snd p)) (stepLoop fuel odeFuel li Dt psiC tc dc x).
Proof.
  induction fuel as [|fuel IH]; intros x; cbn [McwfModel.stepLoop]; change (ratesAt li (setT0 c x)) with (ratesAt li x);
  destruct (ratesAt li x) as [rates sp]; rewrite manage_t0; destruct (manage rates tc dc true x) as [[] y]; cbn [fst snd]; auto.
  - rewrite performJump_t0. destruct (performJump sample li rates sp y) as [r jump]. reflexivity.
  - set (z := mkTraj (tTime y) (tT0 y) psiC (tOde y) (tInf y) (tRng y) (tLog y)).
    change (mkTraj (tTime (setT0 c y)) (tT0 (setT0 c y)) psiC (tOde (setT0 c y)) (tInf (setT0 c y)) (tRng (setT0 c y)) (tLog (setT0 c y))) with (setT0 c z).
    rewrite (proj1 (coherent_t0 odeFuel Dt c z)), (proj2 (coherent_t0 odeFuel Dt c z)).
    destruct (coherent odeFuel Dt z) as [w|]; cbn [option_map]; auto. rewrite IH.
    destruct (stepLoop fuel odeFuel li Dt psiC tc dc w) as [[r ev]|]; reflexivity.
  - rewrite performJump_t0. destruct (performJump sample li rates sp y) as [r jump]. reflexivity.
Qed.

Lemma msteps_t0 fuel odeFuel Dts c : forall x, msteps fuel odeFuel Dts (setT0 c x) =
  option_map (fun p => (setT0 c (fst p), snd p)) (msteps fuel odeFuel Dts x).
Proof.
  assert (E : forall Dt x, mstep fuel odeFuel Dt (setT0 c x) = option_map (fun p => (setT0 c (fst p), snd p)) (mstep fuel odeFuel Dt x)).
  { intros Dt x. unfold McwfModel.mstep. rewrite (proj1 (coherent_t0 odeFuel Dt c x)), (proj2 (coherent_t0 odeFuel Dt c x)).
    destruct (coherent odeFuel Dt x) as [y|]; cbn [option_map]; auto. destruct (sysLi sys) as [li|]; [|reflexivity].
    cbn [withT0 tPsi tTime tOde]. rewrite stepLoop_t0.
    destruct (stepLoop fuel odeFuel li Dt (tPsi x) (tTime x) (dtDid (tOde x)) y) as [[r ev]|]; reflexivity. }
  induction Dts as [|Dt Dts IH]; intros x; cbn [McwfModel.msteps]; [reflexivity|]. rewrite E.
  destruct (mstep fuel odeFuel Dt x) as [[y ev]|]; cbn [option_map]; auto. cbn [fst snd]. rewrite IH.
  destruct (msteps fuel odeFuel Dts y) as [[z ev2]|]; reflexivity.
Qed.
End NoT0.

(** * Log and statistics do not influence the future *)
Definition alikeOpt (a b : option (traj Rng)) : Prop :=
  match a, b with Some x, Some z => alike x z | None, None => True | _, _ => False end.
Definition alikeRes (a b : option (traj Rng * list event)) : Prop :=
  match a, b with Some (x, ev), Some (z, ev') => alike x z /\ ev = ev' | None, None => True | _, _ => False end.

Lemma step_alike f fuel Dt e e' t psi : dtDid e = dtDid e' -> dtTry e = dtTry e' ->
  match step (odeTry f) fuel Dt e t psi, step (odeTry f) fuel Dt e' t psi with
  | Some (a, t1, p1), Some (b, t2, p2) => dtDid a = dtDid b /\ dtTry a = dtTry b /\ t1 = t2 /\ p1 = p2
  | None, None => True
  | _, _ => False
  end.
Proof.
  intros E1 E2. unfold step. rewrite E1, E2. destruct (tries _ _ _ _ _ _ _) as [[[[[? ?] ?] ?] ?]|]; cbn; auto.
Qed.

Lemma evolve_alike odeFuel Dt x z : alike x z -> alikeOpt (evolve odeFuel Dt x) (evolve odeFuel Dt z).
Proof.
  intros (H1 & H2 & H3 & H4 & H5 & H6). unfold McwfModel.evolve. destruct (sysHa sys) as [h|].
  - unfold getTry in H5. destruct (tInf x) eqn:E1, (tInf z) eqn:E2; try discriminate; [exact I|]. injection H5 as H5.
    rewrite H1, H2, H3. pose proof (step_alike (rhs h (tT0 z)) odeFuel Dt (tOde x) (tOde z) (tTime z) (tPsi z) H4 H5) as HS.
    destruct (step _ _ _ (tOde x) _ _) as [[[a t1] p1]|], (step _ _ _ (tOde z) _ _) as [[[b t2] p2]|]; try contradiction; [|exact I].
    destruct HS as (S1 & S2 & S3 & S4). unfold alikeOpt, alike, getTry. cbn. rewrite S1, S2, S3, S4, ?E1, ?E2. auto 10.
  - unfold alikeOpt, alike. cbn. rewrite H1, H2, H3, H5, H6. repeat split; auto.
Qed.

Lemma coherent_alike odeFuel Dt x z : alike x z -> alikeOpt (coherent odeFuel Dt x) (coherent odeFuel Dt z) /\
  normBefore odeTry sys odeFuel Dt x = normBefore odeTry sys odeFuel Dt z.
Proof.
  intros H. apply (evolve_alike odeFuel Dt) in H. unfold McwfModel.coherent, normBefore.
  destruct (evolve odeFuel Dt x) as [a|], (evolve odeFuel Dt z) as [b|]; cbn in H; try contradiction; [|split; [exact I|reflexivity]].
  destruct H as (H1 & H2 & H3 & H4 & H5 & H6). cbn [option_map alikeOpt]. unfold renormalise, applyExact, alike, getTry in *.
  destruct (sysEx sys); cbn in *; rewrite ?H1, ?H2, ?H3; repeat split; auto.
Qed.

Lemma setTry_alike d (x z : traj Rng) : alike x z -> alike (setTry d x) (setTry d z).
Proof. intros (H1 & H2 & H3 & H4 & H5 & H6). destruct d; unfold alike, getTry in *; cbn in *; auto 10. Qed.
Lemma setLog_alike l l' (x z : traj Rng) : alike x z -> alike (setLog l x) (setLog l' z).
Proof. intros (H1 & H2 & H3 & H4 & H5 & H6). unfold alike, getTry in *; cbn in *; auto 10. Qed.

Lemma manage_alike rates tc dc lc x z : alike x z -> fst (manage rates tc dc lc x) = fst (manage rates tc dc lc z) /\
  alike (snd (manage rates tc dc lc x)) (snd (manage rates tc dc lc z)).
Proof.
  intros H. pose proof H as (H1 & H2 & H3 & H4 & H5 & H6). unfold manageTimeStep. cbn zeta. rewrite H4.
  destruct (Rlt_dec (tol * dpLimit) _); cbn [fst snd].
  - split; [reflexivity|]. apply setLog_alike.
    unfold alike, getTry in *. destruct (suggested dpLimit (total rates)); cbn; repeat split; auto; destruct (tInf x), (tInf z); auto; discriminate.
  - split; [reflexivity|]. rewrite H5.
    match goal with |- alike (setTry _ (if ?b then setLog ?l x else x)) (setTry _ (if _ then setLog ?l' z else z)) =>
      assert (E : alike (if b then setLog l x else x) (if b then setLog l' z else z)) by (destruct b; auto; now apply setLog_alike);
      assert (E2 : getTry (if b then setLog l x else x) = getTry (if b then setLog l' z else z)) by apply E end.
    destruct (sysHa sys); [rewrite E2|]; now apply setTry_alike.
Qed.

Lemma performJump_alike li rates sp x z : alike x z ->
  alike (fst (performJump sample li rates sp x)) (fst (performJump sample li rates sp z)) /\
  snd (performJump sample li rates sp x) = snd (performJump sample li rates sp z).
Proof.
  intros (H1 & H2 & H3 & H4 & H5 & H6). unfold performJump. rewrite H6. destruct (sample (tRng z)) as [u rng']. rewrite H4.
  destruct (chooseJump _ _); unfold alike, getTry in *; cbn; rewrite ?H1, ?H2, ?H3; auto 10.
Qed.

Lemma stepLoop_alike li Dt psiC tc dc odeFuel fuel : forall x z, alike x z ->
  alikeRes (stepLoop fuel odeFuel li Dt psiC tc dc x) (stepLoop fuel odeFuel li Dt psiC tc dc z).
Proof.
  assert (Hend : forall rates sp y y' (x z : traj Rng), alike x z -> alike y y' ->
    alikeRes (let (r, jump) := performJump sample li rates sp y in
      Some (r, (match getTry x with
                | Fin d => if Rlt_dec dpLimit (total rates * d) then [EOver (Fin (total rates * d))] else []
                | Inf => if Rlt_dec 0 (total rates) then [EOver Inf] else []
                end) ++ match jump with Some k => [EJump (tTime r) k] | None => [] end))
     (let (r, jump) := performJump sample li rates sp y' in
      Some (r, (match getTry z with
                | Fin d => if Rlt_dec dpLimit (total rates * d) then [EOver (Fin (total rates * d))] else []
                | Inf => if Rlt_dec 0 (total rates) then [EOver Inf] else []
                end) ++ match jump with Some k => [EJump (tTime r) k] | None => [] end))).
  { intros rates sp y y' x z Hx Hy. destruct (performJump_alike li rates sp _ _ Hy) as [P1 P2].
    destruct (performJump sample li rates sp y) as [r j], (performJump sample li rates sp y') as [r' j']. cbn [fst snd] in *. subst j'.
    cbn [alikeRes]. split; [exact P1|]. destruct Hx as (_ & _ & _ & _ & -> & _). destruct P1 as (-> & _). reflexivity. }
  induction fuel as [|fuel IH]; intros x z H; cbn [McwfModel.stepLoop];
  assert (Er : ratesAt li x = ratesAt li z) by (destruct H as (E1 & _ & E2 & _); unfold ratesAt; now rewrite E1, E2);
  rewrite Er; destruct (ratesAt li z) as [rates sp]; destruct (manage_alike rates tc dc true _ _ H) as [M1 M2];
  destruct (manage rates tc dc true x) as [b y], (manage rates tc dc true z) as [b' y']; cbn [fst snd] in *; subst b'; destruct b; try exact I.
  - now apply Hend.
  - assert (Hz : alike (mkTraj (tTime y) (tT0 y) psiC (tOde y) (tInf y) (tRng y) (tLog y)) (mkTraj (tTime y') (tT0 y') psiC (tOde y') (tInf y') (tRng y') (tLog y'))).
    { destruct M2 as (E1 & E2 & E3 & E4 & E5 & E6). unfold alike, getTry in *. cbn. auto 10. }
    destruct (coherent_alike odeFuel Dt _ _ Hz) as [C1 C2]. rewrite C2.
    destruct (coherent odeFuel Dt (mkTraj (tTime y) _ _ _ _ _ _)) as [w|], (coherent odeFuel Dt (mkTraj (tTime y') _ _ _ _ _ _)) as [w'|];
      cbn in C1; try contradiction; [|exact I]. specialize (IH _ _ C1). destruct H as (_ & _ & _ & -> & _).
    destruct (stepLoop fuel odeFuel li Dt psiC tc dc w) as [[r ev]|], (stepLoop fuel odeFuel li Dt psiC tc dc w') as [[r' ev']|]; cbn in *; try contradiction; auto.
    destruct IH as [I1 ->]. auto.
  - now apply Hend.
Qed.

Lemma mstep_alike fuel odeFuel Dt x z : alike x z -> alikeRes (mstep fuel odeFuel Dt x) (mstep fuel odeFuel Dt z).
Proof.
  intros H. unfold McwfModel.mstep. destruct (coherent_alike odeFuel Dt _ _ H) as [C1 C2]. rewrite C2.
  destruct (coherent odeFuel Dt x) as [y|], (coherent odeFuel Dt z) as [y'|]; cbn in C1; try contradiction; [|exact I].
  destruct (sysLi sys) as [li|].
  - destruct H as (-> & _ & -> & -> & _). pose proof (stepLoop_alike li Dt (tPsi z) (tTime z) (dtDid (tOde z)) odeFuel fuel _ _ C1) as HL.
    destruct (stepLoop _ _ _ _ _ _ _ y) as [[r ev]|], (stepLoop _ _ _ _ _ _ _ y') as [[r' ev']|]; cbn in HL; try contradiction; [|exact I].
    destruct HL as [L1 ->]. cbn. split; [now apply setLog_alike|reflexivity].
  - cbn. split; [now apply setLog_alike|reflexivity].
Qed.

(** a step with a step-back, as the step from the original state with the reduced trial step *)
Lemma step_back_alike fuel odeFuel Dt li x y : sysLi sys = Some li -> coherent odeFuel Dt x = Some y ->
  let rate := total (channelRates li (tTime y) (tPsi y)) in
  tol * dpLimit < rate * dtDid (tOde y) ->
  let z := setTry (suggested dpLimit rate) (withT0 (match sysEx sys with Some _ => tTime y | None => tT0 x end) x) in
  match mstep (S fuel) odeFuel Dt x, mstep fuel odeFuel Dt z with
  | Some (r, ev), Some (r', ev') => alike r r' /\ jumpsOf ev = jumpsOf ev'
  | None, None => True
  | _, _ => False
  end.
Proof.
  intros El Ec rate Ho z. destruct (step_back fuel odeFuel Dt li x y El Ec Ho) as (z' & Z1 & Z2 & Z3 & Z4 & Z5 & Z6 & E). rewrite E.
  assert (Hz : alike z' z).
  { unfold z, alike. fold rate in Z5. rewrite Z1, Z2, Z3, Z4, Z5, Z6. destruct (suggested dpLimit rate); cbn; auto 10. }
  pose proof (mstep_alike fuel odeFuel Dt _ _ Hz) as HA.
  destruct (mstep fuel odeFuel Dt z') as [[r ev]|], (mstep fuel odeFuel Dt z) as [[r' ev']|]; cbn in HA; try contradiction; auto.
  destruct HA as [H1 ->]. cbn. auto.
Qed.

(** * A step accepted at the first attempt *)
Lemma mstep_accept fuel odeFuel Dt li x y : sysLi sys = Some li -> coherent odeFuel Dt x = Some y -> 0 < dtDid (tOde y) ->
  (forall rng, 0 <= fst (sample rng)) ->
  let rates := channelRates li (tTime y) (tPsi y) in
  total rates * dtDid (tOde y) <= tol * dpLimit ->
  exists r ev, mstep fuel odeFuel Dt x = Some (r, ev) /\ tTime r = tTime y /\ tT0 r = tT0 y /\ dtDid (tOde r) = dtDid (tOde y) /\
    tRng r = snd (sample (tRng x)) /\
    getTry r = match sysHa sys with Some _ => extMin (getTry y) (suggested dpLimit (total rates)) | None => suggested dpLimit (total rates) end /\
    match chooseJump (fst (sample (tRng x)) / dtDid (tOde y)) rates with
    | None => jumpsOf ev = [] /\ tPsi r = tPsi y
    | Some k => jumpsOf ev = [(tTime y, k)] /\ tPsi r = scaleBy (liJump li (tTime y) (tPsi y) k) (/ sqrt (nth k rates 0))
    end.
Proof.
  intros El Ec Hd Hs rates Ho. destruct (coherent_rng _ _ _ _ Ec) as (R1 & _).
  unfold McwfModel.mstep. rewrite Ec, El. 
  assert (ES : exists z ev, stepLoop fuel odeFuel li Dt (tPsi x) (tTime x) (dtDid (tOde x)) y = Some (z, ev) /\
     tTime z = tTime y /\ tT0 z = tT0 y /\ dtDid (tOde z) = dtDid (tOde y) /\ tRng z = snd (sample (tRng x)) /\
     getTry z = match sysHa sys with Some _ => extMin (getTry y) (suggested dpLimit (total rates)) | None => suggested dpLimit (total rates) end /\
    match chooseJump (fst (sample (tRng x)) / dtDid (tOde y)) rates with
    | None => jumpsOf ev = [] /\ tPsi z = tPsi y
    | Some k => jumpsOf ev = [(tTime y, k)] /\ tPsi z = scaleBy (liJump li (tTime y) (tPsi y) k) (/ sqrt (nth k rates 0))
    end).
  { assert (EL : stepLoop fuel odeFuel li Dt (tPsi x) (tTime x) (dtDid (tOde x)) y = stepLoop 0 odeFuel li Dt (tPsi x) (tTime x) (dtDid (tOde x)) y).
    { destruct fuel; [reflexivity|]. cbn [McwfModel.stepLoop]. pose proof (channelRates_ok li y) as Er. destruct (ratesAt li y) as [rs sp]. cbn [fst] in Er. subst rs.
      fold rates. destruct (manage rates (tTime x) (dtDid (tOde x)) true y) as [[] y1] eqn:Em; [|reflexivity].
      destruct (manage_true _ _ _ _ _ _ _ _ _ Em) as (_ & _ & _ & _ & _ & _ & Hb & _). lra. }
    rewrite EL. cbn [McwfModel.stepLoop]. pose proof (channelRates_ok li y) as Er. unfold ratesAt in *.
    destruct (calculateSpecialRates li (tTime y) (tPsi y) 0 (liRates li (tTime y) (tPsi y))) as [rs sp] eqn:Esp. cbn [fst] in Er. subst rs.
    fold rates. destruct (special_spec _ _ _ _ _ _ _ Esp) as [_ F].
    destruct (manage rates (tTime x) (dtDid (tOde x)) true y) as [[] y1] eqn:Em.
    { destruct (manage_true _ _ _ _ _ _ _ _ _ Em) as (_ & _ & _ & _ & _ & _ & Hb & _). lra. }
    destruct (manage_false _ _ _ _ _ _ _ _ _ Em) as (B1 & B2 & B3 & B4 & B5 & _ & B7 & _).
    set (over := match getTry y with Fin d => _ | Inf => _ end).
    assert (Hov : jumpsOf over = []).
    { unfold over. destruct (getTry y) as [d|].
      - destruct (Rlt_dec dpLimit (total rates * d)); reflexivity.
      - destruct (Rlt_dec 0 (total rates)); reflexivity. }
    unfold performJump. rewrite B4, R1. specialize (Hs (tRng x)). destruct (sample (tRng x)) as [u rng']. cbn [fst snd] in *. rewrite B5.
    assert (Hu : 0 <= u / dtDid (tOde y)) by (apply Rmult_le_pos; auto; apply Rlt_le; now apply Rinv_0_lt_compat).
    destruct (chooseJump (u / dtDid (tOde y)) rates) as [k|] eqn:Ek.
    - eexists _, _. split; [reflexivity|]. cbn [tTime tT0 tOde tRng tPsi]. rewrite B1, B2, B3, B5. do 4 (split; [reflexivity|]). split; [exact B7|]. split.
      + unfold jumpsOf in *. rewrite flat_map_app, Hov. reflexivity.
      + rewrite F. destruct (le_lt_dec 0 k); [|lia]. rewrite Nat.sub_0_r.
        apply (chooseJump_spec _ _ _ (channelRates_nonneg _ _ _) Hu) in Ek. destruct Ek as [Hk _].
        unfold rates in Hk |- *. rewrite channelRates_length in Hk. rewrite channelRates_nth by auto.
        destruct (Rlt_dec (nth k (liRates li (tTime y) (tPsi y)) 0) 0); reflexivity.
    - eexists _, _. split; [reflexivity|]. cbn [tTime tT0 tOde tRng tPsi]. rewrite B1, B2, B3, B5, app_nil_r. do 4 (split; [reflexivity|]). split; [exact B7|]. auto. }
  destruct ES as (z & ev & -> & E1 & E2 & E3 & E4 & E4' & E5). eexists _, _. split; [reflexivity|]. cbn [setLog tTime tT0 tOde tRng tPsi].
  do 4 (split; [assumption|]). split; [exact E4'|]. destruct (chooseJump _ _); destruct E5 as [E5 E6]; (split; [|exact E6]);
  unfold jumpsOf in *; cbn [flat_map app]; rewrite flat_map_app, E5; reflexivity.
Qed.

(** the last attempt of a step *)
Lemma mstep_fuel fuel odeFuel Dt li x y : sysLi sys = Some li -> coherent odeFuel Dt x = Some y ->
  total (channelRates li (tTime y) (tPsi y)) * dtDid (tOde y) <= tol * dpLimit ->
  mstep fuel odeFuel Dt x = mstep 0 odeFuel Dt x.
Proof.
  intros El Ec Ho. unfold McwfModel.mstep. rewrite Ec, El. destruct fuel; [reflexivity|]. cbn [McwfModel.stepLoop].
  pose proof (channelRates_ok li y) as Er. destruct (ratesAt li y) as [rs sp]. cbn [fst] in Er. subst rs.
  destruct (manage (channelRates li (tTime y) (tPsi y)) (tTime x) (dtDid (tOde x)) true y) as [[] y1] eqn:Em; [|reflexivity].
  destruct (manage_true _ _ _ _ _ _ _ _ _ Em) as (_ & _ & _ & _ & _ & _ & Hb & _). lra.
Qed.

Lemma mstep_attempt li odeFuel Dt fuel : sysLi sys = Some li -> forall x r ev, mstep fuel odeFuel Dt x = Some (r, ev) ->
  exists z y ev', tTime z = tTime x /\ tPsi z = tPsi x /\ dtDid (tOde z) = dtDid (tOde x) /\ tRng z = tRng x /\
    (sysEx sys = None -> tT0 z = tT0 x) /\ coherent odeFuel Dt z = Some y /\
    total (channelRates li (tTime y) (tPsi y)) * dtDid (tOde y) <= tol * dpLimit /\
    mstep 0 odeFuel Dt z = Some (r, ev') /\ jumpsOf ev = jumpsOf ev' /\
    (goes_forward sys x -> 0 < dpLimit -> goes_forward sys z).
Proof.
  intros El. induction fuel as [|fuel IH]; intros x r ev Hm.
  - pose proof Hm as Hm'. unfold McwfModel.mstep in Hm. rewrite El in Hm. destruct (coherent odeFuel Dt x) as [y|] eqn:Ec; [|discriminate].
    exists x, y, ev. repeat split; auto. cbn [McwfModel.stepLoop] in Hm. pose proof (channelRates_ok li y) as Er.
    destruct (ratesAt li y) as [rs sp]. cbn [fst] in Er. subst rs.
    destruct (manage (channelRates li (tTime y) (tPsi y)) (tTime x) (dtDid (tOde x)) true y) as [[] y1] eqn:Em; [discriminate|].
    apply (manage_false _ _ _ _ _ _ _ _ _ Em).
  - pose proof Hm as Hm'. unfold McwfModel.mstep in Hm. rewrite El in Hm. destruct (coherent odeFuel Dt x) as [y|] eqn:Ec; [|discriminate]. clear Hm.
    destruct (Rlt_dec (tol * dpLimit) (total (channelRates li (tTime y) (tPsi y)) * dtDid (tOde y))) as [Ho|Ho].
    + destruct (step_back fuel odeFuel Dt li x y El Ec Ho) as (z' & Z1 & Z2 & Z3 & Z4 & Z5 & Z6 & E). rewrite E in Hm'.
      destruct (mstep fuel odeFuel Dt z') as [[r' ev']|] eqn:E'; [|discriminate]. cbn [option_map fst snd] in Hm'. injection Hm' as -> <-.
      destruct (IH _ _ _ E') as (z & w & ev'' & A1 & A2 & A3 & A4 & A5 & A6 & A7 & A8 & A9 & A10).
      exists z, w, ev''. rewrite A1, A2, A3, A4. do 4 (split; [assumption|]). split; [|do 4 (split; [assumption|])].
      * intros Hn. rewrite A5 by auto. rewrite Z6, Hn. reflexivity.
      * intros Hx Hdp. apply A10; auto. unfold goes_forward. rewrite Z5.
        pose proof (suggested_pos dpLimit Hdp _ (channelRates_nonneg li (tTime y) (tPsi y))) as Hs.
        destruct (suggested dpLimit _) as [d|]; [tauto|]. destruct (sysHa sys) as [h|] eqn:Eh; [|reflexivity]. exfalso.
        assert (Hi : tInf z' = true) by (unfold getTry in Z5; destruct (tInf z'); [reflexivity|discriminate]).
        revert E'. unfold McwfModel.mstep, McwfModel.coherent, McwfModel.evolve. rewrite Eh, Hi. discriminate.
    + exists x, y, ev. rewrite (mstep_fuel (S fuel) odeFuel Dt li x y El Ec ltac:(lra)) in Hm'. do 6 (split; [auto|]). split; [lra|]. auto.
Qed.

(** * The new trajectory *)
Lemma newTraj_ready (Hdp : 0 < dpLimit) (Htol : 0 < tol) psi dtInit (rng : Rng) : 0 < dtInit -> let x := newTraj sys dpLimit tol psi dtInit rng in
  goes_forward sys x /\ tTime x = 0 /\ tT0 x = 0 /\ tPsi x = psi /\ dtDid (tOde x) = 0 /\ tRng x = rng.
Proof.
  intros Hd x. unfold x, newTraj. destruct (sysLi sys) as [li|].
  - set (x0 := mkTraj 0 0 psi (newEngine dtInit) false rng newLog). change (tTime x0) with 0.
    destruct (manageTimeStep sys dpLimit tol _ 0 0 false x0) as [b y] eqn:Em. cbn [snd].
    pose proof (channelRates_ok li x0) as Er. unfold ratesAt in Er. cbn [tTime tPsi x0] in Er. rewrite Er in Em.
    assert (Hy : goes_forward sys y) by (exact (manage_ready sys dpLimit tol Hdp Htol _ _ _ _ x0 _ _ (channelRates_nonneg _ _ _) Hd Em)).
    destruct b.
    + destruct (manage_true _ _ _ _ _ _ _ _ _ Em) as (_ & _ & _ & _ & _ & _ & Ho & _). cbn in Ho. nra.
    + destruct (manage_false _ _ _ _ _ _ _ _ _ Em) as (B1 & B2 & B3 & B4 & B5 & _). rewrite B1, B2, B3, B4, B5. auto 10.
  - cbn. auto 10.
Qed.

Lemma msteps_ok (Hfwd : forall f, forward_stepper (odeTry f)) (Hdp : 0 < dpLimit) (Htol : 0 < tol) fuel odeFuel Dts :
  Forall (Rlt 0) Dts -> forall x r ev, goes_forward sys x -> msteps fuel odeFuel Dts x = Some (r, ev) ->
  goes_forward sys r /\ (sysEx sys = None -> tT0 r = tT0 x) /\ (sysEx sys <> None -> tT0 x = tTime x -> tT0 r = tTime r) /\
  (keeps_nonzero odeTry sys -> (forall li, sysLi sys = Some li -> truthful_rates li) -> (forall r, 0 <= fst (sample r)) ->
   sqrNorm (tPsi x) = 1 -> sqrNorm (tPsi r) = 1).
Proof.
  induction 1 as [|Dt Dts HDt H IH]; intros x r ev Hx; cbn [McwfModel.msteps].
  - intros E. injection E as <- <-. auto.
  - destruct (mstep fuel odeFuel Dt x) as [[y ev1]|] eqn:E1; [|discriminate].
    destruct (msteps fuel odeFuel Dts y) as [[z ev2]|] eqn:E2; [|discriminate]. intros G. injection G as <- <-.
    destruct (mstep_ok _ _ _ _ _ Hfwd Hdp Htol _ _ _ _ _ _ HDt Hx E1) as (A1 & A2 & A3 & A4 & _ & A6).
    destruct (IH _ _ _ A3 E2) as (B1 & B2 & B3 & B4). split; [auto|]. split; [|split].
    + intros Hn. rewrite B2 by auto. rewrite A4, Hn. reflexivity.
    + intros Hn _. apply B3; auto. destruct (sysEx sys); congruence.
    + intros K T S1 Hn. apply B4; auto. apply A6; auto. lra.
Qed.
End Mcwf.
