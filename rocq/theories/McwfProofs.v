From Coq Require Import List Arith Reals Lra Lia.
From Verif Require Import Star CReal OdeModel OdeProofs DensityModel PureModel PureProofs McwfModel McwfSpec.
Import ListNotations.
Local Open Scope R_scope.

(** * Which jump *)
Lemma cumulated_nonneg k rates : Forall (Rle 0) rates -> 0 <= cumulated k rates.
Proof.
  revert rates; induction k as [|k IH]; intros [|r rates] H; cbn; try lra. inversion H; subst. specialize (IH rates H3). lra.
Qed.
Lemma cumulated_total rates : total rates = cumulated (length rates) rates.
Proof. unfold total. induction rates as [|r rates IH]; cbn; auto. now rewrite IH. Qed.
Lemma total_nonneg rates : Forall (Rle 0) rates -> 0 <= total rates.
Proof. intros. rewrite cumulated_total. now apply cumulated_nonneg. Qed.
Lemma cumulated_S k rates : cumulated (S k) rates = cumulated k rates + nth k rates 0.
Proof. revert rates; induction k as [|k IH]; intros [|r rates]; cbn in *; try lra. rewrite IH. lra. Qed.
Lemma cumulated_mono k rates : Forall (Rle 0) rates -> cumulated k rates <= total rates.
Proof.
  intros H. rewrite cumulated_total. revert k; induction H as [|r rates Hr H IH]; intros [|k]; cbn; try lra.
  - pose proof (cumulated_nonneg (length rates) rates H). lra.
  - specialize (IH k). lra.
Qed.

Lemma chooseLoop_spec rates : Forall (Rle 0) rates -> forall random no rest no', chooseLoop random no rates = (rest, no') -> 0 <= random ->
  (rest < 0 -> exists k, no' = (no + S k)%nat /\ (k < length rates)%nat /\ cumulated k rates < random < cumulated (S k) rates) /\
  (forall k, (k < length rates)%nat -> cumulated k rates < random < cumulated (S k) rates -> rest < 0 /\ no' = (no + S k)%nat).
Proof.
  induction 1 as [|r rates Hr H IH]; intros random no rest no'; cbn [chooseLoop length].
  - intros E Hp. injection E as <- <-. split; [lra|]. intros k Hk; lia.
  - destruct (Rlt_dec 0 random) as [Hp|Hp].
    + intros E Hp'. destruct (Rlt_dec (random - r) 0) as [Hn|Hn].
      * assert (E2 : (rest, no') = (random - r, S no)).
        { rewrite <- E. destruct rates as [|r2 rates]; cbn; auto. destruct (Rlt_dec 0 (random - r)); auto. lra. }
        injection E2 as -> ->. split.
        -- intros _. exists 0%nat. cbn. rewrite Nat.add_1_r. repeat split; try lia; lra.
        -- intros [|k] Hk Hc; [split; [lra|lia]|]. cbn in Hc. pose proof (cumulated_nonneg k rates H). lra.
      * destruct (IH (random - r) (S no) rest no' E ltac:(lra)) as [H1 H2]. split.
        -- intros Hr0. destruct (H1 Hr0) as [k (Ek & Hk & Hc)]. exists (S k).
           change (cumulated (S (S k)) (r :: rates)) with (r + cumulated (S k) rates).
           change (cumulated (S k) (r :: rates)) with (r + cumulated k rates). split; [lia|]. split; [lia|]. lra.
        -- intros [|k] Hk Hc; [cbn in Hc; lra|]. destruct (H2 k ltac:(lia)) as [G1 G2].
           { change (cumulated (S (S k)) (r :: rates)) with (r + cumulated (S k) rates) in Hc.
             change (cumulated (S k) (r :: rates)) with (r + cumulated k rates) in Hc. lra. }
           split; [auto|lia].
    + intros E Hp'. injection E as <- <-. split; [lra|]. intros k Hk Hc.
      pose proof (cumulated_nonneg k (r :: rates) ltac:(constructor; auto)). lra.
Qed.

Lemma chooseJump_spec rates random k : Forall (Rle 0) rates -> 0 <= random ->
  chooseJump random rates = Some k <-> (k < length rates)%nat /\ cumulated k rates < random < cumulated (S k) rates.
Proof.
  intros H Hp. unfold chooseJump. destruct (chooseLoop random 0 rates) as [rest no] eqn:E.
  destruct (chooseLoop_spec rates H random 0 rest no E Hp) as [H1 H2]. split.
  - destruct (Rlt_dec rest 0) as [Hr|]; [|discriminate]. intros G. injection G as <-.
    destruct (H1 Hr) as [j (Ej & Hj & Hc)]. rewrite Ej. cbn. auto.
  - intros [Hk Hc]. destruct (H2 k Hk Hc) as [Hr ->]. destruct (Rlt_dec rest 0); [cbn; auto|lra].
Qed.

Lemma chooseJump_none rates random : Forall (Rle 0) rates -> total rates <= random -> chooseJump random rates = None.
Proof.
  intros H Hp. assert (H0 : 0 <= random) by (pose proof (total_nonneg rates H); lra).
  destruct (chooseJump random rates) as [k|] eqn:E; auto. apply (chooseJump_spec rates random k H H0) in E.
  destruct E as [Hk Hc]. pose proof (cumulated_mono (S k) rates H). lra.
Qed.

(** every random number below the total rate chooses a jump, unless it is a boundary *)
Lemma chooseJump_some rates random : Forall (Rle 0) rates -> 0 < random < total rates ->
  (forall k, cumulated k rates <> random) -> chooseJump random rates <> None.
Proof.
  intros H Hp Hb E. rewrite cumulated_total in Hp.
  assert (G : forall n, (n <= length rates)%nat -> random < cumulated n rates -> exists k, (k < length rates)%nat /\ cumulated k rates < random < cumulated (S k) rates).
  { induction n as [|n IH]; intros Hn Hr; [cbn in Hr; destruct rates; cbn in Hr; lra|].
    destruct (Rlt_dec random (cumulated n rates)) as [H1|H1]; [apply IH; auto; lia|]. exists n. split; [lia|].
    specialize (Hb n). lra. }
  destruct (G (length rates) (le_n _) (proj2 Hp)) as [k Hk]. apply (chooseJump_spec rates random k H ltac:(lra)) in Hk. congruence.
Qed.

(** * Special rates *)
Lemma sqrNorm_nonneg psi : 0 <= sqrNorm psi.
Proof. rewrite sqrNorm_ok. apply sumSq_nonneg. Qed.
Lemma frob_sq psi : frobeniusNorm psi * frobeniusNorm psi = sqrNorm psi.
Proof. apply sqrt_sqrt. apply sqrNorm_nonneg. Qed.

Lemma special_spec li t psi rates : forall i rs sp, calculateSpecialRates li t psi i rates = (rs, sp) ->
  rs = map (fun k => let r := nth k rates 0 in if Rlt_dec r 0 then sqrNorm (liJump li t psi (i + k)) else r) (seq 0 (length rates)) /\
  (forall k, findSpecial k sp = if (if le_lt_dec i k then if Rlt_dec (nth (k - i) rates 0) 0 then true else false else false)
                                then Some (snd (renormSV (liJump li t psi k))) else None).
Proof.
  induction rates as [|r rates IH]; intros i rs sp; cbn [calculateSpecialRates].
  - intros E. injection E as <- <-. split; [reflexivity|]. intros k. destruct (le_lt_dec i k); auto.
    destruct (k - i)%nat; cbn; destruct (Rlt_dec 0 0); auto; lra.
  - destruct (calculateSpecialRates li t psi (S i) rates) as [rs1 sp1] eqn:E1. destruct (IH (S i) rs1 sp1 E1) as [H1 H2].
    assert (G : map (fun k => let r0 := nth k (r :: rates) 0 in if Rlt_dec r0 0 then sqrNorm (liJump li t psi (i + k)) else r0)
                 (seq 0 (length (r :: rates))) = (if Rlt_dec r 0 then sqrNorm (liJump li t psi i) else r) :: rs1).
    { cbn [length seq map nth]. rewrite Nat.add_0_r. f_equal. rewrite H1, <- seq_shift, map_map.
      apply map_ext. intros k. cbn [nth]. now rewrite <- plus_n_Sm. }
    assert (F : forall k, k <> i -> findSpecial k sp1 = if (if le_lt_dec i k then if Rlt_dec (nth (k - i) (r :: rates) 0) 0 then true else false else false)
                                then Some (snd (renormSV (liJump li t psi k))) else None).
    { intros k Hk. rewrite H2. destruct (le_lt_dec (S i) k), (le_lt_dec i k); try lia; auto.
      replace (k - i)%nat with (S (k - S i)) by lia. reflexivity. }
    assert (F2 : findSpecial i sp1 = None).
    { rewrite H2. destruct (le_lt_dec (S i) i); auto; lia. }
    destruct (Rlt_dec r 0) as [Hr|Hr].
    + intros E. unfold renormSV in E. cbn [fst snd] in E. injection E as <- <-. split; [etransitivity; [|symmetry; exact G]; f_equal; apply frob_sq|]. intros k.
      unfold findSpecial in *. cbn [find fst]. destruct (Nat.eqb_spec k i) as [->|Hk].
      * rewrite Nat.sub_diag. cbn [nth]. destruct (le_lt_dec i i); [|lia]. destruct (Rlt_dec r 0); [|lra]. reflexivity.
      * now apply F.
    + intros E. injection E as <- <-. split; [symmetry; exact G|]. intros k. destruct (Nat.eq_dec k i) as [->|Hk]; [|now apply F].
      rewrite F2, Nat.sub_diag. cbn [nth]. destruct (le_lt_dec i i); auto. destruct (Rlt_dec r 0); auto; lra.
Qed.

Lemma channelRates_ok {Rng} li (x : traj Rng) : fst (ratesAt li x) = channelRates li (tTime x) (tPsi x).
Proof.
  unfold ratesAt. destruct (calculateSpecialRates _ _ _ _ _) as [rs sp] eqn:E. destruct (special_spec _ _ _ _ _ _ _ E) as [-> _].
  reflexivity.
Qed.
Lemma channelRates_nonneg li t psi : Forall (Rle 0) (channelRates li t psi).
Proof.
  unfold channelRates. apply Forall_forall. intros r Hr. apply in_map_iff in Hr. destruct Hr as [k [<- _]]. cbn zeta.
  destruct (Rlt_dec _ 0); [apply sqrNorm_nonneg|lra].
Qed.
Lemma channelRates_length li t psi : length (channelRates li t psi) = length (liRates li t psi).
Proof. unfold channelRates. now rewrite map_length, seq_length. Qed.
Lemma channelRates_nth li t psi k : (k < length (liRates li t psi))%nat -> nth k (channelRates li t psi) 0 =
  if Rlt_dec (nth k (liRates li t psi) 0) 0 then sqrNorm (liJump li t psi k) else nth k (liRates li t psi) 0.
Proof.
  intros H. unfold channelRates. set (f := fun k => _).
  rewrite (nth_indep _ 0 (f 0%nat)) by (now rewrite map_length, seq_length). rewrite map_nth, seq_nth by auto. reflexivity.
Qed.

Section Mcwf.
Context {Rng : Type}.
Variable odeTry : (carr CR -> R -> carr CR) -> carr CR -> R -> R -> attempt (carr CR) * nat.
Variable sample : Rng -> R * Rng.
Variable sys : msystem.
Variables dpLimit tol : R.
Notation coherent := (coherent odeTry sys (Rng:=Rng)).
Notation evolve := (evolve odeTry sys (Rng:=Rng)).
Notation manage := (manageTimeStep sys dpLimit tol (Rng:=Rng)).
Notation stepLoop := (stepLoop odeTry sample sys dpLimit tol).
Notation mstep := (mstep odeTry sample sys dpLimit tol).
Notation msteps := (msteps odeTry sample sys dpLimit tol).

(** ** Norm *)
Lemma tries_nonzero h t0 : keeps_nonzero odeTry sys -> sysHa sys = Some h -> forall fuel psi t dt n c psi' t' dt' n' c', sqrNorm psi <> 0 ->
  tries (odeTry (rhs h t0)) fuel psi t dt n c = Some (psi', t', dt', n', c') -> sqrNorm psi' <> 0.
Proof.
  intros [K _] Eh. induction fuel as [|fuel IH]; intros psi t dt n c psi' t' dt' n' c' H0; cbn [tries];
  pose proof (K h t0 psi t dt Eh H0) as H; destruct (odeTry (rhs h t0) psi t dt) as [[s u d|s u d] m]; cbn [fst] in H; try discriminate.
  - intros E. injection E as <- _ _ _ _. auto.
  - intros E. injection E as <- _ _ _ _. auto.
  - intros E. eapply IH; eauto.
Qed.

Lemma coherent_norm odeFuel Dt x y : keeps_nonzero odeTry sys -> sqrNorm (tPsi x) <> 0 -> coherent odeFuel Dt x = Some y -> sqrNorm (tPsi y) = 1.
Proof.
  intros K H0. unfold McwfModel.coherent. destruct (evolve odeFuel Dt x) as [z|] eqn:E; [|discriminate]. cbn [option_map].
  intros G. injection G as <-.
  assert (Hz : sqrNorm (tPsi z) <> 0).
  { revert E. unfold McwfModel.evolve. destruct (sysHa sys) as [h|] eqn:Eh.
    - destruct (tInf x); [discriminate|]. unfold step.
      destruct (tries _ _ _ _ _ _ _) as [[[[[s u] d] n] c]|] eqn:E; [|discriminate]. intros G. injection G as <-. cbn [tPsi].
      eapply tries_nonzero; eauto.
    - intros G. injection G as <-. cbn [tPsi]. auto. }
  assert (Hw : sqrNorm (tPsi (applyExact sys z)) <> 0).
  { unfold applyExact. destruct (sysEx sys) as [u|] eqn:Eu; auto. cbn [tPsi]. apply (proj2 K); auto. }
  pose proof (renormSV_ok _ Hw) as HR. unfold renormalise, renormSV in *. cbn [tPsi]. apply HR.
Qed.

Lemma performJump_norm li x : truthful_rates li -> sqrNorm (tPsi x) = 1 ->
  (forall r, 0 <= fst (sample r)) -> 0 < dtDid (tOde x) ->
  sqrNorm (tPsi (fst (performJump sample li (fst (ratesAt li x)) (snd (ratesAt li x)) x))) = 1.
Proof.
  intros T H1 Hs Hd. unfold performJump. destruct (sample (tRng x)) as [u rng'] eqn:Eu.
  assert (Hu : 0 <= u / dtDid (tOde x)).
  { specialize (Hs (tRng x)). rewrite Eu in Hs. cbn in Hs. apply Rmult_le_pos; auto. apply Rlt_le. now apply Rinv_0_lt_compat. }
  rewrite channelRates_ok. destruct (chooseJump _ _) as [k|] eqn:Ec; [|exact H1].
  apply (chooseJump_spec _ _ _ (channelRates_nonneg _ _ _) Hu) in Ec. destruct Ec as [Hk Hc]. rewrite channelRates_length in Hk.
  rewrite cumulated_S in Hc. rewrite channelRates_nth in * by auto. cbn [fst tPsi].
  assert (Hpos : 0 < if Rlt_dec (nth k (liRates li (tTime x) (tPsi x)) 0) 0 then sqrNorm (liJump li (tTime x) (tPsi x) k) else nth k (liRates li (tTime x) (tPsi x)) 0) by lra.
  clear Hc. unfold ratesAt. destruct (calculateSpecialRates _ _ _ _ _) as [rs sp] eqn:E. destruct (special_spec _ _ _ _ _ _ _ E) as [_ F].
  cbn [snd]. rewrite F. destruct (le_lt_dec 0 k); [|lia]. rewrite Nat.sub_0_r.
  destruct (Rlt_dec (nth k (liRates li (tTime x) (tPsi x)) 0) 0) as [Hn|Hn].
  - pose proof (renormSV_ok (liJump li (tTime x) (tPsi x) k)) as HR. unfold renormSV in *. cbn [snd]. apply HR. lra.
  - rewrite sqrNorm_scale. rewrite (T _ _ _ H1 Hk) by lra. set (r := nth k (liRates li (tTime x) (tPsi x)) 0) in *.
    pose proof (sqrt_lt_R0 r Hpos). pose proof (sqrt_sqrt r ltac:(lra)) as Hq.
    replace (/ sqrt r * / sqrt r * r) with (/ sqrt r * / sqrt r * (sqrt r * sqrt r)) by (now rewrite Hq). field. lra.
Qed.

(** manageTimeStep does not touch the state; nor the time, and the step done, if it accepts *)
Lemma manage_false rates tc dc lc x y : manage rates tc dc lc x = (false, y) ->
  tPsi y = tPsi x /\ tTime y = tTime x /\ tT0 y = tT0 x /\ tRng y = tRng x /\ dtDid (tOde y) = dtDid (tOde x) /\
  total rates * dtDid (tOde x) <= tol * dpLimit /\
  getTry y = match sysHa sys with Some _ => extMin (getTry x) (suggested dpLimit (total rates)) | None => suggested dpLimit (total rates) end /\
  lTraj (tLog y) = lTraj (tLog x).
Proof.
  unfold manageTimeStep. destruct (Rlt_dec (tol * dpLimit) _) as [H|H]; [intros E; discriminate|].
  cbn zeta. match goal with |- context[if ?b then setLog ?l x else x] => set (x1 := if b then setLog l x else x) end. intros E. injection E as <-.
  assert (G : tPsi x1 = tPsi x /\ tTime x1 = tTime x /\ tT0 x1 = tT0 x /\ tRng x1 = tRng x /\ tOde x1 = tOde x /\ tInf x1 = tInf x /\ lTraj (tLog x1) = lTraj (tLog x)).
  { unfold x1. destruct (match getTry x with Fin d => _ | Inf => _ end); cbn; repeat split; auto. }
  destruct G as (G1 & G2 & G3 & G4 & G5 & G6 & G7).
  assert (Gt : getTry x1 = getTry x) by (unfold getTry; now rewrite G5, G6).
  rewrite Gt. set (d := match sysHa sys with Some _ => _ | None => _ end).
  destruct d as [d'|] eqn:Ed; cbn; rewrite ?G1, ?G2, ?G3, ?G4, ?G5, ?G7; repeat split; auto; lra.
Qed.

Lemma manage_true rates tc dc lc x y : manage rates tc dc lc x = (true, y) ->
  tPsi y = tPsi x /\ tTime y = tc /\ tT0 y = tT0 x /\ tRng y = tRng x /\ dtDid (tOde y) = dc /\
  getTry y = suggested dpLimit (total rates) /\ tol * dpLimit < total rates * dtDid (tOde x) /\
  nDerivs (tOde y) = nDerivs (tOde x) /\ nSteps (tOde y) = nSteps (tOde x) /\ nFailed (tOde y) = nFailed (tOde x) /\
  tLog y = logStepBack (total rates * dtDid (tOde x)) lc (tLog x).
Proof.
  unfold manageTimeStep. destruct (Rlt_dec (tol * dpLimit) _) as [H|H]; [|intros E; discriminate].
  intros E. injection E as <-. destruct (suggested dpLimit (total rates)); cbn; repeat split; auto.
Qed.

(** ** The loop *)
Lemma stepLoop_cases (I : traj Rng -> Prop) li Dt psiC tc dc odeFuel :
  (forall x y w, I x -> manage (fst (ratesAt li x)) tc dc true x = (true, y) ->
     coherent odeFuel Dt (mkTraj (tTime y) (tT0 y) psiC (tOde y) (tInf y) (tRng y) (tLog y)) = Some w -> I w) ->
  forall fuel x r ev, I x -> stepLoop fuel odeFuel li Dt psiC tc dc x = Some (r, ev) ->
  exists y y' jump, I y /\ manage (fst (ratesAt li y)) tc dc true y = (false, y') /\
    performJump sample li (fst (ratesAt li y)) (snd (ratesAt li y)) y' = (r, jump).
Proof.
  intros HI. induction fuel as [|fuel IH]; intros x r ev Hx; cbn [McwfModel.stepLoop];
  destruct (ratesAt li x) as [rates sp] eqn:Er; destruct (manage rates tc dc true x) as [[] y] eqn:Em; try discriminate.
  - destruct (performJump sample li rates sp y) as [r' jump] eqn:Ej. intros E. injection E as <- _.
    exists x, y, jump. rewrite Er. auto.
  - set (z := mkTraj (tTime y) (tT0 y) psiC (tOde y) (tInf y) (tRng y) (tLog y)).
    destruct (coherent odeFuel Dt z) as [w|] eqn:Ec; [|discriminate].
    destruct (stepLoop fuel odeFuel li Dt psiC tc dc w) as [[r' ev']|] eqn:El; [|discriminate].
    intros E. injection E as <- _. apply (IH w r' ev'); auto. apply (HI x y w); auto. now rewrite Er.
  - destruct (performJump sample li rates sp y) as [r' jump] eqn:Ej. intros E. injection E as <- _.
    exists x, y, jump. rewrite Er. auto.
Qed.

(** ** Forward stepping *)
Notation ready := (goes_forward sys (Rng:=Rng)).

Lemma forward_contract f : forward_stepper (odeTry f) -> stepper_contract (odeTry f).
Proof. intros H st t dt. specialize (H st t dt). destruct (fst (odeTry f st t dt)); tauto. Qed.

Lemma forward_tries f : forward_stepper (odeTry f) -> forall fuel st t dt n c st' t' dt' n' c', 0 < dt ->
  tries (odeTry f) fuel st t dt n c = Some (st', t', dt', n', c') -> t < t' <= t + dt /\ 0 < dt'.
Proof.
  intros F. induction fuel as [|fuel IH]; intros st t dt n c st' t' dt' n' c' Hd; cbn [tries];
  pose proof (F st t dt) as H; destruct (odeTry f st t dt) as [[s u d|s u d] m]; cbn [fst] in H; try discriminate.
  - intros E. injection E as <- <- <- _ _. destruct H as [-> H]. split; [lra|auto].
  - intros E. injection E as <- <- <- _ _. destruct H as [-> H]. split; [lra|auto].
  - destruct H as [-> [g [Hg ->]]]. intros E. destruct (IH s t (g * dt) (S n) (c + m)%nat st' t' dt' n' c' ltac:(nra) E). split; [nra|auto].
Qed.

Lemma step_forward f fuel Dt e t st e' t' st' : forward_stepper (odeTry f) -> 0 < Dt -> 0 < dtTry e ->
  step (odeTry f) fuel Dt e t st = Some (e', t', st') ->
  dtDid e' = t' - t /\ 0 < t' - t <= Dt /\ t' - t <= dtTry e /\ 0 < dtTry e'.
Proof.
  intros F HD He. unfold step. assert (Es : Bool.eqb (sgn Dt) (sgn (dtTry e)) = true) by (apply eqb_same; nra). rewrite Es.
  rewrite !(Rabs_pos_eq Dt) by lra. rewrite !(Rabs_pos_eq (dtTry e)) by lra. rewrite Rabs_pos_eq by lra.
  set (dt2 := if Rlt_dec Dt (dtTry e) then Dt else dtTry e).
  assert (H2 : 0 < dt2 <= Dt /\ dt2 <= dtTry e) by (unfold dt2; destruct (Rlt_dec Dt (dtTry e)); lra).
  destruct (tries _ _ _ _ _ _ _) as [[[[[s u] d] n] c]|] eqn:E; [|discriminate]. intros G. injection G as <- <- <-.
  destruct (forward_tries f F _ _ _ _ _ _ _ _ _ _ _ (proj1 (proj1 H2)) E) as [H3 H4]. cbn [dtDid dtTry].
  split; [reflexivity|]. split; [lra|]. split; [lra|].
  destruct (Rlt_dec Dt (dtTry e / 10)) as [Hl|Hl].
  - destruct (Req_EM_T (dtTry e) 0); lra.
  - destruct (Req_EM_T 0 0); lra.
Qed.

Hypothesis Hfwd : forall f, forward_stepper (odeTry f).

Lemma coherent_forward odeFuel Dt x y : 0 < Dt -> ready x -> coherent odeFuel Dt x = Some y ->
  0 < dtDid (tOde y) <= Dt /\ tTime y = tTime x + dtDid (tOde y) /\ ready y /\ tRng y = tRng x /\
  tT0 y = match sysEx sys with Some _ => tTime y | None => tT0 x end /\
  (sysLi sys <> None -> match getTry x with Fin d => dtDid (tOde y) <= d | Inf => True end) /\
  lTraj (tLog y) = lTraj (tLog x).
Proof.
  intros HD Hr. unfold McwfModel.coherent. destruct (evolve odeFuel Dt x) as [z|] eqn:E; [|discriminate]. cbn [option_map].
  intros G. injection G as <-.
  assert (H : 0 < dtDid (tOde z) <= Dt /\ tTime z = tTime x + dtDid (tOde z) /\ ready z /\ tRng z = tRng x /\ tT0 z = tT0 x /\
    (sysLi sys <> None -> match getTry x with Fin d => dtDid (tOde z) <= d | Inf => True end) /\ tLog z = tLog x).
  { revert E. unfold McwfModel.evolve, ready, getTry in *. destruct (sysHa sys) as [h|] eqn:Eh.
    - destruct (tInf x) eqn:Ei; [discriminate|]. destruct (step _ _ _ _ _ _) as [[[e t] psi]|] eqn:E; [|discriminate].
      intros G. injection G as <-. destruct (step_forward _ _ _ _ _ _ _ _ _ (Hfwd _) HD Hr E) as (H1 & H2 & H3 & H4).
      cbn [tOde tTime tRng tT0 tInf tLog]. rewrite H1. repeat split; auto; lra.
    - intros G. injection G as <-. cbn [tOde tTime tRng tT0 tInf tLog dtDid setDtDid dtTry].
      destruct (sysLi sys) as [li|].
      + destruct (tInf x) eqn:Ei; cbn [getTry]; [repeat split; auto; lra|].
        unfold Rmin. destruct (Rle_dec (dtTry (tOde x)) Dt); repeat split; auto; try lra.
      + repeat split; auto; try lra. intros Hn. exfalso. auto. }
  destruct H as (H1 & H2 & H3 & H4 & H5 & H6 & H7).
  unfold renormalise, applyExact, ready, getTry in *. destruct (sysEx sys) as [u|] eqn:Eu; cbn; rewrite ?H7; repeat split; auto; lra.
Qed.

Hypothesis Hdp : 0 < dpLimit.
Hypothesis Htol : 0 < tol.

Lemma suggested_pos rates : Forall (Rle 0) rates -> match suggested dpLimit (total rates) with Fin d => 0 < d /\ 0 < total rates /\ d * total rates = dpLimit | Inf => total rates = 0 end.
Proof.
  intros H. unfold suggested. pose proof (total_nonneg rates H). destruct (Req_EM_T (total rates) 0); auto.
  assert (0 < total rates) by lra. split; [|split; auto].
  - apply Rmult_lt_0_compat; auto. now apply Rinv_0_lt_compat.
  - field. lra.
Qed.

Lemma manage_ready rates tc dc lc x b y : Forall (Rle 0) rates -> ready x -> manage rates tc dc lc x = (b, y) -> ready y.
Proof.
  intros HR Hx E. pose proof (suggested_pos rates HR) as Hs. unfold goes_forward in *. destruct b.
  - destruct (manage_true _ _ _ _ _ _ E) as (_ & _ & _ & _ & _ & Ht & Ho & _). rewrite Ht.
    destruct (suggested dpLimit (total rates)); [tauto|]. rewrite Hs in Ho. nra.
  - destruct (manage_false _ _ _ _ _ _ E) as (_ & _ & _ & _ & _ & _ & Ht & _). rewrite Ht.
    destruct (sysHa sys) as [h|] eqn:Eh.
    + destruct (getTry x) as [d|]; [|discriminate]. destruct (suggested dpLimit (total rates)) as [d'|]; cbn; auto.
      unfold Rmin. destruct (Rle_dec d d'); tauto.
    + destruct (suggested dpLimit (total rates)); tauto.
Qed.

Lemma performJump_keeps li rates sp x r jump : performJump sample li rates sp x = (r, jump) ->
  tTime r = tTime x /\ tT0 r = tT0 x /\ tOde r = tOde x /\ tInf r = tInf x /\
  (jump = None -> tPsi r = tPsi x /\ tLog r = tLog x) /\
  (forall k, jump = Some k -> tLog r = logJump (tTime x) k (tLog x)).
Proof.
  unfold performJump. destruct (sample (tRng x)) as [u rng']. destruct (chooseJump _ _) as [k|]; intros E; injection E as <- <-; cbn.
  - repeat split; auto; try discriminate. intros k' E. now injection E as <-.
  - repeat split; auto. discriminate.
Qed.

(** ** One step *)
Lemma mstep_ok fuel odeFuel Dt x r ev : 0 < Dt -> ready x -> mstep fuel odeFuel Dt x = Some (r, ev) ->
  0 < dtDid (tOde r) <= Dt /\ tTime r = tTime x + dtDid (tOde r) /\ ready r /\
  tT0 r = match sysEx sys with Some _ => tTime r | None => tT0 x end /\
  (forall li, sysLi sys = Some li -> exists psi, 
     (keeps_nonzero odeTry sys -> sqrNorm (tPsi x) <> 0 -> sqrNorm psi = 1) /\
     let rate := total (channelRates li (tTime r) psi) in
     rate * dtDid (tOde r) <= tol * dpLimit /\
     (0 < rate -> exists d, getTry r = Fin d /\ d * rate <= dpLimit)) /\
  (keeps_nonzero odeTry sys -> (forall li, sysLi sys = Some li -> truthful_rates li) -> (forall r, 0 <= fst (sample r)) ->
   sqrNorm (tPsi x) <> 0 -> sqrNorm (tPsi r) = 1).
Proof.
  intros HD Hx. unfold McwfModel.mstep. destruct (coherent odeFuel Dt x) as [y|] eqn:Ec; [|discriminate].
  destruct (coherent_forward _ _ _ _ HD Hx Ec) as (H1 & H2 & H3 & H4 & H5 & H6 & _).
  assert (HN : keeps_nonzero odeTry sys -> sqrNorm (tPsi x) <> 0 -> sqrNorm (tPsi y) = 1) by (intros; eapply coherent_norm; eauto).
  destruct (sysLi sys) as [li|] eqn:El.
  - destruct (stepLoop fuel odeFuel li Dt (tPsi x) (tTime x) (dtDid (tOde x)) y) as [[z ev']|] eqn:Es; [|discriminate].
    intros G. injection G as <- _.
    set (I := fun w : traj Rng => 0 < dtDid (tOde w) <= Dt /\ tTime w = tTime x + dtDid (tOde w) /\ ready w /\
       (sysEx sys <> None -> tT0 w = tTime w) /\ (sysEx sys = None -> tT0 w = tT0 x) /\
       (keeps_nonzero odeTry sys -> sqrNorm (tPsi x) <> 0 -> sqrNorm (tPsi w) = 1)).
    assert (HI : I y).
    { unfold I. destruct (sysEx sys); repeat split; try tauto; try congruence; lra. }
    destruct (stepLoop_cases I li Dt (tPsi x) (tTime x) (dtDid (tOde x)) odeFuel) with (fuel := fuel) (x := y) (r := z) (ev := ev')
      as (w & w' & jump & Hw & Em & Ej); auto.
    { intros a b c Ha Em Ec'. destruct Ha as (A1 & A2 & A3 & A4 & A5 & A6).
      destruct (manage_true _ _ _ _ _ _ Em) as (B1 & B2 & B3 & _).
      assert (Hz : ready (mkTraj (tTime b) (tT0 b) (tPsi x) (tOde b) (tInf b) (tRng b) (tLog b))).
      { rewrite channelRates_ok in Em. exact (manage_ready _ _ _ _ _ _ _ (channelRates_nonneg _ _ _) A3 Em). }
      destruct (coherent_forward _ _ _ _ HD Hz Ec') as (C1 & C2 & C3 & _ & C5 & _). cbn [tTime tT0] in *.
      unfold I. rewrite B2 in C2. repeat split; try tauto; try lra.
      - intros Hn. rewrite C5. destruct (sysEx sys); congruence.
      - intros Hn. rewrite C5, Hn, B3. auto.
      - intros K K2. refine (coherent_norm _ _ _ _ K _ Ec'). exact K2. }
    destruct Hw as (A1 & A2 & A3 & A4 & A5 & A6). rewrite channelRates_ok in Em.
    destruct (manage_false _ _ _ _ _ _ Em) as (B1 & B2 & B3 & B4 & B5 & B6 & B7 & _).
    pose proof (manage_ready _ _ _ _ _ _ _ (channelRates_nonneg _ _ _) A3 Em) as Hr'.
    destruct (performJump_keeps _ _ _ _ _ _ Ej) as (D1 & D2 & D3 & D4 & _).
    assert (Gz : getTry z = getTry w') by (unfold getTry; now rewrite D3, D4).
    cbn [tTime tT0 tPsi tOde setLog]. rewrite D1, D2, D3, B5, B2, B3.
    split; [auto|]. split; [auto|]. split; [unfold goes_forward, getTry in *; cbn; now rewrite D3, D4|].
    split; [destruct (sysEx sys); [apply A4; discriminate | auto]|]. split.
    + intros li' E'. injection E' as <-. exists (tPsi w). split; [exact A6|]. cbn zeta. split; [exact B6|].
      intros Hp. change (getTry (setLog (logStep (tLog z)) z)) with (getTry z). rewrite Gz, B7.
      pose proof (suggested_pos _ (channelRates_nonneg li (tTime w) (tPsi w))) as Hs.
      destruct (suggested dpLimit (total (channelRates li (tTime w) (tPsi w)))) as [d|]; [|lra].
      destruct Hs as (S1 & S2 & S3). destruct (sysHa sys).
      * destruct (getTry w) as [d'|]; cbn; [|exists d; split; auto; lra]. exists (Rmin d' d). split; auto.
        unfold Rmin. destruct (Rle_dec d' d); nra.
      * exists d. split; auto. lra.
    + intros K T Hs K2. specialize (A6 K K2). specialize (T li eq_refl).
      assert (E3 : ratesAt li w' = ratesAt li w) by (unfold ratesAt; now rewrite B1, B2).
      pose proof (performJump_norm li w' T) as HP. rewrite E3, Ej in HP. cbn [fst] in HP.
      apply HP; auto; [congruence | rewrite B5; lra].
  - intros G. injection G as <- _. cbn [tTime tT0 tPsi tOde setLog].
    split; [auto|]. split; [auto|]. split; [exact H3|]. split; [exact H5|]. split; [discriminate|]. auto.
Qed.
End Mcwf.
