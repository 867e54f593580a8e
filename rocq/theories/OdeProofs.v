From Coq Require Import List Arith Reals Lra Lia.
From Verif Require Import OdeModel.
Import ListNotations.
Local Open Scope R_scope.

Definition stepper_contract {State} (tryStep : State -> R -> R -> attempt State * nat) : Prop :=
  forall st t dt, match fst (tryStep st t dt) with
    | Success st' t' dt' => t' = t + dt
    | Fail st' t' dt' => t' = t /\ exists f, 0 < f <= 1 /\ dt' = f * dt
    end.

Section E.
Context {State : Type}.
Variable tryStep : State -> R -> R -> attempt State * nat.

Lemma tries_last fuel : forall st t dt n c st' t' dt' n' c',
  tries tryStep fuel st t dt n c = Some (st', t', dt', n', c') ->
  exists s0 t0 d0, fst (tryStep s0 t0 d0) = Success st' t' dt'.
Proof.
  induction fuel as [|f IH]; intros st t dt n c st' t' dt' n' c'; cbn [tries].
  - destruct (tryStep st t dt) as [[s u d|s u d] k] eqn:E; [|discriminate]. intros H. injection H as -> -> -> _ _.
    exists st, t, dt. now rewrite E.
  - destruct (tryStep st t dt) as [[s u d|s u d] k] eqn:E.
    + intros H. injection H as -> -> -> _ _. exists st, t, dt. now rewrite E.
    + apply IH.
Qed.

Hypothesis C : stepper_contract tryStep.

Lemma tries_contract fuel : forall st t dt n c st' t' dt' n' c',
  tries tryStep fuel st t dt n c = Some (st', t', dt', n', c') ->
  exists f, 0 < f <= 1 /\ t' = t + f * dt.
Proof.
  induction fuel as [|fu IH]; intros st t dt n c st' t' dt' n' c'; cbn [tries]; pose proof (C st t dt) as H;
  destruct (tryStep st t dt) as [[s u d|s u d] k]; cbn [fst] in H; try discriminate.
  - intros E; injection E as _ <- _ _ _. exists 1. split; lra.
  - intros E; injection E as _ <- _ _ _. exists 1. split; lra.
  - destruct H as [-> [f [Hf ->]]]. intros E. destruct (IH _ _ _ _ _ _ _ _ _ _ E) as [g [Hg ->]].
    exists (g * f). split; [|ring]. split; [apply Rmult_lt_0_compat; lra|].
    apply Rle_trans with (1 * 1); [apply Rmult_le_compat; lra|lra].
Qed.

Lemma sgn_same a b : 0 < a * b -> sgn a = sgn b.
Proof.
  intros H. unfold sgn. destruct (Rle_dec 0 a), (Rle_dec 0 b); auto; exfalso; nra.
Qed.
Lemma sgn_opp a b : a * b < 0 -> Bool.eqb (sgn a) (sgn b) = false.
Proof.
  intros H. unfold sgn. destruct (Rle_dec 0 a), (Rle_dec 0 b); auto; exfalso; nra.
Qed.
Lemma eqb_same a b : 0 < a * b -> Bool.eqb (sgn a) (sgn b) = true.
Proof. intros H. rewrite (sgn_same _ _ H). apply Bool.eqb_reflx. Qed.

(** the trial step actually started from *)
Definition startDt (deltaT : R) (e : engine) : R :=
  let dt1 := if Bool.eqb (sgn deltaT) (sgn (dtTry e)) then dtTry e else - dtDid e in
  if Rlt_dec (Rabs deltaT) (Rabs dt1) then deltaT else dt1.

Lemma step_start fuel deltaT e t st e' t' st' : step tryStep fuel deltaT e t st = Some (e', t', st') ->
  dtDid e' = t' - t /\ exists f, 0 < f <= 1 /\ t' - t = f * startDt deltaT e.
Proof.
  unfold step. fold (startDt deltaT e).
  destruct (tries _ _ _ _ _ _ _) as [[[[[s u] d] n] c]|] eqn:E; [|discriminate].
  intros H; injection H as <- <- <-. split; [reflexivity|].
  destruct (tries_contract _ _ _ _ _ _ _ _ _ _ _ E) as [f [Hf ->]]. exists f. split; auto. ring.
Qed.

Lemma cap_bound d x f : 0 < d * x -> 0 < f <= 1 ->
  let y := if Rlt_dec (Rabs d) (Rabs x) then d else x in 0 < f * y * d /\ Rabs (f * y) <= Rabs d.
Proof.
  intros H Hf y. assert (Hd : d <> 0) by (intros ->; lra). assert (Hx : x <> 0) by (intros ->; lra).
  assert (Hy : 0 < y * d /\ Rabs y <= Rabs d).
  { unfold y. destruct (Rlt_dec _ _). - split; [nra|lra]. - split; lra. }
  destruct Hy as [Y1 Y2]. split; [nra|]. rewrite Rabs_mult, (Rabs_pos_eq f) by lra.
  pose proof (Rabs_pos y). nra.
Qed.

Lemma step_within fuel deltaT e t st e' t' st' : 0 < deltaT * dtTry e ->
  step tryStep fuel deltaT e t st = Some (e', t', st') ->
  dtDid e' = t' - t /\ 0 < (t' - t) * deltaT /\ Rabs (t' - t) <= Rabs deltaT.
Proof.
  intros H E. destruct (step_start _ _ _ _ _ _ _ _ E) as [H1 [f [Hf H2]]]. split; auto.
  rewrite H2. unfold startDt. rewrite (eqb_same _ _ H). apply cap_bound; auto.
Qed.

(** reversal just after a step of the opposite direction *)
Lemma step_reverse fuel deltaT e t st e' t' st' : deltaT * dtTry e < 0 -> deltaT * dtDid e < 0 ->
  step tryStep fuel deltaT e t st = Some (e', t', st') ->
  dtDid e' = t' - t /\ 0 < (t' - t) * deltaT /\ Rabs (t' - t) <= Rabs deltaT.
Proof.
  intros H Hd E. destruct (step_start _ _ _ _ _ _ _ _ E) as [H1 [f [Hf H2]]]. split; auto.
  rewrite H2. unfold startDt. rewrite (sgn_opp _ _ H). apply cap_bound; auto. nra.
Qed.

(** step size memory *)
Lemma step_memory fuel deltaT e t st e' t' st' : step tryStep fuel deltaT e t st = Some (e', t', st') ->
  (Rabs deltaT < Rabs (dtTry e) / 10 -> dtTry e' = dtTry e) /\
  (Rabs (dtTry e) / 10 <= Rabs deltaT -> exists s0 t0 d0, fst (tryStep s0 t0 d0) = Success st' t' (dtTry e')).
Proof.
  unfold step. destruct (tries _ _ _ _ _ _ _) as [[[[[s u] d] n] c]|] eqn:E; [|discriminate].
  intros H; injection H as <- <- <-. cbn [dtTry].
  assert (Ha : Rabs (dtTry e / 10) = Rabs (dtTry e) / 10).
  { unfold Rdiv. rewrite Rabs_mult. f_equal. apply Rabs_pos_eq. lra. }
  rewrite Ha. split; intros Hd.
  - destruct (Rlt_dec (Rabs deltaT) (Rabs (dtTry e) / 10)) as [_|n0]; [|lra]. destruct (Req_EM_T (dtTry e) 0) as [e0|]; [|reflexivity].
    rewrite e0, Rabs_R0 in Hd. pose proof (Rabs_pos deltaT). lra.
  - destruct (Rlt_dec (Rabs deltaT) (Rabs (dtTry e) / 10)) as [l|_]; [lra|]. destruct (Req_EM_T 0 0); [|lra].
    eapply tries_last; eauto.
Qed.

(** termination *)
Lemma tries_more fuel : forall fuel' st t dt n c r, (fuel <= fuel')%nat ->
  tries tryStep fuel st t dt n c = Some r -> tries tryStep fuel' st t dt n c = Some r.
Proof.
  induction fuel as [|f IH]; intros fuel' st t dt n c r Hle; destruct fuel' as [|f']; try lia; cbn [tries];
  destruct (tryStep st t dt) as [[s u d|s u d] k]; auto; try discriminate. intros; eapply IH; eauto; lia.
Qed.
End E.

Lemma tries_finish {State} (tryStep : State -> R -> R -> attempt State * nat) q delta :
  0 < q < 1 -> 0 < delta ->
  (forall st t dt, match fst (tryStep st t dt) with Success _ _ _ => True
      | Fail st' t' dt' => delta < Rabs dt /\ Rabs dt' <= q * Rabs dt end) ->
  forall st t dt, exists fuel, forall n c, tries tryStep fuel st t dt n c <> None.
Proof.
  intros Hq Hd H.
  assert (A : forall k st t dt, Rabs dt * q ^ k <= delta -> forall n c, tries tryStep k st t dt n c <> None).
  { induction k as [|k IH]; intros st t dt Hk n c; cbn [tries]; pose proof (H st t dt) as Hs;
    destruct (tryStep st t dt) as [[s u d|s u d] m]; cbn [fst] in Hs; try discriminate.
    - exfalso. simpl in Hk. lra.
    - apply IH. destruct Hs as [_ Hs]. apply Rle_trans with (Rabs dt * q ^ S k); auto. simpl.
      assert (0 <= q ^ k) by (apply pow_le; lra). nra. }
  intros st t dt. destruct (Req_dec dt 0) as [->|Hdt].
  { exists 0%nat. intros n c. apply A. rewrite Rabs_R0. simpl. lra. }
  assert (Hp : 0 < Rabs dt) by now apply Rabs_pos_lt.
  destruct (pow_lt_1_zero q) with (y := delta / Rabs dt) as [N HN].
  - rewrite Rabs_pos_eq; lra.
  - apply Rdiv_lt_0_compat; lra.
  - exists N. intros n c. apply A. specialize (HN N (le_n _)). rewrite Rabs_pos_eq in HN by (apply pow_le; lra).
    apply Rmult_lt_compat_l with (r := Rabs dt) in HN; auto.
    replace (Rabs dt * (delta / Rabs dt)) with delta in HN by (field; lra). lra.
Qed.

Lemma step_returns {State} (tryStep : State -> R -> R -> attempt State * nat) q delta :
  0 < q < 1 -> 0 < delta ->
  (forall st t dt, match fst (tryStep st t dt) with Success _ _ _ => True
      | Fail st' t' dt' => delta < Rabs dt /\ Rabs dt' <= q * Rabs dt end) ->
  forall deltaT e t st, exists fuel, step tryStep fuel deltaT e t st <> None.
Proof.
  intros Hq Hd H deltaT e t st. unfold step.
  match goal with |- context [tries tryStep _ st t ?dt 0 0] => destruct (tries_finish tryStep q delta Hq Hd H st t dt) as [fuel Hf] end.
  exists fuel. specialize (Hf 0%nat 0%nat). destruct (tries _ _ _ _ _ _ _) as [[[[[? ?] ?] ?] ?]|]; [discriminate|congruence].
Qed.

(** GSL stepper meets the contract *)
Lemma gsl_contract {State} (stepApply : State -> R -> R -> bool * State * R * nat) hadjust :
  stepper_contract (gslTryStep stepApply hadjust).
Proof.
  intros st t dt. unfold gslTryStep. destruct (stepApply st t dt) as [[[[|] s] err] n]; cbn [fst].
  - reflexivity.
  - split; auto. exists (/ 2). split; lra.
Qed.

(** ** running backward *)
Definition multiplicative {State} (tryStep : State -> R -> R -> attempt State * nat) : Prop :=
  forall st t dt, exists r, 0 < r /\
    match fst (tryStep st t dt) with Success _ _ dt' => dt' = r * dt | Fail _ _ dt' => dt' = r * dt end.

Section Back.
Context {State : Type}.
Variable tryStep : State -> R -> R -> attempt State * nat.
Hypothesis C : stepper_contract tryStep.
Hypothesis M : multiplicative tryStep.

Lemma tries_mult fuel : forall st t dt n c st' t' dt' n' c',
  tries tryStep fuel st t dt n c = Some (st', t', dt', n', c') -> exists r, 0 < r /\ dt' = r * dt.
Proof.
  induction fuel as [|fu IH]; intros st t dt n c st' t' dt' n' c'; cbn [tries]; destruct (M st t dt) as [r [Hr H]];
  destruct (tryStep st t dt) as [[s u d|s u d] k]; cbn [fst] in H; try discriminate.
  - intros E; injection E as _ _ <- _ _. eauto.
  - intros E; injection E as _ _ <- _ _. eauto.
  - intros E. destruct (IH _ _ _ _ _ _ _ _ _ _ E) as [g [Hg ->]]. exists (g * r). split; [nra|subst; ring].
Qed.

Lemma step_dtTry fuel deltaT e t st e' t' st' : step tryStep fuel deltaT e t st = Some (e', t', st') ->
  dtTry e' = dtTry e \/ exists r, 0 < r /\ dtTry e' = r * startDt deltaT e.
Proof.
  unfold step. fold (startDt deltaT e). destruct (tries _ _ _ _ _ _ _) as [[[[[s u] d] n] c]|] eqn:E; [|discriminate].
  intros H; injection H as <- <- <-. cbn [dtTry]. destruct (Rlt_dec (Rabs deltaT) (Rabs (dtTry e / 10))).
  - destruct (Req_EM_T (dtTry e) 0); [|now left]. right. eapply tries_mult; eauto.
  - destruct (Req_EM_T 0 0); [|lra]. right. eapply tries_mult; eauto.
Qed.

(** forward steps keep the engine in the forward state *)
Lemma step_same_sign fuel deltaT e t st e' t' st' : 0 < deltaT * dtTry e ->
  step tryStep fuel deltaT e t st = Some (e', t', st') -> 0 < deltaT * dtTry e'.
Proof.
  intros H E. destruct (step_dtTry _ _ _ _ _ _ _ _ E) as [->|[r [Hr ->]]]; auto.
  unfold startDt. rewrite (eqb_same _ _ H). destruct (Rlt_dec _ _).
  - assert (H0 : deltaT <> 0) by (intros ->; lra). pose proof (Rsqr_pos_lt _ H0) as H1. unfold Rsqr in H1. nra.
  - nra.
Qed.

(** a fresh engine never moves backward *)
Lemma back_stuck fuel deltaT e t st e' t' st' : deltaT < 0 -> dtDid e = 0 -> 0 <= dtTry e ->
  step tryStep fuel deltaT e t st = Some (e', t', st') -> t' = t /\ dtDid e' = 0 /\ 0 <= dtTry e'.
Proof.
  intros Hd H0 Ht E. destruct (step_start tryStep C _ _ _ _ _ _ _ _ E) as [H1 [f [Hf H2]]].
  assert (S0 : startDt deltaT e = 0).
  { unfold startDt. replace (Bool.eqb (sgn deltaT) (sgn (dtTry e))) with false.
    2:{ unfold sgn. destruct (Rle_dec 0 deltaT), (Rle_dec 0 (dtTry e)); auto; lra. }
    rewrite H0, Ropp_0, Rabs_R0. destruct (Rlt_dec _ _); auto. pose proof (Rabs_pos deltaT). lra. }
  rewrite S0 in H2. assert (t' = t) by lra. split; [auto|]. split; [rewrite H1; lra|].
  destruct (step_dtTry _ _ _ _ _ _ _ _ E) as [->|[r [Hr ->]]]; auto. rewrite S0. lra.
Qed.

Lemma back_stuck_forever fuel dts : forall e t st e' t' st', (forall d, In d dts -> d < 0) ->
  dtDid e = 0 -> 0 <= dtTry e ->
  steps tryStep fuel dts e t st = Some (e', t', st') -> t' = t.
Proof.
  induction dts as [|d dts IH]; intros e t st e' t' st' Hn H0 Ht; cbn [steps].
  - congruence.
  - destruct (step tryStep fuel d e t st) as [[[e1 t1] s1]|] eqn:E; [|discriminate].
    destruct (back_stuck _ _ _ _ _ _ _ _ (Hn d (or_introl eq_refl)) H0 Ht E) as (-> & A & B).
    intros H. eapply IH; eauto. intros d' Hd'. apply Hn. now right.
Qed.
End Back.

(** ** advance *)
Section Adv.
Context {Traj : Type}.
Variable getTime : Traj -> R.
Variable tstep : Traj -> R -> option Traj.
Variable inv : R -> Traj -> Prop.   (* invariant, may depend on the direction *)

Definition progresses (dir : R) : Prop :=
  forall x dt, inv dir x -> 0 < dt * dir -> forall x', tstep x dt = Some x' ->
     inv dir x' /\ 0 < (getTime x' - getTime x) * dir /\ Rabs (getTime x' - getTime x) <= Rabs dt.

Lemma adv_exact dir fuel : progresses dir -> forall x endTime x' l, inv dir x ->
  0 < (endTime - getTime x) * dir \/ endTime = getTime x ->
  advLoop getTime tstep fuel endTime x = Some (x', l) ->
  getTime x' = endTime /\ inv dir x' /\
  forall s, In s l -> 0 < (s - getTime x) * dir /\ 0 <= (endTime - s) * dir.
Proof.
  intros P. induction fuel as [|f IH]; intros x endTime x' l Hi Hd; cbn [advLoop]; destruct (Req_EM_T _ 0) as [E|E].
  1,3: intros H; injection H as <- <-; split; [lra|]; split; [auto|]; intros s [].
  - discriminate.
  - destruct (tstep x (endTime - getTime x)) as [y|] eqn:Ey; [|discriminate].
    destruct Hd as [Hd|Hd]; [|lra].
    destruct (P _ _ Hi Hd _ Ey) as (Iy & Py & By).
    assert (Hy : 0 <= (endTime - getTime y) * dir).
    { assert (Hne : dir <> 0) by (intros ->; lra).
      apply Rnot_lt_le. intros Hlt. unfold Rabs in By.
      destruct (Rcase_abs (getTime y - getTime x)), (Rcase_abs (endTime - getTime x)); destruct (Rtotal_order dir 0) as [?|[?|?]]; nra. }
    destruct (advLoop getTime tstep f endTime y) as [[z l']|] eqn:Ez; [|discriminate].
    intros H; injection H as <- <-.
    assert (Hd' : 0 < (endTime - getTime y) * dir \/ endTime = getTime y).
    { assert (Hne : dir <> 0) by (intros ->; lra). destruct Hy as [Hy|Hy]; [now left|right].
      symmetry in Hy. apply Rmult_integral in Hy. destruct Hy; [lra|contradiction]. }
    destruct (IH _ _ _ _ Iy Hd' Ez) as (A & B & S). split; auto. split; auto.
    intros s [<-|Hs]; [split; auto|]. destruct (S s Hs) as [S1 S2]. split; auto.
    replace ((s - getTime x) * dir) with ((s - getTime y) * dir + (getTime y - getTime x) * dir) by ring. lra.
Qed.

Lemma adv_returns dir delta : dir * dir = 1 -> 0 < delta ->
  (forall x dt, inv dir x -> 0 < dt * dir -> exists x', tstep x dt = Some x' /\ inv dir x' /\
     (getTime x' - getTime x = dt \/ delta <= (getTime x' - getTime x) * dir <= dt * dir)) ->
  forall fuel x endTime, inv dir x -> 0 <= (endTime - getTime x) * dir <= INR fuel * delta ->
  advLoop getTime tstep fuel endTime x <> None.
Proof.
  intros Hdir Hdelta P. induction fuel as [|f IH]; intros x endTime Hi [H1 H2]; cbn [advLoop]; destruct (Req_EM_T _ 0) as [E|E]; try discriminate.
  - simpl in H2. exfalso. apply E. destruct (Rmult_integral (endTime - getTime x) dir); [lra|auto|subst; lra].
  - assert (Hp : 0 < (endTime - getTime x) * dir).
    { destruct H1 as [H1|H1]; auto. exfalso. apply E. symmetry in H1. destruct (Rmult_integral _ _ H1); [auto|subst; lra]. }
    destruct (P x _ Hi Hp) as (y & Ey & Iy & Hy). rewrite Ey.
    assert (G : advLoop getTime tstep f endTime y <> None).
    { apply IH; auto. rewrite S_INR in H2. pose proof (pos_INR f). destruct Hy as [Hy|Hy].
      - replace (endTime - getTime y) with 0 by lra. split; nra.
      - split; nra. }
    destruct (advLoop getTime tstep f endTime y) as [[z l]|]; [discriminate|congruence].
Qed.
End Adv.

Lemma adv_more {Traj} (getTime : Traj -> R) tstep fuel : forall fuel' endTime x r, (fuel <= fuel')%nat ->
  advLoop getTime tstep fuel endTime x = Some r -> advLoop getTime tstep fuel' endTime x = Some r.
Proof.
  induction fuel as [|f IH]; intros fuel' endTime x r Hle; destruct fuel' as [|f']; try lia; cbn [advLoop];
  destruct (Req_EM_T _ 0); auto; try discriminate.
  destruct (tstep x _) as [y|]; auto. destruct (advLoop getTime tstep f endTime y) as [[z l]|] eqn:E; [|discriminate].
  rewrite (IH f' _ _ _ ltac:(lia) E). auto.
Qed.
