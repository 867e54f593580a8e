From Coq Require Import List Arith Bool Reals String Ascii Lia Lra.
From Verif Require Import Star CReal Arr VerdictModel VerdictSpec VerdictProofs.
Import ListNotations.
Local Open Scope nat_scope.

Definition num (x : R) : number := Num (RC x).
Lemma close_num x y : (Rabs (x - y) <= / 10 ^ 8 + / 10 ^ 5 * Rabs y)%R -> close (num x) (num y).
Proof.
  intros H. exists (RC x), (RC y). split; [reflexivity|]. split; [reflexivity|].
  replace (ksub (RC x) (RC y)) with (RC (x - y)) by (apply cr_eq; cbn; lra). rewrite !csq_RC. fold (Rsqr (x - y)). fold (Rsqr y). now rewrite !sqrt_Rsqr_abs.
Qed.
Lemma far_num x y : (/ 10 ^ 8 + / 10 ^ 5 * Rabs y < Rabs (x - y))%R -> ~ close (num x) (num y).
Proof.
  intros H (x' & y' & E & F & K). injection E as <-. injection F as <-.
  replace (ksub (RC x) (RC y)) with (RC (x - y)) in K by (apply cr_eq; cbn; lra). rewrite !csq_RC in K. fold (Rsqr (x - y)) in K. fold (Rsqr y) in K. rewrite !sqrt_Rsqr_abs in K. lra.
Qed.
(** a state of a two-level system *)
Definition oneState : stateFile := mkStates [2] [fun i => num (INR (hd 0 i))] [num 1].
Definition twoLines (d : R) : list (list number) := [[num 0; num 1]; [num 1; num (1 / 2 + d)]].
Definition outOf (rows : list (list number)) : outputs := mkOut (Some rows) (Some oneState).
Lemma same_close x : close (num x) (num x).
Proof. apply close_num. rewrite Rminus_diag_eq, Rabs_R0 by reflexivity. pose proof (Rabs_pos x). lra. Qed.
Lemma oneState_comparable : comparable oneState oneState.
Proof. repeat split; cbn; try tauto; repeat constructor. Qed.
Lemma oneState_close : closeStates oneState oneState.
Proof. repeat split; cbn; repeat constructor; try apply same_close. intros i _. apply same_close. Qed.
Lemma twoLines_table d : table (twoLines d).
Proof. split; [cbn; lia|]. exists 2. repeat constructor. Qed.
Lemma twoLines_proper d : proper (outOf (twoLines d), outOf (twoLines 0)).
Proof.
  split.
  - exists (twoLines d), (twoLines 0). split; [reflexivity|]. split; [reflexivity|]. split; apply twoLines_table.
  - exists oneState, oneState. split; [reflexivity|]. split; [reflexivity|]. apply oneState_comparable.
Qed.
Lemma twoLines_close : agreeing (outOf (twoLines (/ 10 ^ 6)), outOf (twoLines 0)).
Proof.
  split.
  - intros a b E F. injection E as <-. injection F as <-. repeat constructor; try apply same_close. apply close_num.
    rewrite !Rabs_right by lra. lra.
  - intros f g E F. injection E as <-. injection F as <-. apply oneState_close.
Qed.
Lemma twoLines_far : ~ agreeing (outOf (twoLines (/ 10 ^ 4)), outOf (twoLines 0)).
Proof.
  intros [H _]. specialize (H _ _ eq_refl eq_refl). inversion H as [|? ? ? ? _ H1]; subst. inversion H1 as [|? ? ? ? H2 _]; subst. inversion H2 as [|? ? ? ? _ H3]; subst.
  inversion H3 as [|? ? ? ? H4 _]; subst. revert H4. apply far_num. rewrite !Rabs_right by lra. lra.
Qed.
Lemma verify_case :
  verifierRun None [(outOf (twoLines (/ 10 ^ 6)), outOf (twoLines 0))] = Succeeds /\ verifierRun None [(outOf (twoLines (/ 10 ^ 4)), outOf (twoLines 0))] <> Succeeds.
Proof.
  split.
  - apply run_spec; [now left|constructor; [apply twoLines_proper|constructor]|constructor; [apply twoLines_close|constructor]].
  - intros H. apply run_spec in H; [|now left|constructor; [apply twoLines_proper|constructor]]. inversion H; subst. now apply twoLines_far.
Qed.
(** a single line against two *)
Definition late : list (list number) := [[num 0; num 1]; [num (/ 10 ^ 9); num 1]].
Definition single : list (list number) := [[num 0; num 1]].
Lemma one_line : verifierRun None [(outOf single, outOf late)] = Succeeds /\ ~ closeTrajectories single late.
Proof.
  split.
  - cbn [verifierRun verifyFull fold_right fst snd]. rewrite !andThen_spec. split; [|split; [|reflexivity]].
    + unfold verifyEv, outOf. cbn [trajectory]. unfold single, late, genfromtxt. cbn [forallb List.length Nat.eqb andb]. apply verdict_true. unfold allclose.
      cbn [shape broadcastShape rev app alignRev Nat.eqb option_map]. f_equal. apply forallb_forall. intros i Hi. apply isclose_spec. cbn in Hi.
      destruct Hi as [<-|[<-|[<-|[<-|[]]]]]; cbn; try apply same_close. apply close_num. rewrite Rabs_left by lra. rewrite Rabs_right by lra. lra.
    + apply (state_spec _ _ oneState oneState); [reflexivity|reflexivity|apply oneState_comparable|apply oneState_close].
  - intros H. inversion H as [|? ? ? ? _ H1]; subst. inversion H1.
Qed.
(** a single state against two *)
Definition flat : list nat -> number := fun _ => num 1.
Definition states1 : stateFile := mkStates [2] [flat] [num 0].
Definition states2 : stateFile := mkStates [2] [flat; flat] [num 0; num (/ 10 ^ 9)].
Definition withStates (f : stateFile) : outputs := mkOut (Some (twoLines 0)) (Some f).
Lemma one_state : verifierRun None [(withStates states1, withStates states2)] = Succeeds /\ verifierRun None [(withStates states2, withStates states1)] = Succeeds /\
  ~ closeStates states1 states2.
Proof.
  assert (T : verifyEv (withStates states1) (withStates states2) = Succeeds /\ verifyEv (withStates states2) (withStates states1) = Succeeds).
  { split; (apply (ev_spec _ _ (twoLines 0) (twoLines 0)); [reflexivity|reflexivity|apply twoLines_table|apply twoLines_table|repeat constructor; apply same_close]). }
  assert (N1 : close (num 0) (num (/ 10 ^ 9))). { apply close_num. rewrite Rabs_left by lra. rewrite Rabs_right by lra. lra. }
  assert (N2 : close (num (/ 10 ^ 9)) (num 0)). { apply close_num. rewrite Rabs_right by lra. rewrite Rabs_right by lra. lra. }
  split; [|split].
  1, 2: cbn [verifierRun verifyFull fold_right fst snd]; rewrite !andThen_spec; split; [apply T|split; [|reflexivity]];
    unfold verifyState, withStates; cbn [state]; apply verdict_true; unfold statesArray, timesArray, states1, states2; cbn [states times extents List.length];
    assert (E : forall f g, f = Some true -> g = Some true -> both f g = Some true) by (now intros f g -> ->); apply E; unfold allclose;
    cbn [shape broadcastShape rev app alignRev Nat.eqb option_map]; f_equal; apply forallb_forall; intros i Hi; apply isclose_spec; cbn in Hi;
    repeat (destruct Hi as [<-|Hi]; [cbn; first [apply same_close|trivial]|]); contradiction.
  - intros (_ & H & _). inversion H as [|? ? ? ? _ H1]; subst. inversion H1.
Qed.
Lemma other_mode m runs : m <> "full"%string -> m <> "outcome"%string -> verifierRun (Some m) runs = Succeeds.
Proof. intros N N'. cbn. destruct (String.eqb_spec m "full"); [contradiction|]. destruct (String.eqb_spec m "outcome"); [contradiction|reflexivity]. Qed.

Lemma outcome_refuted : (exists runs, Forall proper runs /\ Forall agreeing runs /\ runs <> []) /\ forall runs, verifierRun (Some "outcome"%string) runs <> Succeeds.
Proof.
  split; [|intros runs; discriminate]. exists [(outOf (twoLines (/ 10 ^ 6)), outOf (twoLines 0))]. split; [constructor; [apply twoLines_proper|constructor]|].
  split; [constructor; [apply twoLines_close|constructor]|discriminate].
Qed.
Lemma other_refuted : exists runs, Forall proper runs /\ ~ Forall agreeing runs /\ forall m, m <> "full"%string -> m <> "outcome"%string -> verifierRun (Some m) runs = Succeeds.
Proof.
  exists [(outOf (twoLines (/ 10 ^ 4)), outOf (twoLines 0))]. split; [constructor; [apply twoLines_proper|constructor]|].
  split; [intros H; inversion H; subst; now apply twoLines_far|]. intros m. apply other_mode.
Qed.

(** ** compilation *)
Definition chars (s : string) : list ascii := list_ascii_of_string s.
Lemma occurs_case : occurs (chars "Argument not even") (chars "error: Argument not even.").
Proof. exists (chars "error: "), (chars "."). reflexivity. Qed.
Lemma ragged_case : ragged [[NaN]; [NaN; NaN]].
Proof. exists [NaN], [NaN; NaN]. repeat split; cbn; auto. Qed.
