(** Concrete systems for the statements on Master trajectories, and the MCWF half of C40. *)
From Coq Require Import List Arith Bool Lia Reals Lra ZArith FunctionalExtensionality.
From Verif Require Import Star CReal Arr HermSpec OdeModel DensityModel PureModel PureProofs McwfModel McwfSpec McwfProofs McwfLemmas McwfCases
  MasterModel MasterSpec MasterProofs MasterLemmas.
Import ListNotations.

(** an operator as a function on state vectors, a channel with and without superoperator *)
Section Ops.
Context {K : StarRing}.
Add Ring KringMC : (k_ring K).
Notation op := (list nat -> list nat -> K).
Definition matop (dims : list nat) (a : op) (psi : list nat -> K) : list nat -> K := fun i => isum dims (fun k => kmul (a i k) (psi k)).
Lemma matop_acts dims a : acts_as dims (matop dims a) a.
Proof. intros psi i _. reflexivity. Qed.
Definition superOf (dims : list nat) (a : op) (rho d : list nat -> K) : list nat -> K :=
  fun y => kadd (d y) (conjugated dims a (asOp rho) (firstn (length dims) y) (skipn (length dims) y)).
Lemma channel_super dims (a : op) : channel_is dims (matop dims a, Some (superOf dims a)) a.
Proof.
  split; [apply matop_acts|]. cbn. intros rho d i j Hi Hj. unfold asOp at 1, superOf, madd.
  rewrite <- (inr_length _ _ Hi). rewrite firstn_app, firstn_all, Nat.sub_diag, skipn_app, skipn_all, Nat.sub_diag.
  cbn [firstn skipn app]. now rewrite app_nil_r.
Qed.
Lemma channel_plain dims (a : op) : channel_is dims (matop dims a, None) a.
Proof. split; [apply matop_acts|exact I]. Qed.
End Ops.

(** * C37: a propagator on two subsystems, a non-Hermitian matrix *)
Definition numU (i j : list nat) : GaussZ := (Z.of_nat (3 * pos [2;2]%nat i + pos [2;2]%nat j * pos [2;2]%nat j), Z.of_nat (pos [2;2]%nat i) - 2)%Z.
Definition numRho (y : list nat) : GaussZ := (Z.of_nat (pos [2;2;2;2]%nat y), Z.of_nat (pos [2;2;2;2]%nat y mod 3) - 1)%Z.
Definition numCheck : bool :=
  match exactPart [2;2]%nat (matop [2;2]%nat numU) numRho with
  | Some r => forallb (fun i => forallb (fun j =>
      let a := r (i ++ j) in let b := conjugated [2;2]%nat numU (asOp numRho) i j in (Z.eqb (fst a) (fst b) && Z.eqb (snd a) (snd b))%bool)
      (indices [2;2]%nat)) (indices [2;2]%nat)
  | None => false
  end.
Lemma numCheck_ok : numCheck = true. Proof. vm_compute. reflexivity. Qed.

Local Open Scope R_scope.
Notation op := (list nat -> list nat -> CR).
Notation array := (list nat -> CR).

(** * The decaying two-level atom: H = |1><1|, J = |0><1| *)
Definition atomH : op := fun i j => match i, j with [1%nat], [1%nat] => k1 | _, _ => k0 end.
Definition atomJ : op := fun i j => match i, j with [0%nat], [1%nat] => k1 | _, _ => k0 end.
Definition atomQ (super : bool) : qsystem :=
  mkQ [2%nat] (Some (noTimeQ (matop [2%nat] (fun i j => kmul (kopp CI) (nonHermitian [2%nat] atomH [atomJ] i j))))) None
      (fun _ => [(matop [2%nat] atomJ, if super then Some (superOf [2%nat] atomJ) else None)]) true.
Definition excited : array := fun y => match y with [1%nat; 1%nat] => k1 | _ => k0 end.

Lemma inr2 i : inr [2%nat] i -> i = [0%nat] \/ i = [1%nat].
Proof.
  intros H. inversion H as [|a ? l ? Ha Hl]; subst. inversion Hl; subst. destruct a as [|[|a]]; auto. lia.
Qed.
Lemma in2_0 : inr [2%nat] [0%nat]. Proof. repeat constructor. Qed.
Lemma in2_1 : inr [2%nat] [1%nat]. Proof. repeat constructor. Qed.
Lemma pos2 k : In k [2%nat] -> (0 < k)%nat. Proof. intros [<-|[]]; lia. Qed.
Lemma isum2 (f : list nat -> CR) : isum [2%nat] f = kadd (f [0%nat]) (f [1%nat]).
Proof. unfold isum. cbn [indices flat_map seq map app ksum fold_right]. unfold ksum. cbn [fold_right]. apply cr_eq; cbn; ring. Qed.

Lemma atomH_hermitian : hermitian [2%nat] atomH.
Proof. intros i j Hi Hj. destruct (inr2 i Hi), (inr2 j Hj); subst; apply cr_eq; cbn; lra. Qed.
Lemma excited_hermitian : hermitian [2%nat] (asOp excited).
Proof. intros i j Hi Hj. destruct (inr2 i Hi), (inr2 j Hj); subst; apply cr_eq; cbn; lra. Qed.
Lemma atom_channels super t : Forall2 (channel_is [2%nat]) (qLi (atomQ super) t) [atomJ].
Proof. constructor; [|constructor]. destruct super; [apply channel_super | apply channel_plain]. Qed.
Lemma atom_hamiltonian super t t0 :
  hamiltonian_is [2%nat] (option_map (fun h => h t t0) (qHa (atomQ super))) (nonHermitian [2%nat] atomH [atomJ]).
Proof. apply matop_acts. Qed.
Lemma atom_decays super t t0 : derivative (atomQ super) t0 excited t [1%nat; 1%nat] = kopp k1 /\
  derivative (atomQ super) t0 excited t [0%nat; 0%nat] = k1.
Proof.
  unfold derivative. cbn [qDims atomQ].
  destruct (rhs_lindblad [2%nat] (option_map (fun h => h t t0) (qHa (atomQ super))) _ (qLi (atomQ super) t) [atomJ] excited
    pos2 excited_hermitian (atom_hamiltonian super t t0) (atom_channels super t)) as [d [E H]].
  change (option_map (fun h => h t t0) (qHa (atomQ super))) with
    (option_map (fun h : R -> R -> array -> array => h t t0) (qHa (atomQ super))).
  cbn [qHa qLi atomQ] in E |- *. rewrite E.
  change (d [1%nat; 1%nat]) with (asOp d [1%nat] [1%nat]). change (d [0%nat; 0%nat]) with (asOp d [0%nat] [0%nat]).
  rewrite !H by (apply in2_0 || apply in2_1).
  unfold lindblad, conjugated, mmul, msum, nonHermitian, mmul. cbn [map]. rewrite !isum2. unfold msum, ksum. cbn [fold_right map]. rewrite !isum2.
  unfold CI, RC, dag, asOp. split; apply cr_eq; cbn; lra.
Qed.

(** the explicit Euler method for density operators *)
Definition eulerA (f : array -> R -> array) (rho : array) (t dt : R) : attempt array * nat :=
  (Success (fun y => kadd (rho y) (kmul (RC dt) (f rho t y))) (t + dt) dt, 1%nat).

Lemma eulerA_step1 f e t rho : dtTry e = 1 -> step (eulerA f) 0 1 e t rho =
  Some (mkEngine (t + 1 - t) 1 (nDerivs e + 1) (S (nSteps e)) (nFailed e), t + 1, fun y => kadd (rho y) (kmul (RC 1) (f rho t y))).
Proof.
  intros E. unfold step. rewrite E. unfold sgn. destruct (Rle_dec 0 1); [|lra]. cbn [Bool.eqb].
  rewrite (Rabs_pos_eq 1) by lra. rewrite (Rabs_pos_eq (1/10)) by lra. decide_R. cbn [tries eulerA Nat.add]. decide_R. rewrite Nat.add_0_r. reflexivity.
Qed.

(** one Euler step of unit length without exact part *)
Lemma euler_master sys hnh js x : (forall k, In k (qDims sys) -> (0 < k)%nat) -> qEx sys = None -> dtTry (mOde x) = 1 ->
  hamiltonian_is (qDims sys) (option_map (fun h => h (mTime x) (mT0 x)) (qHa sys)) hnh ->
  Forall2 (channel_is (qDims sys)) (qLi sys (mTime x)) js ->
  (exists h, hermitian (qDims sys) h /\ mmeq (qDims sys) hnh (nonHermitian (qDims sys) h js)) ->
  hermitian (qDims sys) (asOp (mRho x)) -> mtrace (qDims sys) (asOp (mRho x)) = k1 ->
  exists e t rho y, step (eulerA (derivative sys (mT0 x))) 0 1 (mOde x) (mTime x) (mRho x) = Some (e, t, rho) /\
    mtrace (qDims sys) (asOp rho) = k1 /\
    masterStep eulerA sys 0 1 x = Some y /\ dtTry (mOde y) = 1 /\ mTime y = mTime x + 1 /\ mT0 y = mTime x + 1 /\
    mmeq (qDims sys) (asOp (mRho y)) (fun i j => kadd (asOp (mRho x) i j) (lindblad (qDims sys) hnh js (asOp (mRho x)) i j)) /\
    hermitian (qDims sys) (asOp (mRho y)) /\ mtrace (qDims sys) (asOp (mRho y)) = k1.
Proof.
  intros Hpos Hex Hdt Hha Hli [h [Hh Hn]] Hherm Htr. set (dims := qDims sys) in *.
  destruct (rhs_lindblad dims _ hnh _ js (mRho x) Hpos Hherm Hha Hli) as [d [Ed Hd]].
  assert (Er : derivative sys (mT0 x) (mRho x) (mTime x) = d) by (unfold derivative; fold dims; now rewrite Ed).
  pose proof (eulerA_step1 (derivative sys (mT0 x)) (mOde x) (mTime x) (mRho x) Hdt) as Es.
  set (rho := fun y => kadd (mRho x y) (kmul (RC 1) (derivative sys (mT0 x) (mRho x) (mTime x) y))) in *.
  set (target := fun i j => kadd (asOp (mRho x) i j) (lindblad dims hnh js (asOp (mRho x)) i j)).
  assert (Hr : mmeq dims (asOp rho) target).
  { intros i j Hi Hj. unfold asOp at 1, rho, target. rewrite Er. change (d (i ++ j)) with (asOp d i j). rewrite Hd by auto.
    f_equal. set (z := lindblad dims hnh js (asOp (mRho x)) i j). clearbody z. unfold RC. apply cr_eq; cbn; lra. }
  assert (Ht : mtrace dims (asOp rho) = k1).
  { rewrite (mtrace_ext _ _ _ Hr). change (mtrace dims (madd (asOp (mRho x)) (lindblad dims hnh js (asOp (mRho x)))) = k1).
    rewrite mtrace_add, (lindblad_trace dims h) by auto. rewrite Htr. apply cr_eq; cbn; lra. }
  assert (Hhr : hermitian dims (asOp rho)).
  { intros i j Hi Hj. unfold dag. rewrite !Hr by auto. unfold target. rewrite kconj_add. f_equal; [now apply Hherm|].
    now apply (lindblad_hermitian dims hnh js (asOp (mRho x))). }
  do 4 eexists. split; [exact Es|]. split; [exact Ht|]. split.
  { unfold masterStep. rewrite Es, Hex. reflexivity. }
  cbn [mOde dtTry mTime mT0 mRho]. split; [auto|]. split; [auto|]. split; [auto|].
  destruct (clean_spec dims rho) as (C1 & C2 & C3); [rewrite Ht; cbn; lra|].
  split; [|auto]. intros i j Hi Hj. rewrite C1 by auto. rewrite (cleaned_good dims (asOp rho) Hhr Ht) by auto. now apply Hr.
Qed.

(** * C39: a step of the atom *)
Definition atomM (super : bool) : master := mkMaster 0 0 excited (newEngine 1).
Lemma excited_trace : mtrace [2%nat] (asOp excited) = k1.
Proof. unfold mtrace. rewrite isum2. apply cr_eq; cbn; lra. Qed.
Lemma atom_master super : newMaster (atomQ super) excited 1 = Some (atomM super) /\
  exists e t rho y, step (eulerA (derivative (atomQ super) 0)) 0 1 (newEngine 1) 0 excited = Some (e, t, rho) /\
    mtrace [2%nat] (asOp rho) = k1 /\ propagator_is (atomQ super) t 0 (fun i j => if listnat_eqb i j then k1 else k0) /\
    masterStep eulerA (atomQ super) 0 1 (atomM super) = Some y /\
    mRho y [0%nat; 0%nat] = k1 /\ mRho y [1%nat; 1%nat] = k0.
Proof.
  split; [reflexivity|].
  destruct (euler_master (atomQ super) (nonHermitian [2%nat] atomH [atomJ]) [atomJ] (atomM super) pos2 eq_refl eq_refl
    (atom_hamiltonian super 0 0) (atom_channels super 0)
    (ex_intro _ atomH (conj atomH_hermitian (fun i j _ _ => eq_refl))) excited_hermitian excited_trace)
    as (e & t & rho & y & E1 & E2 & E3 & _ & _ & _ & E4 & _).
  exists e, t, rho, y. split; [exact E1|]. split; [exact E2|]. split; [intros i j; reflexivity|]. split; [exact E3|].
  cbn [qDims atomQ] in E4.
  change (mRho y [0%nat; 0%nat]) with (asOp (mRho y) [0%nat] [0%nat]). change (mRho y [1%nat; 1%nat]) with (asOp (mRho y) [1%nat] [1%nat]).
  rewrite !E4 by (apply in2_0 || apply in2_1).
  unfold lindblad, conjugated, mmul, msum, nonHermitian, mmul. cbn [map]. rewrite !isum2. unfold msum, ksum. cbn [fold_right map]. rewrite !isum2.
  unfold CI, RC, dag, asOp. cbn [atomM mRho]. split; apply cr_eq; cbn; lra.
Qed.

(** * C40: the energy of level 1 is t *)
Definition driveH (t : R) : op := fun i j => match i, j with [1%nat], [1%nat] => RC t | _, _ => k0 end.
Definition driveF (t : R) : array -> array := matop [2%nat] (fun i j => kmul (kopp CI) (driveH t i j)).
Definition driveQ : qsystem := mkQ [2%nat] (Some (oneTimeQ driveF)) None (fun _ => []) true.
(** the same evaluated at the time of the trajectory *)
Definition driveAbs : qsystem := mkQ [2%nat] (Some (fun t _ => driveF t)) None (fun _ => []) true.
Definition plus : array := fun _ => RC (1/2).

Lemma drive_hermitian t : hermitian [2%nat] (driveH t).
Proof. intros i j Hi Hj. destruct (inr2 i Hi), (inr2 j Hj); subst; unfold driveH, dag, RC; apply cr_eq; cbn; lra. Qed.
Lemma drive_nonH t : mmeq [2%nat] (driveH t) (nonHermitian [2%nat] (driveH t) []).
Proof. intros i j Hi Hj. unfold nonHermitian, msum. cbn [map ksum fold_right]. unfold ksum. cbn [fold_right]. set (z := driveH t i j). clearbody z. unfold CI, RC. apply cr_eq; cbn; lra. Qed.

Definition tracks (s : array) (c : CR) : Prop :=
  s [0%nat; 0%nat] = RC (1/2) /\ s [1%nat; 1%nat] = RC (1/2) /\ s [0%nat; 1%nat] = c /\ s [1%nat; 0%nat] = kconj c.

Lemma drive_one sys tau x c : sys = driveQ /\ tau = mTime x - mT0 x \/ sys = driveAbs /\ tau = mTime x -> dtTry (mOde x) = 1 ->
  tracks (mRho x) c ->
  exists y, masterStep eulerA sys 0 1 x = Some y /\ dtTry (mOde y) = 1 /\ mTime y = mTime x + 1 /\ mT0 y = mTime x + 1 /\
    tracks (mRho y) (kmul ((1, tau) : CR) c).
Proof.
  intros Hs Hdt (T1 & T2 & T3 & T4).
  assert (Hherm : hermitian [2%nat] (asOp (mRho x))).
  { intros i j Hi Hj. unfold dag, asOp. destruct (inr2 i Hi), (inr2 j Hj); subst; cbn [app]; rewrite ?T1, ?T2, ?T3, ?T4, ?kconj_invol, ?RC_conj; auto. }
  assert (Htr : mtrace [2%nat] (asOp (mRho x)) = k1).
  { unfold mtrace, asOp. rewrite isum2. cbn [app]. rewrite T1, T2, RC_add. unfold RC. apply cr_eq; cbn; lra. }
  assert (D : qDims sys = [2%nat]) by (destruct Hs as [[-> _]|[-> _]]; reflexivity).
  assert (Ha : hamiltonian_is [2%nat] (option_map (fun h => h (mTime x) (mT0 x)) (qHa sys)) (driveH tau)).
  { destruct Hs as [[-> ->]|[-> ->]]; apply matop_acts. }
  destruct (euler_master sys (driveH tau) [] x) as (e & t & rho & y & _ & _ & E3 & E5 & E6 & E7 & E4 & _); rewrite ?D; auto using pos2.
  - destruct Hs as [[-> _]|[-> _]]; reflexivity.
  - destruct Hs as [[-> _]|[-> _]]; constructor.
  - exists (driveH tau). split; [apply drive_hermitian | apply drive_nonH].
  - exists y. split; [exact E3|]. split; [exact E5|]. split; [exact E6|]. split; [exact E7|].
    rewrite D in E4. unfold tracks.
    change (mRho y [0%nat; 0%nat]) with (asOp (mRho y) [0%nat] [0%nat]). change (mRho y [1%nat; 1%nat]) with (asOp (mRho y) [1%nat] [1%nat]).
    change (mRho y [0%nat; 1%nat]) with (asOp (mRho y) [0%nat] [1%nat]). change (mRho y [1%nat; 0%nat]) with (asOp (mRho y) [1%nat] [0%nat]).
    rewrite !E4 by (apply in2_0 || apply in2_1).
    unfold lindblad, mmul, msum. cbn [map]. unfold ksum. cbn [fold_right]. rewrite !isum2. unfold asOp. cbn [app].
    rewrite T1, T2, T3, T4. unfold driveH, dag, CI, RC. destruct c as [a b]. repeat split; apply cr_eq; cbn; lra.
Qed.

Lemma drive_master_differ : exists x0 y z, newMaster driveQ plus 1 = Some x0 /\ newMaster driveAbs plus 1 = Some x0 /\
  masterSteps eulerA driveQ 0 [1; 1] x0 = Some y /\ masterSteps eulerA driveAbs 0 [1; 1] x0 = Some z /\
  mRho y [0%nat; 1%nat] = RC (1/2) /\ mRho z [0%nat; 1%nat] = ((1/2, 1/2) : CR).
Proof.
  set (x0 := mkMaster 0 0 plus (newEngine 1)).
  assert (T0 : tracks (mRho x0) (RC (1/2))) by (repeat split; rewrite ?RC_conj; reflexivity).
  assert (P1 : 0 = mTime x0 - mT0 x0) by (cbn; lra). assert (P2 : 0 = mTime x0) by reflexivity.
  destruct (drive_one driveQ 0 x0 _ (or_introl (conj eq_refl P1)) eq_refl T0) as (x1 & A1 & A2 & A3 & A4 & A5).
  assert (P3 : 0 = mTime x1 - mT0 x1) by (rewrite A3, A4; lra).
  destruct (drive_one driveQ 0 x1 _ (or_introl (conj eq_refl P3)) A2 A5) as (x2 & B1 & B2 & B3 & B4 & B5).
  destruct (drive_one driveAbs 0 x0 _ (or_intror (conj eq_refl P2)) eq_refl T0) as (z1 & C1 & C2 & C3 & C4 & C5).
  assert (P4 : 1 = mTime z1) by (rewrite C3; cbn; lra).
  destruct (drive_one driveAbs 1 z1 _ (or_intror (conj eq_refl P4)) C2 C5) as (z2 & D1 & D2 & D3 & D4 & D5).
  exists x0, x2, z2. split; [reflexivity|]. split; [reflexivity|]. cbn [masterSteps]. rewrite A1, B1, C1, D1.
  split; [reflexivity|]. split; [reflexivity|]. destruct B5 as (_ & _ & -> & _). destruct D5 as (_ & _ & -> & _).
  unfold RC. split; apply cr_eq; cbn; lra.
Qed.

(** * C40 for MCWF: the run with the dispatched Hamiltonian is the run with the Hamiltonian at the time of the trajectory *)
Section McwfTime.
Context {Rng : Type}.
Variable odeTry : (carr CR -> R -> carr CR) -> carr CR -> R -> R -> attempt (carr CR) * nat.
Variable sample : Rng -> R * Rng.
Variables dpLimit tol : R.
Variable li : option liouvillean.
Variable f : R -> carr CR -> carr CR.
Notation s1 := (mkSys (Some (oneTimeHa f)) None li).
Notation s2 := (mkSys (Some (fun t psi _ => f t psi)) None li).

Lemma rhs_abs t0 : rhs (oneTimeHa f) 0 = rhs (fun t psi _ => f t psi) t0.
Proof.
  apply functional_extensionality. intros psi. apply functional_extensionality. intros t. unfold rhs, oneTimeHa. now rewrite Rminus_0_r.
Qed.
Lemma coherent_abs odeFuel Dt (x : traj Rng) : tT0 x = 0 -> coherent odeTry s1 odeFuel Dt x = coherent odeTry s2 odeFuel Dt x /\
  normBefore odeTry s1 odeFuel Dt x = normBefore odeTry s2 odeFuel Dt x /\
  forall y, coherent odeTry s2 odeFuel Dt x = Some y -> tT0 y = 0.
Proof.
  intros H. unfold coherent, normBefore, evolve. cbn [sysHa sysEx applyExact]. rewrite H, (rhs_abs 0). split; [reflexivity|]. split; [reflexivity|].
  intros y. destruct (tInf x); [discriminate|]. destruct (step _ _ _ _ _ _) as [[[e t] psi]|]; [|discriminate].
  cbn [option_map]. unfold renormalise, applyExact. cbn [sysEx tPsi]. destruct (renormSV psi). intros E. injection E as <-. reflexivity.
Qed.
Lemma stepLoop_abs li' Dt psiC tc dc odeFuel fuel : forall x : traj Rng, tT0 x = 0 ->
  stepLoop odeTry sample s1 dpLimit tol fuel odeFuel li' Dt psiC tc dc x = stepLoop odeTry sample s2 dpLimit tol fuel odeFuel li' Dt psiC tc dc x /\
  forall r ev, stepLoop odeTry sample s2 dpLimit tol fuel odeFuel li' Dt psiC tc dc x = Some (r, ev) -> tT0 r = 0.
Proof.
  assert (Hperf : forall rates sp (y : traj Rng) r j, performJump sample li' rates sp y = (r, j) -> tT0 r = tT0 y).
  { intros rates sp y r j E. now destruct (performJump_keeps _ _ _ _ _ _ _ E) as (_ & H & _). }
  induction fuel as [|fuel IH]; intros x Hx; cbn [stepLoop]; destruct (ratesAt li' x) as [rates sp];
    change (manageTimeStep s1 dpLimit tol rates tc dc true x) with (manageTimeStep s2 dpLimit tol rates tc dc true x);
    destruct (manageTimeStep s2 dpLimit tol rates tc dc true x) as [b y] eqn:Em;
    assert (Hy : tT0 y = 0) by (destruct b;
      [destruct (manage_true _ _ _ _ _ _ _ _ _ Em) as (_ & _ & M & _) | destruct (manage_false _ _ _ _ _ _ _ _ _ Em) as (_ & _ & M & _)]; congruence);
    destruct b.
  - split; [reflexivity|discriminate].
  - destruct (performJump sample li' rates sp y) as [r jump] eqn:Ej. split; [reflexivity|]. intros r' ev E. injection E as <- <-.
    rewrite (Hperf _ _ _ _ _ Ej). exact Hy.
  - set (z := mkTraj (tTime y) (tT0 y) psiC (tOde y) (tInf y) (tRng y) (tLog y)).
    destruct (coherent_abs odeFuel Dt z Hy) as (-> & -> & Hc).
    destruct (coherent odeTry s2 odeFuel Dt z) as [w|]; [|split; [reflexivity|discriminate]].
    destruct (IH w (Hc w eq_refl)) as [-> Hw]. split; [reflexivity|].
    destruct (stepLoop odeTry sample s2 dpLimit tol fuel odeFuel li' Dt psiC tc dc w) as [[r ev]|]; [|discriminate].
    intros r' ev' E. injection E as <- <-. apply (Hw r ev). reflexivity.
  - destruct (performJump sample li' rates sp y) as [r jump] eqn:Ej. split; [reflexivity|]. intros r' ev E. injection E as <- <-.
    rewrite (Hperf _ _ _ _ _ Ej). exact Hy.
Qed.
Lemma msteps_abs fuel odeFuel Dts : forall x : traj Rng, tT0 x = 0 ->
  msteps odeTry sample s1 dpLimit tol fuel odeFuel Dts x = msteps odeTry sample s2 dpLimit tol fuel odeFuel Dts x.
Proof.
  induction Dts as [|Dt Dts IH]; intros x Hx; cbn [msteps]; auto.
  assert (E : mstep odeTry sample s1 dpLimit tol fuel odeFuel Dt x = mstep odeTry sample s2 dpLimit tol fuel odeFuel Dt x /\
    forall r ev, mstep odeTry sample s2 dpLimit tol fuel odeFuel Dt x = Some (r, ev) -> tT0 r = 0).
  { unfold mstep. destruct (coherent_abs odeFuel Dt x Hx) as (-> & -> & Hc).
    destruct (coherent odeTry s2 odeFuel Dt x) as [y|]; [|split; [reflexivity|discriminate]].
    specialize (Hc y eq_refl). cbn [sysLi].
    pose proof (fun l => stepLoop_abs l Dt (tPsi x) (tTime x) (dtDid (tOde x)) odeFuel fuel y Hc) as HL. destruct li as [l|].
    - destruct (HL l) as [-> Hr]. split; [reflexivity|].
      destruct (stepLoop _ _ _ _ _ _ _ _ _ _ _ _ y) as [[r ev]|]; [|discriminate]. intros r' ev' E. injection E as <- <-.
      cbn [setLog tT0]. apply (Hr r ev). reflexivity.
    - split; [reflexivity|]. intros r' ev' E. injection E as <- <-. exact Hc. }
  destruct E as [-> H]. destruct (mstep odeTry sample s2 dpLimit tol fuel odeFuel Dt x) as [[r ev]|]; auto.
  rewrite (IH r (H r ev eq_refl)). reflexivity.
Qed.
Lemma newTraj_abs psi dtInit (rng : Rng) : newTraj s1 dpLimit tol psi dtInit rng = newTraj s2 dpLimit tol psi dtInit rng /\
  tT0 (newTraj s2 dpLimit tol psi dtInit rng) = 0.
Proof.
  split; [reflexivity|]. unfold newTraj. cbn [sysLi]. destruct li as [l|]; [|reflexivity].
  destruct (manageTimeStep _ _ _ _ _ _ _ _) as [b y] eqn:Em. cbn [snd].
  destruct b; [destruct (manage_true _ _ _ _ _ _ _ _ _ Em) as (_ & _ & M & _) | destruct (manage_false _ _ _ _ _ _ _ _ _ Em) as (_ & _ & M & _)]; rewrite M; reflexivity.
Qed.
Lemma mcwf_time psi dtInit (rng : Rng) Dts fuel odeFuel :
  msteps odeTry sample s1 dpLimit tol fuel odeFuel Dts (newTraj s1 dpLimit tol psi dtInit rng) =
  msteps odeTry sample s2 dpLimit tol fuel odeFuel Dts (newTraj s2 dpLimit tol psi dtInit rng).
Proof. destruct (newTraj_abs psi dtInit rng) as [-> H]. now apply msteps_abs. Qed.
End McwfTime.
