(** Concrete systems for the statements on MCWF trajectories. *)
From Coq Require Import List Arith Reals Lra Lia FunctionalExtensionality.
From Verif Require Import Star CReal OdeModel DensityModel PureModel PureProofs McwfModel McwfSpec McwfProofs McwfLemmas.
Import ListNotations.
Local Open Scope R_scope.

Definition vec2 (a b : CR) : carr CR := mkCarr [2%nat] (fun p => match p with 0%nat => a | 1%nat => b | _ => k0 end).
Lemma sqrNorm_vec2 a b : sqrNorm (vec2 a b) = csq a + csq b.
Proof. unfold sqrNorm, vec2, cSize, rsum. cbn. ring. Qed.
Lemma scale_vec2 a b x : scaleBy (vec2 a b) x = vec2 (kmul (RC x) a) (kmul (RC x) b).
Proof.
  unfold scaleBy, vec2. cbn [cSh cDat]. f_equal. apply functional_extensionality. intros [|[|p]]; auto.
  apply cr_eq; cbn; ring.
Qed.
Lemma renorm_vec2 a b : csq a + csq b = 1 -> renormSV (vec2 a b) = (1, vec2 a b).
Proof.
  intros H. unfold renormSV, frobeniusNorm. rewrite sqrNorm_vec2, H, sqrt_1, scale_vec2, Rinv_1. f_equal. f_equal; apply cr_eq; cbn; ring.
Qed.

Lemma rsum_zero {A} (f : A -> R) l : (forall x, In x l -> 0 <= f x) -> rsum f l = 0 -> forall x, In x l -> f x = 0.
Proof.
  induction l as [|a l IH]; [easy|]. intros Hp. change (rsum f (a :: l)) with (f a + rsum f l). intros H0 x Hx.
  assert (0 <= rsum f l) by (apply rsum_nonneg; intros; apply Hp; now right). assert (0 <= f a) by (apply Hp; now left).
  destruct Hx as [<-|Hx]; [lra|]. apply IH; auto; [intros y Hy; apply Hp; now right|lra].
Qed.
Lemma nonzero_pointwise (a b : carr CR) : cSh a = cSh b -> (forall p, csq (cDat b p) = 0 -> csq (cDat a p) = 0) -> sqrNorm a <> 0 -> sqrNorm b <> 0.
Proof.
  intros Es H Ha Hb. apply Ha. unfold sqrNorm in *. unfold cSize in *. rewrite Es in *.
  assert (E : forall p, In p (seq 0 (fold_right Nat.mul 1%nat (cSh b))) -> csq (cDat b p) = 0) by (intros p Hp; refine (rsum_zero _ _ _ Hb p Hp); intros q _; apply csq_nonneg).
  clear Ha Hb. induction (seq 0 (fold_right Nat.mul 1%nat (cSh b))) as [|p l IH]; [reflexivity|].
  change (csq (cDat a p) + rsum (fun p => csq (cDat a p)) l = 0).
  rewrite (H p), IH; [lra| |]; intros; apply E; [now right | now left].
Qed.

(** the explicit Euler method, always accepting the step *)
Definition eulerTry (f : carr CR -> R -> carr CR) (psi : carr CR) (t dt : R) : attempt (carr CR) * nat :=
  (Success (mkCarr (cSh psi) (fun p => kadd (cDat psi p) (kmul (RC dt) (cDat (f psi t) p)))) (t + dt) dt, 1%nat).
Lemma euler_forward f : forward_stepper (eulerTry f).
Proof. intros st t dt. cbn. auto. Qed.

(** A decaying two-level atom, the decay between jumps solved exactly: excited level 1, decay rate 1 *)
Definition atomLi : liouvillean := mkLi (fun _ psi => [csq (cDat psi 1)]) (fun _ psi _ => vec2 (cDat psi 1%nat) k0).
Definition atomU (t : R) (psi : carr CR) (t0 : R) : carr CR :=
  mkCarr (cSh psi) (fun p => match p with 1%nat => kmul (RC (exp (- (t - t0) / 2))) (cDat psi p) | _ => cDat psi p end).
Definition atomSys : msystem := mkSys None (Some atomU) (Some atomLi).
Lemma atom_truthful : truthful_rates atomLi.
Proof. intros t psi [|k] _ Hk _; [|cbn in Hk; lia]. cbn [liJump liRates atomLi nth]. rewrite sqrNorm_vec2. unfold csq at 2. cbn. ring. Qed.
Lemma atom_nonzero : keeps_nonzero eulerTry atomSys.
Proof.
  split; [intros h t0 psi t dt E; discriminate|]. intros u t t0 psi E Hn. injection E as <-. revert Hn. apply nonzero_pointwise; [reflexivity|].
  intros [|[|p]]; auto. unfold atomU. cbn [cDat]. rewrite csq_mul, csq_RC. intros H. pose proof (exp_pos (- (t - t0) / 2)).
  apply Rmult_integral in H. destruct H as [H|H]; auto. nra.
Qed.
Lemma atom_rates t a b : channelRates atomLi t (vec2 a b) = [csq b].
Proof. unfold channelRates. cbn. destruct (Rlt_dec (csq b) 0); auto. pose proof (csq_nonneg b). lra. Qed.
Lemma atomU_vec2 t a b t0 : atomU t (vec2 a b) t0 = vec2 a (kmul (RC (exp (- (t - t0) / 2))) b).
Proof. unfold atomU, vec2. cbn [cSh cDat]. f_equal. apply functional_extensionality. intros [|[|p]]; reflexivity. Qed.

Definition fixed (u : R) (rng : unit) : R * unit := (u, tt).
Definition atom0 : traj unit := newTraj atomSys (1/10) 2 (vec2 k0 k1) 1 tt.

Lemma csq_k1 : csq (k1 : CR) = 1. Proof. unfold csq. cbn. ring. Qed.
Lemma csq_k0 : csq (k0 : CR) = 0. Proof. unfold csq. cbn. ring. Qed.
Ltac decide_R := repeat match goal with
  | |- context[Rlt_dec ?a ?b] => destruct (Rlt_dec a b); try (exfalso; lra)
  | |- context[Req_EM_T ?a ?b] => destruct (Req_EM_T a b); try (exfalso; lra)
  end.

Lemma atom0_ok : tTime atom0 = 0 /\ tT0 atom0 = 0 /\ tPsi atom0 = vec2 k0 k1 /\ getTry atom0 = Fin (1/10).
Proof.
  unfold atom0, newTraj, atomSys, manageTimeStep, suggested. cbn [sysLi sysHa liRates atomLi calculateSpecialRates vec2 cDat]. rewrite csq_k1.
  unfold total. cbn [fold_right fst snd tOde newEngine dtDid dtTry getTry tInf]. decide_R; cbn [fst fold_right] in *; decide_R; cbn; repeat split; f_equal; lra.
Qed.

Lemma coherent_noHa {Rng} sys odeFuel Dt d (x : traj Rng) li : sysHa sys = None -> sysLi sys = Some li -> getTry x = Fin d -> d <= Dt ->
  coherent eulerTry sys odeFuel Dt x =
  Some (renormalise (applyExact sys (mkTraj (tTime x + d) (tT0 x) (tPsi x) (setDtDid d (tOde x)) (tInf x) (tRng x) (tLog x)))).
Proof. intros H1 H2 H3 H4. unfold coherent, evolve. rewrite H1, H2, H3. rewrite Rmin_left by auto. reflexivity. Qed.

Lemma excited_renorm c : 0 < c -> snd (renormSV (vec2 k0 (kmul (RC c) k1))) = vec2 k0 k1.
Proof.
  intros Hc. unfold renormSV, frobeniusNorm. cbn [snd]. rewrite sqrNorm_vec2, csq_mul, csq_RC, csq_k0, csq_k1.
  replace (0 + c * c * 1) with (c * c) by ring. rewrite sqrt_square by lra. rewrite scale_vec2.
  f_equal; apply cr_eq; cbn; field; lra.
Qed.

(** the atom jumps in the first step *)
Lemma atom_jumps : exists r ev, mstep eulerTry (fixed (1/1000)) atomSys (1/10) 2 0 0 1 atom0 = Some (r, ev) /\
  jumpsOf ev = [(1/10, 0%nat)] /\ tPsi r = vec2 k1 k0 /\ tTime r = 1/10.
Proof.
  destruct atom0_ok as (A1 & A2 & A3 & A4).
  pose proof (coherent_noHa atomSys 0 1 (1/10) atom0 atomLi eq_refl eq_refl A4 ltac:(lra)) as Ec. unfold applyExact, renormalise, renormSV in Ec.
  cbn [sysEx atomSys tTime tT0 tPsi tOde tInf tRng tLog] in Ec. rewrite A1, A2, A3, atomU_vec2 in Ec.
  match type of Ec with _ = Some ?y => set (y0 := y) in Ec end.
  assert (Ep : tPsi y0 = vec2 k0 k1) by (exact (excited_renorm _ (exp_pos _))).
  assert (Er : channelRates atomLi (tTime y0) (tPsi y0) = [1]) by (rewrite Ep, atom_rates; f_equal; apply csq_k1).
  destruct (mstep_accept eulerTry (fixed (1/1000)) atomSys (1/10) 2 0 0 1 atomLi atom0 y0 eq_refl Ec) as (r & ev & E1 & E2 & E3 & E4 & E5 & _ & E6).
  - cbn. lra.
  - intros rng. cbn. lra.
  - rewrite Er. cbn. lra.
  - exists r, ev. split; [exact E1|]. rewrite Er in E6. 
    assert (Ek : chooseJump (fst (fixed (1 / 1000) (tRng atom0)) / dtDid (tOde y0)) [1] = Some 0%nat).
    { apply chooseJump_spec; cbn; [constructor; [lra|constructor] | lra | split; [lia|lra]]. }
    rewrite Ek in E6. destruct E6 as [E6 E7]. rewrite E6, E7, E2. cbn [tTime y0].
    split; [f_equal; f_equal; lra|]. split; [|lra].
    cbn [liJump atomLi nth]. rewrite Ep. cbn [cDat vec2]. rewrite sqrt_1, Rinv_1, scale_vec2. f_equal; apply cr_eq; cbn; ring.
Qed.

(** * A step-back with exact propagation: phase rotation of level 1, and a jump operator proportional to the identity *)
Definition rotU (t : R) (psi : carr CR) (t0 : R) : carr CR :=
  mkCarr (cSh psi) (fun p => match p with 1%nat => kmul (cexp (0, - (t - t0))) (cDat psi p) | _ => cDat psi p end).
Definition rotLi : liouvillean := mkLi (fun _ _ => [1]) (fun _ psi _ => psi).
Definition rotSys : msystem := mkSys None (Some rotU) (Some rotLi).
Definition rot0 (d : R) : traj unit := mkTraj 0 0 (vec2 (RC (3/5)) (RC (4/5))) (newEngine d) false tt newLog.
Lemma rot_truthful : truthful_rates rotLi.
Proof. intros t psi [|k] H Hk _; [exact H|cbn in Hk; lia]. Qed.
Lemma rot_nonzero : keeps_nonzero eulerTry rotSys.
Proof.
  split; [intros h t0 psi t dt E; discriminate|]. intros u t t0 psi E Hn. injection E as <-. revert Hn. apply nonzero_pointwise; [reflexivity|].
  intros [|[|p]]; auto. unfold rotU. cbn [cDat]. rewrite csq_mul, cexp_imag_csq. lra.
Qed.
Lemma rotU_vec2 t a b t0 : rotU t (vec2 a b) t0 = vec2 a (kmul (cexp (0, - (t - t0))) b).
Proof. unfold rotU, vec2. cbn [cSh cDat]. f_equal. apply functional_extensionality. intros [|[|p]]; reflexivity. Qed.
Lemma rot_rates t psi : channelRates rotLi t psi = [1].
Proof. unfold channelRates. cbn. destruct (Rlt_dec 1 0); auto; lra. Qed.
Lemma rot_normed y : csq (RC (3/5)) + csq (kmul (cexp (0, y)) (RC (4/5))) = 1.
Proof. rewrite csq_mul, cexp_imag_csq, !csq_RC. lra. Qed.

(** one step without step-back *)
Lemma rot_quiet fuel d t0 log e : 0 < d <= 1/10 -> dtTry e = d ->
  exists r ev, mstep eulerTry (fixed (1/2)) rotSys (1/100) 10 fuel 0 PI (mkTraj 0 t0 (vec2 (RC (3/5)) (RC (4/5))) e false tt log) = Some (r, ev) /\
    tPsi r = vec2 (RC (3/5)) (kmul (cexp (0, - (0 + d - t0))) (RC (4/5))).
Proof.
  intros Hd He. set (x := mkTraj 0 t0 (vec2 (RC (3/5)) (RC (4/5))) e false tt log).
  assert (A4 : getTry x = Fin d) by (unfold getTry; cbn; now rewrite He).
  pose proof (coherent_noHa rotSys 0 PI d x rotLi eq_refl eq_refl A4 ltac:(pose proof PI2_1; lra)) as Ec. unfold applyExact, renormalise in Ec.
  cbn [sysEx rotSys tTime tT0 tPsi tOde tInf tRng tLog x] in Ec. rewrite rotU_vec2 in Ec. rewrite (renorm_vec2 _ _ (rot_normed _)) in Ec.
  match type of Ec with _ = Some ?y => set (y0 := y) in Ec end.
  destruct (mstep_accept eulerTry (fixed (1/2)) rotSys (1/100) 10 fuel 0 PI rotLi x y0 eq_refl Ec) as (r & ev & E1 & E2 & E3 & E4 & E5 & _ & E6).
  - cbn. lra.
  - intros rng. cbn. lra.
  - rewrite rot_rates. cbn. lra.
  - exists r, ev. split; [exact E1|]. rewrite rot_rates in E6.
    assert (Ek : chooseJump (fst (fixed (1 / 2) (tRng x)) / dtDid (tOde y0)) [1] = None).
    { apply chooseJump_none; cbn; [constructor; [lra|constructor]|]. apply (Rmult_le_reg_r d); [lra|].
      unfold Rdiv. rewrite Rmult_assoc, Rinv_l by lra. lra. }
    rewrite Ek in E6. destruct E6 as [_ E7]. exact E7.
Qed.

Lemma rot_overshoots : exists y, coherent eulerTry rotSys 0 PI (rot0 PI) = Some y /\
  tTime y = PI /\ 10 * (1/100) < total (channelRates rotLi (tTime y) (tPsi y)) * dtDid (tOde y) /\ suggested (1/100) (total (channelRates rotLi (tTime y) (tPsi y))) = Fin (1/100).
Proof.
  pose proof (coherent_noHa rotSys 0 PI PI (rot0 PI) rotLi eq_refl eq_refl eq_refl (Rle_refl _)) as Ec.
  eexists. split; [exact Ec|]. rewrite rot_rates. unfold applyExact, renormalise. cbn [sysEx rotSys tPsi tT0]. destruct (renormSV _). cbn. pose proof PI2_1. repeat split; try lra.
  unfold suggested. destruct (Req_EM_T (1 + 0) 0); [lra|]. f_equal. lra.
Qed.

(** the reduced step after the step-back, and from the original state: the phases are opposite *)
Lemma rot_differ : exists r ev r' ev',
  mstep eulerTry (fixed (1/2)) rotSys (1/100) 10 1 0 PI (rot0 PI) = Some (r, ev) /\
  mstep eulerTry (fixed (1/2)) rotSys (1/100) 10 0 0 PI (setTry (Fin (1/100)) (rot0 PI)) = Some (r', ev') /\
  tPsi r <> tPsi r'.
Proof.
  destruct rot_overshoots as (y & Ec & Et & Ho & Es).
  pose proof (step_back_alike eulerTry (fixed (1/2)) rotSys (1/100) 10 0 0 PI rotLi (rot0 PI) y eq_refl Ec Ho) as HB.
  cbn zeta in HB. rewrite Es, Et in HB. cbn [sysEx rotSys withT0 setTry] in HB.
  destruct (rot_quiet 0 (1/100) PI newLog (setDtTry (1/100) (newEngine PI)) ltac:(lra) eq_refl) as (r1 & ev1 & Q1 & Q2).
  match type of HB with context[mstep _ _ _ _ _ 0 0 PI ?z] =>
    change z with (mkTraj 0 PI (vec2 (RC (3/5)) (RC (4/5))) (setDtTry (1/100) (newEngine PI)) false tt newLog) in HB end.
  destruct (rot_quiet 0 (1/100) 0 newLog (setDtTry (1/100) (newEngine PI)) ltac:(lra) eq_refl) as (r2 & ev2 & Q3 & Q4).
  destruct (mstep eulerTry (fixed (1/2)) rotSys (1/100) 10 1 0 PI (rot0 PI)) as [[r ev]|].
  - rewrite Q1 in HB. destruct HB as [HA _].
    exists r, ev, r2, ev2. split; [reflexivity|]. split; [exact Q3|]. destruct HA as (_ & _ & -> & _). rewrite Q2, Q4.
    intros E. assert (E1 := f_equal (fun a => cDat a 1%nat) E). cbn [cDat vec2] in E1. unfold cexp in E1. cbn [fst snd] in E1.
    replace (- (0 + 1/100 - PI)) with (PI - 1/100) in E1 by ring. replace (- (0 + 1/100 - 0)) with (- (1/100)) in E1 by ring.
    rewrite exp_0, Rtrigo_facts.cos_pi_minus, cos_neg in E1.
    apply (f_equal fst) in E1. cbn in E1. pose proof (cos_gt_0 (1/100) ltac:(pose proof PI2_1; lra) ltac:(pose proof PI2_1; lra)). lra.
  - rewrite Q1 in HB. contradiction.
Qed.

(** * An explicitly time-dependent Hamiltonian, without exact part: level 1 is shifted by t *)
Definition drive (t : R) (psi : carr CR) : carr CR :=
  mkCarr (cSh psi) (fun p => match p with 1%nat => kmul ((0, - t) : CR) (cDat psi p) | _ => k0 end).
Definition driveSys : msystem := mkSys (Some (oneTimeHa drive)) None None.
Definition drive0 : traj unit := newTraj driveSys (1/100) 10 (vec2 (RC (3/5)) (RC (4/5))) 1 tt.

Lemma euler_step1 f e t psi : dtTry e = 1 -> step (eulerTry f) 0 1 e t psi =
  Some (mkEngine (t + 1 - t) 1 (nDerivs e + 1) (S (nSteps e)) (nFailed e),
        t + 1, mkCarr (cSh psi) (fun p => kadd (cDat psi p) (kmul (RC 1) (cDat (f psi t) p)))).
Proof.
  intros E. unfold step. rewrite E. unfold sgn. destruct (Rle_dec 0 1); [|lra]. cbn [Bool.eqb].
  rewrite (Rabs_pos_eq 1) by lra. rewrite (Rabs_pos_eq (1/10)) by lra. decide_R. cbn [tries eulerTry Nat.add]. decide_R. rewrite Nat.add_0_r. reflexivity.
Qed.

Lemma drive_step t t0 b e l : dtTry e = 1 ->
  exists y ev, mstep eulerTry (fixed 0) driveSys (1/100) 10 0 0 1 (mkTraj t t0 (vec2 (RC (3/5)) b) e false tt l) = Some (y, ev) /\
    tTime y = t + 1 /\ tT0 y = t0 /\ dtTry (tOde y) = 1 /\ tInf y = false /\
    let v := vec2 (RC (3/5)) (kmul ((1, - (t - t0)) : CR) b) in tPsi y = snd (renormSV v).
Proof.
  intros E. unfold mstep, coherent, evolve. cbn [sysHa sysEx sysLi driveSys tInf tOde tTime tPsi tT0]. rewrite (euler_step1 _ _ _ _ E).
  cbn [option_map applyExact sysEx driveSys]. eexists _, _. split; [reflexivity|].
  unfold renormalise, renormSV, applyExact. cbn [sysEx driveSys setLog tTime tT0 tOde tInf tPsi snd dtTry]. do 4 (split; [reflexivity|]).
  match goal with |- scaleBy ?a _ = scaleBy ?b _ => assert (Ea : a = b); [|now rewrite Ea] end.
  unfold rhs, oneTimeHa, drive, vec2. cbn [cSh cDat]. f_equal. apply functional_extensionality.
  intros [|[|p]]; apply cr_eq; cbn; ring.
Qed.

(** after one step: time 1, state unchanged *)
Lemma drive_saved : exists x ev, msteps eulerTry (fixed 0) driveSys (1/100) 10 0 0 [1] drive0 = Some (x, ev) /\
  exists e l, x = mkTraj 1 0 (vec2 (RC (3/5)) (RC (4/5))) e false tt l /\ dtTry e = 1.
Proof.
  destruct (drive_step 0 0 (RC (4/5)) (newEngine 1) newLog eq_refl) as (y & ev & E & E1 & E2 & E3 & E4 & E5).
  unfold msteps, drive0, newTraj. cbn [sysLi driveSys]. rewrite E. eexists _, _. split; [reflexivity|].
  exists (tOde y), (tLog y). destruct y as [a b c d f [] h]. cbn [tTime tT0 tPsi tOde tInf tRng tLog] in *.
  assert (En : (kmul ((1, - (0 - 0)) : CR) (RC (4/5))) = RC (4/5)) by (apply cr_eq; cbn; ring). rewrite En in E5.
  rewrite (renorm_vec2 (RC (3/5)) (RC (4/5))) in E5 by (rewrite !csq_RC; lra). cbn [snd] in E5. subst b c f. split; [|exact E3].
  f_equal. lra.
Qed.

Lemma drive_differ : exists x ev, msteps eulerTry (fixed 0) driveSys (1/100) 10 0 0 [1] drive0 = Some (x, ev) /\
  exists r ev1 r' ev2, msteps eulerTry (fixed 0) driveSys (1/100) 10 0 0 [1] x = Some (r, ev1) /\
    msteps eulerTry (fixed 0) driveSys (1/100) 10 0 0 [1] (load (save x) drive0) = Some (r', ev2) /\ tPsi r <> tPsi r'.
Proof.
  destruct drive_saved as (x & ev & E & e & l & -> & He). exists (mkTraj 1 0 (vec2 (RC (3/5)) (RC (4/5))) e false tt l), ev. split; [exact E|].
  destruct (drive_step 1 0 (RC (4/5)) e l He) as (r & ev1 & F & _ & _ & _ & _ & F5).
  destruct (drive_step 1 1 (RC (4/5)) e l He) as (r' & ev2 & G & _ & _ & _ & _ & G5).
  exists r, (ev1 ++ []), r', (ev2 ++ []). unfold msteps, load, save. cbn [tPsi tTime tOde tInf tRng tLog]. rewrite F, G.
  split; [reflexivity|]. split; [reflexivity|]. cbn zeta in *. rewrite F5, G5. unfold renormSV. cbn [snd]. rewrite !scale_vec2. intros H.
  apply (f_equal (fun a : carr CR => cim (cDat a 1%nat))) in H. cbn [cDat vec2] in H.
  set (v := vec2 (RC (3/5)) (kmul ((1, - (1 - 0)) : CR) (RC (4/5)))) in H.
  assert (Hn : 0 < / frobeniusNorm v).
  { apply Rinv_0_lt_compat. unfold frobeniusNorm. apply sqrt_lt_R0. unfold v. rewrite sqrNorm_vec2. unfold csq. cbn. lra. }
  set (w := vec2 (RC (3/5)) (kmul ((1, - (1 - 1)) : CR) (RC (4/5)))) in H. unfold cim, RC in H. cbn in H. nra.
Qed.
