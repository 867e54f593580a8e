(** Concrete cases for the statements on the drivers: the decaying atom with different random streams. *)
From Coq Require Import List Arith NArith ZArith Lia Reals Lra String FunctionalExtensionality.
From Verif Require Import Star CReal OdeModel DensityModel PureModel McwfModel McwfSpec McwfProofs McwfLemmas McwfCases McwfFacts
  DriverModel DriverSpec DriverProofs DriverFacts.
From Verif Require CompositeModel.
Import ListNotations.
Local Open Scope nat_scope.

(** the random engine is the number of its stream; the stream 1 gives a small number, the others a large one *)
Definition streamEngine (seed stream : N) : N := stream.
Definition streamSample (r : N) : R * N := ((if (r =? 1)%N then 1/1000 else 1/2)%R, r).
(** noise switched off *)
Definition atomPars : pars := mkPars 1001 1 2 false (1/10) 2 2.
Definition atomHeap : heap := mkHeap 1 (fun _ => vec2 k0 k1).

Lemma sample_pos r : (0 <= fst (streamSample r))%R.
Proof. unfold streamSample. cbn. destruct (r =? 1)%N; lra. Qed.

Definition atomNew (r : N) : traj N := newTraj atomSys (1/10) 2 (vec2 k0 k1) 1 r.
Lemma atomNew_ok r : tTime (atomNew r) = 0%R /\ tT0 (atomNew r) = 0%R /\ tPsi (atomNew r) = vec2 k0 k1 /\ getTry (atomNew r) = Fin (1/10) /\ tRng (atomNew r) = r.
Proof.
  unfold atomNew, newTraj, atomSys, manageTimeStep, suggested. cbn [sysLi sysHa liRates atomLi calculateSpecialRates vec2 cDat]. rewrite csq_k1.
  unfold total. cbn [fold_right fst snd tOde newEngine dtDid dtTry getTry tInf]. decide_R; cbn [fst fold_right] in *; decide_R; cbn; repeat split; f_equal; lra.
Qed.

Lemma atom_step r Dt : (1/10 <= Dt)%R ->
  exists x, stepAlone eulerTry streamSample 0 0 atomSys (1/10) 2 (atomNew r) Dt = Some x /\ tTime x = (1/10)%R /\
    tPsi x = (if (r =? 1)%N then vec2 k1 k0 else vec2 k0 k1) /\ lTraj (tLog x) = (if (r =? 1)%N then [((1/10)%R, 0)] else []).
Proof.
  intros HD. destruct (atomNew_ok r) as (A1 & A2 & A3 & A4 & A5).
  pose proof (coherent_noHa atomSys 0 Dt (1/10) (atomNew r) atomLi eq_refl eq_refl A4 HD) as Ec. unfold applyExact, renormalise, renormSV in Ec.
  cbn [sysEx atomSys tTime tT0 tPsi tOde tInf tRng tLog] in Ec. rewrite A1, A2, A3, atomU_vec2 in Ec.
  match type of Ec with _ = Some ?y => set (y0 := y) in Ec end.
  assert (Ep : tPsi y0 = vec2 k0 k1) by (exact (excited_renorm _ (exp_pos _))).
  assert (Er : channelRates atomLi (tTime y0) (tPsi y0) = [1%R]) by (rewrite Ep, atom_rates; f_equal; apply csq_k1).
  destruct (mstep_accept eulerTry streamSample atomSys (1/10) 2 0 0 Dt atomLi (atomNew r) y0 eq_refl Ec) as (x & ev & E1 & E2 & E3 & E4 & E5 & _ & E6).
  - cbn. lra.
  - intros rng. apply sample_pos.
  - rewrite Er. cbn. lra.
  - exists x. unfold stepAlone. rewrite E1. split; [reflexivity|].
    assert (HL : lTraj (tLog x) = jumpsOf ev).
    { assert (Em : msteps eulerTry streamSample atomSys (1/10) 2 0 0 [Dt] (atomNew r) = Some (x, (ev ++ [])%list)) by (unfold msteps; rewrite E1; reflexivity).
      pose proof (log_fact eulerTry streamSample atomSys (1/10) 2 euler_forward ltac:(lra) ltac:(lra) (vec2 k0 k1) 1 r [Dt] 0 0 x (ev ++ [])%list ltac:(lra)
        ltac:(constructor; [lra|constructor]) Em) as L. cbn zeta in L. destruct L as (_ & _ & _ & _ & _ & L & _). rewrite L, app_nil_r. reflexivity. }
    rewrite HL, Er, A5 in *. split; [rewrite E2; cbn; lra|]. unfold streamSample in E6. cbn [fst] in E6.
    assert (T0 : tTime y0 = (1/10)%R) by (cbn; lra). destruct (r =? 1)%N.
    + assert (Ek : chooseJump (1 / 1000 / dtDid (tOde y0)) [1%R] = Some 0%nat).
      { apply chooseJump_spec; cbn; [constructor; [lra|constructor] | lra | split; [lia|lra]]. }
      rewrite Ek in E6. destruct E6 as [E6 E7]. rewrite E6, E7, T0. split; [|reflexivity].
      cbn [liJump atomLi nth]. rewrite Ep. cbn [cDat vec2]. rewrite sqrt_1, Rinv_1, scale_vec2. f_equal; apply cr_eq; cbn; ring.
    + assert (Ek : chooseJump (1 / 2 / dtDid (tOde y0)) [1%R] = None).
      { apply chooseJump_none; cbn; [constructor; [lra|constructor]|]. lra. }
      rewrite Ek in E6. destruct E6 as [E6 E7]. rewrite E6, E7. auto.
Qed.
Lemma atom_advance r : exists x, moveAlone eulerTry streamSample 0 0 1 atomSys (1/10) 2 (atomNew r) (Advance (1/10)) = Some x /\
    tPsi x = (if (r =? 1)%N then vec2 k1 k0 else vec2 k0 k1) /\ lTraj (tLog x) = (if (r =? 1)%N then [((1/10)%R, 0)] else []).
Proof.
  destruct (atomNew_ok r) as (A1 & _). destruct (atom_step r (0 + 1/10 - 0) ltac:(lra)) as (x & E1 & E2 & E3 & E4).
  exists x. split; [|split; assumption]. cbn [moveAlone]. unfold advance. rewrite A1. cbn [advLoop]. rewrite A1.
  destruct (Req_EM_T (0 + 1/10 - 0) 0); [lra|]. rewrite E1. rewrite E2. destruct (Req_EM_T (0 + 1/10 - 1/10) 0); [reflexivity|lra].
Qed.

(** an ensemble of two: the first member jumps, the second does not, and the initial state is still there *)
Lemma members_case : 0 < hNext atomHeap /\ (pStream atomPars < 2 ^ 64)%N /\ exists h1 xs p1, makeEnsemble streamEngine atomSys 1 atomHeap 0 atomPars = (h1, xs, p1) /\
  exists h2 y z, runEnsemble eulerTry streamSample 0 0 1 h1 xs [(1/10)%R] = Some (h2, [y; z]) /\
    tPsi (view h2 y) = vec2 k1 k0 /\ tPsi (view h2 z) = vec2 k0 k1 /\ hMem h2 0 = vec2 k0 k1 /\ pStream p1 = 3%N.
Proof.
  assert (P1 : 0 < hNext atomHeap) by (cbn; lia). assert (P2 : (pStream atomPars < 2 ^ 64)%N) by reflexivity. split; [exact P1|]. split; [exact P2|].
  destruct (makeEnsemble streamEngine atomSys 1 atomHeap 0 atomPars) as [[h1 xs] p1] eqn:E. exists h1, xs, p1. split; [reflexivity|].
  pose proof (members_fact N eulerTry streamSample streamEngine 0 0 1 atomSys 1 atomPars atomHeap 0 h1 xs p1 [(1/10)%R] P1 P2 E) as M.
  pose proof (after_fact N streamEngine atomSys 1 atomPars atomHeap 0 h1 xs p1 P1 P2 E) as (S1 & _).
  change (pNTraj atomPars) with 2 in *. change (hMem atomHeap 0) with (vec2 k0 k1) in M.
  assert (Ha : forall i, aloneFrom eulerTry streamSample streamEngine 0 0 1 atomSys 1 atomPars (streamNo atomPars i) (vec2 k0 k1) (map Advance [(1/10)%R]) =
    moveAlone eulerTry streamSample 0 0 1 atomSys (1/10) 2 (atomNew (streamNo atomPars i)) (Advance (1/10))).
  { intros i. unfold aloneFrom. cbn [map movesAlone]. change (newTraj atomSys _ _ _ _ _) with (atomNew (streamNo atomPars i)).
    change (pDpLimit atomPars) with (1/10)%R. change (pTolerance atomPars) with 2%R. destruct (moveAlone _ _ _ _ _ _ _ _ _ _); reflexivity. }
  destruct (runEnsemble eulerTry streamSample 0 0 1 h1 xs [(1/10)%R]) as [[h2 ys]|].
  - destruct M as (M1 & M2 & M3). destruct (M3 0 ltac:(lia)) as (y & Y1 & Y2). destruct (M3 1 ltac:(lia)) as (z & Z1 & Z2).
    destruct ys as [|y' [|z' [|? ?]]]; try discriminate. cbn in Y1, Z1. injection Y1 as ->. injection Z1 as ->.
    exists h2, y, z. split; [reflexivity|]. rewrite Ha in Y2, Z2. 
    destruct (atom_advance (streamNo atomPars 0)) as (u & U1 & U2 & _). destruct (atom_advance (streamNo atomPars 1)) as (v & V1 & V2 & _).
    rewrite U1 in Y2. rewrite V1 in Z2. injection Y2 as <-. injection Z2 as <-. split; [exact U2|]. split; [exact V2|]. split; [|exact S1].
    apply M2. exact P1.
  - destruct M as (i & _ & Hi). rewrite Ha in Hi. destruct (atom_advance (streamNo atomPars i)) as (x & Hx & _). congruence.
Qed.

(** a jump, though the noise is switched off *)
Lemma noise_case : pNoise atomPars = false /\ exists s, moves eulerTry streamSample 0 0 1 (make streamEngine atomSys 1 atomHeap 0 atomPars) [Step 1] = Some s /\
  lTraj (tLog (view (fst s) (snd s))) = [((1/10)%R, 0)] /\ tPsi (view (fst s) (snd s)) = vec2 k1 k0.
Proof.
  split; [reflexivity|].
  pose proof (evolve_fact N eulerTry streamSample streamEngine 0 0 1 atomSys 1 [Step 1] atomHeap 0 atomPars) as H. unfold evolveSingle in H.
  unfold aloneFrom in H. cbn [movesAlone moveAlone] in H. change (newTraj atomSys _ _ _ _ _) with (atomNew 1) in H.
  change (pDpLimit atomPars) with (1/10)%R in H. change (pTolerance atomPars) with 2%R in H.
  destruct (atom_step 1 1 ltac:(lra)) as (x & E1 & E2 & E3 & E4). rewrite E1 in H.
  destruct (moves _ _ _ _ _ _ _) as [[h' y]|]; [|easy]. destruct H as (H1 & _). exists (h', y). split; [reflexivity|]. cbn [fst snd]. rewrite H1. auto.
Qed.

(** the caller's state after a fresh run, and after a resumed one *)
Lemma fresh_case : exists h' x, evolveSingle eulerTry streamSample streamEngine 0 0 1 atomSys 1 None [Step 1] atomHeap 0 atomPars = Some (h', x) /\
  hMem h' 0 = vec2 k1 k0.
Proof.
  pose proof (evolve_fact N eulerTry streamSample streamEngine 0 0 1 atomSys 1 [Step 1] atomHeap 0 atomPars) as H.
  unfold aloneFrom in H. cbn [movesAlone moveAlone] in H. change (newTraj atomSys _ _ _ _ _) with (atomNew 1) in H.
  change (pDpLimit atomPars) with (1/10)%R in H. change (pTolerance atomPars) with 2%R in H.
  destruct (atom_step 1 1 ltac:(lra)) as (x & E1 & E2 & E3 & E4). rewrite E1 in H.
  destruct (evolveSingle _ _ _ _ _ _ _ _ _ _ _ _ _) as [[h' y]|]; [|easy]. destruct H as (_ & H & _). exists h', y. split; [reflexivity|]. rewrite H. exact E3.
Qed.
Lemma resumed_case : let ar := save (atomNew 1) in
  exists h' x, evolveSingle eulerTry streamSample streamEngine 0 0 1 atomSys 1 (Some ar) [Step 1] atomHeap 0 atomPars = Some (h', x) /\
    tPsi (view h' x) = vec2 k1 k0 /\ hMem h' 0 = vec2 k0 k1 /\ vec2 k1 k0 <> vec2 k0 k1.
Proof.
  intros ar. destruct (atomNew_ok 1) as (A1 & A2 & A3 & A4 & A5).
  assert (El : load ar (newTraj atomSys (pDpLimit atomPars) (pTolerance atomPars) (hMem atomHeap 0) 1 (streamEngine (pSeed atomPars) (pStream atomPars))) = atomNew 1).
  { unfold ar, save, load. destruct (atomNew 1) as [t t0 psi e inf r l]. cbn in *. now rewrite A1, A2. }
  pose proof (moves_sim eulerTry streamSample 0 0 1 [Step 1]) as Hs.
  destruct (atom_step 1 1 ltac:(lra)) as (y & E1 & E2 & E3 & E4).
  destruct (evolveSingle eulerTry streamSample streamEngine 0 0 1 atomSys 1 (Some ar) [Step 1] atomHeap 0 atomPars) as [[h' x]|] eqn:E.
  - pose proof (resumed_fact N eulerTry streamSample streamEngine 0 0 1 atomSys 1 ar [Step 1] atomHeap 0 atomPars h' x ltac:(cbn; lia) E) as (R1 & z & Z1 & Z2).
    rewrite El in Z1. cbn [movesAlone moveAlone] in Z1. change (pDpLimit atomPars) with (1/10)%R in Z1. change (pTolerance atomPars) with 2%R in Z1.
    rewrite E1 in Z1. injection Z1 as <-. exists h', x. split; [reflexivity|]. rewrite Z2. split; [exact E3|]. split; [apply R1; cbn; lia|].
    intros V. apply (f_equal (fun v => cre (cDat v 0))) in V. cbn in V. lra.
  - exfalso. unfold evolveSingle, make, moveSV, hload, alloc in E.
    match type of E with moves _ _ _ _ _ (?hh, ?xx) _ = None => specialize (Hs hh xx); set (h0 := hh) in *; set (x0 := xx) in * end.
    assert (Ev : view h0 x0 = atomNew 1).
    { unfold view, x0, h0. cbn [hAddr hRest hMem]. rewrite Nat.eqb_refl, withPsi_self. exact El. }
    rewrite Ev in Hs. unfold simulates in Hs. rewrite E in Hs.
    change (hSys x0) with atomSys in Hs. change (hDp x0) with (1/10)%R in Hs. change (hTol x0) with 2%R in Hs.
    cbn [movesAlone moveAlone] in Hs. rewrite E1 in Hs. exact Hs.
Qed.

(** a closed system: free rotation of the atom *)
Lemma closed_case : let sys := mkSys None (Some atomU) None in sysLi sys = None /\
  exists x, aloneFrom eulerTry streamSample streamEngine 0 0 1 sys 1 atomPars (pStream atomPars) (vec2 k0 k1) [Step 1] = Some x /\ tTime x = 1%R.
Proof. split; [reflexivity|]. eexists. split; [reflexivity|]. cbn. lra. Qed.

(** the columns of a system with two averages, negativity and purity switched on *)
Definition twoAverages : CompositeModel.averaged :=
  CompositeModel.mkAv 2 (fun _ rho => [cre (rho [0] [0]); cre (rho [1] [1])]) (fun l => l) "Qbit" ["rho00"%string; "rho11"%string].
Lemma columns_case : CompositeModel.avN twoAverages = List.length (CompositeModel.avLabels twoAverages) /\
  (forall w, List.length w = CompositeModel.avN twoAverages -> List.length (CompositeModel.avProcess twoAverages w) = CompositeModel.avN twoAverages) /\
  numbered (keyOfTrajectory false true false true (Some twoAverages) []) = [(3, "rho00"%string); (4, "rho11"%string); (5, "negativity"%string); (6, "purity of partial trace"%string)] /\
  exists os, streamRho (fun _ => (1/4)%R) (fun _ => 0%R) (fun _ => (1/2)%R) false true false true (Some twoAverages) 0 (fun i j => if Nat.eqb (hd 0 i) (hd 0 j) then RC (1/2) else k0) [] =
    Some (os, [(1/2)%R; (1/2)%R; (1/4)%R; (1/2)%R]).
Proof. repeat split; auto. eexists. reflexivity. Qed.
