(** The statements on the drivers. *)
From Coq Require Import List Arith NArith ZArith Lia Reals String FunctionalExtensionality.
From Verif Require Import Star CReal OdeModel DensityModel PureModel McwfModel McwfSpec McwfProofs DriverModel DriverSpec DriverProofs.
From Verif Require CompositeModel.
Import ListNotations.
Local Open Scope nat_scope.

Lemma nodup_seq n : forall a, NoDup (seq a n).
Proof. induction n as [|n IH]; intros a; cbn; constructor; auto. rewrite in_seq. lia. Qed.

Lemma members_fact : forall Rng odeTry (sample : Rng -> R * Rng) engineOf fuel odeFuel advFuel sys dtInit p h a h1 xs p1 dts,
  a < hNext h -> (pStream p < 2 ^ 64)%N -> makeEnsemble engineOf sys dtInit h a p = (h1, xs, p1) ->
  match runEnsemble odeTry sample fuel odeFuel advFuel h1 xs dts with
  | Some (h2, ys) => List.length ys = pNTraj p /\ (forall b, b < hNext h -> hMem h2 b = hMem h b) /\
      forall i, i < pNTraj p -> exists y, nth_error ys i = Some y /\
        aloneFrom odeTry sample engineOf fuel odeFuel advFuel sys dtInit p (streamNo p i) (hMem h a) (map Advance dts) = Some (view h2 y)
  | None => exists i, i < pNTraj p /\
      aloneFrom odeTry sample engineOf fuel odeFuel advFuel sys dtInit p (streamNo p i) (hMem h a) (map Advance dts) = None
  end.
Proof.
  intros Rng odeTry sample engineOf fuel odeFuel advFuel sys dtInit p h a h1 xs p1 dts Ha Hp E. unfold makeEnsemble in E.
  apply makeLoop_fact in E; [|exact Ha|exact Hp]. destruct E as (A1 & A2 & A3 & A4 & A5 & A6).
  assert (Hap : apart xs) by (unfold apart; rewrite A2; apply nodup_seq).
  set (p0 := withLogLevel _ _) in *. cbn [pDpLimit pTolerance withLogLevel p0] in A4.
  pose proof (ensemble_run odeTry sample fuel odeFuel advFuel dts xs h1 Hap) as H. unfold allAlone in H.
  assert (Hx : forall i x, nth_error xs i = Some x -> i < pNTraj p /\ hSys x = sys /\ hDp x = pDpLimit p /\ hTol x = pTolerance p /\
    view h1 x = newTraj sys (pDpLimit p) (pTolerance p) (hMem h a) dtInit (engineOf (pSeed p) (streamNo p i))).
  { intros i x Hx. assert (Hi : i < pNTraj p).
    { apply nth_error_Some_lt in Hx || (assert (i < List.length xs) by (apply nth_error_Some; congruence)).
      rewrite <- (map_length hAddr), A2, seq_length in *. lia. }
    split; [exact Hi|]. rewrite Forall_forall in A4. destruct (A4 x (nth_error_In _ _ Hx)) as (B1 & B2 & B3). repeat split; auto.
    pose proof (map_nth_error (view h1) i xs Hx) as Hv. rewrite A3 in Hv.
    rewrite nth_error_map in Hv. rewrite (nth_error_nth' _ 0) in Hv by now rewrite seq_length. rewrite seq_nth in Hv by exact Hi.
    cbn in Hv. injection Hv as <-. reflexivity. }
  assert (Hlen : List.length xs = pNTraj p) by (rewrite <- (map_length hAddr), A2; apply seq_length).
  destruct (runEnsemble odeTry sample fuel odeFuel advFuel h1 xs dts) as [[h2 ys]|].
  - destruct H as (B1 & B2 & B3). split; [|split].
    + rewrite <- Hlen. clear - B3. induction B3; cbn; auto.
    + intros b Hb. rewrite B2; [apply A1; exact Hb|]. rewrite A2, in_seq. lia.
    + intros i Hi. destruct (nth_error xs i) as [x|] eqn:Ex; [|apply nth_error_None in Ex; lia].
      assert (Hy : exists y, nth_error ys i = Some y /\ movesAlone odeTry sample fuel odeFuel advFuel (hSys x) (hDp x) (hTol x) (view h1 x) (map Advance dts) = Some (view h2 y)).
      { clear - B3 Ex. revert i Ex. induction B3 as [|u v us vs Hu Hus IH]; intros [|i] Ex; try discriminate; cbn in *.
        - injection Ex as <-. exists v. tauto.
        - apply IH, Ex. }
      destruct Hy as (y & Ey & Hy). exists y. split; [exact Ey|]. destruct (Hx i x Ex) as (_ & C1 & C2 & C3 & C4).
      unfold aloneFrom. rewrite <- C4, <- Hy, C1, C2, C3. reflexivity.
  - apply Exists_exists in H. destruct H as (x & Hin & H). apply In_nth_error in Hin. destruct Hin as [i Ei].
    destruct (Hx i x Ei) as (Hi & C1 & C2 & C3 & C4). exists i. split; [exact Hi|].
    unfold aloneFrom. rewrite <- C4, <- H, C1, C2, C3. reflexivity.
Qed.

Lemma streams_fact : forall p i j, (N.of_nat (pNTraj p) <= 2 ^ 64)%N -> i < j < pNTraj p -> streamNo p i <> streamNo p j.
Proof.
  intros p i j Hn Hij H. unfold streamNo in H. set (M := (2 ^ 64)%N) in *. assert (HM : M <> 0%N) by easy.
  assert (E : (N.of_nat j = N.of_nat i + N.of_nat (j - i))%N) by lia. rewrite E in H.
  set (s := (pStream p + N.of_nat i)%N) in *. replace (pStream p + (N.of_nat i + N.of_nat (j - i)))%N with (s + N.of_nat (j - i))%N in H by (unfold s; lia).
  set (d := N.of_nat (j - i)) in *. assert (Hd : (0 < d < M)%N) by (unfold d; lia).
  rewrite <- N.add_mod_idemp_l in H by exact HM. set (r := (s mod M)%N) in *. assert (Hr : (r < M)%N) by (apply N.mod_lt; exact HM).
  destruct (N.lt_ge_cases (r + d) M) as [C|C].
  - rewrite N.mod_small in H by exact C. lia.
  - replace (r + d)%N with ((r + d - M) + 1 * M)%N in H by lia. rewrite N.mod_add in H by exact HM. rewrite N.mod_small in H by lia. lia.
Qed.

Lemma after_fact : forall Rng (engineOf : N -> N -> Rng) sys dtInit p h a h1 xs p1,
  a < hNext h -> (pStream p < 2 ^ 64)%N -> makeEnsemble engineOf sys dtInit h a p = (h1, xs, p1) ->
  pStream p1 = streamNo p (pNTraj p) /\ pSeed p1 = pSeed p /\ pNTraj p1 = pNTraj p /\ pNoise p1 = pNoise p /\ pDpLimit p1 = pDpLimit p /\
  pTolerance p1 = pTolerance p /\ pLogLevel p1 = Z.min (pLogLevel p) 1.
Proof.
  intros Rng engineOf sys dtInit p h a h1 xs p1 Ha Hp E. apply makeLoop_fact in E; [|exact Ha|exact Hp].
  destruct E as (_ & _ & _ & _ & _ & ->). cbn. repeat split. destruct (Z.ltb_spec 0 (pLogLevel p)); lia.
Qed.

Lemma streamNo_add p n i : streamNo (mkPars (pSeed p) (streamNo p n) (pNTraj p) (pNoise p) (pDpLimit p) (pTolerance p) (pLogLevel p)) i = streamNo p (n + i).
Proof. unfold streamNo. cbn [pStream]. rewrite N.add_mod_idemp_l by easy. f_equal. lia. Qed.

Lemma split_fact : forall Rng (engineOf : N -> N -> Rng) sys dtInit p n m h a h1 xs p1 h2 ys p2 h3 zs p3,
  a < hNext h -> (pStream p < 2 ^ 64)%N ->
  makeEnsemble engineOf sys dtInit h a (withNTraj n p) = (h1, xs, p1) ->
  makeEnsemble engineOf sys dtInit h1 a (withNTraj m p1) = (h2, ys, p2) ->
  makeEnsemble engineOf sys dtInit h a (withNTraj (n + m) p) = (h3, zs, p3) ->
  map (view h2) (xs ++ ys)%list = map (view h3) zs /\ pStream p2 = pStream p3.
Proof.
  intros Rng engineOf sys dtInit p n m h a h1 xs p1 h2 ys p2 h3 zs p3 Ha Hp E1 E2 E3.
  unfold makeEnsemble in *.
  apply makeLoop_fact in E1; [|exact Ha|exact Hp]. destruct E1 as (A1 & A2 & A3 & A4 & A5 & A6).
  apply makeLoop_fact in E2; [|lia|subst p1; cbn; apply N.mod_lt; easy]. destruct E2 as (B1 & B2 & B3 & B4 & B5 & B6).
  apply makeLoop_fact in E3; [|exact Ha|exact Hp]. destruct E3 as (C1 & C2 & C3 & C4 & C5 & C6).
  cbn [pNTraj withNTraj] in *.
  assert (Ev : map (view h2) xs = map (view h1) xs).
  { apply map_ext_in. intros x Hx. apply view_other. apply B1. apply (in_map hAddr) in Hx. rewrite A2, in_seq in Hx. lia. }
  split.
  - rewrite map_app, Ev, A3, B3, C3, (A1 a Ha), seq_app, map_app. f_equal.
    replace (seq (0 + n) m) with (map (fun i => n + i) (seq 0 m)) by (clear; cbn; induction m as [|m IH] using nat_ind; [reflexivity|]; rewrite !seq_S, map_app, IH; reflexivity).
    rewrite map_map. apply map_ext. intros i. subst p1. unfold fresh. cbn. f_equal. f_equal.
    unfold streamNo. cbn [pStream withLogLevel withNTraj]. rewrite N.add_mod_idemp_l by easy. f_equal. lia.
  - subst. unfold streamNo. cbn [pStream withLogLevel withNTraj]. rewrite N.add_mod_idemp_l by easy. f_equal. lia.
Qed.

(** ** Closed systems *)
Section Closed.
Context {Rng : Type}.
Variable odeTry : (carr CR -> R -> carr CR) -> carr CR -> R -> R -> attempt (carr CR) * nat.
Variable sample : Rng -> R * Rng.
Variables fuel odeFuel advFuel : nat.
Variable sys : msystem.
Hypothesis Hli : sysLi sys = None.
Variables dp tol : R.

Definition quiet (x y : traj Rng) : Prop := tRng y = tRng x /\ lTraj (tLog y) = lTraj (tLog x).
Lemma step_quiet x Dt y : stepAlone odeTry sample fuel odeFuel sys dp tol x Dt = Some y -> quiet x y.
Proof.
  unfold stepAlone, mstep, coherent. destruct (evolve odeTry sys odeFuel Dt x) as [z|] eqn:Ez; [|discriminate]. cbn. rewrite Hli. cbn.
  intros E. injection E as <-. unfold quiet.
  assert (Q : tRng z = tRng x /\ tLog z = tLog x).
  { unfold evolve in Ez. destruct (sysHa sys).
    - destruct (tInf x); [discriminate|]. destruct (step _ _ _ _ _ _) as [[[e t] q]|]; [|discriminate]. injection Ez as <-. auto.
    - injection Ez as <-. auto. }
  destruct Q as [Q1 Q2]. unfold renormalise, applyExact. destruct (sysEx sys); cbn; rewrite Q1, Q2; auto.
Qed.
Lemma loop_quiet n : forall e x y l, advLoop tTime (stepAlone odeTry sample fuel odeFuel sys dp tol) n e x = Some (y, l) -> quiet x y.
Proof.
  induction n as [|n IH]; intros e x y l; cbn; destruct (Req_EM_T _ _).
  1, 3: intros E; injection E as <- _; split; reflexivity.
  - discriminate.
  - destruct (stepAlone _ _ _ _ _ _ _ x _) as [z|] eqn:Ez; [|discriminate]. destruct (advLoop tTime _ n e z) as [[w l']|] eqn:Ew; [|discriminate].
    intros E. injection E as <- _. apply step_quiet in Ez. apply IH in Ew. destruct Ez, Ew. split; congruence.
Qed.
Lemma moves_quiet ms : forall x y, movesAlone odeTry sample fuel odeFuel advFuel sys dp tol x ms = Some y -> quiet x y.
Proof.
  induction ms as [|m ms IH]; intros x y; cbn.
  { intros E. injection E as <-. split; reflexivity. }
  destruct (moveAlone _ _ _ _ _ _ _ _ x m) as [z|] eqn:Ez; [|discriminate]. intros Ey. apply IH in Ey.
  assert (Q : quiet x z).
  { destruct m as [Dt|d]; cbn in Ez; [now apply step_quiet in Ez|]. unfold advance in Ez.
    destruct (advLoop _ _ _ _ _) as [[w l]|] eqn:Ew; [|discriminate]. cbn in Ez. injection Ez as <-. now apply loop_quiet in Ew. }
  destruct Q, Ey. split; congruence.
Qed.
End Closed.

Lemma closed_fact : forall Rng odeTry (sample : Rng -> R * Rng) engineOf fuel odeFuel advFuel sys dtInit p psi ms x, sysLi sys = None ->
  aloneFrom odeTry sample engineOf fuel odeFuel advFuel sys dtInit p (pStream p) psi ms = Some x ->
  lTraj (tLog x) = [] /\ tRng x = engineOf (pSeed p) (pStream p).
Proof.
  intros Rng odeTry sample engineOf fuel odeFuel advFuel sys dtInit p psi ms x Hli E. unfold aloneFrom in E.
  apply moves_quiet in E; [|exact Hli]. destruct E as [E1 E2]. rewrite E1, E2. unfold newTraj. rewrite Hli. split; reflexivity.
Qed.

(** ** Access to the evolved state *)
Lemma evolve_fact : forall Rng odeTry (sample : Rng -> R * Rng) engineOf fuel odeFuel advFuel sys dtInit ms h a p,
  match evolveSingle odeTry sample engineOf fuel odeFuel advFuel sys dtInit None ms h a p,
        aloneFrom odeTry sample engineOf fuel odeFuel advFuel sys dtInit p (pStream p) (hMem h a) ms with
  | Some (h', x), Some y => view h' x = y /\ hMem h' a = tPsi y /\ forall b, b <> a -> hMem h' b = hMem h b
  | None, None => True
  | _, _ => False
  end.
Proof.
  intros Rng odeTry sample engineOf fuel odeFuel advFuel sys dtInit ms h a p. unfold evolveSingle, make, moveSV.
  set (x0 := mkH _ _ _ _ _). pose proof (moves_sim odeTry sample fuel odeFuel advFuel ms h x0) as H. unfold simulates in H.
  assert (Ev : view h x0 = newTraj sys (pDpLimit p) (pTolerance p) (hMem h a) dtInit (engineOf (pSeed p) (pStream p))).
  { unfold view, x0. cbn [hAddr hRest]. rewrite <- (newTraj_psi sys (pDpLimit p) (pTolerance p) (hMem h a) dtInit (engineOf (pSeed p) (pStream p))) at 1. apply withPsi_self. }
  rewrite Ev in H. unfold aloneFrom. cbn [hSys hDp hTol x0] in H.
  destruct (moves _ _ _ _ _ (h, x0) ms) as [[h' x]|], (movesAlone _ _ _ _ _ _ _ _ _ ms) as [y|]; auto.
  destruct H as (A1 & A2 & _ & _ & _ & _ & A7). cbn [fst snd x0 hAddr] in *. split; [exact A1|]. split; [|exact A7].
  rewrite <- A1. unfold view. cbn. now rewrite A2.
Qed.
(** after reading a state file, the state of the caller is never written *)
Lemma resumed_fact : forall Rng odeTry (sample : Rng -> R * Rng) engineOf fuel odeFuel advFuel sys dtInit ar ms h a p h' x, a < hNext h ->
  evolveSingle odeTry sample engineOf fuel odeFuel advFuel sys dtInit (Some ar) ms h a p = Some (h', x) ->
  (forall b, b < hNext h -> hMem h' b = hMem h b) /\
  exists y, movesAlone odeTry sample fuel odeFuel advFuel sys (pDpLimit p) (pTolerance p) (load ar (newTraj sys (pDpLimit p) (pTolerance p) (hMem h a) dtInit (engineOf (pSeed p) (pStream p)))) ms = Some y /\
    view h' x = y.
Proof.
  intros Rng odeTry sample engineOf fuel odeFuel advFuel sys dtInit ar ms h a p h' x Ha. unfold evolveSingle, make, moveSV, hload, alloc.
  set (r := load ar _). set (h1 := mkHeap _ _). set (x0 := mkH _ _ _ _ _).
  pose proof (moves_sim odeTry sample fuel odeFuel advFuel ms h1 x0) as H. unfold simulates in H.
  assert (Ev : view h1 x0 = r). { unfold view, x0, h1. cbn [hAddr hRest hMem]. rewrite Nat.eqb_refl. apply withPsi_self. }
  rewrite Ev in H. cbn [hSys hDp hTol x0] in H. intros E. rewrite E in H.
  destruct (movesAlone _ _ _ _ _ _ _ _ _ ms) as [y|] eqn:Ey; [|easy]. destruct H as (A1 & _ & _ & _ & _ & _ & A7). cbn [fst snd x0 hAddr] in *.
  split.
  - intros b Hb. rewrite A7 by lia. unfold h1. cbn. destruct (Nat.eqb_spec b (hNext h)); [lia|reflexivity].
  - exists y. split; [reflexivity|exact A1].
Qed.

(** ** The streamer of density operators *)
Lemma numbers_app a b : numbers (a ++ b)%list = (numbers a ++ numbers b)%list.
Proof. apply flat_map_app. Qed.
Lemma numbered_app a b : numbered (a ++ b)%list = (numbered a ++ numbered b)%list.
Proof. apply flat_map_app. Qed.
Lemma numbers_nums l : numbers (map CompositeModel.Num l) = l.
Proof. induction l; cbn; f_equal; auto. Qed.
Lemma numbered_lines ls : forall i, numbered (CompositeModel.keyLines i ls) = combine (seq i (List.length ls)) ls.
Proof. induction ls as [|s ls IH]; intros i; cbn; f_equal; auto. Qed.

Lemma titles_app a b : titles (a ++ b)%list = (titles a ++ titles b)%list.
Proof. apply flat_map_app. Qed.
Lemma titles_lines ls : forall i, titles (CompositeModel.keyLines i ls) = [].
Proof. induction ls as [|s ls IH]; intros i; cbn; auto. Qed.
Lemma titles_fact : forall isVEmpty ems0 ems1 ems2 av n mi pu,
  titles (keyOfTrajectory isVEmpty ems0 ems1 ems2 av []) =
  (match av with Some a => [CompositeModel.avTitle a] | None => [] end ++
   match measures isVEmpty ems0 ems1 ems2 n mi pu with [] => [] | _ => ["Trajectory"%string] end)%list.
Proof.
  intros isVEmpty ems0 ems1 ems2 av n mi pu. unfold keyOfTrajectory, keyRho, measures, labelIf.
  assert (H0 : titles (fst (match av with Some a => CompositeModel.keyStream (CompositeModel.avTitle a) (CompositeModel.avLabels a) [] 3 | None => ([], 3) end)) =
    match av with Some a => [CompositeModel.avTitle a] | None => [] end).
  { destruct av as [a|]; cbn; [|auto]. f_equal. apply titles_lines. }
  cbn [fst snd]. set (y := match av with Some a => CompositeModel.keyStream _ _ _ _ | None => _ end) in *. destruct y as [os k]. cbn [fst snd] in *.
  destruct isVEmpty; [cbn; rewrite app_nil_r; exact H0|].
  destruct ems0, ems1, ems2; cbn [orb fst snd map filter andb negb]; rewrite ?titles_app, ?H0; cbn; rewrite ?app_nil_r; reflexivity.
Qed.

Lemma columns_fact : forall negPT mi pu isVEmpty ems0 ems1 ems2 av t rho,
  match av with Some a => CompositeModel.avN a = List.length (CompositeModel.avLabels a) /\
    (forall w, List.length w = CompositeModel.avN a -> List.length (CompositeModel.avProcess a w) = CompositeModel.avN a) | None => True end ->
  let m := measures isVEmpty ems0 ems1 ems2 (negPT rho) (mi rho) (pu rho) in
  let labels := match av with Some a => CompositeModel.avLabels a | None => [] end in
  let key := keyOfTrajectory isVEmpty ems0 ems1 ems2 av [] in
  numbered key = combine (seq 3 (List.length (labels ++ map fst m))) (labels ++ map fst m)%list /\
  forall os l, streamRho negPT mi pu isVEmpty ems0 ems1 ems2 av t rho [] = Some (os, l) ->
    numbers os = l /\ List.length l = List.length (labels ++ map fst m)%list /\
    l = (match av with Some a => CompositeModel.avProcess a (CompositeModel.avAverage a t rho) | None => [] end ++ map snd m)%list.
Proof.
  intros negPT mi pu isVEmpty ems0 ems1 ems2 av t rho Hav m labels key. split.
  - unfold key, keyOfTrajectory, keyRho, m, measures, labelIf. clear Hav.
    assert (H0 : numbered (fst (match av with Some a => CompositeModel.keyStream (CompositeModel.avTitle a) (CompositeModel.avLabels a) [] 3 | None => ([], 3) end)) =
      combine (seq 3 (List.length labels)) labels /\
      snd (match av with Some a => CompositeModel.keyStream (CompositeModel.avTitle a) (CompositeModel.avLabels a) [] 3 | None => ([], 3) end) = 3 + List.length labels).
    { unfold labels. destruct av as [a|]; cbn; [|auto]. split; [apply numbered_lines|reflexivity]. }
    destruct H0 as [H0 H1]. cbn [fst snd].
    set (y := match av with Some a => CompositeModel.keyStream (CompositeModel.avTitle a) (CompositeModel.avLabels a) [] 3 | None => ([], 3) end) in *. destruct y as [os n]. cbn [fst snd] in H0, H1. subst n.

    assert (Hc : forall l1 l2 : list string, combine (seq 3 (List.length (l1 ++ l2))) (l1 ++ l2)%list =
      (combine (seq 3 (List.length l1)) l1 ++ combine (seq (3 + List.length l1) (List.length l2)) l2)%list).
    { clear. intros l1. generalize 3. induction l1 as [|s l1 IH]; intros k l2; cbn; [now rewrite Nat.add_0_r|].
      rewrite IH, Nat.add_succ_r. reflexivity. }
    destruct isVEmpty; [cbn; rewrite app_nil_r; exact H0|].
    rewrite Hc.
    destruct ems0, ems1, ems2; cbn [orb fst snd map filter andb negb]; rewrite ?numbered_app, ?H0, <- ?app_assoc; cbn; rewrite ?app_nil_r; reflexivity.
  - intros os l. unfold streamRho.
    assert (H : forall os0 l0, streamAv av t rho [] = Some (os0, l0) -> numbers os0 = l0 /\ List.length l0 = List.length labels /\
      l0 = match av with Some a => CompositeModel.avProcess a (CompositeModel.avAverage a t rho) | None => [] end).
    { intros os0 l0. unfold streamAv, labels. destruct av as [a|].
      - unfold CompositeModel.checked. destruct (Nat.eqb_spec (List.length (CompositeModel.avAverage a t rho)) (CompositeModel.avN a)) as [e|]; [|discriminate].
        intros E. injection E as <- <-. destruct Hav as [V1 V2]. split; [|split]; auto.
        + unfold CompositeModel.streamCommon. cbn. apply numbers_nums.
        + rewrite <- V1. auto.
      - intros E. injection E as <- <-. auto. }
    destruct (streamAv av t rho []) as [[os0 l0]|]; [|discriminate]. destruct (H os0 l0 eq_refl) as (H1 & H2 & H3). cbn [option_map].
    intros E. unfold m, measures. rewrite !app_length, !map_length.
    destruct isVEmpty.
    { injection E as <- <-. cbn. rewrite Nat.add_0_r, app_nil_r. auto. }
    unfold appendIf in E. destruct ems0, ems1, ems2; injection E as <- <-; cbn [fst snd map filter andb negb List.length];
      rewrite ?numbers_app, ?app_length, H1, H2, ?H3, <- ?app_assoc; cbn; rewrite ?app_nil_r; repeat split; lia.
Qed.
