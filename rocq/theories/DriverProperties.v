(** Properties C83-C86: making and running trajectories from parameters. *)
From Coq Require Import List Arith NArith ZArith Reals String.
From Verif Require Import Star CReal OdeModel DensityModel PureModel McwfModel McwfSpec McwfCases DriverModel DriverSpec DriverFacts DriverCases.
From Verif Require CompositeModel.
Import ListNotations.
Local Open Scope nat_scope.

(** * C83: the members of an ensemble are the single trajectories with consecutive random streams, whatever the other members do,
    and the initial state of the caller (and any other state) is left alone. The run of the ensemble ends exactly if all of these do. *)
Theorem C83_members : forall Rng odeTry (sample : Rng -> R * Rng) engineOf fuel odeFuel advFuel sys dtInit p h a h1 xs p1 dts,
  a < hNext h -> (pStream p < 2 ^ 64)%N -> makeEnsemble engineOf sys dtInit h a p = (h1, xs, p1) ->
  match runEnsemble odeTry sample fuel odeFuel advFuel h1 xs dts with
  | Some (h2, ys) => List.length ys = pNTraj p /\ (forall b, b < hNext h -> hMem h2 b = hMem h b) /\
      forall i, i < pNTraj p -> exists y, nth_error ys i = Some y /\
        aloneFrom odeTry sample engineOf fuel odeFuel advFuel sys dtInit p (streamNo p i) (hMem h a) (map Advance dts) = Some (view h2 y)
  | None => exists i, i < pNTraj p /\
      aloneFrom odeTry sample engineOf fuel odeFuel advFuel sys dtInit p (streamNo p i) (hMem h a) (map Advance dts) = None
  end.
Proof. exact members_fact. Qed.
Print Assumptions C83_members.
Example C83_members_case : 0 < hNext atomHeap /\ (pStream atomPars < 2 ^ 64)%N /\
  exists h1 xs p1, makeEnsemble streamEngine atomSys 1 atomHeap 0 atomPars = (h1, xs, p1) /\
  exists h2 y z, runEnsemble eulerTry streamSample 0 0 1 h1 xs [(1/10)%R] = Some (h2, [y; z]) /\
    tPsi (view h2 y) = vec2 k1 k0 /\ tPsi (view h2 z) = vec2 k0 k1 /\ hMem h2 0 = vec2 k0 k1 /\ pStream p1 = 3%N.
Proof. exact members_case. Qed.

(** the streams are different ones *)
Theorem C83_streams : forall p i j, (N.of_nat (pNTraj p) <= 2 ^ 64)%N -> i < j < pNTraj p -> streamNo p i <> streamNo p j.
Proof. exact streams_fact. Qed.
Print Assumptions C83_streams.
Example C83_streams_case : (N.of_nat (pNTraj atomPars) <= 2 ^ 64)%N /\ 0 < 1 < pNTraj atomPars /\ streamNo atomPars 0 = 1%N /\ streamNo atomPars 1 = 2%N.
Proof. repeat split; try reflexivity; try discriminate; auto. Qed.

(** making an ensemble changes the stream in the parameters, and reduces the log level, nothing else *)
Theorem C83_after : forall Rng (engineOf : N -> N -> Rng) sys dtInit p h a h1 xs p1,
  a < hNext h -> (pStream p < 2 ^ 64)%N -> makeEnsemble engineOf sys dtInit h a p = (h1, xs, p1) ->
  pStream p1 = streamNo p (pNTraj p) /\ pSeed p1 = pSeed p /\ pNTraj p1 = pNTraj p /\ pNoise p1 = pNoise p /\ pDpLimit p1 = pDpLimit p /\
  pTolerance p1 = pTolerance p /\ pLogLevel p1 = Z.min (pLogLevel p) 1.
Proof. exact after_fact. Qed.
Print Assumptions C83_after.

(** so an ensemble can be made in two portions *)
Theorem C83_split : forall Rng (engineOf : N -> N -> Rng) sys dtInit p n m h a h1 xs p1 h2 ys p2 h3 zs p3,
  a < hNext h -> (pStream p < 2 ^ 64)%N ->
  makeEnsemble engineOf sys dtInit h a (withNTraj n p) = (h1, xs, p1) ->
  makeEnsemble engineOf sys dtInit h1 a (withNTraj m p1) = (h2, ys, p2) ->
  makeEnsemble engineOf sys dtInit h a (withNTraj (n + m) p) = (h3, zs, p3) ->
  map (view h2) (xs ++ ys)%list = map (view h3) zs /\ pStream p2 = pStream p3.
Proof. exact split_fact. Qed.
Print Assumptions C83_split.

(** * C84: refuted as stated. With the noise switched off in the parameters, a jump occurs. *)
Theorem C84_noise_refuted : pNoise atomPars = false /\
  exists s, moves eulerTry streamSample 0 0 1 (make streamEngine atomSys 1 atomHeap 0 atomPars) [Step 1] = Some s /\
    lTraj (tLog (view (fst s) (snd s))) = [((1/10)%R, 0)] /\ tPsi (view (fst s) (snd s)) = vec2 k1 k0.
Proof. exact noise_case. Qed.
Print Assumptions C84_noise_refuted.
(** No jumps, and no random numbers used, in systems without Liouvillean. *)
Theorem C84_closed_partial : forall Rng odeTry (sample : Rng -> R * Rng) engineOf fuel odeFuel advFuel sys dtInit p psi ms x, sysLi sys = None ->
  aloneFrom odeTry sample engineOf fuel odeFuel advFuel sys dtInit p (pStream p) psi ms = Some x ->
  lTraj (tLog x) = [] /\ tRng x = engineOf (pSeed p) (pStream p).
Proof. exact closed_fact. Qed.
Print Assumptions C84_closed_partial.
Example C84_closed_case : let sys := mkSys None (Some atomU) None in sysLi sys = None /\
  exists x, aloneFrom eulerTry streamSample streamEngine 0 0 1 sys 1 atomPars (pStream atomPars) (vec2 k0 k1) [Step 1] = Some x /\ tTime x = 1%R.
Proof. exact closed_case. Qed.

(** * C85: the key of master-equation and ensemble trajectories numbers the columns from 3 on, there are as many columns as
    numbered labels, the returned array is what was streamed, and the columns after the averages of the system are the
    entanglement measures switched on, in the order of their labels. *)
Theorem C85_columns : forall negPT mi pu isVEmpty ems0 ems1 ems2 av t rho,
  match av with Some a => CompositeModel.avN a = List.length (CompositeModel.avLabels a) /\
    (forall w, List.length w = CompositeModel.avN a -> List.length (CompositeModel.avProcess a w) = CompositeModel.avN a) | None => True end ->
  let m := measures isVEmpty ems0 ems1 ems2 (negPT rho) (mi rho) (pu rho) in
  let labels := match av with Some a => CompositeModel.avLabels a | None => [] end in
  let key := keyOfTrajectory isVEmpty ems0 ems1 ems2 av [] in
  numbered key = combine (seq 3 (List.length (labels ++ map fst m))) (labels ++ map fst m)%list /\
  forall os l, streamRho negPT mi pu isVEmpty ems0 ems1 ems2 av t rho [] = Some (os, l) ->
    numbers os = l /\ List.length l = List.length (labels ++ map fst m)%list /\
    l = (match av with Some a => CompositeModel.avProcess a (CompositeModel.avAverage a t rho) | None => [] end ++ map snd m)%list.
Proof. exact columns_fact. Qed.
Print Assumptions C85_columns.
(** The columns of the system come under its title; those of the measures, if there are any, under that of the trajectory. *)
Theorem C85_titles : forall isVEmpty ems0 ems1 ems2 av n mi pu,
  titles (keyOfTrajectory isVEmpty ems0 ems1 ems2 av []) =
  (match av with Some a => [CompositeModel.avTitle a] | None => [] end ++
   match measures isVEmpty ems0 ems1 ems2 n mi pu with [] => [] | _ => ["Trajectory"%string] end)%list.
Proof. exact titles_fact. Qed.
Print Assumptions C85_titles.
Example C85_columns_case : CompositeModel.avN twoAverages = List.length (CompositeModel.avLabels twoAverages) /\
  (forall w, List.length w = CompositeModel.avN twoAverages -> List.length (CompositeModel.avProcess twoAverages w) = CompositeModel.avN twoAverages) /\
  numbered (keyOfTrajectory false true false true (Some twoAverages) []) = [(3, "rho00"%string); (4, "rho11"%string); (5, "negativity"%string); (6, "purity of partial trace"%string)] /\
  exists os, streamRho (fun _ => (1/4)%R) (fun _ => 0%R) (fun _ => (1/2)%R) false true false true (Some twoAverages) 0 (fun i j => if Nat.eqb (hd 0 i) (hd 0 j) then RC (1/2) else k0) [] =
    Some (os, [(1/2)%R; (1/2)%R; (1/4)%R; (1/2)%R]).
Proof. exact columns_case. Qed.

(** * C86: refuted as stated. After a run continued from a state file, the state given by the caller is still the initial one,
    not the evolved one. *)
Theorem C86_resumed_refuted : let ar := save (atomNew 1) in
  exists h' x, evolveSingle eulerTry streamSample streamEngine 0 0 1 atomSys 1 (Some ar) [Step 1] atomHeap 0 atomPars = Some (h', x) /\
    tPsi (view h' x) = vec2 k1 k0 /\ hMem h' 0 = vec2 k0 k1 /\ vec2 k1 k0 <> vec2 k0 k1.
Proof. exact resumed_case. Qed.
Print Assumptions C86_resumed_refuted.
(** This is so whenever a state file is read: none of the caller's states is written. *)
Theorem C86_resumed_untouched : forall Rng odeTry (sample : Rng -> R * Rng) engineOf fuel odeFuel advFuel sys dtInit ar ms h a p h' x, a < hNext h ->
  evolveSingle odeTry sample engineOf fuel odeFuel advFuel sys dtInit (Some ar) ms h a p = Some (h', x) ->
  (forall b, b < hNext h -> hMem h' b = hMem h b) /\
  exists y, movesAlone odeTry sample fuel odeFuel advFuel sys (pDpLimit p) (pTolerance p)
      (load ar (newTraj sys (pDpLimit p) (pTolerance p) (hMem h a) dtInit (engineOf (pSeed p) (pStream p)))) ms = Some y /\ view h' x = y.
Proof. exact resumed_fact. Qed.
Print Assumptions C86_resumed_untouched.
(** Without state file, the caller's state is the evolved one. *)
Theorem C86_fresh_partial : forall Rng odeTry (sample : Rng -> R * Rng) engineOf fuel odeFuel advFuel sys dtInit ms h a p,
  match evolveSingle odeTry sample engineOf fuel odeFuel advFuel sys dtInit None ms h a p,
        aloneFrom odeTry sample engineOf fuel odeFuel advFuel sys dtInit p (pStream p) (hMem h a) ms with
  | Some (h', x), Some y => view h' x = y /\ hMem h' a = tPsi y /\ forall b, b <> a -> hMem h' b = hMem h b
  | None, None => True
  | _, _ => False
  end.
Proof. exact evolve_fact. Qed.
Print Assumptions C86_fresh_partial.
Example C86_fresh_case : exists h' x, evolveSingle eulerTry streamSample streamEngine 0 0 1 atomSys 1 None [Step 1] atomHeap 0 atomPars = Some (h', x) /\
  hMem h' 0 = vec2 k1 k0.
Proof. exact fresh_case. Qed.
