(** Proofs on the drivers: trajectories with their state in the heap follow trajectories with states of their own. *)
From Coq Require Import List Arith NArith Lia Reals String.
From Verif Require Import Star CReal OdeModel DensityModel PureModel McwfModel McwfSpec McwfProofs DriverModel DriverSpec.
From Verif Require CompositeModel.
Import ListNotations.
Local Open Scope nat_scope.

Section Sim.
Context {Rng : Type}.
Variable odeTry : (carr CR -> R -> carr CR) -> carr CR -> R -> R -> attempt (carr CR) * nat.
Variable sample : Rng -> R * Rng.
Variable engineOf : N -> N -> Rng.
Variables fuel odeFuel advFuel : nat.
Notation hstep := (hstep odeTry sample fuel odeFuel).
Notation hadvance := (hadvance odeTry sample fuel odeFuel advFuel).
Notation moveOnce := (moveOnce odeTry sample fuel odeFuel advFuel).
Notation moves := (moves odeTry sample fuel odeFuel advFuel).
Notation advanceEnsemble := (advanceEnsemble odeTry sample fuel odeFuel advFuel).
Notation runEnsemble := (runEnsemble odeTry sample fuel odeFuel advFuel).
Notation stepAlone x := (stepAlone odeTry sample fuel odeFuel (hSys x) (hDp x) (hTol x)).
Notation moveAlone x := (moveAlone odeTry sample fuel odeFuel advFuel (hSys x) (hDp x) (hTol x)).
Notation movesAlone x := (movesAlone odeTry sample fuel odeFuel advFuel (hSys x) (hDp x) (hTol x)).

(** the trajectory x in h has become x' in h', which looks like y; nothing else has changed *)
Definition becomes (h : heap) (x : htraj Rng) (s' : heap * htraj Rng) (y : traj Rng) : Prop :=
  view (fst s') (snd s') = y /\ hAddr (snd s') = hAddr x /\ hSys (snd s') = hSys x /\ hDp (snd s') = hDp x /\ hTol (snd s') = hTol x /\
  hNext (fst s') = hNext h /\ forall b, b <> hAddr x -> hMem (fst s') b = hMem h b.
(** the outcome of the one corresponds to that of the other *)
Definition simulates (h : heap) (x : htraj Rng) (r : option (heap * htraj Rng)) (r' : option (traj Rng)) : Prop :=
  match r, r' with Some s', Some y => becomes h x s' y | None, None => True | _, _ => False end.

Lemma becomes_refl h x : becomes h x (h, x) (view h x).
Proof. repeat split. Qed.
Lemma becomes_trans h x s y s2 z : becomes h x s y -> becomes (fst s) (snd s) s2 z -> becomes h x s2 z.
Proof.
  intros (A1 & A2 & A3 & A4 & A5 & A6 & A7) (B1 & B2 & B3 & B4 & B5 & B6 & B7). repeat split; try congruence.
  intros b Hb. rewrite B7 by congruence. auto.
Qed.
Lemma withPsi_self (y : traj Rng) : withPsi (tPsi y) y = y. Proof. now destruct y. Qed.

Lemma step_sim h x Dt : simulates h x (hstep (h, x) Dt) (stepAlone x (view h x) Dt).
Proof.
  unfold DriverModel.hstep, DriverSpec.stepAlone.
  destruct (mstep odeTry sample (hSys x) (hDp x) (hTol x) fuel odeFuel Dt (view h x)) as [[y ev]|]; cbn; auto.
  repeat split; cbn.
  - unfold view, write. cbn. rewrite Nat.eqb_refl. apply withPsi_self.
  - intros b Hb. apply Nat.eqb_neq in Hb. now rewrite Hb.
Qed.
Lemma loop_sim n : forall endTime h x,
  match advLoop (fun s => tTime (hRest (snd s))) hstep n endTime (h, x), advLoop tTime (stepAlone x) n endTime (view h x) with
  | Some (s', l), Some (y, l') => becomes h x s' y /\ l = l'
  | None, None => True
  | _, _ => False
  end.
Proof.
  induction n as [|n IH]; intros endTime h x; cbn [advLoop snd]; change (tTime (view h x)) with (tTime (hRest x));
    destruct (Req_EM_T (endTime - tTime (hRest x)) 0); auto using becomes_refl.
  pose proof (step_sim h x (endTime - tTime (hRest x))) as Hs. unfold simulates in Hs.
  destruct (hstep (h, x) (endTime - tTime (hRest x))) as [[h1 x1]|], (stepAlone x (view h x) (endTime - tTime (hRest x))) as [y|]; try easy.
  pose proof Hs as (A1 & A2 & A3 & A4 & A5 & _). cbn [fst snd] in A1, A2, A3, A4, A5.
  specialize (IH endTime h1 x1). rewrite A1, A3, A4, A5 in IH.
  destruct (advLoop _ hstep n endTime (h1, x1)) as [[s' l]|], (advLoop tTime (stepAlone x) n endTime y) as [[z l']|]; try easy.
  destruct IH as [B E]. split; [|].
  - exact (becomes_trans h x (h1, x1) y s' z Hs B).
  - rewrite E. f_equal. rewrite <- A1. reflexivity.
Qed.
Lemma advance_sim h x d : simulates h x (hadvance (h, x) d) (moveAlone x (view h x) (Advance d)).
Proof.
  unfold DriverModel.hadvance, DriverSpec.moveAlone, advance. cbn [snd]. change (tTime (view h x)) with (tTime (hRest x)).
  pose proof (loop_sim advFuel (tTime (hRest x) + d)%R h x) as H.
  destruct (advLoop _ hstep _ _ _) as [[s' l]|], (advLoop tTime _ _ _ _) as [[y l']|]; cbn; try easy.
Qed.
Lemma move_sim h x m : simulates h x (moveOnce (h, x) m) (moveAlone x (view h x) m).
Proof. destruct m as [Dt|d]; [apply step_sim|apply advance_sim]. Qed.
Lemma moves_sim ms : forall h x, simulates h x (moves (h, x) ms) (movesAlone x (view h x) ms).
Proof.
  induction ms as [|m ms IH]; intros h x; [apply becomes_refl|]. cbn [DriverModel.moves DriverSpec.movesAlone].
  pose proof (move_sim h x m) as Hs. unfold simulates in Hs.
  destruct (moveOnce (h, x) m) as [[h1 x1]|], (moveAlone x (view h x) m) as [y|]; try easy.
  pose proof Hs as (A1 & A2 & A3 & A4 & A5 & _). cbn [fst snd] in A1, A2, A3, A4, A5.
  specialize (IH h1 x1). rewrite A1, A3, A4, A5 in IH. unfold simulates in *.
  destruct (moves (h1, x1) ms) as [s2|], (movesAlone x y ms) as [z|]; try easy.
  exact (becomes_trans h x (h1, x1) y s2 z Hs IH).
Qed.

(** *** Ensembles *)
(** the members have their data at different places *)
Definition apart (xs : list (htraj Rng)) : Prop := NoDup (map hAddr xs).

Definition allAlone (h : heap) (xs : list (htraj Rng)) (f : htraj Rng -> traj Rng -> option (traj Rng))
  (r : option (heap * list (htraj Rng))) : Prop :=
  match r with
  | Some (h', ys) => hNext h' = hNext h /\ (forall b, ~ In b (map hAddr xs) -> hMem h' b = hMem h b) /\
      Forall2 (fun x y => f x (view h x) = Some (view h' y) /\ hAddr y = hAddr x /\ hSys y = hSys x /\ hDp y = hDp x /\ hTol y = hTol x) xs ys
  | None => Exists (fun x => f x (view h x) = None) xs
  end.

Lemma view_other (h h' : heap) (x : htraj Rng) : hMem h' (hAddr x) = hMem h (hAddr x) -> view h' x = view h x.
Proof. intros H. unfold view. now rewrite H. Qed.

Lemma ensemble_advance d : forall xs h, apart xs ->
  allAlone h xs (fun x v => moveAlone x v (Advance d)) (advanceEnsemble h xs d).
Proof.
  induction xs as [|x xs IH]; intros h Ha; cbn [DriverModel.advanceEnsemble].
  { split; [|split]; auto. }
  inversion Ha as [|a0 l0 Hx Ha']; subst. pose proof (advance_sim h x d) as Hs. unfold simulates in Hs.
  destruct (hadvance (h, x) d) as [[h1 y]|].
  2: { destruct (moveAlone x (view h x) (Advance d)) eqn:E; [easy|]. left. exact E. }
  destruct (moveAlone x (view h x) (Advance d)) as [z|] eqn:Ez; [|easy].
  destruct Hs as (A1 & A2 & A3 & A4 & A5 & A6 & A7). cbn [fst snd] in *.
  assert (Hv : forall w, In w xs -> view h1 w = view h w).
  { intros w Hw. apply view_other. apply A7. intros E. apply Hx. rewrite <- E. now apply in_map. }
  specialize (IH h1 Ha'). unfold allAlone in *. destruct (advanceEnsemble h1 xs d) as [[h2 ys]|].
  - destruct IH as (B1 & B2 & B3). split; [congruence|]. split.
    + intros b Hb. cbn [map] in Hb. rewrite B2 by (intros H; apply Hb; now right). apply A7. intros E. apply Hb. now left.
    + constructor.
      * rewrite Ez, <- A1. repeat split; auto. f_equal. symmetry. apply view_other. rewrite A2. apply B2. exact Hx.
      * clear - B3 Hv. revert Hv. induction B3 as [|w v ws vs Hw Hws IH]; intros Hv; constructor.
        -- rewrite <- (Hv w) by now left. exact Hw.
        -- apply IH. intros u Hu. apply Hv. now right.
  - right. clear - IH Hv. revert Hv. induction IH as [w ws Hw|w ws Hws IH]; intros Hv.
    + left. rewrite <- (Hv w) by now left. exact Hw.
    + right. apply IH. intros u Hu. apply Hv. now right.
Qed.

Lemma Forall2_addr (P : htraj Rng -> htraj Rng -> Prop) xs ys : (forall x y, P x y -> hAddr y = hAddr x) -> Forall2 P xs ys -> map hAddr ys = map hAddr xs.
Proof. intros H. induction 1; cbn; f_equal; auto. Qed.
Lemma ensemble_run dts : forall xs h, apart xs ->
  allAlone h xs (fun x v => movesAlone x v (map Advance dts)) (runEnsemble h xs dts).
Proof.
  induction dts as [|d dts IH]; intros xs h Ha; cbn [DriverModel.runEnsemble map].
  { split; [|split]; auto. clear. induction xs; constructor; auto. }
  pose proof (ensemble_advance d xs h Ha) as H1. destruct (advanceEnsemble h xs d) as [[h1 ys]|].
  2: { cbn in *. clear - H1. induction H1 as [w ws Hw|]; [left|now right]. cbn [DriverSpec.movesAlone]. cbn in Hw. now rewrite Hw. }
  destruct H1 as (A1 & A2 & A3). cbn [allAlone] in *.
  assert (Ea : map hAddr ys = map hAddr xs) by (revert A3; apply Forall2_addr; tauto).
  specialize (IH ys h1 ltac:(unfold apart; now rewrite Ea)). unfold allAlone in *.
  destruct (runEnsemble h1 ys dts) as [[h2 zs]|].
  - destruct IH as (B1 & B2 & B3). split; [congruence|]. split.
    + intros b Hb. rewrite B2 by now rewrite Ea. auto.
    + clear - A3 B3. revert zs B3. induction A3 as [|x y xs ys Hx Hxs IH]; intros zs B3; inversion B3; subst; constructor; auto.
      destruct Hx as (C1 & C2 & C3 & C4 & C5). destruct H1 as (D1 & D2 & D3 & D4 & D5).
      repeat split; try congruence. cbn [DriverSpec.movesAlone]. rewrite C1. rewrite C3, C4, C5 in D1. exact D1.
  - clear - A3 IH. revert IH. induction A3 as [|x y xs ys Hx Hxs IH]; intros He; inversion He; subst.
    + left. destruct Hx as (C1 & C2 & C3 & C4 & C5). cbn [DriverSpec.movesAlone]. rewrite C1. rewrite C3, C4, C5 in H0. exact H0.
    + right. now apply IH.
Qed.

(** *** Making an ensemble *)
Definition fresh (sys : msystem) (dtInit : R) (p : pars) (psi : carr CR) (stream : N) : traj Rng :=
  newTraj sys (pDpLimit p) (pTolerance p) psi dtInit (engineOf (pSeed p) stream).
Lemma newTraj_psi sys dp tol psi dtInit (r : Rng) : tPsi (newTraj sys dp tol psi dtInit r) = psi.
Proof.
  unfold newTraj. destruct (sysLi sys); [|reflexivity]. unfold manageTimeStep.
  destruct (Rlt_dec _ _); cbn [snd].
  - unfold setTry, setLog. destruct (suggested _ _); reflexivity.
  - match goal with |- context[if ?c then setLog _ _ else _] => destruct c end; unfold setTry; match goal with |- context[match ?e with Fin _ => _ | Inf => _ end] => destruct e end; reflexivity.
Qed.
Lemma streamNo_step p i : streamNo (incrementForNextStream p) i = streamNo p (Datatypes.S i).
Proof.
  unfold streamNo, incrementForNextStream. cbn [pStream]. rewrite N.add_mod_idemp_l by easy. f_equal. lia.
Qed.
Lemma makeLoop_fact sys dtInit n : forall a h p h1 xs p1, a < hNext h -> (pStream p < 2 ^ 64)%N ->
  makeLoop engineOf sys dtInit n a h p = (h1, xs, p1) ->
  (forall b, b < hNext h -> hMem h1 b = hMem h b) /\ map hAddr xs = seq (hNext h) n /\
  map (view h1) xs = map (fun i => fresh sys dtInit p (hMem h a) (streamNo p i)) (seq 0 n) /\
  Forall (fun x => hSys x = sys /\ hDp x = pDpLimit p /\ hTol x = pTolerance p) xs /\ hNext h1 = hNext h + n /\
  p1 = mkPars (pSeed p) (streamNo p n) (pNTraj p) (pNoise p) (pDpLimit p) (pTolerance p) (pLogLevel p).
Proof.
  induction n as [|n IH]; intros a h p h1 xs p1 Ha Hp.
  { cbn. intros E. injection E as <- <- <-. repeat split; auto.
    unfold streamNo. cbn. rewrite N.add_0_r, N.mod_small by exact Hp. now destruct p. }
  cbn [makeLoop]. unfold copySV, alloc, make, moveSV.
  match goal with |- context[makeLoop _ _ _ n a ?hh ?pp] => set (h0 := hh); set (p0 := pp); destruct (makeLoop engineOf sys dtInit n a h0 p0) as [[h3 ys] p3] eqn:E end.
  intros E'. injection E' as <- <- <-.
  assert (Hm : forall b, b < hNext h -> hMem h0 b = hMem h b).
  { intros b Hb. unfold h0. cbn. assert (b <> hNext h) by lia. apply Nat.eqb_neq in H. now rewrite H. }
  apply IH in E; [|unfold h0; cbn; lia|unfold p0; cbn [pStream incrementForNextStream]; apply N.mod_lt; easy].
  destruct E as (A1 & A2 & A3 & A4 & A5 & A6). rewrite (Hm a Ha) in A3.
  assert (E0 : hMem h3 (hNext h) = hMem h a).
  { rewrite A1 by (unfold h0; cbn; lia). unfold h0. cbn. now rewrite Nat.eqb_refl. }
  split; [|split; [|split; [|split; [|split]]]].
  - intros b Hb. rewrite A1 by (unfold h0; cbn; lia). auto.
  - cbn [map seq hAddr]. f_equal. exact A2.
  - cbn [map seq]. f_equal.
    + unfold view. cbn [hAddr hRest]. rewrite E0. unfold h0. cbn [hMem]. rewrite Nat.eqb_refl. unfold fresh.
      replace (streamNo p 0) with (pStream p) by (unfold streamNo; cbn; rewrite N.add_0_r, N.mod_small by exact Hp; reflexivity).
      rewrite <- (newTraj_psi sys (pDpLimit p) (pTolerance p) (hMem h a) dtInit (engineOf (pSeed p) (pStream p))) at 1. apply withPsi_self.
    + rewrite A3. rewrite <- seq_shift, map_map. apply map_ext. intros i. unfold fresh, p0. rewrite streamNo_step. reflexivity.
  - constructor; [repeat split|exact A4].
  - rewrite A5. unfold h0. cbn. lia.
  - rewrite A6. unfold p0. rewrite streamNo_step. reflexivity.
Qed.
End Sim.
