From Coq Require Import List Arith Bool Reals String Ascii Lia Lra.
From Verif Require Import Star CReal Arr VerdictModel VerdictSpec.
Import ListNotations.
Local Open Scope nat_scope.

Lemma isclose_spec a b : isclose a b = true <-> close a b.
Proof.
  unfold close, isclose, modulus. destruct a as [|x], b as [|y].
  - split; [discriminate|intros (? & ? & ? & ? & ?); discriminate].
  - split; [discriminate|intros (? & ? & ? & ? & ?); discriminate].
  - split; [discriminate|intros (? & ? & ? & ? & ?); discriminate].
  - destruct (Rle_dec _ _) as [H|H].
    + split; [|reflexivity]. intros _. exists x, y. auto.
    + split; [discriminate|]. intros (x' & y' & E & F & K). injection E as <-. injection F as <-. contradiction.
Qed.

(** ** broadcasting of shapes without dimensions of size 1 on one side only *)
Definition alike (x y : nat) : Prop := x = 1 <-> y = 1.
Lemma align_alike a b : Forall2 alike a b -> alignRev a b = if listnat_eqb a b then Some a else None.
Proof.
  induction 1 as [|x y a b H F IH]; cbn; [reflexivity|]. rewrite IH. destruct (listnat_eqb_spec a b) as [->|N].
  - rewrite andb_true_r. destruct (Nat.eqb_spec x y); [reflexivity|]. destruct (Nat.eqb_spec x 1), (Nat.eqb_spec y 1); try reflexivity; exfalso; unfold alike in H; tauto || lia.
  - now rewrite andb_false_r.
Qed.
Lemma Forall2_rev {A B} (P : A -> B -> Prop) a b : Forall2 P a b -> Forall2 P (rev a) (rev b).
Proof. induction 1; cbn; [constructor|]. apply Forall2_app; [assumption|]. now repeat constructor. Qed.
Lemma broadcast_alike a b : Forall2 alike a b -> broadcastShape a b = if listnat_eqb a b then Some a else None.
Proof.
  intros F. unfold broadcastShape. rewrite align_alike by (now apply Forall2_rev).
  destruct (listnat_eqb_spec (rev a) (rev b)) as [E|N], (listnat_eqb_spec a b) as [E'|N']; cbn.
  - now rewrite rev_involutive.
  - exfalso. apply N'. rewrite <- (rev_involutive a), E. apply rev_involutive.
  - congruence.
  - reflexivity.
Qed.
Lemma clip_id sh i : inr sh i -> clip sh i = i.
Proof. unfold inr. induction 1 as [|j d i sh H F IH]; cbn; [reflexivity|]. rewrite IH. destruct (Nat.eqb_spec d 1); [|reflexivity]. f_equal. lia. Qed.
Lemma broadcast_at a i : inr (shape a) i -> broadcastAt a i = at_ a i.
Proof. intros H. unfold broadcastAt. rewrite (inr_length _ _ H), Nat.sub_diag. cbn. now rewrite clip_id. Qed.
Lemma allclose_alike a b : Forall2 alike (shape a) (shape b) ->
  allclose a b = Some true <-> shape a = shape b /\ forall i, inr (shape a) i -> close (at_ a i) (at_ b i).
Proof.
  intros F. unfold allclose. rewrite broadcast_alike by exact F. destruct (listnat_eqb_spec (shape a) (shape b)) as [E|N].
  - split.
    + intros H. injection H as H. split; [exact E|]. intros i Hi. rewrite forallb_forall in H. specialize (H i (proj2 (in_indices _ _) Hi)).
      rewrite !broadcast_at in H by congruence. now apply isclose_spec.
    + intros [_ H]. f_equal. apply forallb_forall. intros i Hi. apply in_indices in Hi. rewrite !broadcast_at by congruence. apply isclose_spec. now apply H.
  - split; [discriminate|]. now intros [? _].
Qed.
Lemma verdict_true b : toVerdict b = Succeeds <-> b = Some true.
Proof. destruct b as [[]|]; cbn; split; congruence. Qed.

(** ** lists *)
Lemma Forall2_nth {A} (P : A -> A -> Prop) d l m : Forall2 P l m <-> List.length l = List.length m /\ forall i, i < List.length l -> P (nth i l d) (nth i m d).
Proof.
  split.
  - induction 1 as [|x y l m H F [E IH]]; cbn; [split; [reflexivity|lia]|]. split; [now f_equal|]. intros [|i] Hi; [exact H|]. apply IH. lia.
  - revert m. induction l as [|x l IH]; intros [|y m] [E H]; try discriminate; constructor.
    + apply (H 0). cbn. lia.
    + apply IH. split; [now injection E|]. intros i Hi. apply (H (S i)). cbn. lia.
Qed.

(** ** trajectories *)
Lemma table_shape rows : table rows -> exists a, genfromtxt rows = Some a /\ shape a = [List.length rows; List.length (nth 0 rows [])] /\
  forall i j, at_ a [i; j] = nth j (nth i rows []) NaN.
Proof.
  intros [L (n & Ln & F)]. unfold genfromtxt. destruct rows as [|r [|r' rows]]; cbn in L; try lia.
  assert (E : forallb (fun q => List.length q =? List.length r) (r :: r' :: rows) = true).
  { apply forallb_forall. intros q Hq. rewrite Forall_forall in F. rewrite (F q Hq), (F r) by now left. apply Nat.eqb_refl. }
  rewrite E. pose proof (Forall_inv F) as E'. cbn beta in E'. destruct r as [|x [|y r]]; cbn in E'; try lia.
  eexists. split; [reflexivity|]. split; reflexivity.
Qed.
Lemma table_widths rows i : table rows -> i < List.length rows -> List.length (nth i rows []) = List.length (nth 0 rows []).
Proof.
  intros [L (n & Ln & F)] H. rewrite Forall_forall in F. rewrite !F; [reflexivity| |]; apply nth_In; lia.
Qed.
Lemma table_alike a b : table a -> table b -> Forall2 alike [List.length a; List.length (nth 0 a [])] [List.length b; List.length (nth 0 b [])].
Proof.
  intros [L (n & Ln & F)] [L' (n' & Ln' & F')]. rewrite Forall_forall in F, F'. repeat constructor; rewrite ?F, ?F' by (apply nth_In; lia); unfold alike; lia.
Qed.
Lemma ev_spec this other a b : trajectory this = Some a -> trajectory other = Some b -> table a -> table b ->
  verifyEv this other = Succeeds <-> closeTrajectories a b.
Proof.
  intros Ea Eb Ta Tb. unfold verifyEv. rewrite Ea, Eb. destruct (table_shape a Ta) as (x & -> & Sx & Ax). destruct (table_shape b Tb) as (y & -> & Sy & Ay).
  rewrite verdict_true, allclose_alike by (rewrite Sx, Sy; now apply table_alike). rewrite Sx, Sy. unfold closeTrajectories. rewrite (Forall2_nth _ []). split.
  - intros [E H]. injection E as E1 E2. split; [exact E1|]. intros i Hi. apply (Forall2_nth _ NaN). rewrite (table_widths a i), (table_widths b i) by (assumption || lia). split; [exact E2|].
    intros j Hj. rewrite <- Ax, <- Ay. apply H. now repeat constructor.
  - intros [E1 H]. assert (E2 : List.length (nth 0 a []) = List.length (nth 0 b [])). { apply (Forall2_nth close NaN). apply H. destruct Ta. lia. }
    split; [congruence|]. intros i Hi. inversion Hi as [|i1 d1 i' sh' H1 H2]; subst. inversion H2 as [|j d2 i'' sh'' H3 H4]; subst. inversion H4; subst.
    rewrite Ax, Ay. specialize (H i1 H1). apply (Forall2_nth _ NaN) in H. apply H. now rewrite table_widths.
Qed.

(** ** states *)
Lemma alike_ge2 l m : Forall (fun d => 2 <= d) l -> Forall (fun d => 2 <= d) m -> List.length l = List.length m -> Forall2 alike l m.
Proof.
  revert m. induction l as [|x l IH]; intros [|y m] H K E; try discriminate; constructor; inversion H; inversion K; subst; [unfold alike; lia|apply IH; auto].
Qed.
Lemma states_spec f g : comparable f g ->
  both (allclose (statesArray f) (statesArray g)) (allclose (timesArray f) (timesArray g)) = Some true <-> closeStates f g.
Proof.
  intros ((Tf & Ef) & (Tg & Eg) & L & N).
  assert (B : forall x y, both x y = Some true <-> x = Some true /\ y = Some true).
  { intros [[]|] y; cbn; intuition congruence. }
  rewrite B. rewrite !allclose_alike.
  - cbn [statesArray timesArray shape at_]. unfold closeStates. split.
    + intros [[E H] [E' H']]. injection E as E1 E2. injection E' as E3. split; [exact E2|]. split.
      * apply (Forall2_nth _ (fun _ => NaN)). split; [exact E1|]. intros n Hn i Hi. apply (H (n :: i)). now constructor.
      * apply (Forall2_nth _ NaN). split; [exact E3|]. intros n Hn. apply (H' [n]). now repeat constructor.
    + intros (E & H & H'). apply (Forall2_nth _ (fun _ => NaN)) in H. apply (Forall2_nth _ NaN) in H'. destruct H as [E1 H], H' as [E3 H']. split.
      * split; [congruence|]. intros [|n i] Hi; inversion Hi; subst. apply H; assumption.
      * split; [congruence|]. intros [|n i] Hi; inversion Hi; subst. apply H'; assumption.
  - cbn. repeat constructor; rewrite Tf, Tg; apply N.
  - cbn. constructor; [exact N|]. now apply alike_ge2.
Qed.
Lemma state_spec this other f g : state this = Some f -> state other = Some g -> comparable f g -> verifyState this other = Succeeds <-> closeStates f g.
Proof. intros E F C. unfold verifyState. rewrite E, F, verdict_true. now apply states_spec. Qed.

(** ** the whole *)
Lemma andThen_spec v w : andThen v w = Succeeds <-> v = Succeeds /\ w = Succeeds.
Proof. destruct v; cbn; intuition congruence. Qed.
Lemma full_spec runs : Forall proper runs -> verifyFull runs = Succeeds <-> Forall agreeing runs.
Proof.
  unfold verifyFull. induction 1 as [|r runs H F IH]; cbn [fold_right]; [split; auto|]. rewrite !andThen_spec, IH.
  destruct H as [(a & b & Ea & Eb & Ta & Tb) (f & g & Ef & Eg & C)]. rewrite (ev_spec _ _ a b) by assumption. rewrite (state_spec _ _ f g) by assumption. split.
  - intros (H1 & H2 & H3). constructor; [|exact H3]. split; intros; congruence.
  - intros H. inversion H as [|r' l' [H1 H2] H3]; subst. auto.
Qed.
Lemma run_spec m runs : m = None \/ m = Some "full"%string -> Forall proper runs -> verifierRun m runs = Succeeds <-> Forall agreeing runs.
Proof. intros [-> | ->] F; cbn; now apply full_spec. Qed.

(** ** compilation *)
Lemma compile_plain deps rc std err : compileRun deps rc std err None = Succeeds <-> Forall (fun c => c = 0) deps /\ rc = 0.
Proof.
  unfold compileRun. destruct (forallb (Nat.eqb 0) deps) eqn:E; cbn [negb].
  - assert (F : Forall (fun c => c = 0) deps). { apply Forall_forall. intros c Hc. rewrite forallb_forall in E. symmetry. now apply Nat.eqb_eq, E. }
    destruct (Nat.eqb_spec rc 0); split; intros; try tauto; easy.
  - split; [discriminate|]. intros [F _]. exfalso. assert (forallb (Nat.eqb 0) deps = true); [|congruence]. apply forallb_forall. intros c Hc.
    rewrite Forall_forall in F. rewrite (F c Hc). reflexivity.
Qed.
Lemma compile_error deps rc std err e : compileRun deps rc std err (Some e) <> Succeeds.
Proof. unfold compileRun. destruct (forallb _ _); cbn; [destruct (rc =? 0); discriminate|discriminate]. Qed.

(** ** files which are no tables *)
Lemma ragged_raises rows : ragged rows -> genfromtxt rows = None.
Proof.
  intros (r & r' & I & I' & N). destruct rows as [|r0 rows]; [contradiction|]. unfold genfromtxt.
  replace (forallb _ _) with false; [reflexivity|]. symmetry. apply not_true_is_false. intros F. rewrite forallb_forall in F.
  pose proof (F _ I) as A. pose proof (F _ I') as B. apply Nat.eqb_eq in A, B. congruence.
Qed.
Lemma unreadable this other runs : (forall a, trajectory this = Some a -> ragged a) \/ (forall a, trajectory other = Some a -> ragged a) -> verifierRun None ((this, other) :: runs) = Raises.
Proof.
  intros H. cbn [verifierRun verifyFull fold_right fst snd]. enough (verifyEv this other = Raises) as -> by reflexivity. unfold verifyEv.
  destruct (trajectory this) as [a|] eqn:A; [|reflexivity]. destruct (trajectory other) as [b|] eqn:B; [|reflexivity]. destruct H as [H|H].
  - now rewrite (ragged_raises a) by (apply H; trivial).
  - rewrite (ragged_raises b) by (apply H; trivial). now destruct (genfromtxt a).
Qed.
