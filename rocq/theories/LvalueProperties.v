(** C134: the evolved state can be accessed in the object given as the initial state. *)
From Coq Require Import List Arith Bool ZArith.
From Verif Require Import AliasModel AliasSpec LvalueModel LvalueSpec LvalueProofs.
Import ListNotations.

(** After any program of the user which makes [psi] a state vector, and any sequence of steps (with trials given up, ordinary and special jumps): the
    object given to evolve has the elements of the state of the trajectory in the end, and no other object has changed. Missing: runs resumed from a state file,
    and state vectors evolved with the Master equation (refuted below) *)
Theorem C134_single_partial : forall K kz kadd ksub kmul kdiv kneg kconj norm B (p : list (cmd K)) vs T psi js ds k d v,
  steps K kz kadd ksub kmul kdiv kneg kconj (nothing K) p vs -> noSwap K p -> vs psi = Some (k, d, v) ->
  T < B -> psi < B -> psi <> T -> Forall (keeps K) js -> Forall (stepOk K) ds ->
  exists s0 s, run K kz kadd ksub kmul kdiv kneg kconj (start K) p = Ok K s0 /\
    evolveSingle K kz kadd ksub kmul kdiv kneg kconj norm B T psi js None ds s0 = Ok K s /\
    look K kz s T = Some (k, d, evolved K kdiv norm ds v) /\ look K kz s psi = Some (k, d, evolved K kdiv norm ds v) /\
    forall x u, x < B -> x <> T -> x <> psi -> vs x = Some u -> look K kz s x = Some u.
Proof. exact single_accessible. Qed.
Print Assumptions C134_single_partial.

(** Resumed from a state file with the elements [w], the trajectory evolves those, and the object given to evolve keeps its initial value. *)
Theorem C134_resumed_refuted : forall K kz kadd ksub kmul kdiv kneg kconj norm B (p : list (cmd K)) vs T psi js ds w k d v,
  steps K kz kadd ksub kmul kdiv kneg kconj (nothing K) p vs -> noSwap K p -> vs psi = Some (k, d, v) ->
  T < B -> psi < B -> psi <> T -> Forall (keeps K) js -> Forall (stepOk K) ds -> length w = length v ->
  exists s0 s, run K kz kadd ksub kmul kdiv kneg kconj (start K) p = Ok K s0 /\
    evolveSingle K kz kadd ksub kmul kdiv kneg kconj norm B T psi js (Some w) ds s0 = Ok K s /\
    look K kz s T = Some (k, d, evolved K kdiv norm ds w) /\ look K kz s psi = Some (k, d, v).
Proof. exact single_resumed. Qed.
Print Assumptions C134_resumed_refuted.

(** The Master equation from a density operator: the same, *)
Theorem C134_master_partial : forall K kz kadd ksub kmul kdiv kneg kconj tr B (p : list (cmd K)) vs T rho fs k d v,
  steps K kz kadd ksub kmul kdiv kneg kconj (nothing K) p vs -> noSwap K p -> vs rho = Some (k, d, v) ->
  T < B -> rho < B -> rho <> T -> Forall (keeps K) fs ->
  exists s0 s, run K kz kadd ksub kmul kdiv kneg kconj (start K) p = Ok K s0 /\
    evolveMasterRho K kz kadd ksub kmul kdiv kneg kconj B tr T rho None fs s0 = Ok K s /\
    look K kz s T = Some (k, d, evolvedMaster K kdiv tr fs v) /\ look K kz s rho = Some (k, d, evolvedMaster K kdiv tr fs v).
Proof. exact master_accessible. Qed.
Print Assumptions C134_master_partial.
Theorem C134_master_resumed_refuted : forall K kz kadd ksub kmul kdiv kneg kconj tr B (p : list (cmd K)) vs T rho fs w k d v,
  steps K kz kadd ksub kmul kdiv kneg kconj (nothing K) p vs -> noSwap K p -> vs rho = Some (k, d, v) ->
  T < B -> rho < B -> rho <> T -> Forall (keeps K) fs -> length w = length v ->
  exists s0 s, run K kz kadd ksub kmul kdiv kneg kconj (start K) p = Ok K s0 /\
    evolveMasterRho K kz kadd ksub kmul kdiv kneg kconj B tr T rho (Some w) fs s0 = Ok K s /\
    look K kz s T = Some (k, d, evolvedMaster K kdiv tr fs w) /\ look K kz s rho = Some (k, d, v).
Proof. exact master_resumed. Qed.
Print Assumptions C134_master_resumed_refuted.
(** but from a state vector the density operator of which is evolved, nothing of it is seen in the state vector. *)
Theorem C134_master_vector_refuted : forall K kz kadd ksub kmul kdiv kneg kconj tr B (p : list (cmd K)) vs T psi fs d v,
  steps K kz kadd ksub kmul kdiv kneg kconj (nothing K) p vs -> noSwap K p -> vs psi = Some (Psi, d, v) ->
  T < B -> psi < B -> psi <> T -> Forall (keeps K) fs ->
  exists s0 s, run K kz kadd ksub kmul kdiv kneg kconj (start K) p = Ok K s0 /\
    evolveMasterPsi K kz kadd ksub kmul kdiv kneg kconj B tr T psi None fs s0 = Ok K s /\
    look K kz s T = Some (Rho, d, evolvedMaster K kdiv tr fs (dyadOf K kmul kconj v)) /\ look K kz s psi = Some (Psi, d, v).
Proof. exact master_from_vector. Qed.
Print Assumptions C134_master_vector_refuted.

(** An ensemble, as documented, leaves the initial state as it is; and its trajectories do not disturb one another. *)
Theorem C134_ensemble : forall K kz kadd ksub kmul kdiv kneg kconj norm B (p : list (cmd K)) vs psi js tds k d v,
  steps K kz kadd ksub kmul kdiv kneg kconj (nothing K) p vs -> noSwap K p -> vs psi = Some (k, d, v) -> psi < B ->
  Forall (keeps K) js -> NoDup (psi :: map fst tds) -> Forall (fun td => fst td < B /\ Forall (stepOk K) (snd td)) tds ->
  exists s0 s, run K kz kadd ksub kmul kdiv kneg kconj (start K) p = Ok K s0 /\
    evolveEnsemble K kz kadd ksub kmul kdiv kneg kconj norm B psi js tds s0 = Ok K s /\
    (forall T ds, In (T, ds) tds -> look K kz s T = Some (k, d, evolved K kdiv norm ds v)) /\ look K kz s psi = Some (k, d, v).
Proof. exact ensemble_independent. Qed.
Print Assumptions C134_ensemble.

(** QbitMode_Matrix, which displays averages in the state [psi2] while evolving the same memory as a vector: they are those of the evolved states; but resumed from
    a state file, those of the initial state at all times. *)
Theorem C134_matrix_script_refuted : forall K kz kadd ksub kmul kdiv kneg kconj norm B (p : list (cmd K)) vs T psi1 psi2 dss d v,
  steps K kz kadd ksub kmul kdiv kneg kconj (nothing K) p vs -> noSwap K p -> vs psi2 = Some (Psi, d, v) ->
  T < B -> psi1 < B -> psi2 < B -> psi1 <> T -> psi2 <> T -> psi1 <> psi2 -> Forall (Forall (stepOk K)) dss ->
  exists s0, run K kz kadd ksub kmul kdiv kneg kconj (start K) p = Ok K s0 /\
    (exists s, qbitModeMatrix K kz kadd ksub kmul kdiv kneg kconj norm B T psi1 psi2 (length v) None dss s0 = Some (s, history K kdiv norm dss v)) /\
    (forall w, length w = length v ->
      exists s, qbitModeMatrix K kz kadd ksub kmul kdiv kneg kconj norm B T psi1 psi2 (length v) (Some w) dss s0 = Some (s, repeat v (S (length dss)))).
Proof. exact matrix_streams. Qed.
Print Assumptions C134_matrix_script_refuted.

Local Open Scope Z_scope.
(** A step with a trial given up and a special jump; fresh and resumed *)
Example C134_case :
  let norm := fun v : list Z => hd 1 v in
  let d := mkStep Z (mkAttempt Z (Some (map (Z.mul 6))) None) [mkAttempt Z (Some (@rev Z)) (Some (map (Z.mul 2)))] [map (Z.add 2); map (Z.add 4)] (Special Z 1) in
  let p := [New Z 0 Psi [3%nat] (Some [1; 4; 2]); Copy Z 2 0] in
  let ev := evolveSingle Z 0 Z.add Z.sub Z.mul Z.div Z.opp (fun a => a) norm 3 1 0 [map (Z.add 2)] in
  (exists vs, steps Z 0 Z.add Z.sub Z.mul Z.div Z.opp (fun a => a) (nothing Z) p vs /\ noSwap Z p /\ vs 0%nat = Some (Psi, [3%nat], [1; 4; 2]))
  /\ (forall c, keeps Z (map c)) /\ stepOk Z d
  /\ match run Z 0 Z.add Z.sub Z.mul Z.div Z.opp (fun a => a) (start Z) p with
     | Ok _ s => match ev None [d] s, ev (Some [5; 5; 20]) [d] s with
                 | Ok _ s1, Ok _ s2 => look Z 0 s1 0 = Some (Psi, [3%nat], [1; 1; 0]) /\ look Z 0 s1 1 = look Z 0 s1 0 /\ look Z 0 s1 2 = Some (Psi, [3%nat], [1; 4; 2])
                                       /\ look Z 0 s2 0 = Some (Psi, [3%nat], [1; 4; 2]) /\ look Z 0 s2 1 = Some (Psi, [3%nat], [1; 0; 0])
                 | _, _ => False
                 end
     | Undefined _ => False
     end.
Proof.
  cbv zeta. split; [|split; [intros c v; apply map_length|split]].
  - eexists. split; [|split].
    + econstructor; [apply step_new; reflexivity|]. econstructor; [eapply step_copy; reflexivity|]. constructor.
    + intros t x y H. cbn in H. repeat destruct H as [H|H]; try discriminate. exact H.
    + reflexivity.
  - unfold stepOk, attemptOk, optKeeps, keeps, jumpOk. cbn.
    assert (M : forall (c : Z -> Z) (v : list Z), length (map c v) = length v) by (intros; apply map_length).
    repeat split; repeat constructor; intros; cbn; intros; first [apply M | apply rev_length].
  - vm_compute. repeat split; reflexivity.
Qed.
