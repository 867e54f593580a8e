(** Properties C71, C72 *)
From Coq Require Import List Arith Lia Reals Lra.
From Verif Require Import Star CReal Arr TriModel ElementModel ElementSpec ModeModel ModeSpec CompositeModel ParticleModel InteractionSpec MatHamModel MatHamSpec MatHamProofs.
Import ListNotations.

(** C71: the matrix calculated from a Hamiltonian acts on any state as i times what the Hamiltonian contributes; for systems of any number and size of
    constituents, Hamiltonians which change their internal state when called, and whatever the result contains initially. *)
Theorem C71_matrix : forall (St : Type) (act : St -> array -> array -> St * array) dims s f, contributes act dims s f -> linear dims f ->
  forall res0 psi k, (k < total dims)%nat ->
    ksum (fun l => kmul (calculateMatrix act dims s res0 k l) (psi (at1D dims l))) (seq 0 (total dims)) = kmul CI (f psi (at1D dims k)).
Proof. exact @matrix_acts. Qed.
Print Assumptions C71_matrix.
(** A system defined with the matrix calculated (over i) contributes the same. *)
Theorem C71_round_trip : forall (St : Type) (act : St -> array -> array -> St * array) dims s f, contributes act dims s f -> linear dims f ->
  forall res0 h psi d k, makeMatrixH (total dims) (total dims) (fun k l => kmul (kopp CI) (calculateMatrix act dims s res0 k l)) = Some h -> (k < total dims)%nat ->
    matrixContribution h (fun l => psi (at1D dims l)) d k = kadd (d k) (f psi (at1D dims k)).
Proof. exact @matrix_round_made. Qed.
Print Assumptions C71_round_trip.
(** The matrix of a system defined by a matrix, *)
Theorem C71_matrix_hamiltonian : forall dim m res0 k l, (k < dim)%nat -> (l < dim)%nat ->
  calculateMatrix (matrixAct tt) [dim] (mkMatrixH dim m) res0 k l = kmul CI (m k l).
Proof. exact matrix_of_matrix. Qed.
Print Assumptions C71_matrix_hamiltonian.
(** of a mode in Schroedinger picture, *)
Theorem C71_mode : forall p res0 t, (0 < pCutoff p)%nat -> (0 <= pNTh p)%R -> kerr_honoured p SCH ->
  exists sys td hs, make p SCH = Ok sys /\ msH sys = Some (td, hs) /\ forall k l, (k < pCutoff p)%nat -> (l < pCutoff p)%nat ->
    calculateMatrix (freeAct td t) [pCutoff p] hs res0 k l = kmul CI (modeGenerator p k l).
Proof. exact matrix_of_mode. Qed.
Print Assumptions C71_mode.
(** and of an interaction at the time of the last exact propagation, *)
Theorem C71_interaction : forall h es G res0 k l, has_generator h es any_state G -> (k < total (ihDims h))%nat -> (l < total (ihDims h))%nat ->
  calculateMatrix (intAct 0) (ihDims h) h res0 k l = kmul CI (G (at1D (ihDims h) k) (at1D (ihDims h) l)).
Proof. exact matrix_of_int0. Qed.
Print Assumptions C71_interaction.
(** or at any other time: G in interaction picture. *)
Theorem C71_interaction_later : forall h es dt G res0 k l, has_generator h es any_state G -> (k < total (ihDims h))%nat -> (l < total (ihDims h))%nat ->
  calculateMatrix (intAct dt) (ihDims h) h res0 k l =
  kmul CI (kmul (cexp (kmul (RC dt) (ksub (together es (at1D (ihDims h) l)) (together es (at1D (ihDims h) k))))) (G (at1D (ihDims h) k) (at1D (ihDims h) l))).
Proof. exact matrix_of_int. Qed.
Print Assumptions C71_interaction_later.
Example C71_case : total [2; 3] = 6%nat /\ at1D [2; 3] 4 = [1; 1] /\
  (let h := fun _ _ : nat => (2, 3)%R : CR in calculateMatrix (matrixAct tt) [2]%nat (mkMatrixH 2 h) (fun _ _ => k0) 1 0 = (-3, 2)%R) /\
  (let p := mkPars 0 0 2 10 ((1, 0)%R : CR) 1 0 in (0 < pCutoff p)%nat /\ (0 <= pNTh p)%R /\ kerr_honoured p SCH) /\
  makeMatrixH 2 3 (fun _ _ => k0) = None.
Proof.
  split; [reflexivity|]. split; [reflexivity|]. split.
  - cbv zeta. rewrite matrix_of_matrix by lia. apply cr_eq; cbn; ring.
  - split; [|reflexivity]. cbn. split; [lia|]. split; [lra|]. split; auto.
Qed.

(** C72: the three implementations of a driven and decaying two-level atom: the qbit, the atom with matrix Hamiltonian, and the multilevel system with two levels.
    Same derivative for every state at every time, *)
Theorem C72_hamiltonians : forall delta gamma eta, exists sys td hs, cPumpedLossyModeSch false (qbitPars delta gamma eta) = Ok sys /\ msH sys = Some (td, hs) /\ msExact sys = None /\
  msLindblads sys = modeLoss false 2 gamma /\
  forall ts t psi m, (m < 2)%nat ->
    hAction td (afterCalls td ts hs) t psi m = twoLevelContribution gamma delta eta psi (fun _ => k0) m /\
    hAction td (afterCalls td ts hs) t psi m = multiLevelH 2 (multiLevelZ (fun n => if (n =? 1)%nat then delta else 0%R) [mkDecay 0 1 gamma]) [mkPump 0 1 eta] psi (fun _ => k0) m.
Proof. exact two_level_h. Qed.
Print Assumptions C72_hamiltonians.
(** same jumps and rates. *)
Theorem C72_jumps : forall gamma delta psi m, (m < 2)%nat -> forall l1 l2 l3, modeLoss false 2 gamma = [l1] -> twoLevelLoss (twoLevelZa gamma delta) = [l2] -> multiLevelLoss 2 [mkDecay 0 1 gamma] None = [l3] ->
  lbJump l1 psi m = lbJump l2 psi m /\ lbJump l1 psi m = lbJump l3 psi m /\
  exists r1 r2 r3, lbRate l1 = Some r1 /\ lbRate l2 = Some r2 /\ lbRate l3 = Some r3 /\ forall M, r1 M = r2 M /\ r1 M = r3 M.
Proof. exact two_level_jump. Qed.
Print Assumptions C72_jumps.
Example C72_case : twoLevelContribution 1 2 ((0, 1)%R : CR) (fun n => match n with O => k1 | _ => ((1, 1)%R : CR) end) (fun _ => k0) 1%nat = ((-3, 0)%R : CR).
Proof. unfold twoLevelContribution, matApply, twoLevelZa. apply cr_eq; cbn; ring. Qed.
