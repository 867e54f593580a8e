(** C78: initial states of modes and qbits. *)
From Coq Require Import List Arith Reals Lra Lia.
From Verif Require Import Star CReal InitialModel InitialSpec InitialProofs.
Import ListNotations.
Local Open Scope R_scope.

(** a Fock state is refused exactly if its level is not there; otherwise it is the normalised state with that number of photons *)
Theorem C78_fock : forall n dim phase,
  (fock n dim phase = None <-> (dim <= n)%nat) /\
  (forall psi, fock n dim phase = Some psi ->
     length psi = dim /\ nth n psi k0 = cexp (kmul CI (RC phase)) /\ (forall m, m <> n -> nth m psi k0 = k0) /\ normSq psi = 1 /\ meanNumber psi = INR n /\ photonNumber psi = INR n).
Proof. exact (fun n dim phase => conj (fock_refused n dim phase) (fun psi => fock_state n dim phase psi)). Qed.
Print Assumptions C78_fock.
Example C78_fock_case : exists psi, fock 3 5 1 = Some psi /\ photonNumber psi = 3 /\ fock 5 5 0 = None.
Proof. eexists. split; [reflexivity|]. split; [|reflexivity]. destruct (fock_state 3 5 1 _ eq_refl) as (_ & _ & _ & _ & _ & H). rewrite H. cbn. lra. Qed.

(** a coherent state is an eigenstate of the annihilation operator up to the cutoff, of Poissonian photon statistics; its norm is never above 1, and misses 1 by at most |alpha|^(2 dim)/dim! *)
Theorem C78_coherent : forall alpha dim, (dim <= 170)%nat ->
  length (coherent alpha dim) = dim /\ eigenstate_of_annihilation alpha (coherent alpha dim) /\
  (forall n, (n < dim)%nat -> population (coherent alpha dim) n = poisson (csq alpha) n) /\
  1 - csq alpha ^ dim / INR (fact dim) <= normSq (coherent alpha dim) <= 1 /\
  ((0 < dim)%nat -> photonNumber (coherent alpha dim) = csq alpha * (normSq (coherent alpha dim) - population (coherent alpha dim) (dim - 1))).
Proof. exact coherent_facts. Qed.
Print Assumptions C78_coherent.
Example C78_coherent_case : nth 0 (coherent (RC 2) 20) k0 = RC (exp (- 2)) /\ kmul (RC (sqrt (INR 3))) (nth 3 (coherent (RC 2) 20) k0) = kmul (RC 2) (nth 2 (coherent (RC 2) 20) k0).
Proof. exact coherent_case. Qed.

(** the number of photons is the same whether taken of the amplitudes or of the diagonal of the density operator *)
Theorem C78_photonNumber : forall psi, photonNumber psi = meanNumber psi /\ photonNumberLazy (population psi) (length psi) = meanNumber psi.
Proof. exact (fun psi => conj (photonNumber_mean psi) (lazy_mean psi)). Qed.
Print Assumptions C78_photonNumber.
Example C78_photonNumber_case : photonNumber [RC 1; RC 2; CI] = 6.
Proof. rewrite photonNumber_mean. unfold meanNumber, population, csq. cbn. lra. Qed.

(** the initial condition of the command line: a Fock state if asked for, else a coherent one, of which the one with 0 field is the vacuum *)
Theorem C78_init : forall minit cutoff,
  modeInit 0 minit cutoff = Some (coherent minit cutoff) /\ (forall n, (0 < n)%nat -> modeInit n minit cutoff = fock n cutoff 0) /\ ((0 < cutoff)%nat -> modeInit 0 k0 cutoff = fock 0 cutoff 0).
Proof. exact modeInit_facts. Qed.
Print Assumptions C78_init.
Example C78_init_case : modeInit 2 (RC 5) 2 = None /\ modeInit 2 (RC 5) 3 <> None.
Proof. split; [reflexivity|discriminate]. Qed.

(** the qbit is in the normalised state with the given amplitude of the excited state and nonnegative one of the ground state; there is none if the given amplitude is above 1 *)
Theorem C78_qbit : forall psi1,
  (csq psi1 <= 1 -> exists psi, qbitInit psi1 = Some psi /\ length psi = 2%nat /\ nth 1 psi k0 = psi1 /\ normSq psi = 1 /\ cim (nth 0 psi k0) = 0 /\ 0 <= cre (nth 0 psi k0)) /\
  (1 < csq psi1 -> qbitInit psi1 = None) /\
  state0 = Some [k1; k0] /\ state1 = Some [k0; k1].
Proof. exact qbit_facts. Qed.
Print Assumptions C78_qbit.
Example C78_qbit_case : csq (kmul (RC (1 / 2)) CI) <= 1 /\ 1 < csq (RC 2).
Proof. unfold csq. cbn. lra. Qed.
