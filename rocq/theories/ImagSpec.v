(** Imaginary time *)
From Coq Require Import List Arith Bool Reals.
From Verif Require Import Star CReal Arr TriModel FreeExactModel FreeExactSpec ElementModel ElementSpec ModeModel ModeSpec DampSpec CompositeModel ParticleModel InteractionModel InteractionSpec AverageSpec ScriptSpec CavScriptModel CavScriptSpec ImagModel.
Import ListNotations.
Local Open Scope nat_scope.

(** the Hamiltonian of the parameters: - delta n + omega Sz + u n (Sz+s)/(2s+1) + y (a + a^dagger) Sx/sqrt(2s+1) *)
Definition spinZ (twoS : nat) : mat := fun m n => if m =? n then RC (INR m - INR twoS / 2) else k0.
Definition hDicke (p : imPars) : op :=
  let twoS := sTwoS (iSpin p) in
  plusO (plusO (timesO (RC (- pDelta (iMode p))) (kron [number; one])) (timesO (RC (sOmega (iSpin p))) (kron [one; spinZ twoS])))
        (hGeneralDicke twoS (kmul (RC (/ INR (twoS + 1))) (iU p)) (kmul (RC (/ sqrt (INR (twoS + 1)))) (iY p))).
Definition imDims (p : imPars) : list nat := [pCutoff (iMode p); decideDimension (sTwoS (iSpin p)) (sDimPar (iSpin p))].
(** minus the Hamiltonian, but for a real constant *)
Definition imaginary (H : op) (c : R) : op := plusO (timesO (kopp k1) H) (timesO (RC c) (kron [one; one])).
Definition imag_simulates (s : imag) (G : op) : Prop :=
  ihDims (imInt s) = [msDim (imM s); msDim (imS s)] /\
  exists GM GS Gi, no_jump_generator (imM s) GM /\ no_jump_generator (imS s) GS /\ has_generator (imInt s) [modeRate (imM s); modeRate (imS s)] any_state Gi /\
    forall y x, inr (ihDims (imInt s)) y -> inr (ihDims (imInt s)) x -> G y x = kadd (kadd (kron [GM; one] y x) (kron [one; GS] y x)) (Gi y x).
(** the mean energy of a state which need not be normalised, and its rate of change if dpsi/dt is d *)
Definition braket (dims : list nat) (f g : array) : CR := isum dims (fun y => kmul (kconj (f y)) (g y)).
Definition acting (dims : list nat) (H : op) (f : array) : array := fun y => isum dims (fun x => kmul (H y x) (f x)).
Definition norm2 (dims : list nat) (f : array) : R := cre (braket dims f f).
Definition energy_rate (dims : list nat) (H : op) (psi d : array) : R :=
  let n := norm2 dims psi in
  let h := cre (braket dims psi (acting dims H psi)) in
  let dn := cre (kadd (braket dims psi d) (braket dims d psi)) in
  let dh := cre (kadd (braket dims psi (acting dims H d)) (braket dims d (acting dims H psi))) in
  ((dh * n - h * dn) / (n * n))%R.
(** an eigenvector of a matrix *)
Definition is_eigenvector (dim : nat) (M : dmat) (v : ket) : Prop :=
  (exists k, k < dim /\ v k <> k0) /\ exists e : CR, forall k, k < dim -> ksum (fun l => kmul (M k l) (v l)) (seq 0 dim) = kmul e (v k).
