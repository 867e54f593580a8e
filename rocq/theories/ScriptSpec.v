(** Equations of motion of expectation values. *)
From Coq Require Import List Arith Reals.
From Verif Require Import Star CReal Arr HermSpec MasterSpec TriModel ElementModel ElementSpec ModeModel ModeSpec DampSpec CompositeModel ParticleModel InteractionModel InteractionSpec AverageSpec BichromaticModel BichromaticSpec MatHamModel.
Import ListNotations.
Local Open Scope nat_scope.

(** G rho + rho G^dagger + sum J rho J^dagger: what the master equation makes of the state *)
Definition evolution (dims : list nat) (G : op) (Js : list op) (rho : op) : op :=
  fun y x => kadd (kadd (mmul dims G rho y x) (mmul dims rho (hc G) y x)) (ksum (fun J => conjugated dims J rho y x) Js).
(** the time derivative of the expectation value Tr(A rho)/Tr(rho), when that of rho is d, and Tr(rho)=1 *)
Definition mean_rate (dims : list nat) (A rho d : op) : CR := ksub (mean dims A d) (kmul (mean dims A rho) (mtrace dims d)).
(** the highest level of the mode (of dimension N, the last subsystem) is not populated *)
Definition room (N : nat) (rho : op) : Prop := forall y x, N <= last y 0 + 1 \/ N <= last x 0 + 1 -> rho y x = k0.
Definition ops (Ms : list mat) : list op := map (fun M => kron [M]) Ms.

(** ** The two-level atom: the operators G and J are those of the code *)
Definition atom_is (gamma delta : R) (eta : CR) (G J : mat) : Prop :=
  (forall psi m, m < 2 -> twoLevelContribution gamma delta eta psi (fun _ => k0) m = lsum 2 (fun n => kmul (G m n) (psi n))) /\
  Forall2 (describes 2) (twoLevelLoss (twoLevelZa gamma delta)) [J].
(** the Bloch vector (z, x, y) and its rate of change *)
Definition bloch (rho : op) : R * R * R := let m A := cre (mean [2] (kron [A]) rho) in
  (m (ketbra 0 0) - m (ketbra 1 1), m (fun i j => kadd (ketbra 0 1 i j) (ketbra 1 0 i j)),
   m (fun i j => kmul CI (ksub (ketbra 1 0 i j) (ketbra 0 1 i j))))%R.

(** ** The atom in the cavity *)
(** the generator and the jumps of both, made from those of the parts *)
Definition jcGenerator (q : modePars) (gamma delta : R) (eta g : CR) : op :=
  plusO (plusO (kron [modeGenerator (qbitPars delta gamma eta); one]) (kron [one; modeGenerator q])) (overI (hJaynesCummings g annihilation)).
Definition jcJumps (q : modePars) (gamma delta : R) (eta : CR) : list op :=
  map (fun J => kron [J; one]) (modeJumps (qbitPars delta gamma eta)) ++ map (fun J => kron [one; J]) (modeJumps q).
(** these are the systems the code makes of the parameters *)
Definition jc_made (q : modePars) (gamma delta : R) (eta g : CR) : Prop :=
  exists sysq sysm h, qbitMake delta gamma eta SCH = Ok sysq /\ make q SCH = Ok sysm /\ makeJaynesCummings (AQbit None) (mkCavity (pCutoff q) None) g = Ok h /\
    no_jump_generator sysq (modeGenerator (qbitPars delta gamma eta)) /\ no_jump_generator sysm (modeGenerator q) /\
    has_generator h [fun _ => k0; fun _ => k0] any_state (overI (hJaynesCummings g annihilation)) /\
    Forall2 (describes 2) (msLindblads sysq) (modeJumps (qbitPars delta gamma eta)) /\ Forall2 (describes (pCutoff q)) (msLindblads sysm) (modeJumps q).
(** <a>, <sigma> of both *)
Definition modeAmplitude : op := kron [one; annihilation].
Definition atomAmplitude : op := kron [sigmaMinus; one].
(** <sigma^dagger sigma>, <sigma^dagger sigma a> *)
Definition excitation : op := kron [ketbra 1 1; one].
Definition excitationAmplitude : op := kron [ketbra 1 1; annihilation].
(** reasonable parameters: no Kerr terms, losses not negative *)
Definition plain (q : modePars) : Prop := 0 < pCutoff q /\ (0 <= pKappa q)%R /\ (0 <= pNTh q)%R /\ pKerr q = 0%R /\ pKerrAlter q = 0%R.
