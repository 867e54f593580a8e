(** The transformation between the position and the momentum space of a particle on a grid. *)
From Coq Require Import List Arith Reals.
From Verif Require Import Star CReal.
Import ListNotations.
Local Open Scope nat_scope.

(** the N points of the grids, symmetric but for the missing upper endpoint; dk is the distance of momenta *)
Definition gridK (N : nat) (dk : R) (m : nat) : R := (dk * (INR m - INR N / 2))%R.
Definition gridX (N : nat) (dk : R) (j : nat) : R := (2 * PI / (dk * INR N) * (INR j - INR N / 2))%R.
(** exp(i k x)/sqrt(N): the wave of momentum k *)
Definition wave (N : nat) (dk : R) (m j : nat) : CR := kmul (RC (/ sqrt (INR N))) (cexp ((0%R, (gridK N dk m * gridX N dk j)%R) : CR)).
(** the wave function in position space of the one in momentum space, and back *)
Definition to_position (N : nat) (dk : R) (psi : nat -> CR) (j : nat) : CR := ksum (fun m => kmul (wave N dk m j) (psi m)) (seq 0 N).
Definition to_momentum (N : nat) (dk : R) (psi : nat -> CR) (m : nat) : CR := ksum (fun j => kmul (kconj (wave N dk m j)) (psi j)) (seq 0 N).
(** <phi|psi> *)
Definition overlap (N : nat) (phi psi : nat -> CR) : CR := ksum (fun j => kmul (kconj (phi j)) (psi j)) (seq 0 N).
(** the same in one of the indices of a multipartite wave function *)
Fixpoint replaced (p v : nat) (y : list nat) : list nat := match y, p with [], _ => [] | _ :: l, O => v :: l | a :: l, Datatypes.S q => a :: replaced q v l end.
(** sum_i w_i |psi_i><psi_i| *)
Definition mixture (l : list (CR * (list nat -> CR))) (y z : list nat) : CR := ksum (fun e => kmul (fst e) (kmul (snd e y) (kconj (snd e z)))) l.

(** Tr(A rho), products *)
Definition average_of (N : nat) (A rho : nat -> nat -> CR) : CR := ksum (fun m => ksum (fun n => kmul (A m n) (rho n m)) (seq 0 N)) (seq 0 N).
Definition product (N : nat) (A B : nat -> nat -> CR) (m n : nat) : CR := ksum (fun l => kmul (A m l) (B l n)) (seq 0 N).
(** momentum and position, as matrices in momentum space *)
Definition momentum (N : nat) (dk : R) (m n : nat) : CR := if m =? n then RC (gridK N dk m) else k0.
Definition position (N : nat) (dk : R) (m n : nat) : CR := ksum (fun j => kmul (RC (gridX N dk j)) (kmul (kconj (wave N dk m j)) (wave N dk n j))) (seq 0 N).
(** trace 1, no negative probabilities *)
Definition is_state (N : nat) (rho : nat -> nat -> CR) : Prop :=
  ksum (fun m => rho m m) (seq 0 N) = k1 /\ forall phi, (0 <= cre (ksum (fun m => ksum (fun n => kmul (kmul (kconj (phi m)) (rho m n)) (phi n)) (seq 0 N)) (seq 0 N)))%R.
(** mean and variance of momentum, mean and standard deviation of position *)
Definition particleColumns (N : nat) (rho : nat -> nat -> CR) : list R :=
  let E A := cre (average_of N A rho) in let P := momentum N 1 in let X := position N 1 in
  [E P; (E (product N P P) - E P * E P)%R; E X; sqrt (E (product N X X) - E X * E X)].
(** Gaussian wave packet around x0 of width sigma, moving with k *)
Definition gaussian (x0 sigma k x : R) : CR := kmul (RC (exp (- ((x - x0) * (x - x0)) / (4 * (sigma * sigma))))) (cexp ((0%R, (k * x)%R) : CR)).
Definition normalised (N : nat) (psi : nat -> CR) : Prop := overlap N psi psi = k1.
(** the values on the grid are proportional to the function *)
Definition samples (N : nat) (grid : nat -> R) (f : R -> CR) (psi : nat -> CR) : Prop := exists c, (0 < c)%R /\ forall j, j < N -> psi j = kmul (RC c) (f (grid j)).
(** n-th eigenstate of the harmonic oscillator of unit length: of the form of a polynomial times exp(-t^2/2), and -u''+t^2 u=(2n+1)u *)
Fixpoint polynomial (p : list R) (t : R) : R := match p with [] => 0%R | a :: q => (a + t * polynomial q t)%R end.
Definition ho_eigenstate (n : nat) (u : R -> R) : Prop :=
  (exists p, forall t, u t = (exp (- (t * t) / 2) * polynomial p t)%R) /\ (exists t, u t <> 0%R) /\ exists u1 u2, (forall t, derivable_pt_lim u t (u1 t)) /\ (forall t, derivable_pt_lim u1 t (u2 t)) /\ forall t, (- u2 t + t * t * u t = (2 * INR n + 1) * u t)%R.
(** the ground state of omrec K^2 + V (x-x0)^2 *)
Definition ground (omrec V x0 x : R) : R := exp (- (sqrt (V / omrec) * ((x - x0) * (x - x0)) / 2)).
