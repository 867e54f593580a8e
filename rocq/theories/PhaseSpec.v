(** What the distribution functions have to be. Quadratures x=(a+a^dagger)/2, y=(a-a^dagger)/(2i), as documented with wignerFunction; alpha=x+iy. *)
From Coq Require Import List Arith Reals.
From Verif Require Import Star CReal DdhoSpec InitialSpec.
Import ListNotations.
Local Open Scope R_scope.

(** the density of the normal distribution of mean 0 *)
Definition normal_density (variance x : R) : R := exp (- (x * x) / (2 * variance)) / sqrt (2 * PI * variance).
(** W m n is the Wigner function of |m><n|: of the vacuum, it is the density of x and y, independent with the variance 1/4; multiplication of the operator with the creation
    operator from the left, and with the annihilation operator from the right, is conj(alpha)-(d/dalpha)/2, and alpha-(d/dconj(alpha))/2 (the correspondence rules) *)
Definition wigner_family (W : nat -> nat -> R -> R -> CR) : Prop :=
  (forall x y, W 0%nat 0%nat x y = RC (normal_density (1 / 4) x * normal_density (1 / 4) y)) /\
  exists Wx Wy : nat -> nat -> R -> R -> CR,
    (forall m n y, cderiv (fun x => W m n x y) (fun x => Wx m n x y)) /\
    (forall m n x, cderiv (fun y => W m n x y) (fun y => Wy m n x y)) /\
    (forall m n x y, kmul (RC (sqrt (INR m + 1))) (W (m + 1)%nat n x y) =
       ksub (kmul ((x, - y) : CR) (W m n x y)) (kmul (RC (1 / 4)) (ksub (Wx m n x y) (kmul CI (Wy m n x y))))) /\
    (forall m n x y, kmul (RC (sqrt (INR n + 1))) (W m (n + 1)%nat x y) =
       ksub (kmul ((x, y) : CR) (W m n x y)) (kmul (RC (1 / 4)) (kadd (Wx m n x y) (kmul CI (Wy m n x y))))).
(** the Wigner function of sum rho m n |m><n| *)
Definition wigner_of (W : nat -> nat -> R -> R -> CR) (dim : nat) (rho : nat -> nat -> CR) (x y : R) : CR :=
  ksum (fun m => ksum (fun n => kmul (rho m n) (W m n x y)) (seq 0 dim)) (seq 0 dim).
Definition selfadjoint (dim : nat) (rho : nat -> nat -> CR) : Prop := forall m n, (m < dim)%nat -> (n < dim)%nat -> rho m n = kconj (rho n m).
Definition polar_angle (atan2 : R -> R -> R) : Prop :=
  forall x y, x <> 0 \/ y <> 0 -> let r := sqrt (x * x + y * y) in r * cos (atan2 y x) = x /\ r * sin (atan2 y x) = y.

(** the coherent state, as far as there are levels: an eigenstate of the annihilation operator, normalised when there are infinitely many levels *)
Definition coherent_state (alpha : CR) (dim : nat) (phi : list CR) : Prop :=
  length phi = dim /\ ((0 < dim)%nat -> nth 0 phi k0 = RC (exp (- csq alpha / 2))) /\ eigenstate_of_annihilation alpha phi.
(** <phi|rho|phi> and <phi|psi> *)
Definition expectation (dim : nat) (rho : nat -> nat -> CR) (phi : list CR) : CR :=
  ksum (fun m => ksum (fun n => kmul (kmul (kconj (nth m phi k0)) (rho m n)) (nth n phi k0)) (seq 0 dim)) (seq 0 dim).
Definition overlap_with (dim : nat) (phi psi : list CR) : CR := ksum (fun m => kmul (kconj (nth m phi k0)) (nth m psi k0)) (seq 0 dim).
(** a mixture of pure states with weights *)
Definition mixture (parts : list (R * list CR)) (m n : nat) : CR :=
  ksum (fun p => kmul (RC (fst p)) (kmul (nth m (snd p) k0) (kconj (nth n (snd p) k0)))) parts.
Definition norm_of (psi : list CR) : R := fold_right (fun z s => csq z + s) 0 psi.
Definition proper_mixture (dim : nat) (parts : list (R * list CR)) : Prop :=
  (forall p, In p parts -> 0 <= fst p /\ length (snd p) = dim /\ norm_of (snd p) = 1) /\ fold_right (fun p s => fst p + s) 0 parts = 1.

(** the points of a grid: lower, lower+step, ... as many as are below upper *)
Definition grid (lower step : R) (n : nat) : list R := map (fun i => lower + INR i * step) (seq 0 n).
Definition points_below (lower upper step : R) (n : nat) : Prop := forall i, (i < n)%nat <-> lower + INR i * step < upper.
