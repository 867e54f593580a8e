(** Polygonal curves through data, the deviation of two curves, and thermal distributions. *)
From Coq Require Import List Arith Reals.
From Coquelicot Require Import Coquelicot.
From Verif Require Import Star CReal HermSpec.
Import ListNotations.
Local Open Scope R_scope.

Definition increasing (ts : list R) : Prop := forall i j, (i < j < length ts)%nat -> nth i ts 0 < nth j ts 0.
(** at least two points, at increasing times, and f is the polygon through them *)
Definition polygon (ts ys : list R) (f : R -> R) : Prop :=
  (2 <= length ts)%nat /\ increasing ts /\ length ys = length ts /\
  forall i t, (i + 1 < length ts)%nat -> nth i ts 0 <= t <= nth (i + 1) ts 0 ->
    f t = nth i ys 0 + (nth (i + 1) ys 0 - nth i ys 0) * (t - nth i ts 0) / (nth (i + 1) ts 0 - nth i ts 0).
Definition firstTime (ts : list R) : R := nth 0 ts 0.
Definition lastTime (ts : list R) : R := last ts 0.
(** the integral of the square of the difference *)
Definition deviation (f g : R -> R) (a b : R) : R := RInt (fun t => (f t - g t) ^ 2) a b.

(** populations of the levels of a mode in equilibrium with a bath of nTh photons: detailed balance between the rates 2 kappa (nTh+1) (n+1) down and 2 kappa nTh (n+1) up, and normalisation *)
Definition thermal (nTh : R) (p : nat -> R) : Prop := (forall n, (nTh + 1) * p (S n) = nTh * p n) /\ infinite_sum p 1.
Definition diagonalState (p : nat -> R) (i : list nat) : CR := if Nat.eqb (nth 0 i 0%nat) (nth 1 i 0%nat) then RC (p (nth 0 i 0%nat)) else k0.
(** f 0 + ... + f (n-1) *)
Definition total (n : nat) (f : nat -> R) : R := fold_right Rplus 0 (map f (seq 0 n)).
Definition distance (dim : nat) (r s : list nat -> CR) : R := sqrt (total dim (fun m => total dim (fun n => csq (ksub (r [m; n]) (s [m; n]))))).
