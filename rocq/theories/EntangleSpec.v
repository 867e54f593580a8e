(** Eigenvalues, density operators, and measures of entanglement. *)
From Coq Require Import List Arith Reals.
From Verif Require Import Star CReal Arr PureModel HermSpec DensitySpec.
Import ListNotations.
Local Open Scope R_scope.
Notation op := (list nat -> list nat -> CR).

(** <phi|chi> *)
Definition inner (dims : list nat) (phi chi : list nat -> CR) : CR := isum dims (fun x => kmul (kconj (phi x)) (chi x)).
(** M has the real eigenvalues ev, with multiplicity: there is a complete orthonormal set of vectors, the k-th belonging to the k-th eigenvalue *)
Definition eigenvalues_of (dims : list nat) (M : op) (ev : list R) : Prop :=
  exists v : nat -> list nat -> CR, let N := length ev in
    (forall k l, (k < N)%nat -> (l < N)%nat -> inner dims (v k) (v l) = if (k =? l)%nat then k1 else k0) /\
    (forall x y, inr dims x -> inr dims y -> ksum (fun k => kmul (v k x) (kconj (v k y))) (seq 0 N) = if listnat_eqb x y then k1 else k0) /\
    (forall k x, (k < N)%nat -> inr dims x -> isum dims (fun y => kmul (M x y) (v k y)) = kmul (RC (nth k ev 0)) (v k x)).
(** <phi|rho|phi> *)
Definition mean (dims : list nat) (phi : list nat -> CR) (rho : op) : CR := isum dims (fun x => isum dims (fun y => kmul (kmul (kconj (phi x)) (rho x y)) (phi y))).
(** unit trace and positive *)
Definition density (dims : list nat) (rho : op) : Prop := mtrace dims rho = k1 /\ forall phi, exists r, 0 <= r /\ mean dims phi rho = RC r.
(** rho is the sum of pure product states (their weights being the squares of their norms) *)
Definition separable (dims V : list nat) (rho : op) : Prop :=
  exists l : list ((list nat -> CR) * (list nat -> CR)), mmeq dims rho (fun i j => ksum (fun bc => product V dims (pure (fst bc)) (pure (snd bc)) i j) l).
(** the negativity as the sum of the absolute values of the negative eigenvalues of the partial transpose; the von Neumann entropy *)
Definition negativePart (ev : list R) : R := rsum (fun e => Rmax 0 (- e)) ev.
Definition vonNeumann (ev : list R) : R := rsum (fun e => if Rlt_dec 0 e then - (e * ln e) else 0) ev.
(** an eigenvalue solver is right on a matrix: whatever function represents the matrix, it returns eigenvalues of it *)
Definition solves (solver : list nat -> op -> list CR) (dims : list nat) (M : op) : Prop :=
  forall M', mmeq dims M' M -> exists ev, eigenvalues_of dims M' ev /\ solver dims M' = map RC ev.
Definition solvesSA (solver : list nat -> op -> list R) (dims : list nat) (M : op) : Prop :=
  forall M', mmeq dims M' M -> eigenvalues_of dims M' (solver dims M').
