(** What a Lindblad operator of an element has to be. Matrices are functions of row and column, for levels below [dim]. *)
From Coq Require Import List Arith Reals.
From Verif Require Import Star CReal PureModel ElementModel.
Import ListNotations.

Notation mat := (nat -> nat -> CR).
(** sum over the levels *)
Definition lsum (dim : nat) (f : nat -> CR) : CR := ksum f (seq 0 dim).
Definition norm2 (dim : nat) (psi : nat -> CR) : R := rsum (fun n => csq (psi n)) (seq 0 dim).
Definition mtr (dim : nat) (a : mat) : CR := lsum dim (fun n => a n n).

(** the function on state vectors is the operator *)
Definition is_operator (dim : nat) (f : (nat -> CR) -> (nat -> CR)) (J : mat) : Prop :=
  forall psi m, m < dim -> f psi m = lsum dim (fun n => kmul (J m n) (psi n)).
(** J rho J^dagger *)
Definition sandwich (dim : nat) (J rho : mat) : mat :=
  fun m n => lsum dim (fun k => lsum dim (fun l => kmul (kmul (J m k) (rho k l)) (kconj (J n l)))).
(** J^dagger J *)
Definition jdagj (dim : nat) (J : mat) : mat := fun m n => lsum dim (fun k => kmul (kconj (J k m)) (J k n)).

(** the jump is J, the superoperator, if there is one, adds J rho J^dagger *)
Definition describes (dim : nat) (l : lindbladOp) (J : mat) : Prop :=
  is_operator dim (lbJump l) J /\
  match lbSuper l with
  | Some super => forall rho d m n, m < dim -> n < dim -> super rho d m n = kadd (d m n) (sandwich dim J rho m n)
  | None => True
  end.
(** the rate of the jump in a state: squared norm of the jumped state, and Re Tr(J rho J^dagger) *)
Definition rate_of_jump (dim : nat) (l : lindbladOp) (J : mat) : Prop :=
  match lbRate l with
  | Some rate => (forall psi, rate (ldoSV dim psi) = norm2 dim (lbJump l psi)) /\
                 (forall rho, rate (ldoDO dim rho) = cre (mtr dim (sandwich dim J rho)))
  | None => True
  end.

(** ladder operators *)
Definition annihilation : mat := fun m n => if n =? m + 1 then RC (sqrt (INR n)) else k0.
Definition creation : mat := fun m n => if m =? n + 1 then RC (sqrt (INR m)) else k0.
(** |i><j| *)
Definition ketbra (i j : nat) : mat := fun m n => if andb (m =? i) (n =? j) then k1 else k0.
Definition identity : mat := fun m n => if m =? n then k1 else k0.
Definition mscale (c : R) (a : mat) : mat := fun m n => kmul (RC c) (a m n).
(** S_- of a spin of size twoS/2 on the lowest levels, level n having magnetic quantum number n - twoS/2 *)
Definition spinLower (twoS : nat) : mat := fun m n => if n =? m + 1 then RC (sqrt (INR ((m + 1) * (twoS - m)))) else k0.
(** the phase flip of level k: 1 - 2|k><k| *)
Definition flip (k : nat) : mat := fun m n => if m =? n then (if m =? k then RC (-1) else k1) else k0.

(** the non-Hermitian part of the generator G (of the no-jump evolution dpsi/dt = G psi) is minus half the sum of J^dagger J, up to
    a multiple of the identity; [keep] selects matrix elements *)
Definition damping_matches (dim : nat) (keep : nat -> nat -> Prop) (G : mat) (c : R) (Js : list mat) : Prop :=
  forall m n, m < dim -> n < dim -> keep m n ->
    kadd (G m n) (kconj (G n m)) = ksub (if m =? n then RC c else k0) (ksum (fun J => jdagj dim J m n) Js).
Definition everywhere (m n : nat) : Prop := True.

(** the generator of the Master equation: G rho + rho G^dagger + sum_k J_k rho J_k^dagger *)
Definition masterOf (dim : nat) (G : mat) (Js : list mat) (rho : mat) : mat :=
  fun m n => kadd (kadd (lsum dim (fun k => kmul (G m k) (rho k n))) (lsum dim (fun k => kmul (rho m k) (kconj (G n k)))))
                  (ksum (fun J => sandwich dim J rho m n) Js).
(** decay channels between levels of the system; their operators sqrt(2 gamma)|first><second| *)
Definition decays_in (dim : nat) (decays : list decay) : Prop :=
  Forall (fun dc => (0 <= dcGamma dc)%R /\ dcFirst dc < dim /\ dcSecond dc < dim) decays.
Definition radiativeOps (decays : list decay) : list mat := map (fun dc => mscale (sqrt (2 * dcGamma dc)) (ketbra (dcFirst dc) (dcSecond dc))) decays.
(** c + x a *)
Definition homodyneOp (c : CR) (x : R) (a : mat) : mat := fun m n => kadd (kmul c (identity m n)) (mscale x a m n).
(** what the superoperators of all the diffusive Lindblads add up to, and what they should *)
Definition allDiffusive (dim : nat) (gammas : list R) (rho d : dmat) : dmat :=
  fold_left (fun d l => match lbSuper l with Some super => super rho d | None => d end) (diffusive dim gammas) d.
