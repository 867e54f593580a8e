(** What the Python tools should compute. *)
From Coq Require Import List Arith ZArith Reals Sorted.
From Verif Require Import Star Arr CReal SliceSpec FourierSpec PyModel.
Import ListNotations.
Local Open Scope nat_scope.

(** a list of positions, in increasing order *)
Definition increasing (V : list nat) : Prop := StronglySorted lt V.

(** <psi| (M (x) 1) |psi>, the operator with matrix elements <r|M|c> acting on the subsystems [V] *)
Definition expectation (M : list nat -> list nat -> CR) (V sh : list nat) (psi : list nat -> CR) : CR :=
  isum sh (fun y => kmul (kconj (psi y)) (lifted_action M V sh psi y)).
Definition transposed (M : list nat -> list nat -> CR) : list nat -> list nat -> CR := fun r c => M c r.
(** a matrix as an array with the indices row, column of the first subsystem, row, column of the second, etc. (as products of
    operators of one subsystem each are) *)
Fixpoint interleave (r c : list nat) : list nat := match r, c with a :: r', b :: c' => a :: b :: interleave r' c' | _, _ => [] end.
Definition dimensions (V sh : list nat) : list nat := map (fun v => nth v sh 0) V.
Definition represents (op : ndarray) (V sh : list nat) (M : list nat -> list nat -> CR) : Prop :=
  shape op = interleave (dimensions V sh) (dimensions V sh) /\
  forall r c, inr (dimensions V sh) r -> inr (dimensions V sh) c -> elem op (interleave r c) = M r c.
(** diagonal matrices *)
Definition diagonal (f : list nat -> CR) : list nat -> list nat -> CR := fun r c => if listnat_eqb r c then f r else k0.
(** products of operators of one subsystem each *)
Fixpoint product_of (ops : list ndarray) (r c : list nat) : CR :=
  match ops, r, c with o :: ops', a :: r', b :: c' => kmul (elem o [a; b]) (product_of ops' r' c') | _, _, _ => k1 end.

(** the sum of the amplitudes over the positions [V], the remaining coordinates being [x] *)
Definition marginal (V sh : list nat) (psi : list nat -> CR) (x : list nat) : CR :=
  ksum psi (filter (fun y => listnat_eqb (map (fun o => nth o y 0) (filter (fun o => if in_dec Nat.eq_dec o V then false else true) (seq 0 (length sh)))) x) (indices sh)).
Definition remaining (V sh : list nat) : list nat :=
  map (fun o => nth o sh 0) (filter (fun o => if in_dec Nat.eq_dec o V then false else true) (seq 0 (length sh))).
Definition weight (sh : list nat) (psi : list nat -> CR) : R := cre (isum sh (fun y => kmul (kconj (psi y)) (psi y))).

(** the annihilation operator a of a mode, the creation operator *)
Definition lowering (r c : list nat) : CR := match r, c with [m], [n] => if n =? m + 1 then RC (sqrt (INR n)) else k0 | _, _ => k0 end.
Definition raising (r c : list nat) : CR := match r, c with [m], [n] => if m =? n + 1 then RC (sqrt (INR m)) else k0 | _, _ => k0 end.

(** indices of the array *)
Definition within (axes : list nat) (a : ndarray) : Prop := forall p, In p axes -> p < ndim a.
(** position to momentum in one of the indices, and in some of them one after the other *)
Definition momentum_in (sh : list nat) (psi : list nat -> CR) (p : nat) : list nat -> CR :=
  fun y => to_momentum (nth p sh 0) 1 (fun v => psi (replaced p v y)) (nth p y 0).
Definition position_in (sh : list nat) (psi : list nat -> CR) (p : nat) : list nat -> CR :=
  fun y => to_position (nth p sh 0) 1 (fun v => psi (replaced p v y)) (nth p y 0).

(** coherent states *)
Definition kpow (z : CR) (n : nat) : CR := Nat.iter n (kmul z) k1.
Definition coherent_amplitude (alpha : CR) (n : nat) : CR := kmul (RC (exp (- csq alpha / 2) / sqrt (INR (fact n)))) (kpow alpha n).
(** one amplitude is 1, the others 0 *)
Definition basis_state (j : nat) (x : list nat) : CR := if nth 0 x 0 =? j then k1 else k0.
