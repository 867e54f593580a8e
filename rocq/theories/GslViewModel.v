(** Model of how ControlledErrorStepperGSL reaches the elements of the array it is to evolve: CPPQEDutils/ODE_GSL.h and the traits of CPPQEDutils/ArrayTraits.h and BlitzArray.h. A blitz array is the address of its element (0,...,0)
    (data()), its extents and its strides, in units of elements (of a complex number, of which GSL sees two doubles). Outside of the repository, and arbitrary here: the step of GSL, its adjustment of the step size, and the answer of
    blitz::Array::isStorageContiguous. The system function is taken to assign all elements of the derivative. *)
From Coq Require Import List Arith ZArith Bool.
From Verif Require Import Arr.
Import ListNotations.
Local Open Scope nat_scope.

Record view := mkView { vBase : Z; vExt : list nat; vStr : list Z }.
Definition address (v : view) (x : list nat) : Z := fold_left (fun a p => (a + Z.of_nat (fst p) * snd p)%Z) (combine x (vStr v)) (vBase v).
(** Size, ArrayTraits.h:50-54, BlitzArray.h:143-147 *)
Definition total (ext : list nat) : nat := fold_right Nat.mul 1 ext.
(** the strides of an array created from data and extents only, Create, BlitzArray.h:158-166 *)
Fixpoint rowStrides (ext : list nat) : list Z := match ext with [] => [] | _ :: ext => Z.of_nat (total ext) :: rowStrides ext end.
Definition created (ext : list nat) : view := mkView 0 ext (rowStrides ext).

Section Gsl.
Context {E T A : Type}.
Variable e0 : E.
(** gsl_odeiv2_step_apply of an allocated step of the given dimension: success, the new state, the errors and derivatives; gsl_odeiv2_control_hadjust; time+dt, dt*0.5 *)
Variable stepApply : nat -> (T -> list E -> list E) -> T -> T -> list E -> bool * list E * A.
Variable hadjust : list E -> A -> T -> T.
Variable plus : T -> T -> T.
Variable half : T -> T.
Variable contiguous : view -> bool.
Notation array := (list nat -> E).
Notation system := (T -> array -> array).

Definition memory := Z -> E.
Fixpoint putL (l : list E) (i : nat) (e : E) : list E := match l, i with [], _ => [] | _ :: l, 0 => e :: l | b :: l, S i => b :: putL l i e end.
(** what GSL reads and writes beginning at a pointer *)
Definition readAt (m : memory) (p : Z) (n : nat) : list E := map (fun i => m (p + Z.of_nat i)%Z) (seq 0 n).
Definition writeAt (m : memory) (p : Z) (l : list E) : memory := fun z => if (p <=? z)%Z && (z <? p + Z.of_nat (length l))%Z then nth (Z.to_nat (z - p)) l e0 else m z.
(** lowLevelSystemFunction, ODE_GSL.h:88-99 *)
Definition lowLevel (ext : list nat) (sys : system) (t : T) (y : list E) : list E :=
  let yInterface := fun x => nth (Z.to_nat (address (created ext) x)) y e0 in
  fold_left (fun dydt x => putL dydt (Z.to_nat (address (created ext) x)) (sys t yInterface x)) (indices ext) (repeat e0 (total ext)).
Inductive result := Done (m : memory) (t dt : T) (success : bool) | NonContiguousStorage | DimensionalityMismatch | Undefined.
(** try_step, ODE_GSL.h:44-84; [allocated]: the dimension of step_, if there is one. [debug]: NDEBUG is not defined *)
Definition tryStep (debug : bool) (allocated : option nat) (sys : system) (v : view) (m : memory) (t dt : T) : result * option nat :=
  let n := total (vExt v) in
  let go := match stepApply n (lowLevel (vExt v) sys) t dt (readAt m (address v (repeat 0 (length (vExt v)))) n) with
            | (ok, y, a) => let m' := writeAt m (address v (repeat 0 (length (vExt v)))) y in
                            Done m' (if ok then plus t dt else t) (if ok then hadjust y a dt else half dt) ok
            end in
  match allocated with
  | None => (go, Some n)
  | Some d => (if debug && negb (contiguous v) then NonContiguousStorage
               else if debug && negb (d =? n) then DimensionalityMismatch
               else if d =? n then go else Undefined, Some d)
  end.
End Gsl.
