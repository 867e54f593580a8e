(** Specification of a run: the sequence of states the trajectory goes through and, for each, what is written. *)
From Coq Require Import List Arith Bool Reals.
From Verif Require Import RunModel.
Import ListNotations.

Section Spec.
Context {Traj Line Saved AH : Type}.
Variable getTime : Traj -> R.
Variable advanceBy tstep : Traj -> R -> Traj.
Variable lineOf : Traj -> Line.
Variable save : Traj -> Saved.

(** x_0, x_1, ...: states of the trajectory after each advance *)
Fixpoint orbit (m : mode) (x : Traj) (k : nat) : Traj :=
  match k with O => x | S k' => adv getTime advanceBy tstep m (orbit m x k') end.
(** number of streaming instants before the j-th step *)
Definition dueCount (m : mode) (j : nat) : nat := length (filter (due m) (seq 0 j)).
Definition saveDue (m : mode) (sdf : nat) (fss continuing : bool) (j : nat) : bool :=
  due m j && (negb (sdf =? 0) && (dueCount m j mod sdf =? 0) && (negb (dueCount m j =? 0) || (fss && negb continuing))).
Definition lineDue (m : mode) (continuing : bool) (j : nat) : bool := due m j && (negb (j =? 0) || negb continuing).
Definition stepEvents (m : mode) (sdf : nat) (fss continuing : bool) (x : Traj) (j : nat) : list (@event Traj Line Saved) :=
  (if j =? 0 then [] else [EAdvance (orbit m x j)]) ++
  (if saveDue m sdf fss continuing j then [ESave (save (orbit m x j))] else []) ++
  (if lineDue m continuing j then [ELine (lineOf (orbit m x j))] else []).

(** data lines and times in a list of events *)
Definition linesOf (es : list (@event Traj Line Saved)) : list Line :=
  flat_map (fun e => match e with ELine l => [l] | _ => [] end) es.
End Spec.
