(** When two outputs agree, and when a text occurs in another one. *)
From Coq Require Import List Reals Ascii.
From Verif Require Import Star CReal Arr VerdictModel.
Import ListNotations.

(** the numbers differ by at most 1e-8 plus 1e-5 of the expected one *)
Definition close (this expected : number) : Prop :=
  exists x y : CR, this = Num x /\ expected = Num y /\ (sqrt (csq (ksub x y)) <= / 10 ^ 8 + / 10 ^ 5 * sqrt (csq y))%R.
(** as many lines, as many columns, all numbers close *)
Definition closeTrajectories (this expected : list (list number)) : Prop := Forall2 (Forall2 close) this expected.
Definition closeStates (this expected : stateFile) : Prop :=
  extents this = extents expected /\ Forall2 (fun a b => forall i, inr (extents this) i -> close (a i) (b i)) (states this) (states expected) /\ Forall2 close (times this) (times expected).
(** trajectories of several lines, with several columns, equally many in each line *)
Definition table (rows : list (list number)) : Prop := 2 <= length rows /\ exists n, 2 <= n /\ Forall (fun r => length r = n) rows.
(** states of a system, none of the parts of which has a single dimension, with their times *)
Definition history (f : stateFile) : Prop := length (times f) = length (states f) /\ Forall (fun d => 2 <= d) (extents f).
(** the states of two systems with as many parts, both one state or both several *)
Definition comparable (f g : stateFile) : Prop :=
  history f /\ history g /\ length (extents f) = length (extents g) /\ (length (states f) = 1 <-> length (states g) = 1).
Definition occurs (s l : list ascii) : Prop := exists p q, l = p ++ s ++ q.
(** the outputs of a run mode, this and the expected one: what was read agrees *)
Definition agreeing (r : outputs * outputs) : Prop :=
  (forall a b, trajectory (fst r) = Some a -> trajectory (snd r) = Some b -> closeTrajectories a b) /\
  (forall f g, state (fst r) = Some f -> state (snd r) = Some g -> closeStates f g).
(** both can be read, and are such as above *)
Definition proper (r : outputs * outputs) : Prop :=
  (exists a b, trajectory (fst r) = Some a /\ trajectory (snd r) = Some b /\ table a /\ table b) /\
  (exists f g, state (fst r) = Some f /\ state (snd r) = Some g /\ comparable f g).
(** lines of different lengths *)
Definition ragged (rows : list (list number)) : Prop := exists r r', In r rows /\ In r' rows /\ length r <> length r'.
