(** Specification of time averages *)
From Coq Require Import List Arith Bool Reals.
From Verif Require Import RunModel RunSpec TimeAvModel.
Import ListNotations.

(** the samples taken after the relaxation time, and the mean of their [j]-th column *)
Definition relaxed (relaxationTime : R) (l : list sample) : list sample := filter (fun s => if Rlt_dec relaxationTime (fst s) then true else false) l.
Definition total (j : nat) (l : list sample) : R := fold_right Rplus 0%R (map (fun s => nth j (snd s) 0%R) l).
Definition timeMean (relaxationTime : R) (l : list sample) (j : nat) : R := (total j (relaxed relaxationTime l) / INR (length (relaxed relaxationTime l)))%R.
(** [n] means; zeros if there is no sample *)
Definition timeMeans (relaxationTime : R) (l : list sample) (n : nat) : list R :=
  match relaxed relaxationTime l with [] => repeat 0%R n | _ => map (timeMean relaxationTime l) (seq 0 n) end.

Section Sessions.
Context {Traj Saved AH : Type}.
Variable getTime : Traj -> R.
Variable advanceBy tstep : Traj -> R -> Traj.
Variable lineOf : Traj -> sample.
Variable save : Traj -> Saved.
Variable load : Saved -> Traj -> option Traj.
Variable ahStep : AH -> sample -> option AH.
Notation event := (@event Traj sample Saved).
(** a session: a run which has something to do *)
Definition session (continuing : bool) (x x' : Traj) (es : list event) : Prop :=
  exists fuel m sdf si fss h r, timeToReach getTime m x <> 0%R /\ (getTime x < timeToReach getTime m x)%R /\
    runFrom getTime advanceBy tstep lineOf save ahStep fuel m sdf si fss continuing h x = Some (x', es, r).
(** the state is saved as the last thing of a session *)
Definition savedLast (es : list event) : Prop := exists es' s, es = es' ++ [ESave s].
(** sessions, each starting with the last record which the one before wrote: for each, its events and the time averages it started with *)
Variable relaxationTime : R.
Inductive sessions : bool -> Traj -> averaging -> list (averaging * list event) -> Prop :=
| only c x a x' es : session c x x' es -> sessions c x a [(a, es)]
| resumed c x a x' es s a' y z l : session c x x' es -> resumedFrom relaxationTime a es = Some (s, a') -> load s y = Some z ->
    sessions true z a' l -> sessions c x a ((a, es) :: l).
End Sessions.
