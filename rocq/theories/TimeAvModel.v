(** Model of the time averaging of quantum trajectories, CPPQEDcore/quantumtrajectory/TimeAveragingMCWF_Trajectory.h. The header belongs to an earlier interface of the
    trajectories (virtual functions); what is modelled is its text. The averages do not influence the trajectory, so that what run does is as in RunModel.v,
    and the members averages_ and sum_ are followed along its events. In real arithmetic. *)
From Coq Require Import List Arith Bool Reals.
From Verif Require Import RunModel.
Import ListNotations.

(** what is streamed: the time and the averages as calculated, before Averaged::process *)
Definition sample := (R * list R)%type.
(** averages_, sum_: lines 93-94; as constructed, lines 52-55, for [n] averages *)
Record averaging := mkAveraging { averages : list R; amount : nat }.
Definition constructed (n : nat) : averaging := mkAveraging (repeat 0%R n) 0.
(** element by element *)
Fixpoint zipWith (f : R -> R -> R) (a b : list R) : list R := match a, b with x :: a', y :: b' => f x y :: zipWith f a' b' | _, _ => [] end.
(** stream_v, lines 60-73 *)
Definition streamSample (relaxationTime : R) (s : sample) (a : averaging) : averaging :=
  if Rlt_dec relaxationTime (fst s)
  then mkAveraging (zipWith (fun old now => (old * INR (amount a) + now) / (INR (amount a) + 1))%R (averages a) (snd s)) (amount a + 1)
  else a.

Section Events.
Context {Traj Saved : Type}.
Notation event := (@event Traj sample Saved).
Variable process : list R -> list R.
Variable relaxationTime : R.
Definition onEvent (a : averaging) (e : event) : averaging := match e with ELine s => streamSample relaxationTime s a | _ => a end.
(** writeStateMore_v, line 87: the records written to the state file with the averages and their amount *)
Fixpoint savedWith (a : averaging) (es : list event) : list (Saved * averaging) :=
  match es with
  | [] => []
  | ESave s :: es' => (s, a) :: savedWith a es'
  | e :: es' => savedWith (onEvent a e) es'
  end.
(** logMoreOnEnd_v, lines 75-84: what is displayed *)
Fixpoint displayed (a : averaging) (es : list event) : list (list R) :=
  match es with
  | [] => []
  | ELog :: es' => process (averages a) :: displayed a es'
  | e :: es' => displayed (onEvent a e) es'
  end.
(** readStateMore_v, line 86, of the last record of the state file; [None]: there is none *)
Definition resumedFrom (a : averaging) (es : list event) : option (Saved * averaging) := last (map Some (savedWith a es)) None.
End Events.
