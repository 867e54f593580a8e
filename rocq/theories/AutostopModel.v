(** Model of AutostopHandlerGeneric, CPPQEDutils/Trajectory.h:179-221; records are lists of reals (exact arithmetic). *)
From Coq Require Import List Arith Bool Reals.
Import ListNotations.
Local Open Scope R_scope.

(** data members averages_ and queue_ (front first), lines 219-220 of the class *)
Record handler := mkHandler { averages : list R; queue : list (list R) }.
Definition newHandler : handler := mkHandler [] [].

Definition vmap2 (f : R -> R -> R) (a b : list R) : list R := map (fun p => f (fst p) (snd p)) (combine a b).

Section Autostop.
Variables eps epsAbs : R.
Variable repetition : nat.

(** line 193 *)
Definition clip (v : R) : R := if Rlt_dec (Rabs v) epsAbs then epsAbs else v.
(** max(abs(averages_-buffer)/(abs(averages_)+abs(buffer)))<autoStopEpsilon_, line 203: every element is below *)
Definition deviation (a b : R) : R := Rabs (a - b) / (Rabs a + Rabs b).
Definition below (d : R) : bool := if Rlt_dec d eps then true else false.

(** operator(), lines 189-213; [None]: StoppingCriterionReachedException *)
Definition handle (h : handler) (record : list R) : option handler :=
  let buffer := map clip record in
  if repetition =? 0 then Some h
  else if (length (averages h) =? 0)%nat then Some (mkHandler (map (fun _ => 0) buffer) (queue h))
  else if (length (queue h) =? repetition)%nat then
    if forallb below (vmap2 deviation (averages h) buffer) then None
    else match queue h with
         | front :: q => Some (mkHandler (vmap2 Rplus (averages h) (map (fun d => d / INR repetition) (vmap2 Rminus buffer front))) (q ++ [buffer]))
         | [] => Some h (* not reached: repetition is positive *)
         end
  else Some (mkHandler (vmap2 (fun a b => (INR (length (queue h)) * a + b) / INR (length (queue h) + 1)) (averages h) buffer) (queue h ++ [buffer])).

(** the records streamed one after the other; position of the one at which the run is stopped *)
Fixpoint feed (h : handler) (records : list (list R)) : option nat :=
  match records with
  | [] => None
  | r :: rs => match handle h r with None => Some 0%nat | Some h' => option_map S (feed h' rs) end
  end.
Definition stopsAt (records : list (list R)) : option nat := feed newHandler records.
End Autostop.
