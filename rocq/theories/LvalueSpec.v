(** Specification: an evolution of values.  A step of a trajectory takes the elements of the state to new ones; attempts which were given up leave nothing behind. *)
From Coq Require Import List Arith.
From Verif Require Import LvalueModel.
Import ListNotations.

Section LvalueSpec.
  Variables (K : Type) (kdiv : K -> K -> K) (norm : list K -> K).

  Definition over (v : list K) (c : K) : list K := map (fun a => kdiv a c) v.
  Definition normalised (v : list K) : list K := over v (norm v).
  Definition optionally (f : option (list K -> list K)) (v : list K) : list K := match f with Some g => g v | None => v end.
  Definition advanced (a : attempt K) (v : list K) : list K := normalised (optionally (a_exact K a) (optionally (a_ode K a) v)).

  (** the state after a step: of the attempts, the last one counts *)
  Definition stepped (d : mcwfStep K) (v : list K) : list K :=
    let w := advanced (last (m_again K d) (m_first K d)) v in
    match m_jump K d with
    | NoJump _ => w
    | Normal _ j c => over (j w) c
    | Special _ i => match nth_error (m_specials K d) i with Some j => normalised (j w) | None => w end
    end.
  Definition evolved (ds : list (mcwfStep K)) (v : list K) : list K := fold_left (fun v d => stepped d v) ds v.
  Definition evolvedMaster (tr : list K -> K) (fs : list (list K -> list K)) (v : list K) : list K := fold_left (fun v f => over (f v) (tr (f v))) fs v.
  (** the states at the times of the output *)
  Fixpoint history (dss : list (list (mcwfStep K))) (v : list K) : list (list K) :=
    match dss with [] => [v] | ds :: dss' => v :: history dss' (evolved ds v) end.

  (** the number of elements does not change, and the jump is one of those there are *)
  Definition keeps (f : list K -> list K) : Prop := forall v, length (f v) = length v.
  Definition optKeeps (f : option (list K -> list K)) : Prop := match f with Some g => keeps g | None => True end.
  Definition attemptOk (a : attempt K) : Prop := optKeeps (a_ode K a) /\ optKeeps (a_exact K a).
  Definition jumpOk (n : nat) (j : jump K) : Prop := match j with NoJump _ => True | Normal _ f _ => keeps f | Special _ i => i < n end.
  Definition stepOk (d : mcwfStep K) : Prop :=
    attemptOk (m_first K d) /\ Forall attemptOk (m_again K d) /\ Forall keeps (m_specials K d) /\ jumpOk (length (m_specials K d)) (m_jump K d).
End LvalueSpec.
