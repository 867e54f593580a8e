(** C141: random engines. *)
From Coq Require Import List Arith Bool.
From Verif Require Import EngineModel EngineSpec EngineProofs.
Import ListNotations.

(** Whatever is done with engines, each has a state of its own. Missing: copies of GSL engines *)
Theorem C141_own_states_partial : forall (State Seed Word Text : Type) (init : Seed -> State) (next : State -> State * Word) (print : State -> Text) parse sharing xs,
  (sharing = false \/ existsb isCopy xs = false) -> snd (performAll init next print parse sharing started xs) = snd (ideally init next print parse nothing xs).
Proof. exact @own_states. Qed.
Print Assumptions C141_own_states_partial.
(** which share the state: of two copies the second one goes on after the number drawn from the first *)
Theorem C141_copies_refuted : forall (State Seed Word Text : Type) (init : Seed -> State) (next : State -> State * Word) (print : State -> Text) parse s,
  snd (next (init s)) <> snd (next (fst (next (init s)))) -> exists xs, snd (performAll init next print parse true started xs) <> snd (ideally init next print parse nothing xs).
Proof. exact @copies_not_own. Qed.
Print Assumptions C141_copies_refuted.
(** An engine loaded from what was saved of another goes on as the other would have gone on at the time of saving, whatever is done between without saving *)
Theorem C141_resumed : forall (State Seed Word Text : Type) (init : Seed -> State) (next : State -> State * Word) (print : State -> Text) parse sharing xs ys v w n,
  reads_back print parse -> (sharing = false \/ existsb isCopy (xs ++ ys) = false) -> (forall x, In x ys -> match x with Save _ => False | _ => True end) ->
  let e1 := fst (fst (ideally init next print parse nothing xs)) in let i := length (snd (fst (ideally init next print parse nothing xs))) in
  let e2 := fst (fst (ideally init next print parse nothing (xs ++ Save v :: ys))) in
  forall s, e1 v = Some s -> e2 w <> None ->
  exists os, snd (performAll init next print parse sharing started (xs ++ Save v :: ys ++ Load w i :: repeat (Draw w) n)) = os ++ Quiet :: map Number (numbers next n s).
Proof. exact @saved_loaded. Qed.
Print Assumptions C141_resumed.
(** Arrays may be filled in parts if the distribution has no memory *)
Theorem C141_fill_partial : forall (State M X : Type) (dist0 : M) (distDraw : M -> State -> M * State * X), memoryless distDraw -> fills_in_parts dist0 distDraw.
Proof. exact @fill_parts. Qed.
Print Assumptions C141_fill_partial.
(** but not if it has: what it keeps for the next number, as those of normal distributions do, is lost at the end of each part *)
Theorem C141_fill_refuted : forall (State M X : Type) (dist0 : M) (distDraw : M -> State -> M * State * X) s m1 s1 x1,
  distDraw dist0 s = (m1, s1, x1) -> snd (distDraw m1 s1) <> snd (distDraw dist0 s1) -> ~ fills_in_parts dist0 distDraw.
Proof. exact @fill_remembers. Qed.
Print Assumptions C141_fill_refuted.

(** A counting engine: saved after two numbers, loaded into another one, a copy of which is taken before; and pairs of numbers made at once *)
Definition countNext (s : nat) : nat * nat := (S s, s).
Definition countParse (s t : nat) : nat + nat := if t <? 100 then inl t else inr s.
Definition pairsDraw (m : option nat) (s : nat) : option nat * nat * nat := match m with Some x => (None, s, x) | None => (Some (S s), S (S s), s) end.
Example C141_case :
  snd (performAll (fun x => x) countNext (fun s => s) countParse false started [New 0 5; Draw 0; Draw 0; New 1 20; Copy 2 1; Save 0; Draw 0; Load 1 0; Draw 1; Draw 2; Draw 3]) =
    [Quiet; Number 5; Number 6; Quiet; Quiet; Quiet; Number 7; Quiet; Number 7; Number 20; Meaningless] /\
  snd (countNext 5) <> snd (countNext (fst (countNext 5))) /\
  fst (fill None pairsDraw 3 7) = [7; 8; 9] /\ pairsDraw None 7 = (Some 8, 9, 7) /\ snd (pairsDraw (Some 8) 9) <> snd (pairsDraw None 9) /\ ~ fills_in_parts None pairsDraw.
Proof.
  repeat split; try discriminate. apply (fill_remembers None pairsDraw 7 (Some 8) 9 7); [reflexivity|discriminate].
Qed.
