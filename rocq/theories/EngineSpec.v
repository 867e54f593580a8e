(** Engines each with a state of its own *)
From Coq Require Import List Arith Bool.
From Verif Require Import EngineModel.
Import ListNotations.

Section Engines.
Context {State Seed Word Text : Type}.
Variable init : Seed -> State.
Variable next : State -> State * Word.
Variable print : State -> Text.
Variable parse : State -> Text -> State + State.
Definition states := (nat -> option State).
Definition put (e : states) (v : nat) (s : State) : states := fun u => if u =? v then Some s else e u.
Definition ideal (ea : states * list Text) (x : act Seed) : (states * list Text) * seen Word :=
  let (e, ar) := ea in
  match x with
  | New v s => ((put e v (init s), ar), Quiet)
  | Copy v w => match e w with Some s => ((put e v s, ar), Quiet) | None => (ea, Meaningless) end
  | Reseed v s => match e v with Some _ => ((put e v (init s), ar), Quiet) | None => (ea, Meaningless) end
  | Draw v => match e v with Some s => ((put e v (fst (next s)), ar), Number (snd (next s))) | None => (ea, Meaningless) end
  | Save v => match e v with Some s => ((e, ar ++ [print s]), Quiet) | None => (ea, Meaningless) end
  | Load v i =>
      match e v, nth_error ar i with
      | Some s, Some t => match parse s t with inl s' => ((put e v s', ar), Quiet) | inr s' => ((put e v s', ar), Thrown) end
      | _, _ => (ea, Meaningless)
      end
  end.
Fixpoint ideally (ea : states * list Text) (xs : list (act Seed)) : (states * list Text) * list (seen Word) :=
  match xs with [] => (ea, []) | x :: xs => let (ea, o) := ideal ea x in let (ea, os) := ideally ea xs in (ea, o :: os) end.
Definition nothing : states * list Text := (fun _ => None, []).
Definition isCopy (x : act Seed) : bool := match x with Copy _ _ => true | _ => false end.
(** what is written is read back *)
Definition reads_back : Prop := forall s s', parse s (print s') = inl s'.
(** the numbers to come *)
Fixpoint numbers (n : nat) (s : State) : list Word := match n with 0 => [] | S n => snd (next s) :: numbers n (fst (next s)) end.
End Engines.

(** an array filled in two parts is as one filled at once *)
Definition fills_in_parts {State M X : Type} (dist0 : M) (distDraw : M -> State -> M * State * X) : Prop := forall n k s,
  fill dist0 distDraw (n + k) s = let (xs, s1) := fill dist0 distDraw n s in let (ys, s2) := fill dist0 distDraw k s1 in (xs ++ ys, s2).
(** numbers do not depend upon what the distribution has seen before *)
Definition memoryless {State M X : Type} (distDraw : M -> State -> M * State * X) : Prop := forall m m' s, snd (fst (distDraw m s)) = snd (fst (distDraw m' s)) /\ snd (distDraw m s) = snd (distDraw m' s).
