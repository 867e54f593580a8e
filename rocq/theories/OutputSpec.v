(** Specification of the lines of output *)
From Coq Require Import String Ascii List Arith ZArith Bool Lia.
From Verif Require Import StateFileModel ParsModel OutputModel.
Import ListNotations.
Local Open Scope nat_scope.

(** the words of a text: what is between white space *)
Fixpoint wordsFrom (cur l : text) : list text :=
  match l with
  | [] => match cur with [] => [] | _ => [cur] end
  | c :: l' => if isSpace c then (match cur with [] => [] | _ => [cur] end) ++ wordsFrom [] l' else wordsFrom (cur ++ [c]) l'
  end.
Definition words (l : text) : list text := wordsFrom [] l.

(** what a double can be when rounded to a number of significant digits *)
Definition isDouble (precision : nat) (v : num) : Prop :=
  match v with
  | Finite _ ds X => length ds = digitsOf precision /\ (forall d, In d ds -> d < 10) /\ (-324 <= X <= 309)%Z
  | _ => True
  end.
Definition nonNegative (v : num) : Prop := match v with Finite neg _ _ => neg = false | Infinite neg => neg = false | NaN neg => neg = false end.
