(** Model of random engines: CPPQEDutils/Random.h, Random.cc. The engines themselves (GSL, standard library, third parties) are parameters: how a seed makes a state, how a state makes a number and the next state,
    how states are written and read. Memory holds states; variables hold addresses. Not modelled: the text of the archive around that of the engine. *)
From Coq Require Import List Arith Bool.
Import ListNotations.

Section Engines.
Context {State Seed Word Text : Type}.
Variable init : Seed -> State.
Variable next : State -> State * Word.
(** operator<< and operator>>: the state read, or what is left of the old one when reading fails *)
Variable print : State -> Text.
Variable parse : State -> Text -> State + State.

(** GSL_Engine keeps its state behind a shared pointer (Random.h:58), which its copies share; the other engines keep it in themselves *)
Variable sharing : bool.

Record machine := mkMachine { mMem : list State; mVars : nat -> option nat; mArch : list Text }.
Definition started : machine := mkMachine [] (fun _ => None) [].
(** what is done with engines: construction from a seed, copy construction, seeding, drawing a number, saving to and loading from an archive *)
Inductive act := New (v : nat) (s : Seed) | Copy (v w : nat) | Reseed (v : nat) (s : Seed) | Draw (v : nat) | Save (v : nat) | Load (v i : nat).
(** what is seen: nothing, a number, std::invalid_argument of Random.h:223, or something which does not compile or has no meaning (no such variable, no such archive) *)
Inductive seen := Quiet | Number (w : Word) | Thrown | Meaningless.

Definition bound (vars : nat -> option nat) (v a : nat) : nat -> option nat := fun u => if u =? v then Some a else vars u.
Fixpoint store (mem : list State) (a : nat) (s : State) : list State := match mem, a with [], _ => [] | _ :: mem, 0 => s :: mem | x :: mem, S a => x :: store mem a s end.
Definition fresh (m : machine) (v : nat) (s : State) : machine := mkMachine (mMem m ++ [s]) (bound (mVars m) v (length (mMem m))) (mArch m).
Definition withMem (m : machine) (mem : list State) : machine := mkMachine mem (mVars m) (mArch m).
(** the address of a variable and the state there *)
Definition holds (m : machine) (v : nat) : option (nat * State) :=
  match mVars m v with None => None | Some a => match nth_error (mMem m) a with None => None | Some s => Some (a, s) end end.

Definition perform (m : machine) (x : act) : machine * seen :=
  match x with
  | New v s => (fresh m v (init s), Quiet)                                  (* Random.cc:11-16 *)
  | Copy v w =>
      match holds m w with
      | None => (m, Meaningless)
      | Some (a, s) => if sharing then (mkMachine (mMem m) (bound (mVars m) v a) (mArch m), Quiet) else (fresh m v s, Quiet)
      end
  | Reseed v s => match holds m v with None => (m, Meaningless) | Some (a, _) => (withMem m (store (mMem m) a (init s)), Quiet) end   (* Random.cc:19 *)
  | Draw v => match holds m v with None => (m, Meaningless) | Some (a, s) => (withMem m (store (mMem m) a (fst (next s))), Number (snd (next s))) end   (* Random.cc:21 *)
  | Save v => match holds m v with None => (m, Meaningless) | Some (a, s) => (mkMachine (mMem m) (mVars m) (mArch m ++ [print s]), Quiet) end   (* Random.h:226-233 *)
  | Load v i =>                                                             (* Random.h:215-224 *)
      match holds m v, nth_error (mArch m) i with
      | Some (a, s), Some t => match parse s t with inl s' => (withMem m (store (mMem m) a s'), Quiet) | inr s' => (withMem m (store (mMem m) a s'), Thrown) end
      | _, _ => (m, Meaningless)
      end
  end.
Fixpoint performAll (m : machine) (xs : list act) : machine * list seen :=
  match xs with [] => (m, []) | x :: xs => let (m, o) := perform m x in let (m, os) := performAll m xs in (m, o :: os) end.
End Engines.
Arguments act : clear implicits.
Arguments seen : clear implicits.

Section Fill.
Context {State M X : Type}.
(** a distribution: its memory when constructed, and a number with the memory and the engine after *)
Variable dist0 : M.
Variable distDraw : M -> State -> M * State * X.
Fixpoint fillFrom (m : M) (n : nat) (s : State) : list X * State :=
  match n with 0 => ([], s) | S n => let '(m, s, x) := distDraw m s in let (xs, s) := fillFrom m n s in (x :: xs, s) end.
(** fill, Random.h:84-90: a distribution for each call *)
Definition fill (n : nat) (s : State) : list X * State := fillFrom dist0 n s.
End Fill.
