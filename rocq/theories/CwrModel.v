(** Model of CWR_Dir, combinations with repetitions, CPPQEDutils/Combinatorics.h:18-71; numbers of combinations are exact
    (long double in the code). The vector of configurations is a map from row and site to content. *)
From Coq Require Import List Arith Bool.
Import ListNotations.

(** boost::math::binomial_coefficient *)
Fixpoint binom (n k : nat) : nat :=
  match n, k with
  | _, O => 1
  | O, S _ => 0
  | S n', S k' => binom n' k' + binom n' k
  end.
(** multiChoose, CPPQEDutils/MathExtensions.h:31 *)
Definition multiChoose (n k : nat) : nat := binom (n + k - 1) k.

Definition table := nat -> nat -> nat.
Definition emptyTable : table := fun _ _ => 0.
Definition setSite (t : table) (row site v : nat) : table := fun r s => if (r =? row) && (s =? site) then v else t r s.
(** for (auto j=i; j<i+offset; ++j) ( *j)[actualSite]=putHere, line 34 *)
Fixpoint fillSite (t : table) (i offset site v : nat) : table :=
  match offset with O => t | S o => fillSite (setSite t i site v) (S i) o site v end.

Section Recurse.
Variable NoOfSites : nat.
(** recurse, lines 28-38; [d] is NoOfSites-1-actualSite *)
Fixpoint recurse (d : nat) (t : table) (i remainingParticles : nat) : table :=
  let actualSite := NoOfSites - 1 - d in
  match d with
  | O => setSite t i actualSite remainingParticles
  | S d' =>
      fst (fold_left (fun (ti : table * nat) (putHere : nat) =>
             let (t, i) := ti in
             let t1 := recurse d' t i (remainingParticles - putHere) in
             let offset := multiChoose (NoOfSites - actualSite - 1) (remainingParticles - putHere) in
             (fillSite t1 i offset actualSite putHere, i + offset))
           (seq 0 (remainingParticles + 1)) (t, i))
  end.
End Recurse.

Notation config := (list nat).
(** the constructor, lines 25-48; the vector as a list *)
Definition cwrDir (NoOfSites k : nat) : list config :=
  let t := recurse NoOfSites (NoOfSites - 1) emptyTable 0 k in
  map (fun row => map (t row) (seq 0 NoOfSites)) (seq 0 (multiChoose NoOfSites k)).

(** operator[](size_t), line 52; [None]: outside of the vector *)
Definition byPosition (dir : list config) (i : nat) : option config := nth_error dir i.
Fixpoint configEq (a b : config) : bool :=
  match a, b with [], [] => true | x :: a', y :: b' => (x =? y) && configEq a' b' | _, _ => false end.
(** operator[](Configuration), lines 61-65; [None]: SubscriptingException *)
Fixpoint byContent (dir : list config) (c : config) : option nat :=
  match dir with [] => None | c' :: dir' => if configEq c' c then Some 0 else option_map S (byContent dir' c) end.
