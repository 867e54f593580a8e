(** C143: arrays of any layout and the GSL stepper *)
From Coq Require Import List Arith ZArith Bool.
From Verif Require Import Arr GslViewModel GslViewSpec GslViewProofs.
Import ListNotations.
Local Open Scope nat_scope.

(** C143, refuted in full: [evolves] for arrays of all layouts, or an exception. For arrays stored row by row without gaps it holds for all systems, whatever GSL does, in debug and release builds. Missing: arrays of other layouts. *)
Theorem C143_row_major_partial : forall (E T A : Type) (e0 : E) (stepApply : nat -> (T -> list E -> list E) -> T -> T -> list E -> bool * list E * A) (hadjust : list E -> A -> T -> T) (plus : T -> T -> T) (half : T -> T)
  (contiguous : view -> bool) debug allocated (sys : T -> (list nat -> E) -> list nat -> E) v m t dt,
  vStr v = rowStrides (vExt v) -> local (vExt v) sys -> keepsLength stepApply -> allocated = None \/ (allocated = Some (length (indices (vExt v))) /\ (debug = true -> contiguous v = true)) ->
  let r := tryStep e0 stepApply hadjust plus half contiguous debug allocated sys v m t dt in
  evolves e0 stepApply hadjust plus half sys v m t dt (fst r) /\ snd r = Some (length (indices (vExt v))).
Proof. exact (fun E T A => row_major_evolves (E := E) (T := T) (A := A)). Qed.
Print Assumptions C143_row_major_partial.
(** a 2x3 array beginning at the address 10: the element (0,1) is increased; the second step of a debug build *)
Example C143_case : vStr (mkView 10 [2; 3] [3; 1]%Z) = rowStrides [2; 3] /\ local [2; 3] corner /\ keepsLength euler /\
  match fst (tryStep 0%Z euler (fun _ _ dt => dt) Nat.add (fun dt => dt) (fun _ => true) true (Some 6) corner (mkView 10 [2; 3] [3; 1]%Z) (fun z => z) 0 1) with
  | Done m' t' _ true => t' = 1 /\ map m' [9; 10; 11; 12; 13; 16]%Z = [9; 10; 12; 12; 13; 16]%Z | _ => False end.
Proof. split; [reflexivity|]. split; [apply corner_local|]. split; [apply euler_length|]. vm_compute. auto. Qed.
(** after the first step debug builds refuse what blitz calls not contiguous, and arrays of another size *)
Theorem C143_checked : forall (E T A : Type) (e0 : E) (stepApply : nat -> (T -> list E -> list E) -> T -> T -> list E -> bool * list E * A) (hadjust : list E -> A -> T -> T) (plus : T -> T -> T) (half : T -> T)
  (contiguous : view -> bool) d (sys : T -> (list nat -> E) -> list nat -> E) v m t dt,
  (contiguous v = false -> tryStep e0 stepApply hadjust plus half contiguous true (Some d) sys v m t dt = (NonContiguousStorage, Some d)) /\
  (contiguous v = true -> d <> length (indices (vExt v)) -> tryStep e0 stepApply hadjust plus half contiguous true (Some d) sys v m t dt = (DimensionalityMismatch, Some d)).
Proof. exact (fun E T A => checked_throws (E := E) (T := T) (A := A)). Qed.
Print Assumptions C143_checked.
Example C143_checked_case : fst (tryStep 0%Z euler (fun _ _ dt => dt) Nat.add (fun dt => dt) (fun v => match vStr v with [s] => (s =? 1)%Z | _ => true end) true (Some 2) ones (mkView 0 [2] [2]%Z) zeroes 0 1) = NonContiguousStorage.
Proof. reflexivity. Qed.
(** in the first step there is no check, not even in debug builds, whatever blitz would answer: of a transposed array another element is changed, *)
Theorem C143_transposed_refuted : forall (contiguous : view -> bool) (debug : bool), exists sys v m, local (vExt v) sys /\ keepsLength euler /\
  (forall x y, inr (vExt v) x -> inr (vExt v) y -> address v x = address v y -> x = y) /\
  ~ evolves 0%Z euler (fun _ _ dt => dt) Nat.add (fun dt => dt) sys v m 0 1 (fst (tryStep 0%Z euler (fun _ _ dt => dt) Nat.add (fun dt => dt) contiguous debug None sys v m 0 1)).
Proof. exact (fun contiguous debug => ex_intro _ corner (ex_intro _ (mkView 0 [2; 2] [1; 2]%Z) (ex_intro _ zeroes (conj (corner_local _) (conj euler_length (conj transposed_apart (transposed_wrong contiguous debug))))))). Qed.
Print Assumptions C143_transposed_refuted.
(** and of an array with gaps the elements in the gaps, which are not those of the array *)
Theorem C143_gaps_refuted : forall (contiguous : view -> bool) (debug : bool), exists sys v m m' z, local (vExt v) sys /\
  fst (tryStep 0%Z euler (fun _ _ dt => dt) Nat.add (fun dt => dt) contiguous debug None sys v m 0 1) = Done m' 1 1 true /\ (forall x, inr (vExt v) x -> z <> address v x) /\ m' z <> m z.
Proof. exact gaps_wrong. Qed.
Print Assumptions C143_gaps_refuted.
(** in release builds a stepper used with an array of another size is undefined *)
Theorem C143_size_refuted : forall (contiguous : view -> bool), exists sys v m, local (vExt v) sys /\ vStr v = rowStrides (vExt v) /\
  fst (tryStep 0%Z euler (fun _ _ dt => dt) Nat.add (fun dt => dt) contiguous false (Some 3) sys v m 0 1) = Undefined.
Proof. exact (fun contiguous => ex_intro _ ones (ex_intro _ (mkView 0 [2] [1]%Z) (ex_intro _ zeroes (conj (ones_local _) (conj eq_refl eq_refl))))). Qed.
Print Assumptions C143_size_refuted.
