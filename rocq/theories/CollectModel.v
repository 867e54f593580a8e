(** Model of CPPQEDelements/utils/AveragingUtils.h: Collecting and ReducedDensityOperatorNegativity. (ReducedDensityOperator is in DensityModel.) *)
From Coq Require Import List Arith Reals Bool String.
From Verif Require Import Star CReal Arr HermModel DensityModel PureModel CompositeModel AverageModel.
Import ListNotations.
Local Open Scope nat_scope.

(** ** Collecting *)
(** the constructor, AveragingUtils.h:157-160: [None] is front() of an empty list; concatenateGrow, Algorithm.h:71-77 *)
Definition collectTitle (els : list averaged) : option string := match els with e :: _ => Some (avTitle e) | [] => None end.
Definition collectLabels (els : list averaged) : list string := fold_left (fun out e => out ++ avLabels e)%list els [].
(** average_v, AveragingUtils.h:168-172, concatenate, Algorithm.h:48-67: std::copy of one after the other into the array of size nAvr. [None]: number mismatch
    in one of them, or writing outside. *)
Definition collectAverage (els : list averaged) (t : R) (m : op) : option (list R) :=
  let n := List.length (collectLabels els) in
  option_map snd
    (fold_left (fun st e => match st, checked (avN e) (avAverage e t m) with
                            | Some (out, res), Some a => if out + List.length a <=? n then Some (out + List.length a, writeWindow out a res) else None
                            | _, _ => None end)
       els (Some (0, repeat 0%R n))).
(** process_v, AveragingUtils.h:174-191. The bound l and u keep their values between the calls, and the array bound shares its data with avr.
    The state is l+1 and the array. *)
Definition collectProcess (els : list averaged) (avr : list R) : list R :=
  snd (fold_left (fun st e => match st with (l1, a) =>
         let u1 := l1 + avN e in
         let a' := if l1 <? u1 then writeWindow l1 (avProcess e (window l1 (u1 - l1) a)) a else a in
         (u1, a') end) els (0, avr)).

(** ** ReducedDensityOperatorNegativity *)
Section Negativity.
(** quantumdata::negPT(rho,V()), a function of the matrix *)
Variable negPT : (nat -> nat -> CR) -> R.
(** the content of the new memory after blitz::Array::resize, which does not keep the data *)
Variable resized : nat -> list R.
(** average_v, AveragingUtils.h:110-115 *)
Definition negAverage (fuel : nat) (dims : list nat) (m : op) : option (list R) :=
  match deflate RParts fuel dims m true with Some res => Some (resized (List.length res + 1)) | None => None end.
(** process_v, AveragingUtils.h:117-131; rho(getDimensions()) is zero initially *)
Definition negOff (a : list R) (i : nat) (st : (nat -> nat -> CR) * nat) (j : nat) : (nat -> nat -> CR) * nat :=
  let v := (get (snd st) a, get (snd st + 1) a) : CR in (mset (mset (fst st) i j v) j i (kconj v), snd st + 2).
Definition negMatrix (dim : nat) (a : list R) : nat -> nat -> CR :=
  let d := fold_left (fun (st : (nat -> nat -> CR) * nat) i => (mset (fst st) i i (RC (get (snd st) a)), snd st + 1)) (seq 0 dim) ((fun _ _ => k0) : nat -> nat -> CR, 0) in
  fst (fold_left (fun (st : (nat -> nat -> CR) * nat) i => fold_left (negOff a i) (seq (i + 1) (dim - (i + 1))) st) (seq 0 dim) d).
Definition negProcess (dims : list nat) (a : list R) : list R :=
  setAt (List.length a - 1) (negPT (negMatrix (fold_right Nat.mul 1 dims) a)) a.
End Negativity.
