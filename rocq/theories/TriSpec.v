(** Specification of Tridiagonal operators: the dense matrix they represent. *)
From Coq Require Import List Arith Bool.
From Verif Require Import Star Arr TriModel.
Import ListNotations.

(** A diagonal of a rank-R operator is labelled by R digits: 0 main, 1 lower (row = column + K), 2 upper
    (column = row + K); it is stored at the position given by the digits read as a base-3 number. *)
Fixpoint code (dg : list nat) : nat :=
  match dg with [] => 0 | d :: dg' => d * 3 ^ length dg' + code dg' end.

(** Position within the diagonal [dg] of the matrix element with row [y], column [x]; None if the element is
    not on this diagonal. *)
Fixpoint place (ks dg y x : list nat) : option (list nat) :=
  match ks, dg, y, x with
  | k :: ks', g :: dg', i :: y', j :: x' =>
      match place ks' dg' y' x' with
      | None => None
      | Some n => match g with
                  | 0 => if i =? j then Some (i :: n) else None
                  | 1 => if i =? j + k then Some (j :: n) else None
                  | _ => if j =? i + k then Some (i :: n) else None
                  end
      end
  | [], [], [], [] => Some []
  | _, _, _, _ => None
  end.

(** shape of the diagonal [dg] *)
Fixpoint dshape (ds ks dg : list nat) : list nat :=
  match ds, ks, dg with
  | d :: ds', k :: ks', g :: dg' => (match g with 0 => d | _ => d - k end) :: dshape ds' ks' dg'
  | _, _, _ => []
  end.
(** off-diagonals belong to nonzero offsets *)
Fixpoint offok (ks dg : list nat) : Prop :=
  match ks, dg with
  | k :: ks', g :: dg' => (g <> 0 -> 0 < k) /\ offok ks' dg'
  | _, _ => True
  end.

Section Spec.
Context {K : StarRing} {T : Type}.
Implicit Type t : tri K T.

(** the matrix: row [y], column [x] *)
Definition tmat t (y x : list nat) : K :=
  isum (repeat 3 (rankOf t))
    (fun dg => match place (diffs t) dg y x with
               | Some n => if nonempty (diags t (code dg)) then av (diags t (code dg)) n else k0
               | None => k0
               end).

(** class invariant *)
Definition wf t : Prop :=
  dims t <> [] /\ length (diffs t) = rankOf t /\
  forall dg, inr (repeat 3 (rankOf t)) dg -> nonempty (diags t (code dg)) = true ->
    ash (diags t (code dg)) = dshape (dims t) (diffs t) dg /\ offok (diffs t) dg.
(** the same for frequencies; the main diagonal (index 0) has none *)
Definition wf_freqs t : Prop :=
  nonempty (freqs t 0) = false /\
  forall dg, inr (repeat 3 (rankOf t)) dg -> nonempty (freqs t (code dg)) = true ->
    ash (freqs t (code dg)) = dshape (dims t) (diffs t) dg.

(** equality as operators in the sense of the interface: same dimensions, offsets, and diagonals with equal
    elements (an empty diagonal is not the same as a zero one) *)
Definition same_arr (a b : arr K) : Prop :=
  nonempty a = nonempty b /\ (nonempty a = true -> ash a = ash b /\ forall n, inr (ash a) n -> av a n = av b n).
End Spec.
