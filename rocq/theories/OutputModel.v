(** Model of the formatting of numbers, CPPQEDutils/FormDouble.h, FormDouble.cc, and of the lines of output made of them: trajectory::stream, Trajectory.h:427-437, streamCommon, ElementAveraged.cc:13-24,
    DensityOperatorStreamer.h:39-62, Simulated_.h:50-56. Texts are lists of characters. *)
From Coq Require Import String Ascii List Arith ZArith Bool Lia.
From Verif Require Import ParsModel.
Import ListNotations.
Local Open Scope nat_scope.

(** a double as it is streamed with P significant digits: the sign, the P digits and the decimal exponent of its rounded value; infinities and NaNs. (The rounding itself is that of the C++ library.) *)
Inductive num := Finite (neg : bool) (ds : list nat) (X : Z) | Infinite (neg : bool) | NaN (neg : bool).

Definition digit (d : nat) : ascii := ascii_of_nat (48 + d).
Definition sign (neg : bool) : text := if neg then str "-" else [].
(** trailing zeros of the fractional part are dropped, with the point if nothing remains *)
Fixpoint dropZeros (ds : list nat) : list nat :=
  match ds with [] => [] | d :: ds' => match dropZeros ds' with [] => if d =? 0 then [] else [d] | r => d :: r end end.
Definition fraction (ds : list nat) : text := match dropZeros ds with [] => [] | r => "."%char :: map digit r end.
(** at least two digits of exponent *)
Definition exponentDigits (n : nat) : text :=
  if n <? 100 then [digit (n / 10); digit (n mod 10)] else [digit (n / 100); digit (n / 10 mod 10); digit (n mod 10)].
Definition exponent (X : Z) : text := "e"%char :: (if (X <? 0)%Z then "-"%char else "+"%char) :: exponentDigits (Z.abs_nat X).
(** operator<< of ostream for double without floatfield, that is, %.{P}g of printf, where a precision of 0 is taken as 1 *)
Definition digitsOf (precision : nat) : nat := match precision with O => 1 | _ => precision end.
Definition writeG (precision : nat) (v : num) : text :=
  match v with
  | Finite neg ds X =>
      sign neg ++
      (if ((X <? -4) || (Z.of_nat (digitsOf precision) <=? X))%Z
       then match ds with [] => [] | d :: ds' => digit d :: fraction ds' end ++ exponent X
       else if (X <? 0)%Z then digit 0 :: fraction (repeat 0 (Z.abs_nat X - 1) ++ ds)
       else map digit (firstn (Z.to_nat X + 1) ds) ++ fraction (skipn (Z.to_nat X + 1) ds))
  | Infinite neg => sign neg ++ str "inf"
  | NaN neg => sign neg ++ str "nan"
  end.

(** FormDouble, FormDouble.h:35-60 *)
Record formDouble := mkFD { fdPrecision : nat; fdWidth : nat }.
(** int(log10(-log10(numeric_limits<double>::min()))) + 1, where min is 2.2e-308 *)
Definition maxExponentDigits : nat := 2 + 1.
(** widthPositive, widthAny, FormDouble.cc:28-38; the explicit constructor, FormDouble.cc:41-44 *)
Definition widthPositive (precision : nat) : nat := maxExponentDigits + precision + 4.
Definition widthAny (precision : nat) : nat := widthPositive precision + 1.
Definition formAny (precision : nat) : formDouble := mkFD precision (widthAny precision).
(** actualPrecision, FormDouble.h:80, with defaultPrecision 6; positive, FormDouble.h:118-119 *)
Definition actualPrecision (precision : nat) : nat := Nat.max 6 precision.
Definition formPositive (precision : nat) : formDouble := mkFD (actualPrecision precision) (widthPositive (actualPrecision precision)).
(** operator<< of Bound, FormDouble.h:97-107: adjusted to the left *)
Definition bound (f : formDouble) (v : num) : text :=
  let s := writeG (fdPrecision f) v in s ++ repeat " "%char (fdWidth f - length s).

(** streamCommon, ElementAveraged.cc:13-24; composites call it for each of the subsystems, BinarySystem.cc:97, Composite.tcc:374 *)
Definition tab : ascii := ascii_of_nat 9.
Definition streamAverages (precision : nat) (averages : list num) : text := tab :: flat_map (bound (formAny precision)) averages.
(** the measures of entanglement, DensityOperatorStreamer.h:43-57 *)
Definition streamMeasures (precision : nat) (ms : list num) : text := flat_map (fun m => tab :: bound (formAny precision) m) ms.
(** trajectory::stream, Trajectory.h:427-437, for quantum trajectories *)
Definition streamLine (precision : nat) (t dtDid : num) (averages : list (list num)) (measures : list num) : text :=
  bound (formPositive precision) t ++ bound (formPositive precision) dtDid ++ flat_map (streamAverages precision) averages ++ streamMeasures precision measures ++ [ascii_of_nat 10].
(** ... and for Simulated, Simulated_.h:50-56 (real variables) *)
Definition streamSimulated (precision : nat) (t dtDid : num) (state : list num) : text :=
  bound (formPositive precision) t ++ bound (formPositive precision) dtDid ++ flat_map (fun x => bound (formAny precision) x ++ [" "%char]) state ++ [ascii_of_nat 10].
