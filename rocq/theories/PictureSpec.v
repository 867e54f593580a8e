(** Specification of the choice of pictures *)
From Coq Require Import String Ascii List Arith Bool Reals.
From Verif Require Import Star CReal TriModel ParsModel ParsSpec ModeModel FreeExactModel PictureModel.
Import ListNotations.
Local Open Scope nat_scope.

(** the names in the user manual *)
Definition pictureNames : list (text * picture) := [(str "IP", IP); (str "UIP", UIP); (str "Sch", SCH)].
Definition methodNames : list (text * method) := [(str "single", SINGLE); (str "ensemble", ENSEMBLE); (str "master", MASTER)].
Definition modeFunNames : list (text * modeFunType) := [(str "Sin", MFT_SIN); (str "Cos", MFT_COS); (str "Plus", MFT_PLUS); (str "Minus", MFT_MINUS)].
(** what is meant by a word *)
Fixpoint named {T} (names : list (text * T)) (w : text) : option T :=
  match names with [] => None | (n, v) :: names' => if list_eq_dec ascii_dec n w then Some v else named names' w end.

(** an enumeration is read and written by its names: a word which is a name gives the value; any other one, or none, makes the stream fail and leaves the variable as it was; all is read back which is written *)
Definition readsNames {T} (names : list (text * T)) (rd : text -> T -> T * option text) (wr : T -> text) : Prop :=
  (forall w l v, isWord w -> wordEnd l -> rd (" "%char :: w ++ l) v = match named names w with Some u => (u, Some l) | None => (v, None) end) /\
  (forall v, rd [] v = (v, None)) /\
  (forall v l u, wordEnd l -> rd (" "%char :: wr v ++ l) u = (v, Some l)).

(** the last value given to a parameter by the assignments [is], or else the default *)
Fixpoint lastValue {A} (n : text) (is : list (@item (value A))) (dflt : value A) : value A :=
  match is with
  | [] => dflt
  | SetTo m v :: is' => lastValue n is' (if list_eq_dec ascii_dec m n then v else dflt)
  | _ :: is' => lastValue n is' dflt
  end.

(** for the master equation the interaction picture is replaced by the unitary one *)
Definition pictureFor (m : method) (q : picture) : picture := match m, q with MASTER, IP => UIP | _, _ => q end.

(** exact propagation does not change the norm of any state: all factors are phases *)
Definition unitary (dim : nat) (u : R -> (nat -> CR) -> (nat -> CR)) : Prop := forall t mem i, i < dim -> csq (u t mem i) = 1%R.
(** the exact part of a mode or qbit, if it has any, is unitary *)
Definition propagates_unitarily (sys : modeSys) : Prop := forall zI, msExact sys = Some zI -> unitary (msDim sys) (elementUpdateU (msDim sys) (EMode zI)).
