(** Model of reading and writing vectors of numbers, CPPQEDutils/IO_Manip.h:14-72, as parameters of the command line (upon ParsModel.v). The reading and writing of a number is the standard library's.
    Not modelled: boost::fusion vectors. *)
From Coq Require Import String Ascii List Arith Bool.
From Verif Require Import StateFileModel ParsModel.
Import ListNotations.

(** tuple_open, tuple_delimiter, tuple_close, IO_Manip.h:17 *)
Definition tupleOpen : ascii := "[".
Definition tupleDelimiter : ascii := ",".
Definition tupleClose : ascii := "]".

(** is>>sep for a character *)
Definition extractChar (l : text) : option (ascii * text) := match skipSpace l with [] => None | c :: l' => Some (c, l') end.

(** what becomes of reading: a vector, a stream which has failed, or a violated precondition (BZPRECHECK: the program ends, in debug builds only) *)
Inductive readResult {V : Type} := Got (v : V) (rest : text) | Failed | Assertion.
Arguments readResult : clear implicits.

Section Numbers.
Context {V : Type}.
Variable print : V -> text.
Variable extract : text -> option (V * text).

(** outputTinyVector, IO_Manip.h:27-33; NL>0 *)
Definition outputTinyVector (v : list V) : text :=
  match v with
  | [] => []
  | x :: v => tupleOpen :: print x ++ flat_map (fun y => tupleDelimiter :: print y) v ++ [tupleClose]
  end.

(** inputTinyVector, IO_Manip.h:36-61. A stream which has failed stays so: nothing is extracted any more. The check of BZPRECHECK *)
Definition check (debug : bool) (sep expected : ascii) : bool := negb debug || Ascii.eqb sep expected.
(** lines 48-55, and the closing character *)
Fixpoint inputRest (debug : bool) (n : nat) (acc : list V) (l : text) : readResult (list V) :=
  match n with
  | O => match extractChar l with
         | None => Failed
         | Some (sep, l) => if check debug sep tupleClose then Got acc l else Assertion
         end
  | S n => match extractChar l with
           | None => Failed
           | Some (sep, l) => if check debug sep tupleDelimiter
                              then match extract l with None => Failed | Some (x, l) => inputRest debug n (acc ++ [x]) l end
                              else Assertion
           end
  end.
Definition inputTinyVector (debug : bool) (nl : nat) (l : text) : readResult (list V) :=
  match extractChar l with
  | None => Failed
  | Some (sep, l) => if check debug sep tupleOpen
                     then match extract l with None => Failed | Some (x, l) => inputRest debug (nl - 1) [x] l end
                     else Assertion
  end.
(** Typed<TinyVector>::read, Pars.h:96: update (ParsModel.v) aborts if the stream has failed, as does the program after the violation of a precondition *)
Definition vectorExtract (debug : bool) (nl : nat) (l : text) : option (list V * text) :=
  match inputTinyVector debug nl l with Got v l => Some (v, l) | Failed | Assertion => None end.
End Numbers.
