(** Model of the parameter table and the parsing of the command line, CPPQEDutils/Pars.h:106-200, CPPQEDutils/Pars.cc,
    CPPQEDutils/BooleanNegatedProxy.h. Texts are lists of characters. Not modelled: printing (help, version, descriptions), the recorded command line. *)
From Coq Require Import String Ascii List Arith Bool.
From Verif Require Import StateFileModel.
Import ListNotations.

Notation text := (list ascii).
Fixpoint textEq (a b : text) : bool :=
  match a, b with [], [] => true | x :: a', y :: b' => Ascii.eqb x y && textEq a' b' | _, _ => false end.
Definition str : string -> text := list_ascii_of_string.

Section Pars.
(** values of all parameters which are not switches *)
Context {V : Type}.

(** the kinds of entries: Typed<T> with operator>> of T, Pars.h:74-104 ([None]: the stream fails); Typed<bool>, Pars.cc:62-66;
    Typed<BooleanNegatedProxy> bound to the switch named, Pars.cc:69-73; Typed<TitleLine>, Pars.cc:92-111 *)
Inductive kind := Plain (extract : text -> option (V * text)) | Switch | Negated (s : text) | Title.

(** Table, Pars.h:108-198. The values are kept by name of the parameter (each Typed object owns its value, the proxy refers to the one of its switch) *)
Record table := mkTable { decl : list (text * kind); plainVal : text -> V; switchVal : text -> bool }.

(** findSubscript, Pars.cc:18-21 *)
Fixpoint find (d : list (text * kind)) (s : text) : option kind :=
  match d with [] => None | (s', k) :: d' => if textEq s' s then Some k else find d' s end.

Definition set {A} (f : text -> A) (s : text) (v : A) : text -> A := fun s' => if textEq s' s then v else f s'.
Definition setPlain (t : table) (s : text) (v : V) : table := mkTable (decl t) (set (plainVal t) s v) (switchVal t).
Definition setSwitch (t : table) (s : text) (b : bool) : table := mkTable (decl t) (plainVal t) (set (switchVal t) s b).
Definition push (t : table) (s : text) (k : kind) : table := mkTable (decl t ++ [(s, k)]) (plainVal t) (switchVal t).

(** add, Pars.h:146-163; the flag: whether AttemptedRecreationOfParameterException is thrown *)
Definition add (t : table) (s : text) (extract : text -> option (V * text)) (v : V) : table * bool :=
  match find (decl t) s with None => (setPlain (push t s (Plain extract)) s v, false) | Some _ => (t, true) end.
(** add for bool, Pars.cc:76-81 *)
Definition addSwitch (t : table) (s : text) (v : bool) : table * bool :=
  match find (decl t) s with
  | None => let t1 := setSwitch (push t s Switch) s v in
            match find (decl t1) (str "no_" ++ s) with None => (push t1 (str "no_" ++ s) (Negated s), false) | Some _ => (t1, true) end
  | Some _ => (t, true)
  end.
(** addTitle, Pars.cc:114-120 *)
Definition addTitle (t : table) (s : text) : table * bool :=
  match find (decl t) s with None => (push t s Title, false) | Some _ => (t, true) end.

(** line>>temp for a string *)
Fixpoint span (l : text) : text * text :=
  match l with [] => ([], []) | c :: l' => if isSpace c then ([], l) else let (w, r) := span l' in (c :: w, r) end.
Definition extractWord (l : text) : option (text * text) := match skipSpace l with [] => None | l' => Some (span l') end.

Inductive outcome := Updated (t : table) | Aborted | Exited | Stuck (* not a possible outcome *).

Section Update.
Variable prefix : text.
(** update, the loop, Pars.cc:137-162 *)
Fixpoint loop (fuel : nat) (t : table) (line : text) : outcome :=
  match extractWord line with
  | None => Updated t
  | Some (temp, line) =>
      match fuel with
      | O => Stuck
      | S f =>
          if negb (textEq (firstn (length prefix) temp) prefix) then Aborted
          else let name := skipn (length prefix) temp in
          if textEq name (str "help") then Exited
          else if textEq name (str "version") then Exited
          else match find (decl t) name with
               | None => Aborted
               | Some Title => Aborted
               | Some (Plain extract) => match extract line with None => Aborted | Some (v, line') => loop f (setPlain t name v) line' end
               | Some Switch => loop f (setSwitch t name true) line
               | Some (Negated s) => loop f (setSwitch t s (negb true)) line
               end
      end
  end.
(** update, Pars.cc:123-163: the words are first joined in a stream *)
Definition update (t : table) (words : list text) : outcome :=
  let line := flat_map (fun w => " "%char :: w) words in loop (length line) t line.
End Update.

(** the value of a switch read through the entry s: for the negated one by BooleanNegatedProxy::operator bool, BooleanNegatedProxy.h:20 *)
Definition readSwitch (t : table) (s : text) : option bool :=
  match find (decl t) s with
  | Some Switch => Some (switchVal t s)
  | Some (Negated s') => Some (negb (switchVal t s'))
  | _ => None
  end.
End Pars.
