(** Model of CPPQEDutils/ContainerIO.h: writing and reading containers. *)
From Coq Require Import String Ascii List Arith Bool.
From Verif Require Import StateFileModel ParsModel OutputSpec.
Import ListNotations.
Local Open Scope nat_scope.

(** ** Streams: what is still to be read, and whether eofbit, or one of failbit and badbit is set *)
Record ios := mkIos { rest : text; eofBit : bool; failBit : bool }.
Definition good (s : ios) : bool := negb (eofBit s) && negb (failBit s).
(** peek and get *)
Definition peek (s : ios) : option ascii * ios :=
  if good s then match rest s with [] => (None, mkIos [] true false) | c :: _ => (Some c, s) end else (None, mkIos (rest s) (eofBit s) true).
Definition getc (s : ios) : option ascii * ios :=
  if good s then match rest s with [] => (None, mkIos [] true true) | c :: l => (Some c, mkIos l false false) end else (None, mkIos (rest s) (eofBit s) true).

(** ** Delimiters, ContainerIO.h:80-88 and the defaults in lines 291-356 *)
Record delimiters := mkDelims { prefix : text; delimiter : text; postfix : text }.
Definition sequenceDelims := mkDelims (str "[") (str ", ") (str "]").
Definition setDelims := mkDelims (str "{") (str ", ") (str "}").
Definition tupleDelims := mkDelims (str "(") (str ", ") (str ")").
(** ltrim, rtrim, trim, lines 44-60 *)
Fixpoint ltrim (l : text) : text := match l with c :: l' => if isSpace c then ltrim l' else l | [] => [] end.
Definition rtrim (l : text) : text := rev (ltrim (rev l)).
Definition trim (l : text) : text := ltrim (rtrim l).
(** handleDelimiter for reading, lines 133-143. [fuel]: there are not more blanks than characters *)
Fixpoint dropSpaces (fuel : nat) (s : ios) : ios :=
  match fuel with
  | O => s
  | S f => match peek s with (Some c, s') => if isSpace c then dropSpaces f (snd (getc s')) else s' | (None, s') => s' end
  end.
Fixpoint expect (d : text) (s : ios) : ios :=
  match d with
  | [] => s
  | c :: d' => match getc s with (Some c', s') => expect d' (if Ascii.eqb c' c then s' else mkIos (rest s') false true) | (None, s') => expect d' (mkIos (rest s') false true) end
  end.
Definition handleDelimiter (d : text) (s : ios) : ios := expect (trim d) (dropSpaces (S (length (rest s))) s).

(** ** Containers: trees with elements in the leaves *)
Section Elements.
Context {A : Type}.
Inductive tree := Element (a : A) | Container (d : delimiters) (l : list tree).
(** operator<< and operator>> of the elements *)
Variable put : A -> text.
Variable get : text -> option (A * text).
(** container_io_helper for writing, lines 100-180, and for pairs and tuples *)
Fixpoint write (v : tree) : text :=
  match v with
  | Element a => put a
  | Container d l => prefix d ++ (fix body (l : list tree) : text := match l with [] => [] | [x] => write x | x :: l' => write x ++ delimiter d ++ body l' end) l ++ postfix d
  end.
(** reading an element: nothing is read from a stream which is not good; the element is not changed if it fails *)
Definition readElement (old : A) (s : ios) : A * ios :=
  if good s then match get (rest s) with Some (a, r) => (a, mkIos r (match r with [] => true | _ => false end) false) | None => (old, mkIos (rest s) false true) end
  else (old, mkIos (rest s) (eofBit s) true).
(** container_io_helper for reading into a container, which has its size before *)
Fixpoint read (old : tree) (s : ios) : tree * ios :=
  match old with
  | Element a => let (a', s') := readElement a s in (Element a', s')
  | Container d l =>
      let (l', s') := (fix body (l : list tree) (s : ios) : list tree * ios :=
        match l with
        | [] => ([], s)
        | [x] => let (x', s') := read x s in ([x'], s')
        | x :: l' => let (x', s1) := read x s in let (l'', s2) := body l' (handleDelimiter (delimiter d) s1) in (x' :: l'', s2)
        end) l (handleDelimiter (prefix d) s) in
      (Container d l', handleDelimiter (postfix d) s')
  end.
End Elements.
Arguments tree : clear implicits.

(** ** Elements: mode functions, std::tuple<ModeFunctionType,ptrdiff_t>, CPPQEDelements/utils/ModeFunction.h:9 and 20; only natural numbers of one digit are written here.
    [modePut] is operator<< of both, ModeFunction.cc:9-18. [modeGet] is operator>> of both: that of numbers takes the digits; that of mode functions takes everything up to a blank, and sets badbit
    if it is not one of the names, lines 20-33. Which of the two is called follows in the code from the type, here from the first character *)
Inductive modeElement := Sin | Cos | Plus | Minus | Number (n : nat).
Definition digit (n : nat) : ascii := ascii_of_nat (48 + n).
Definition isDigit (c : ascii) : bool := (48 <=? nat_of_ascii c) && (nat_of_ascii c <=? 57).
Definition modePut (a : modeElement) : text := match a with Sin => str "Sin" | Cos => str "Cos" | Plus => str "Plus" | Minus => str "Minus" | Number n => [digit n] end.
Fixpoint span (p : ascii -> bool) (l : text) : text * text :=
  match l with c :: l' => if p c then let (a, b) := span p l' in (c :: a, b) else ([], l) | [] => ([], []) end.
Definition textEqb (a b : text) : bool := if list_eq_dec ascii_dec a b then true else false.
Definition modeGet (l : text) : option (modeElement * text) :=
  let l' := ltrim l in
  match l' with
  | c :: _ => if isDigit c then let (ds, r) := span isDigit l' in Some (Number (fold_left (fun n d => 10 * n + (nat_of_ascii d - 48)) ds 0), r)
              else let (w, r) := span (fun c => negb (isSpace c)) l' in
                   if textEqb w (str "Sin") then Some (Sin, r) else if textEqb w (str "Cos") then Some (Cos, r) else if textEqb w (str "Plus") then Some (Plus, r)
                   else if textEqb w (str "Minus") then Some (Minus, r) else None
  | [] => None
  end.
