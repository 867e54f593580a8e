(** Model of the configuration of the test driver, Testing/testdriver.py: OptionsManager and OutputManager.
    Simplified: the names of keys are lower-case ones; there is no section DEFAULT and no interpolation (there is no % in the values). *)
From Coq Require Import List Arith Bool String Ascii.
Import ListNotations.
Local Open Scope string_scope.

(** ** configparser.ConfigParser: the sections, each with its keys and values *)
Notation dict V := (list (string * V)).
Fixpoint lookup {V} (l : dict V) (k : string) : option V :=
  match l with [] => None | (k', v) :: l' => if String.eqb k k' then Some v else lookup l' k end.
Definition config := dict (dict string).
Definition hasSection (c : config) (s : string) : bool := match lookup c s with Some _ => true | None => false end.
(** get (an error if there is none), has_option, items (an error if there is no such section) *)
Definition getKey (c : config) (s k : string) : option string := match lookup c s with Some l => lookup l k | None => None end.
Definition hasOption (c : config) (s k : string) : bool := match getKey c s k with Some _ => true | None => false end.
Definition items (c : config) (s : string) : dict string := match lookup c s with Some l => l | None => [] end.
(** set, remove_option *)
Definition within (c : config) (s : string) (f : dict string -> dict string) : config := map (fun e => if String.eqb s (fst e) then (fst e, f (snd e)) else e) c.
Definition setKey (c : config) (s k v : string) : config :=
  within c s (fun l => match lookup l k with Some _ => map (fun e => if String.eqb k (fst e) then (fst e, v) else e) l | None => (l ++ [(k, v)])%list end).
Definition removeKey (c : config) (s k : string) : config := within c s (filter (fun e => negb (String.eqb k (fst e)))).

(** str.endswith, str.startswith *)
Definition endsWith (suffix s : string) : bool := String.eqb (substring (length s - length suffix) (length suffix) s) suffix.
Definition startsWith (prefix s : string) : bool := String.prefix prefix s.

(** ** OptionsManager *)
(** _import_section, testdriver.py:118-128. [limit]: the depth of recursion allowed by Python; None: an exception *)
Definition importItem (section : string) (c : config) (item : string * string) : config :=
  if negb (hasOption c section (fst item)) && negb (endsWith "_local" (fst item)) then setKey c section (fst item) (snd item) else c.
Fixpoint importSection (limit : nat) (section : string) (c : config) : option config :=
  match limit with
  | O => None
  | S limit' =>
      match getKey c section "import" with
      | None => Some c
      | Some imported =>
          match importSection limit' imported c with
          | None => None
          | Some c1 => if hasSection c1 imported then Some (removeKey (fold_left (importItem section) (items c1 imported) c1) section "import") else None
          end
      end
  end.
(** get_option, testdriver.py:130-148. The configuration is changed. [Default]: the default is returned, or the driver exits if the key is required *)
Inductive answer := Value (v : string) | Default | Error.
Definition getOption (limit : nat) (c : config) (section name : string) : config * answer :=
  match importSection limit section c with
  | None => (c, Error)
  | Some c1 => (c1, match getKey c1 section name with Some v => Value v | None => Default end)
  end.
(** several calls, one after the other *)
Definition afterCalls (limit : nat) (c : config) (calls : list (string * string)) : config := fold_left (fun c q => fst (getOption limit c (fst q) (snd q))) calls c.

(** ** OutputManager *)
(** str.split with one character: there is always at least one piece *)
Fixpoint splitFrom (sep : ascii) (cur s : string) : list string :=
  match s with
  | EmptyString => [cur]
  | String a s' => if Ascii.eqb a sep then cur :: splitFrom sep "" s' else splitFrom sep (cur ++ String a "") s'
  end.
Definition split (sep : ascii) (s : string) : list string := splitFrom sep "" s.
(** runmodes, testdriver.py:185-192; _filter_runmodes, 194-199 (a generator: the list of what it yields; None: an exception) *)
Definition runmodes (limit : nat) (c : config) (section : string) : config * option (list string) :=
  match getOption limit c section "runmodes" with
  | (c1, Value v) => (c1, Some (split "," v))
  | (c1, Default) => (c1, Some (split "," "generic"))
  | (c1, Error) => (c1, None)
  end.
Definition filterRunmodes (limit : nat) (c : config) (test section : string) : option (list string) :=
  match getOption limit c section ("runmodes_" ++ test ++ "_local") with
  | (_, Error) => None
  | (c1, a) =>
      match snd (runmodes limit c1 section), a with
      | None, _ => None
      | Some l, Value v => Some (filter (fun m => existsb (String.eqb m) (split "," v)) l)
      | Some l, _ => Some l
      end
  end.
(** output, testdriver.py:201-217: the names of files *)
Definition output (dir runmode section : string) (statefile : bool) : string :=
  dir ++ "/" ++ section ++ (if String.eqb runmode "generic" then "" else "_" ++ runmode) ++ (if statefile then ".state" else "").
