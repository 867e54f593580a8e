(** Model of the functions of cpypyqed/tools/io.py reading trajectory files, and of what is in these files. *)
From Coq Require Import String Ascii List Arith Bool.
From Verif Require Import StateFileModel ParsModel OutputSpec CommentModel.
Import ListNotations.
Local Open Scope nat_scope.

(** ** The file, as written by trajectory::run, Trajectory.h:455-610: pieces of commentary (header, log during the run, log at the end), each consisting of complete lines, so that the
    filter is at the beginning of a line when the next piece comes; and lines of numbers, directly into the file. A run with the same file name appends. *)
Inductive piece := Commentary (texts : list text) | Shown (line : text).
Definition append (file : text) (p : piece) : text :=
  match p with Commentary texts => dest (writes (newStream file) texts) | Shown l => file ++ l end.
Definition written (ps : list piece) : text := fold_left append ps [].
(** Logger::onEnd, MCWF_TrajectoryLogger.cc:26-39, at a log level above 0; numbers as they are written *)
Record mcwfLog := mkLog { lgSteps : text; lgOvershot : text; lgMaxOvershoot : text; lgTolerance : text; lgMaxTolerance : text; lgNorm : text; lgJumps : list (text * text) }.
Definition tabulator : ascii := ascii_of_nat 9.
Definition jumpLine (j : text * text) : text := fst j ++ tabulator :: snd j.
Definition onEnd (g : mcwfLog) : text :=
  EOL :: str "Total number of MCWF steps: " ++ lgSteps g ++ EOL ::
  EOL :: str "dpLimit overshot: " ++ lgOvershot g ++ str " times, maximal overshoot: " ++ lgMaxOvershoot g ++
  EOL :: str "dpTolerance overshot: " ++ lgTolerance g ++ str " times, maximal overshoot: " ++ lgMaxTolerance g ++ EOL ::
  EOL :: str "Maximal deviation of norm from 1: " ++ lgNorm g ++ EOL ::
  EOL :: str "MCWF Trajectory:" ++ EOL ::
  flat_map (fun j => jumpLine j ++ [EOL]) (lgJumps g) ++ [EOL].
(** when continuing, Trajectory.h:537-538 *)
Definition continuing (t t' : text) : text := str "Continuing from time " ++ t ++ str " up to time " ++ t' ++ [EOL].

(** ** Python *)
(** iteration over a file: the lines with the characters ending them *)
Fixpoint pyLinesFrom (cur l : text) : list text :=
  match l with
  | [] => match cur with [] => [] | _ => [cur] end
  | c :: l' => if Ascii.eqb c EOL then (cur ++ [c]) :: pyLinesFrom [] l' else pyLinesFrom (cur ++ [c]) l'
  end.
Definition pyLines (file : text) : list text := pyLinesFrom [] file.
(** startswith, in *)
Fixpoint startsWith (s l : text) : bool :=
  match s, l with [], _ => true | a :: s', b :: l' => Ascii.eqb a b && startsWith s' l' | _, [] => false end.
Fixpoint occursIn (s l : text) : bool := startsWith s l || match l with [] => false | _ :: l' => occursIn s l' end.
(** strip(" \n") gives the empty string *)
Definition onlyBlanks (l : text) : bool := forallb (fun c => Ascii.eqb c blank || Ascii.eqb c EOL) l.

Section Numbers.
Context {A : Type}.
(** float() *)
Variable number : text -> option A.
Fixpoint allSome {B} (l : list (option B)) : option (list B) :=
  match l with [] => Some [] | None :: _ => None | Some b :: l' => match allSome l' with Some r => Some (b :: r) | None => None end end.
(** numpy.loadtxt: what follows the sign of comments is cut off (None: there is no such sign), lines without words are left out; the columns asked for (None: all), which must be there, and as many as in the
    first line; dimensions of size 1 are dropped *)
Inductive array := Dim0 (x : A) | Dim1 (xs : list A) | Dim2 (rows : list (list A)).
Fixpoint cut (c : ascii) (l : text) : text := match l with [] => [] | a :: l' => if Ascii.eqb a c then [] else a :: cut c l' end.
Definition splitLine (comments : option ascii) (l : text) : list text := words (match comments with Some c => cut c l | None => l end).
Definition pick (usecols : option (list nat)) (ws : list text) : option (list text) :=
  match usecols with None => Some ws | Some cs => allSome (map (nth_error ws) cs) end.
Definition squeeze (rows : list (list A)) : array :=
  match rows with
  | [] => Dim1 []
  | [[x]] => Dim0 x
  | [r] => Dim1 r
  | _ => if forallb (fun r => length r =? 1) rows then Dim1 (concat rows) else Dim2 rows
  end.
Definition loadtxt (lines : list text) (comments : option ascii) (usecols : option (list nat)) : option array :=
  let vals := filter (fun ws => negb (length ws =? 0)) (map (splitLine comments) lines) in
  match allSome (map (pick usecols) vals) with
  | None => None
  | Some picked =>
      if forallb (fun ws => length ws =? length (hd [] picked)) picked
      then match allSome (map (fun ws => allSome (map number ws)) picked) with Some rows => Some (squeeze rows) | None => None end
      else None
  end.

(** load_evs, io.py:25-40: the array of the columns; the time is the first of them. swapaxes is an error with less than two dimensions *)
Definition loadEvs (file : text) : option (list (list A)) :=
  match loadtxt (pyLines file) (Some commentChar) None with
  | Some (Dim2 rows) => allSome (map (fun j => allSome (map (fun r => nth_error r j) rows)) (seq 0 (length (hd [] rows))))
  | _ => None
  end.
(** load_jumps, io.py:100-126: the lines after the first one containing the title. [NoLog]: None is returned *)
Inductive jumps := NoLog | Raised | Loaded (a : array).
Fixpoint afterTitle (title : text) (lines : list text) : option (list text) :=
  match lines with [] => None | l :: ls => if occursIn title l then Some ls else afterTitle title ls end.
Definition loadJumps (file : text) : jumps :=
  match afterTitle (str "# MCWF Trajectory:") (pyLines file) with
  | None => NoLog
  | Some ls => match loadtxt ls None (Some [1; 2]) with Some a => Loaded a | None => Raised end
  end.
End Numbers.
Arguments array : clear implicits.
Arguments jumps : clear implicits.
(** evs_header, io.py:75-98 *)
Fixpoint headerLines (lines : list text) : list text :=
  match lines with
  | [] => []
  | l :: ls => if negb (onlyBlanks l) && negb (startsWith (str "#") l) then [] else l :: headerLines ls
  end.
Definition evsHeader (file : text) : text := concat (headerLines (pyLines file)).
