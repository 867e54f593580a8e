(** Model of the verdicts of the test driver, Testing/testdriver.py: load_sv, Verifier, CompileTarget; and of the functions of numpy they use. In real arithmetic; infinities are left out. *)
From Coq Require Import List Arith Bool Reals String Ascii.
From Verif Require Import Star CReal Arr.
Import ListNotations.
Local Open Scope nat_scope.

(** how a test ends: the driver returns with 0, it calls sys.exit with a message, or there is an exception; the test fails in the last two cases *)
Inductive verdict := Succeeds | Exits | Raises.

(** ** numpy *)
Inductive number := NaN | Num (z : CR).
Definition modulus (z : CR) : R := sqrt (csq z).
(** isclose with the tolerances of the defaults, rtol=1e-5, atol=1e-8, and equal_nan=False *)
Definition isclose (a b : number) : bool :=
  match a, b with Num x, Num y => if Rle_dec (modulus (ksub x y)) (/ 10 ^ 8 + / 10 ^ 5 * modulus y)%R then true else false | _, _ => false end.
Record ndarray := mkNd { shape : list nat; at_ : list nat -> number }.
(** broadcasting: the shapes are aligned at their ends; None: ValueError *)
Fixpoint alignRev (a b : list nat) : option (list nat) :=
  match a, b with
  | [], l => Some l
  | l, [] => Some l
  | x :: a', y :: b' => match alignRev a' b' with
                        | Some l => if x =? y then Some (x :: l) else if x =? 1 then Some (y :: l) else if y =? 1 then Some (x :: l) else None
                        | None => None
                        end
  end.
Definition broadcastShape (a b : list nat) : option (list nat) := option_map (@rev nat) (alignRev (rev a) (rev b)).
Fixpoint clip (sh i : list nat) : list nat := match sh, i with d :: sh', j :: i' => (if d =? 1 then 0 else j) :: clip sh' i' | _, _ => [] end.
Definition broadcastAt (a : ndarray) (i : list nat) : number := at_ a (clip (shape a) (skipn (List.length i - List.length (shape a)) i)).
(** allclose *)
Definition allclose (a b : ndarray) : option bool :=
  match broadcastShape (shape a) (shape b) with
  | None => None
  | Some sh => Some (forallb (fun i => isclose (broadcastAt a i) (broadcastAt b i)) (indices sh))
  end.
(** load_sv without format, testdriver.py:65-69: genfromtxt. The lines of numbers of the file, what is no number is NaN. Dimensions of size 1 are dropped. None: the lines are not equally long *)
Definition genfromtxt (rows : list (list number)) : option ndarray :=
  match rows with
  | [] => Some (mkNd [0] (fun _ => NaN))
  | r :: _ =>
      if forallb (fun r' => List.length r' =? List.length r) rows
      then Some (let nth2 i j := nth j (nth i rows []) NaN in
                 match rows, r with
                 | [_], [_] => mkNd [] (fun _ => nth2 0 0)
                 | [_], _ => mkNd [List.length r] (fun i => nth2 0 (hd 0 i))
                 | _, [_] => mkNd [List.length rows] (fun i => nth2 (hd 0 i) 0)
                 | _, _ => mkNd [List.length rows; List.length r] (fun i => nth2 (hd 0 i) (hd 0 (tl i)))
                 end)
      else None
  end.
(** what cpypyqed's read returns (PyStateModel.v): states, all with the same extents, and times; as arguments of allclose they become arrays *)
Record stateFile := mkStates { extents : list nat; states : list (list nat -> number); times : list number }.
Definition statesArray (f : stateFile) : ndarray := mkNd (List.length (states f) :: extents f) (fun i => nth (hd 0 i) (states f) (fun _ => NaN) (tl i)).
Definition timesArray (f : stateFile) : ndarray := mkNd [List.length (times f)] (fun i => nth (hd 0 i) (times f) NaN).

(** ** Verifier *)
(** the output of a run mode; None: the file cannot be read *)
Record outputs := mkOut { trajectory : option (list (list number)); state : option stateFile }.
Definition both (f : option bool) (g : option bool) : option bool := match f with Some true => g | _ => f end.
Definition toVerdict (b : option bool) : verdict := match b with Some true => Succeeds | Some false => Exits | None => Raises end.
(** _verify_ev, testdriver.py:407-409; _verify_state, 410-414 *)
Definition verifyEv (this other : outputs) : verdict :=
  match trajectory this, trajectory other with
  | Some a, Some b => match genfromtxt a, genfromtxt b with Some x, Some y => toVerdict (allclose x y) | _, _ => Raises end
  | _, _ => Raises
  end.
Definition verifyState (this other : outputs) : verdict :=
  match state this, state other with
  | Some a, Some b => toVerdict (both (allclose (statesArray a) (statesArray b)) (allclose (timesArray a) (timesArray b)))
  | _, _ => Raises
  end.
Definition andThen (v w : verdict) : verdict := match v with Succeeds => w | _ => v end.
(** _verify_full, testdriver.py:392-395: for all run modes *)
Definition verifyFull (runs : list (outputs * outputs)) : verdict :=
  fold_right (fun r v => andThen (verifyEv (fst r) (snd r)) (andThen (verifyState (fst r) (snd r)) v)) Succeeds runs.
(** run, testdriver.py:383-391: _verify_outcome(self,this,other) is called without arguments, which is a TypeError; there is no further branch *)
Definition verifierRun (mode : option string) (runs : list (outputs * outputs)) : verdict :=
  match mode with
  | None => verifyFull runs
  | Some m => if String.eqb m "full" then verifyFull runs else if String.eqb m "outcome" then Raises else Succeeds
  end.

(** ** CompileTarget *)
(** str and bytes; "in" between the two is a TypeError *)
Inductive pyText := Str (s : list ascii) | Bytes (s : list ascii).
Fixpoint prefixOf (s l : list ascii) : bool := match s, l with [], _ => true | a :: s', b :: l' => Ascii.eqb a b && prefixOf s' l' | _, [] => false end.
Fixpoint infixOf (s l : list ascii) : bool := prefixOf s l || match l with [] => false | _ :: l' => infixOf s l' end.
Definition contains (needle hay : pyText) : option bool :=
  match needle, hay with Str a, Str b => Some (infixOf a b) | Bytes a, Bytes b => Some (infixOf a b) | _, _ => None end.
(** run, testdriver.py:536-567. [deps]: the return codes of the compilations of the dependencies; [std], [err]: what Popen.communicate returns, which is bytes; the key "error" is a str *)
Definition compileRun (deps : list nat) (returncode : nat) (std err : list ascii) (error : option (list ascii)) : verdict :=
  if negb (forallb (Nat.eqb 0) deps) then Exits
  else match error with
       | None => if returncode =? 0 then Succeeds else Exits
       | Some e => if returncode =? 0 then Exits
                   else match contains (Str e) (Bytes std) with
                        | None => Raises
                        | Some true => Succeeds
                        | Some false => match contains (Str e) (Bytes err) with None => Raises | Some true => Succeeds | Some false => Exits end
                        end
       end.
