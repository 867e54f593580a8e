(** Model of the Python tools cpypyqed/tools/expvalues.py and cpypyqed/tools/utils.py. numpy arrays are lists of rows; None for an exception. Not modelled: other arguments of numpy.array, dtypes. *)
From Coq Require Import List Arith Bool.
Import ListNotations.

Section Dict.
Context {Key Val : Type}.
Variable keyEq : Key -> Key -> bool.
(** OrderedDict, utils.py:3-21: _keys and _data *)
Record odict := mkDict { dKeys : list Key; dData : Key -> option Val }.
Definition dictNew : odict := mkDict [] (fun _ => None).
Definition has (d : odict) (k : Key) : bool := match dData d k with Some _ => true | None => false end.
Definition dictSet (d : odict) (k : Key) (v : Val) : odict :=
  mkDict (if has d k then dKeys d else dKeys d ++ [k]) (fun k' => if keyEq k' k then Some v else dData d k').
(** KeyError *)
Definition dictGet (d : odict) (k : Key) : option Val := dData d k.
Fixpoint removeFirst (k : Key) (l : list Key) : list Key := match l with [] => [] | k' :: l => if keyEq k' k then l else k' :: removeFirst k l end.
(** del self._data[key]; self._keys.remove(key) *)
Definition dictDel (d : odict) (k : Key) : option odict :=
  if has d k then Some (mkDict (removeFirst k (dKeys d)) (fun k' => if keyEq k' k then None else dData d k')) else None.
(** copy, utils.py:23-27: the name odict is not defined, NameError *)
Definition dictCopy (d : odict) : option odict := None.
End Dict.
Arguments odict : clear implicits.

Section Values.
Context {X T S : Type}.
Variable unknown : S. (* "?" *)
(** ExpectationValueTrajectory, expvalues.py:16-62 *)
Record evt := mkEvt { eData : list X; eTime : option (list T); eTitle : option S }.
Definition orElse {A} (a b : option A) : option A := match a with Some _ => a | None => b end.
(** __new__, lines 40-51: of data which may have a time and a title itself *)
Definition newEvt (data : evt) (time : option (list T)) (title : option S) : evt := mkEvt (eData data) (orElse time (eTime data)) (orElse title (eTitle data)).
(** __str__, lines 57-62, the title shown *)
Definition shownTitle (e : evt) : S := match eTitle e with Some t => t | None => unknown end.

(** ExpectationValueCollection, lines 65-144; the attribute evtrajectories may be missing: only __new__ sets it *)
Record evc := mkEvc { cRows : list (list X); cTrajs : option (list evt); cTime : option (list T) }.
(** __new__ of several rows, lines 98-111; [own]: data.time if there is one. titles[i] is there for all rows after line 103 *)
Definition newCollection (data : list evt) (own time : option (list T)) (titles : list (option S)) : evc :=
  let titles := titles ++ repeat None (length data - length titles) in
  mkEvc (map eData data) (Some (map (fun p => newEvt (fst p) time (snd p)) (combine data titles))) (orElse time own).
(** of one trajectory, lines 95-97: titles are not looked at *)
Definition newFromOne (data : evt) (time : option (list T)) : evc := mkEvc [eData data] (Some [data]) (orElse time (eTime data)).
(** titles, lines 125-139: AttributeError if there are no trajectories *)
Definition titlesOf (c : evc) : option (list S) := match cTrajs c with None => None | Some l => Some (map shownTitle l) end.
(** l[a:b:] of nonnegative numbers *)
Definition slice {A} (a b : nat) (l : list A) : list A := firstn (b - a) (skipn a l).
(** the rows of an array of this class: views, with its time (__array_finalize__, line 122) and without a title *)
Definition rowsOf (c : evc) : list evt := map (fun r => mkEvt r (cTime c) None) (cRows c).
(** slices and results of arithmetic, lines 121-122: of the attributes only time is there *)
Definition sliceRows (a b : nat) (c : evc) : evc := mkEvc (slice a b (cRows c)) None (cTime c).
Definition sliceTimes (a b : nat) (c : evc) : evc := mkEvc (map (slice a b) (cRows c)) None (cTime c).
Definition mapped (f : X -> X) (c : evc) : evc := mkEvc (map (map f) (cRows c)) None (cTime c).
(** arithmetic in place: the trajectories have their own copies of the rows, line 106 *)
Definition inPlace (f : X -> X) (c : evc) : evc := mkEvc (map (map f) (cRows c)) (cTrajs c) (cTime c).
(** one subsystem, lines 117-120: the slice of the array, with the slice of the titles *)
Definition subsystem (c : evc) (a b : nat) : option evc :=
  match titlesOf c with
  | None => None
  | Some ts => Some (newCollection (rowsOf (sliceRows a b c)) (cTime c) (cTime c) (map Some (slice a b ts)))
  end.
End Values.
