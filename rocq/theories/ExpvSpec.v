(** Ordered maps and titled data *)
From Coq Require Import List Arith Bool.
From Verif Require Import ExpvModel.
Import ListNotations.

Section Dict.
Context {Key Val : Type}.
Variable keyEq : Key -> Key -> bool.
(** an ordered map: pairs in order of their first appearance *)
Notation omap := (list (Key * Val)).
Fixpoint lookup (m : omap) (k : Key) : option Val := match m with [] => None | (k', v) :: m => if keyEq k' k then Some v else lookup m k end.
Fixpoint assign (m : omap) (k : Key) (v : Val) : omap := match m with [] => [(k, v)] | (k', v') :: m => if keyEq k' k then (k', v) :: m else (k', v') :: assign m k v end.
Definition erase (m : omap) (k : Key) : omap := filter (fun p => negb (keyEq (fst p) k)) m.
(** what is done to it, and the errors *)
Inductive action := Set_ (k : Key) (v : Val) | Del (k : Key).
Definition actOn (m : omap) (a : action) : option omap :=
  match a with Set_ k v => Some (assign m k v) | Del k => match lookup m k with Some _ => Some (erase m k) | None => None end end.
Definition doOn (d : odict Key Val) (a : action) : option (odict Key Val) := match a with Set_ k v => Some (dictSet keyEq d k v) | Del k => dictDel keyEq d k end.
(** an action with an error changes nothing *)
Definition orSame {A} (x : A) (o : option A) : A := match o with Some y => y | None => x end.
Definition actAll (m : omap) (l : list action) : omap := fold_left (fun m a => orSame m (actOn m a)) l m.
Definition doAll (d : odict Key Val) (l : list action) : odict Key Val := fold_left (fun d a => orSame d (doOn d a)) l d.
Definition same (d : odict Key Val) (m : omap) : Prop := dKeys d = map fst m /\ forall k, dictGet d k = lookup m k.
End Dict.
Arguments action : clear implicits.

Section Values.
Context {X T S : Type}.
Variable unknown : S.
(** each row has its trajectory with the same data, the title and the time *)
Definition titled (c : @evc X T S) (titles : list S) : Prop :=
  exists l, cTrajs c = Some l /\ map eData l = cRows c /\ titlesOf unknown c = Some titles /\ length titles = length (cRows c).
(** as many times as there are values in each row *)
Definition timed (c : @evc X T S) : Prop := forall ts r, cTime c = Some ts -> In r (cRows c) -> length r = length ts.
End Values.
