(** Operators as values *)
From Coq Require Import List Arith Bool.
From Verif Require Import Star Arr TriModel TriHeapModel.
Import ListNotations.

Section Values.
Context {K : StarRing} {T : Type}.
Variable keq : K -> K -> bool.
Variable teq : T -> T -> bool.
Variable t0 : T.
Variable evolved : T -> T -> nat -> arr K -> arr K -> arr K.
(** variables which hold arrays and operators (as those of TriModel.v) themselves *)
Record values := mkValues { vArrs : nat -> option (arr K); vOps : nat -> option (tri K T) }.
Definition nothing : values := mkValues (fun _ => None) (fun _ => None).
Definition setArr (s : values) a x : values := mkValues (bound (vArrs s) a x) (vOps s).
Definition setOp (s : values) (v : nat) (o : outcome (tri K T)) : values * outcome unit :=
  match o with
  | Ok t => (mkValues (vArrs s) (bound (vOps s) v t), Ok tt)
  | TimeMismatch => (s, TimeMismatch) | StructureMismatch => (s, StructureMismatch) | FreqMismatch => (s, FreqMismatch) | ConsistencyError => (s, ConsistencyError) | UB => (s, UB)
  end.
Definition evolve (t : T) (x : tri K T) : tri K T := mkTri (dims x) (diffs x) (fun i => evolved (time x) t i (diags x i) (freqs x i)) t (freqs x).
Definition alike (x y : tri K T) : bool :=
  forallb (fun i => sameShape (diags y i) (diags x i) && sameShape (freqs y i) (freqs x i)) (seq 0 (3 ^ rankOf x)).
Definition eqRank (x y : tri K T) : bool := rankOf x =? rankOf y.
(** what the commands mean; a failed one leaves everything as it is *)
Definition meaning (s : values) (c : cmd K T) : values * outcome unit :=
  match c with
  | NewArray a x => (setArr s a x, Ok tt)
  | Write a x => match vArrs s a with Some _ => (setArr s a x, Ok tt) | None => (s, Ok tt) end
  | Unary v a k b c => match vArrs s a, vArrs s b, vArrs s c with Some x, Some y, Some z => setOp s v (unary t0 x k y z false) | _, _, _ => (s, Ok tt) end
  | Copy v w => match vOps s w with Some x => setOp s v (Ok x) | None => (s, Ok tt) end
  | Scale v c => match vOps s v with Some x => setOp s v (Ok (scale c x)) | None => (s, Ok tt) end
  | Neg v w => match vOps s w with Some x => setOp s v (Ok (neg x)) | None => (s, Ok tt) end
  | Dagger v w => match vOps s w with Some x => setOp s v (Ok (dagger x)) | None => (s, Ok tt) end
  | Direct v w u => match vOps s w, vOps s u with Some x, Some y => setOp s v (direct teq x y) | _, _ => (s, Ok tt) end
  | AddTo v w => match vOps s v, vOps s w with Some x, Some y => if eqRank x y then setOp s v (add keq x y) else (s, Ok tt) | _, _ => (s, Ok tt) end
  | SubFrom v w => match vOps s v, vOps s w with Some x, Some y => if eqRank x y then setOp s v (sub keq x y) else (s, Ok tt) | _, _ => (s, Ok tt) end
  | Propagate v t => match vOps s v with Some x => setOp s v (Ok (evolve t x)) | None => (s, Ok tt) end
  | Assign v w => match vOps s v, vOps s w with Some x, Some y => if eqRank x y then setOp s v (if alike x y then Ok y else UB) else (s, Ok tt) | _, _ => (s, Ok tt) end
  | Furnish v a => match vOps s v, vArrs s a with Some x, Some d => if rankOf x =? 1 then setOp s v (furnish x d) else (s, Ok tt) | _, _ => (s, Ok tt) end
  end.
Fixpoint meanings (s : values) (cs : list (cmd K T)) : values * outcome unit :=
  match cs with [] => (s, Ok tt) | c :: cs => let (s, o) := meaning s c in match o with Ok _ => meanings s cs | _ => (s, o) end end.
(** an object in memory has the value *)
Definition represents (m : list (arr K)) (h : htri T) (x : tri K T) : Prop :=
  hDims h = dims x /\ hDiffs h = diffs x /\ hTime h = time x /\ forall i, i < 3 ^ length (dims x) -> get m (hD h i) = diags x i /\ get m (hF h i) = freqs x i.
Definition matches {A B} (R : A -> B -> Prop) (a : option A) (b : option B) : Prop := match a, b with Some a, Some b => R a b | None, None => True | _, _ => False end.
(** the same variables with the same values, but for those excepted *)
Definition agreeBut (except : nat -> Prop) (s : heap K T) (vs : values) : Prop :=
  (forall a, matches (fun x y => get (mem s) x = y) (arrs s a) (vArrs vs a)) /\ (forall v, ~ except v -> matches (represents (mem s)) (ops s v) (vOps vs v)).
Definition agree := agreeBut (fun _ => False).
(** the operator which a command changes *)
Definition target (c : cmd K T) (v : nat) : Prop := match c with AddTo w _ | SubFrom w _ | Assign w _ | Furnish w _ => v = w | _ => False end.
(** the operator which a command is about to give a value to *)
Definition writes (c : cmd K T) (v : nat) : Prop :=
  match c with NewArray _ _ | Write _ _ => False | Unary w _ _ _ _ | Copy w _ | Scale w _ | Neg w _ | Dagger w _ | Direct w _ _ | AddTo w _ | SubFrom w _ | Propagate w _ | Assign w _ | Furnish w _ => v = w end.
End Values.
