(** Model of where Tridiagonal operators are kept: blitzplusplus::TinyOfArrays (CPPQEDutils/BlitzTinyOfArrays.h, .tcc) and the operations of quantumoperator::Tridiagonal (CPPQEDcore/quantumoperator/Tridiagonal.h, .tcc, .cc)
    upon memory. Blitz arrays are addresses of blocks, as many of them may refer to the same block. The arithmetic of whole blocks is that of TriModel.v. resize keeps the block if the shape is the same and takes a new one
    otherwise; assignment to an array writes its elements, which is undefined if the shapes differ. Not modelled: the memory given back, arrays which refer to a part of a block. *)
From Coq Require Import List Arith Bool.
From Verif Require Import Star Arr TriModel.
Import ListNotations.

Section Heap.
Context {K : StarRing} {T : Type}.
Variable keq : K -> K -> bool.
Variable teq : T -> T -> bool.
Variable t0 : T.
(** the inner loop of propagate, Tridiagonal.tcc:157-160: the diagonal number i from one time to another, with its frequencies *)
Variable evolved : T -> T -> nat -> arr K -> arr K -> arr K.
Notation array := (arr K).

Definition memory := list array.
Definition get (m : memory) (x : nat) : array := nth x m (emptyArr 0).
Fixpoint put (m : memory) (x : nat) (a : array) : memory := match m, x with [], _ => [] | _ :: m, 0 => a :: m | b :: m, S x => b :: put m x a end.

(** data members, Tridiagonal.h:277-285: the arrays are addresses *)
Record htri := mkH { hDims : list nat; hDiffs : list nat; hD : nat -> nat; hTime : T; hF : nat -> nat }.
Definition hLength (h : htri) : nat := 3 ^ length (hDims h).
Definition rebind (D : nat -> nat) (i x : nat) : nat -> nat := fun j => if j =? i then x else D j.

(** new arrays, one after the other; TinyOfArrays(DeepCopy, ...), BlitzTinyOfArrays.tcc:44-49 *)
Definition newArrays (n : nat) (g : nat -> array) (m : memory) : (nat -> nat) * memory := (fun i => length m + i, m ++ map g (seq 0 n)).
Definition deepCopy (n : nat) (S : nat -> nat) (m : memory) : (nat -> nat) * memory := newArrays n (fun i => get m (S i)) m.

(** boost::for_each over two TinyOfArrays: in each turn a failure, or a new content of the array of the second one, either in its block or in a new one *)
Fixpoint loop (bad : nat -> array -> array -> bool) (keep : nat -> array -> array -> bool) (f : nat -> array -> array -> array) (S : nat -> nat) (is : list nat) (D : nat -> nat) (m : memory) : (nat -> nat) * memory * bool :=
  match is with
  | [] => (D, m, true)
  | i :: is => let from := get m (S i) in let to := get m (D i) in
               if bad i from to then (D, m, false)
               else if keep i from to then loop bad keep f S is D (put m (D i) (f i from to))
               else loop bad keep f S is (rebind D i (length m)) (m ++ [f i from to])
  end.
Definition never (i : nat) (from to : array) : bool := false.
Definition always (i : nat) (from to : array) : bool := true.
Definition sameShape (a b : array) : bool := listnat_eqb (ash a) (ash b).

(** private constructor, Tridiagonal.h:246-247; the copy constructor, Tridiagonal.h:154 *)
Definition construct (ds ks : list nat) (D : nat -> nat) (t : T) (F : nat -> nat) (m : memory) : htri * memory :=
  let n := 3 ^ length ds in
  let (D, m) := deepCopy n D m in let (F, m) := deepCopy n F m in (mkH ds ks D t F, m).
Definition hCopy (h : htri) (m : memory) : htri * memory := construct (hDims h) (hDiffs h) (hD h) (hTime h) (hF h) m.
(** operator*=, Tridiagonal.tcc:73-79 *)
Definition hScale (c : K) (h : htri) (m : memory) : htri * memory :=
  let '(D, m, _) := loop never always (fun _ _ to => amap (fun z => kmul z c) to) (hD h) (seq 0 (hLength h)) (hD h) m in (mkH (hDims h) (hDiffs h) D (hTime h) (hF h), m).
(** operator-, Tridiagonal.h:239, and negate, BlitzTinyOfArrays.tcc:53-60 *)
Definition hNeg (h : htri) (m : memory) : htri * memory :=
  let (R, m) := deepCopy (hLength h) (hD h) m in
  let '(R, m, _) := loop never always (fun _ _ to => amap kopp to) R (seq 0 (hLength h)) R m in
  construct (hDims h) (hDiffs h) R (hTime h) (hF h) m.
(** hermitianConjugate, Tridiagonal.tcc:104-115 *)
Definition hDagger (h : htri) (m : memory) : htri * memory :=
  let (E, m) := newArrays (hLength h) (fun _ => emptyArr (length (hDims h))) m in
  let (r, m) := construct (hDims h) (hDiffs h) E (hTime h) (hF h) m in
  let (D, m) := fold_left (fun Dm ind => (rebind (fst Dm) (transposeIndex (length (hDims h)) ind) (length (snd Dm)), snd Dm ++ [amap kconj (get (snd Dm) (hD h ind))])) (seq 0 (hLength h)) (hD r, m) in
  (mkH (hDims r) (hDiffs r) D (hTime r) (hF r), m).
(** direct product, Tridiagonal.tcc:28-70: shallow copies of the temporaries *)
Definition hDirect (h1 h2 : htri) (m : memory) : (htri * memory) * outcome unit :=
  let n2 := 3 ^ length (hDims h2) in let n := 3 ^ length (hDims h1 ++ hDims h2) in
  let (D, m) := newArrays n (fun i => doDirect kmul (get m (hD h1 (i / n2))) (get m (hD h2 (i mod n2)))) m in
  let (F, m) := newArrays n (fun i => doDirect kadd (get m (hF h1 (i / n2))) (get m (hF h2 (i mod n2)))) m in
  (mkH (hDims h1 ++ hDims h2) (hDiffs h1 ++ hDiffs h2) D (hTime h1) F, m, if teq (hTime h1) (hTime h2) then Ok tt else TimeMismatch).
(** operator+=, Tridiagonal.tcc:118-149: what has been done before an exception stays done *)
Fixpoint diffsLoop (from to : list nat) : list nat * bool :=
  match from, to with
  | f :: from, t :: to => if t =? 0 then let (r, b) := diffsLoop from to in (f :: r, b)
                          else if negb (f =? 0) && negb (t =? f) then (t :: to, false)
                          else let (r, b) := diffsLoop from to in (t :: r, b)
  | _, _ => ([], true)
  end.
Definition hAdd (h from : htri) (m : memory) : (htri * memory) * outcome unit :=
  let (ks, fine) := diffsLoop (hDiffs from) (hDiffs h) in
  if negb fine then (mkH (hDims h) ks (hD h) (hTime h) (hF h), m, StructureMismatch) else
  let is := seq 0 (hLength h) in
  let '(D, m, fine) := loop (fun _ => shapesClash) (fun _ from to => negb (nonempty from) || nonempty to) (fun _ => addDiag) (hD from) is (hD h) m in
  if negb fine then (mkH (hDims h) ks D (hTime h) (hF h), m, UB) else
  let '(F, m, fine) := loop (fun _ => freqClash keq) (fun _ from to => negb (nonempty from) || sameShape from to) (fun _ => addFreq) (hF from) is (hF h) m in
  (mkH (hDims h) ks D (hTime h) F, m, if fine then Ok tt else FreqMismatch).
(** operator-=, Tridiagonal.h:243 *)
Definition hSub (h from : htri) (m : memory) : (htri * memory) * outcome unit := let (f, m) := hNeg from m in hAdd h f m.
(** propagate, Tridiagonal.tcc:153-163 *)
Definition hPropagate (t : T) (h : htri) (m : memory) : htri * memory :=
  let '(D, m, _) := loop never always (fun i freq to => evolved (hTime h) t i to freq) (hF h) (seq 0 (hLength h)) (hD h) m in (mkH (hDims h) (hDiffs h) D t (hF h), m).
(** the implicit copy assignment: the elements of the arrays are assigned *)
Definition hAssign (h from : htri) (m : memory) : (htri * memory) * outcome unit :=
  let is := seq 0 (hLength h) in
  let '(D, m, fine) := loop (fun _ from to => negb (sameShape from to)) always (fun _ from _ => from) (hD from) is (hD h) m in
  if negb fine then (h, m, UB) else
  let '(F, m, fine) := loop (fun _ from to => negb (sameShape from to)) always (fun _ from _ => from) (hF from) is (hF h) m in
  (mkH (hDims from) (hDiffs from) D (hTime from) F, m, if fine then Ok tt else UB).
(** constructor of unary operators without frequencies, Tridiagonal.cc:39-60, of the arrays of the user *)
Definition hUnary (zero : nat) (k : nat) (minus plus : nat) (m : memory) : (htri * memory) * outcome unit :=
  let z := get m zero in let mi := get m minus in let p := get m plus in
  let (D, m1) := deepCopy 3 (fun i => match i with 0 => zero | 1 => minus | _ => plus end) m in
  let (F, m2) := newArrays 3 (fun _ => emptyArr 1) m1 in
  (mkH [Nat.max (Nat.max (asize z) (asize mi + k)) (asize p + k)] [k] D t0 F, m2,
   if negb (compatible z k mi 0) || negb (compatible z k p 0) || negb (compatible mi 0 p 0) || ((nonempty mi || nonempty p) && (k =? 0)) then ConsistencyError else Ok tt).

(** furnishWithFreqs, Tridiagonal.cc:24-36, with an array of the user *)
Definition hFurnish (h : htri) (main : nat) (m : memory) : (htri * memory) * outcome unit :=
  let k := nth 0 (hDiffs h) 0 in let d := nth 0 (hDims h) 0 in
  if d <? k then (h, m, UB) else
  if d - k =? 0 then (h, m, Ok tt) else
  if asize (get m main) <? d then (h, m, UB) else
  let f := mkArr [d - k] (fun x => let i := nth 0 x 0 in ksub (av (get m main) [i + k]) (av (get m main) [i])) in
  let '(F, m) := if sameShape (get m (hF h 1)) f then (hF h, put m (hF h 1) f) else (rebind (hF h) 1 (length m), m ++ [f]) in
  (mkH (hDims h) (hDiffs h) (hD h) (hTime h) (rebind F 2 (length m)), m ++ [amap kopp f], Ok tt).

(** programs: arrays of the user, operators *)
Inductive cmd := NewArray (a : nat) (x : array) | Write (a : nat) (x : array) | Unary (v a : nat) (k : nat) (b c : nat) | Copy (v w : nat) | Scale (v : nat) (c : K) | Neg (v w : nat) | Dagger (v w : nat)
  | Direct (v w u : nat) | AddTo (v w : nat) | SubFrom (v w : nat) | Propagate (v : nat) (t : T) | Assign (v w : nat) | Furnish (v a : nat).
Record heap := mkHeap { mem : memory; arrs : nat -> option nat; ops : nat -> option htri }.
Definition bound {A} (f : nat -> option A) (v : nat) (x : A) : nat -> option A := fun u => if u =? v then Some x else f u.
Definition started : heap := mkHeap [] (fun _ => None) (fun _ => None).
(** a new object, which is not there after an exception of its constructor, and an object changed *)
Definition born (s : heap) (v : nat) (r : (htri * memory) * outcome unit) : heap * outcome unit :=
  let '(h, m, o) := r in (mkHeap m (arrs s) match o with Ok _ => bound (ops s) v h | _ => ops s end, o).
Definition changed (s : heap) (v : nat) (r : (htri * memory) * outcome unit) : heap * outcome unit := let '(h, m, o) := r in (mkHeap m (arrs s) (bound (ops s) v h), o).
Definition sameRank (h h' : htri) : bool := length (hDims h) =? length (hDims h').
(** what does not compile (no such variable, different ranks) does nothing *)
Definition exec (s : heap) (c : cmd) : heap * outcome unit :=
  match c with
  | NewArray a x => (mkHeap (mem s ++ [x]) (bound (arrs s) a (length (mem s))) (ops s), Ok tt)
  | Write a x => match arrs s a with Some p => (mkHeap (put (mem s) p x) (arrs s) (ops s), Ok tt) | None => (s, Ok tt) end
  | Unary v a k b c => match arrs s a, arrs s b, arrs s c with Some x, Some y, Some z => born s v (hUnary x k y z (mem s)) | _, _, _ => (s, Ok tt) end
  | Copy v w => match ops s w with Some h => born s v (hCopy h (mem s), Ok tt) | None => (s, Ok tt) end
  | Scale v c => match ops s v with Some h => changed s v (hScale c h (mem s), Ok tt) | None => (s, Ok tt) end
  | Neg v w => match ops s w with Some h => born s v (hNeg h (mem s), Ok tt) | None => (s, Ok tt) end
  | Dagger v w => match ops s w with Some h => born s v (hDagger h (mem s), Ok tt) | None => (s, Ok tt) end
  | Direct v w u => match ops s w, ops s u with Some h, Some h' => born s v (hDirect h h' (mem s)) | _, _ => (s, Ok tt) end
  | AddTo v w => match ops s v, ops s w with Some h, Some h' => if sameRank h h' then changed s v (hAdd h h' (mem s)) else (s, Ok tt) | _, _ => (s, Ok tt) end
  | SubFrom v w => match ops s v, ops s w with Some h, Some h' => if sameRank h h' then changed s v (hSub h h' (mem s)) else (s, Ok tt) | _, _ => (s, Ok tt) end
  | Propagate v t => match ops s v with Some h => changed s v (hPropagate t h (mem s), Ok tt) | None => (s, Ok tt) end
  | Assign v w => match ops s v, ops s w with Some h, Some h' => if sameRank h h' then changed s v (hAssign h h' (mem s)) else (s, Ok tt) | _, _ => (s, Ok tt) end
  | Furnish v a => match ops s v, arrs s a with Some h, Some x => if length (hDims h) =? 1 then changed s v (hFurnish h x (mem s)) else (s, Ok tt) | _, _ => (s, Ok tt) end
  end.
Fixpoint run (s : heap) (cs : list cmd) : heap * outcome unit :=
  match cs with [] => (s, Ok tt) | c :: cs => let (s, o) := exec s c in match o with Ok _ => run s cs | _ => (s, o) end end.
End Heap.
Arguments cmd : clear implicits.
Arguments heap : clear implicits.
Arguments htri : clear implicits.
