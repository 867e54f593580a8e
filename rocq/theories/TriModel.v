(** Model of quantumoperator::Tridiagonal<RANK>: CPPQEDcore/quantumoperator/Tridiagonal.h, .tcc, .cc, and of
    blitzplusplus::doDirect, CPPQEDutils/ComplexArrayExtensions.h:80-97.

    Scalars: any commutative ring with involution; [T] is the type of time instants. The rank is the length of
    the list of dimensions. Elements of blitz arrays at out-of-range multi-indices are meaningless. *)
From Coq Require Import List Arith Bool Reals.
From Verif Require Import Star CReal Arr.
Import ListNotations.

Section Tri.
Context {K : StarRing} {T : Type}.

(** blitz::Array<dcomp,RANK>: shape and elements; "empty" means [size()==0] *)
Record arr := mkArr { ash : list nat; av : list nat -> K }.
Definition asize (a : arr) : nat := fold_right Nat.mul 1 (ash a).
Definition nonempty (a : arr) : bool := negb (Nat.eqb (asize a) 0).
(** default-constructed array of rank [r] (Tridiagonal.h:137, 307) *)
Definition emptyArr (r : nat) : arr := mkArr (repeat 0 r) (fun _ => k0).
Definition amap (f : K -> K) (a : arr) : arr := mkArr (ash a) (fun x => f (av a x)).

(** data members, Tridiagonal.h:277-285 and DimensionsBookkeeper base; [diags] and [freqs] are indexed by
    0..3^RANK-1 (TinyOfArrays of length LENGTH, Tridiagonal.h:93-96) *)
Record tri := mkTri { dims : list nat; diffs : list nat; diags : nat -> arr; time : T; freqs : nat -> arr }.

Definition rankOf (t : tri) : nat := length (dims t).

(** doDirect, ComplexArrayExtensions.h:80-97 (op: product for diagonals, sum for frequencies); the unaryArray
    (row-major flattening) views are replaced by the multi-index pair they denote *)
Definition doDirect (op : K -> K -> K) (a1 a2 : arr) : arr :=
  mkArr (ash a1 ++ ash a2) (fun x => op (av a1 (firstn (length (ash a1)) x)) (av a2 (skipn (length (ash a1)) x))).

(** directDiagonals, Tridiagonal.tcc:28-55: res(i*length+j)=doDirect(ds1(i),ds2(j)), length=3^RANK2 *)
Definition directDiagonals (op : K -> K -> K) (rank2 : nat) (ds1 ds2 : nat -> arr) : nat -> arr :=
  fun m => doDirect op (ds1 (m / 3 ^ rank2)) (ds2 (m mod 3 ^ rank2)).

(** outcomes: value, exceptions *)
Inductive outcome (A : Type) := Ok (a : A) | TimeMismatch | StructureMismatch | FreqMismatch | ConsistencyError | UB.
Global Arguments Ok {A}. Global Arguments TimeMismatch {A}. Global Arguments StructureMismatch {A}.
Global Arguments FreqMismatch {A}. Global Arguments ConsistencyError {A}. Global Arguments UB {A}.

(** direct product constructor, Tridiagonal.tcc:61-70 *)
Definition direct (teq : T -> T -> bool) (t1 t2 : tri) : outcome tri :=
  if teq (time t1) (time t2)
  then Ok (mkTri (dims t1 ++ dims t2) (diffs t1 ++ diffs t2)
                 (directDiagonals kmul (rankOf t2) (diags t1) (diags t2))
                 (time t1)
                 (directDiagonals kadd (rankOf t2) (freqs t1) (freqs t2)))
  else TimeMismatch.

(** operator*=(dcomp), Tridiagonal.tcc:73-79 (operator/=, Tridiagonal.h:200-202, in terms of this) *)
Definition scale (c : K) (t : tri) : tri :=
  mkTri (dims t) (diffs t) (fun i => amap (fun z => kmul z c) (diags t i)) (time t) (freqs t).

(** unary operator-, Tridiagonal.h:239 *)
Definition neg (t : tri) : tri :=
  mkTri (dims t) (diffs t) (fun i => amap kopp (diags t i)) (time t) (freqs t).

(** helper::transposeIndex, Tridiagonal.tcc:88-100 (k from RANK-1 down to 0); pow(3.,k) exact *)
Fixpoint transposeIndex (rank ind : nat) : nat :=
  match rank with
  | 0 => 0
  | S k => let ik := ind / 3 ^ k in ((3 - ik) mod 3) * 3 ^ k + transposeIndex k (ind - ik * 3 ^ k)
  end.

(** hermitianConjugate, Tridiagonal.tcc:84-115. The loop writes res(transposeIndex(ind)) for every ind. *)
Definition dagger (t : tri) : tri :=
  mkTri (dims t) (diffs t)
    (fold_left (fun res ind => fun j => if Nat.eqb j (transposeIndex (rankOf t) ind)
                                        then amap kconj (diags t ind) else res j)
               (seq 0 (3 ^ rankOf t)) (fun _ => emptyArr (rankOf t)))
    (time t) (freqs t).

(** operator+=, Tridiagonal.tcc:118-149. [keq]: element equality used by blitz all(to!=from). Adding diagonals
    of different shapes is undefined (only checked by blitz in debug mode). *)
Fixpoint mergeDiffs (from to : list nat) : option (list nat) :=
  match from, to with
  | f :: from', t :: to' =>
      if Nat.eqb t 0 then option_map (cons f) (mergeDiffs from' to')
      else if negb (Nat.eqb f 0) && negb (Nat.eqb t f) then None
      else option_map (cons t) (mergeDiffs from' to')
  | _, _ => Some []
  end.
Definition addDiag (from to : arr) : arr :=
  if nonempty from
  then if negb (nonempty to) then from
       else mkArr (ash to) (fun x => kadd (av to x) (av from x))
  else to.
Definition shapesClash (from to : arr) : bool := nonempty from && nonempty to && negb (listnat_eqb (ash from) (ash to)).
(** all(to!=from): every element differs *)
Definition allDiffer (keq : K -> K -> bool) (to from : arr) : bool :=
  forallb (fun x => negb (keq (av to x) (av from x))) (indices (ash to)).
Definition freqClash (keq : K -> K -> bool) (from to : arr) : bool :=
  nonempty from && nonempty to && allDiffer keq to from.
Definition addFreq (from to : arr) : arr := if nonempty from then from else to.

Definition add (keq : K -> K -> bool) (to from : tri) : outcome tri :=
  match mergeDiffs (diffs from) (diffs to) with
  | None => StructureMismatch
  | Some ks =>
      let n := 3 ^ rankOf to in
      if existsb (fun i => shapesClash (diags from i) (diags to i)) (seq 0 n) then UB
      else if existsb (fun i => freqClash keq (freqs from i) (freqs to i)) (seq 0 n) then FreqMismatch
      else Ok (mkTri (dims to) ks (fun i => addDiag (diags from i) (diags to i)) (time to)
                     (fun i => addFreq (freqs from i) (freqs to i)))
  end.

(** operator-=, Tridiagonal.h:243; tridiagMinusHC, tridiagPlusHC, Tridiagonal.h:329-340 *)
Definition sub keq (to from : tri) : outcome tri := add keq to (neg from).
Definition minusHC keq (t : tri) := sub keq t (dagger t).
Definition plusHC keq (t : tri) := add keq t (dagger t).

(** ** apply, Tridiagonal.tcc:193-263, 332-346 *)
(** FillRangesHelper, Tridiagonal.tcc:193-204: Ranges (lower bound, exclusive upper bound) number 0,1,2 of a dimension *)
Definition range (d k r : nat) : nat * nat :=
  match r with 0 => (0, d) | 1 => (0, d - k) | _ => (k, d) end.
Fixpoint inRanges (ds ks v y : list nat) : bool :=
  match ds, ks, v, y with
  | d :: ds', k :: ks', r :: v', i :: y' =>
      (fst (range d k r) <=? i) && (i <? snd (range d k r)) && inRanges ds' ks' v' y'
  | [], [], [], [] => true
  | _, _, _, _ => false
  end.
(** element of the sub-array [v] corresponding to element [y] of the sub-array [vd] *)
Fixpoint moveIdx (ds ks vd v y : list nat) : list nat :=
  match ds, ks, vd, v, y with
  | d :: ds', k :: ks', rd :: vd', r :: v', i :: y' =>
      (i - fst (range d k rd) + fst (range d k r)) :: moveIdx ds' ks' vd' v' y'
  | _, _, _, _, _ => []
  end.
(** doApply for REMAINING=0, Tridiagonal.tcc:332-346: dpsidt(V_DPSIDT) += diagonals_(START)(V_A)*psi(V_PSI) *)
Definition applyLeaf (t : tri) (start : nat) (vd va vp : list nat) (psi dpsidt : list nat -> K) : list nat -> K :=
  if nonempty (diags t start)
  then fun y => if inRanges (dims t) (diffs t) vd y
                then kadd (dpsidt y) (kmul (av (diags t start) (moveIdx (dims t) (diffs t) vd va y))
                                           (psi (moveIdx (dims t) (diffs t) vd vp y)))
                else dpsidt y
  else dpsidt.
(** doApply, Tridiagonal.tcc:237-263; apply, Tridiagonal.tcc:220-233, is the outermost level of the same recursion *)
Fixpoint doApply (t : tri) (remaining start : nat) (vd va vp : list nat) (psi dpsidt : list nat -> K) : list nat -> K :=
  match remaining with
  | 0 => applyLeaf t start vd va vp psi dpsidt
  | S rem =>
      let step := 3 ^ rem in
      let d0 := doApply t rem (start + 0 * step) (vd ++ [0]) (va ++ [0]) (vp ++ [0]) psi dpsidt in
      let d1 := doApply t rem (start + 1 * step) (vd ++ [2]) (va ++ [1]) (vp ++ [1]) psi d0 in
                doApply t rem (start + 2 * step) (vd ++ [1]) (va ++ [1]) (vp ++ [2]) psi d1
  end.
Definition apply (t : tri) (psi dpsidt : list nat -> K) : list nat -> K :=
  doApply t (rankOf t) 0 [] [] [] psi dpsidt.

(** ** unary operators *)
(** furnishWithFreqs, Tridiagonal.cc:24-36. UB: [mainDiagonal] indexed out of range or unsigned underflow. *)
Definition furnish (t : tri) (mainDiagonal : arr) : outcome tri :=
  let k := nth 0 (diffs t) 0 in
  let d := nth 0 (dims t) 0 in
  if d <? k then UB else
  let n := d - k in
  if n =? 0 then Ok t
  else if asize mainDiagonal <? d then UB
  else let f1 := mkArr [n] (fun x => let i := nth 0 x 0 in ksub (av mainDiagonal [i + k]) (av mainDiagonal [i])) in
       Ok (mkTri (dims t) (diffs t) (diags t) (time t)
              (fun i => match i with 1 => f1 | 2 => amap kopp f1 | _ => freqs t i end)).

(** unary arrays *)
Definition vec (l : list K) : arr := mkArr [length l] (fun x => nth (nth 0 x 0) l k0).

(** Compatible, Tridiagonal.cc:15-19; sizes are size_t: a.size()-diffA==b.size()-diffB modulo 2^64, which for
    sizes below 2^63 is equality of a.size()+diffB and b.size()+diffA *)
Definition compatible (a : arr) (da : nat) (b : arr) (db : nat) : bool :=
  negb (nonempty a) || negb (nonempty b) || Nat.eqb (asize a + db) (asize b + da).

(** constructor of unary operators, Tridiagonal.cc:39-60; [t0] is time 0 *)
Definition unary (t0 : T) (zero : arr) (k : nat) (minus plus : arr) (toFreqs : bool) : outcome tri :=
  let d := Nat.max (Nat.max (asize zero) (asize minus + k)) (asize plus + k) in
  let t := mkTri [d] [k] (fun i => match i with 0 => if toFreqs then emptyArr 1 else zero | 1 => minus | 2 => plus
                                   | _ => emptyArr 1 end) t0 (fun _ => emptyArr 1) in
  match (if toFreqs then furnish t (amap kopp zero) else Ok t) with
  | Ok t' => if negb (compatible zero k minus 0) || negb (compatible zero k plus 0) || negb (compatible minus 0 plus 0)
                || ((nonempty minus || nonempty plus) && Nat.eqb k 0)
             then ConsistencyError else Ok t'
  | o => o
  end.

(** identity, Tridiagonal.cc:63-68 *)
Definition identityTri (t0 : T) (d : nat) : outcome tri :=
  unary t0 (mkArr [d] (fun _ => k1)) 0 (emptyArr 1) (emptyArr 1) false.
End Tri.
Arguments arr : clear implicits. Arguments tri : clear implicits.

(** propagate, Tridiagonal.tcc:153-163, with real times and complex frequencies *)
Definition propagate (t : R) (x : tri CR R) : tri CR R :=
  let dt := (t - time x)%R in
  mkTri (dims x) (diffs x)
    (fun i => if Req_EM_T dt 0 then diags x i
              else match i with
                   | 0 => diags x 0
                   | _ => if nonempty (diags x i) && nonempty (freqs x i)
                          then mkArr (ash (diags x i))
                                 (fun n => kmul (av (diags x i) n) (cexp (kmul (RC dt) (av (freqs x i) n))))
                          else diags x i
                   end)
    t (freqs x).

(** equality tests *)
Definition Reqb (a b : R) : bool := if Req_EM_T a b then true else false.
Definition CReqb (a b : CR) : bool := Reqb (fst a) (fst b) && Reqb (snd a) (snd b).
