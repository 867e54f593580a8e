(** Model of the state vectors of the Python interface: cpypyqed/tools/quantumstate.py, initialconditions.py, operators.py, with the
    functions of numpy they use.

    An [ndarray] is its shape and the element at each multi-index; only indices inside the shape matter.  Elements are complex
    (QuantumState.__new__ makes complex128 of anything, quantumstate.py:32-33), in real arithmetic.  The attributes [time],
    [dimensions] and [title] are not modelled, nor is the option [multi], which is the repetition of the same for a list of
    operators.  numpy broadcasts arrays of different shapes in products; that is not modelled, it is the outcome [None] here,
    as are exceptions. *)
From Coq Require Import List Arith ZArith Reals Bool.
From Verif Require Import Star Arr CReal PureModel FourierModel.
Import ListNotations.
Local Open Scope nat_scope.

(** * numpy *)

Record ndarray := mkArr { shape : list nat; elem : list nat -> CR }.

Definition ndim (a : ndarray) : nat := length (shape a).

Definition conjugate (a : ndarray) : ndarray := mkArr (shape a) (fun x => kconj (elem a x)).

(** [a*b] and [a.sum()] *)
Definition times (a b : ndarray) : option ndarray :=
  if listnat_eqb (shape a) (shape b) then Some (mkArr (shape a) (fun x => kmul (elem a x) (elem b x))) else None.

Definition total (a : ndarray) : CR := isum (shape a) (elem a).

Definition scale (c : CR) (a : ndarray) : ndarray := mkArr (shape a) (fun x => kmul c (elem a x)).

(** numpy.multiply.outer *)
Definition outer (a b : ndarray) : ndarray :=
  mkArr (shape a ++ shape b) (fun x => kmul (elem a (firstn (ndim a) x)) (elem b (skipn (ndim a) x))).

(** [a.sum(axis=p)] *)
Definition removeAt (p : nat) (x : list nat) : list nat := firstn p x ++ skipn (S p) x.
Definition insertAt (p j : nat) (x : list nat) : list nat := firstn p x ++ j :: skipn p x.
Definition sumAxis (a : ndarray) (p : nat) : ndarray :=
  mkArr (removeAt p (shape a)) (fun x => ksum (fun j => elem a (insertAt p j x)) (seq 0 (nth p (shape a) 0))).

(** the place of the first occurrence *)
Fixpoint place (p : nat) (l : list nat) : nat := match l with [] => 0 | a :: r => if p =? a then 0 else S (place p r) end.
Definition member (p : nat) (l : list nat) : bool := existsb (Nat.eqb p) l.
Definition unlisted (n : nat) (axes : list nat) : list nat := filter (fun p => negb (member p axes)) (seq 0 n).

(** numpy.tensordot(a,b,(axes,axes)): the axes not summed over are first those of [a], then those of [b] *)
Definition assemble (n : nat) (axes beta k : list nat) : list nat :=
  map (fun p => if member p axes then nth (place p axes) beta 0 else nth (place p (unlisted n axes)) k 0) (seq 0 n).
Definition tensordot (a b : ndarray) (axes : list nat) : ndarray :=
  let ka := unlisted (ndim a) axes in let kb := unlisted (ndim b) axes in
  mkArr (map (fun p => nth p (shape a) 0) ka ++ map (fun p => nth p (shape b) 0) kb)
    (fun x => isum (map (fun p => nth p (shape a) 0) axes) (fun beta =>
       kmul (elem a (assemble (ndim a) axes beta (firstn (length ka) x)))
            (elem b (assemble (ndim b) axes beta (skipn (length ka) x))))).

(** [a.transpose(perm)]: axis [q] of the result is axis [perm[q]] of [a] *)
Definition transpose (a : ndarray) (perm : list nat) : ndarray :=
  mkArr (map (fun p => nth p (shape a) 0) perm) (fun x => elem a (map (fun p => nth (place p perm) x 0) (seq 0 (ndim a)))).

(** numpy.einsum with implicit output: labels which occur once are those of the result, in increasing order, the others are summed
    over *)
Definition occurrences (l : nat) (labels : list nat) : nat := length (filter (Nat.eqb l) labels).
Fixpoint firsts (labels : list nat) : list nat :=
  match labels with [] => [] | l :: r => l :: filter (fun m => negb (m =? l)) (firsts r) end.
Definition extent (operands : list (ndarray * list nat)) (l : nat) : nat :=
  match find (fun o => member l (snd o)) operands with
  | Some o => nth (place l (snd o)) (shape (fst o)) 0
  | None => 0 end.
Definition kprod {A} (f : A -> CR) (l : list A) : CR := fold_right (fun a z => kmul (f a) z) k1 l.
Definition einsum (operands : list (ndarray * list nat)) : ndarray :=
  let labels := concat (map snd operands) in
  let out := filter (fun l => occurrences l labels =? 1) (seq 0 (S (list_max labels))) in
  let summed := filter (fun l => negb (occurrences l labels =? 1)) (firsts labels) in
  mkArr (map (extent operands) out)
    (fun x => isum (map (extent operands) summed) (fun beta =>
       kprod (fun o => elem (fst o) (map (fun l => if member l out then nth (place l out) x 0 else nth (place l summed) beta 0) (snd o)))
         operands)).

(** numpy.fft: fftshift, ifftshift, fftn, ifftn over some axes, as the succession of the same for one axis *)
Definition along (p : nat) (T : nat -> line -> line) (a : ndarray) : ndarray :=
  mkArr (shape a) (fun y => T (nth p (shape a) 0) (fun v => elem a (at_position p v y)) (nth p y 0)).
Definition alongAll (axes : list nat) (T : nat -> line -> line) (a : ndarray) : ndarray :=
  fold_left (fun a p => along p T a) axes a.
Definition fftshift (n : nat) (psi : line) : line := fun k => psi ((k + (n - n / 2)) mod n).
Definition ifftshift (n : nat) (psi : line) : line := fun k => psi ((k + n / 2) mod n).
Definition dft (sign : R) (n : nat) (psi : line) : line :=
  fun k => ksum (fun j => kmul (psi j) (cexp ((0%R, (sign * (2 * PI * INR j * INR k / INR n))%R) : CR))) (seq 0 n).
Definition fft1 (n : nat) (psi : line) : line := dft (-1) n psi.
Definition ifft1 (n : nat) (psi : line) : line := fun k => kmul (RC (/ INR n)) (dft 1 n psi k).

(** * quantumstate.py *)

(** norm, normalize, quantumstate.py:479-489 *)
Definition norm (a : ndarray) : R := sqrt (cre (isum (shape a) (fun x => kmul (elem a x) (kconj (elem a x))))).
Definition normalize (a : ndarray) : ndarray := scale (RC (/ norm a)) a.

(** _conjugate_indices, quantumstate.py:510-518, of a sequence of indices (of a single int it raises TypeError); the set is passed on to
    _sorted_list, :520-528 *)
Definition conjugateIndices (indices : list nat) (n : nat) : option (list nat) :=
  if forallb (fun i => i <? n) indices then Some (unlisted n indices) else None.
Fixpoint insertSorted (a : nat) (l : list nat) : list nat :=
  match l with [] => [a] | b :: r => if a <=? b then a :: l else b :: insertSorted a r end.
Definition sortedReverse (l : list nat) : list nat := rev (fold_right insertSorted [] l).

(** StateVector.reduce, quantumstate.py:209-260 *)
Definition reduce (sv : ndarray) (indices : list nat) (renormalise : bool) : ndarray :=
  fold_left (fun a i => if renormalise then normalize (sumAxis a i) else sumAxis a i) (sortedReverse indices) sv.

(** StateVector.reducesquare, quantumstate.py:262-293 *)
Definition reducesquare (sv : ndarray) (indices : list nat) : ndarray :=
  tensordot sv (conjugate sv) (sortedReverse indices).

(** [range(0,length,2)+range(1,length,2)], quantumstate.py:364 *)
Definition evenOdd (n : nat) : list nat := map (fun i => 2 * i) (seq 0 ((n + 1) / 2)) ++ map (fun i => 2 * i + 1) (seq 0 (n / 2)).

(** StateVector.expvalue, quantumstate.py:319-369 *)
Definition expvalue (sv : ndarray) (operator : ndarray) (indices : option (list nat)) : option CR :=
  match (match indices with
         | Some s => option_map (reducesquare sv) (conjugateIndices s (ndim sv))
         | None => Some (outer sv (conjugate sv)) end) with
  | Some a => option_map total (times a (transpose operator (evenOdd (ndim a))))
  | None => None end.

(** StateVector.diagexpvalue, quantumstate.py:371-420 *)
Definition diagexpvalue (sv : ndarray) (operator : ndarray) (indices : option (list nat)) : option CR :=
  let sq := mkArr (shape sv) (fun x => kmul (elem sv x) (kconj (elem sv x))) in
  match (match indices with
         | Some s => option_map (fun c => fold_left sumAxis (sortedReverse c) sq) (conjugateIndices s (ndim sv))
         | None => Some sq end) with
  | Some a => option_map total (times a operator)
  | None => None end.

(** StateVector.actwith, quantumstate.py:454-471 *)
Definition actwith (sv : ndarray) (operatorlist : list ndarray) (dims : list nat) : option ndarray :=
  if length operatorlist =? length dims then
    let outDims := fold_left (fun l d => at_position d (S (nth d l 0)) l) dims (map (fun i => 2 * i) (seq 0 (ndim sv))) in
    Some (einsum (map (fun od => (fst od, [2 * snd od; 2 * snd od + 1])) (combine operatorlist dims) ++ [(sv, outDims)]))
  else None.

(** QuantumState._fft_helper, quantumstate.py:50-62; StateVector.fft, ifft, :295-317 *)
Definition fftHelper (sv : ndarray) (axes : list nat) (inverse : bool) : ndarray :=
  let norm := sqrt (INR (fold_right Nat.mul 1 (map (fun p => nth p (shape sv) 0) axes))) in
  let a := alongAll axes fftshift (alongAll axes (if inverse then ifft1 else fft1) (alongAll axes ifftshift sv)) in
  scale (RC (if inverse then norm else / norm)%R) a.
Definition pyfft (sv : ndarray) (axes : list nat) : ndarray := fftHelper sv axes false.
Definition pyifft (sv : ndarray) (axes : list nat) : ndarray := fftHelper sv axes true.

(** * operators.py *)

(** create, destroy, operators.py:14-37 *)
Definition create (dim : nat) : ndarray :=
  mkArr [dim; dim] (fun x => match x with [i; j] => if i =? j + 1 then RC (sqrt (INR i)) else k0 | _ => k0 end).
Definition destroy (dim : nat) : ndarray :=
  mkArr [dim; dim] (fun x => match x with [i; j] => if j =? i + 1 then RC (sqrt (INR j)) else k0 | _ => k0 end).

(** * initialconditions.py *)

(** gaussian, initialconditions.py:16-82; the real array is numpy.linspace(-L/2,L/2,N,endpoint=False) *)
Definition pyGaussian (x0 k0 sigma : R) (fin : nat) (isItInK cppqed : bool) : ndarray :=
  let N := 2 ^ fin in
  let x0 := if cppqed then (x0 * PI)%R else x0 in
  let L := if isItInK then INR N else (2 * PI)%R in
  let offset1 := if isItInK then k0 else x0 in
  let offset2 := if isItInK then (- x0)%R else k0 in
  let array j := (- L / 2 + INR j * (L / INR N))%R in
  let Norm := (sqrt (L / INR N) / Rpower (2 * PI) (1 / 4) / sqrt sigma)%R in
  let psi := mkArr [N] (fun x => let y := array (nth 0 x 0) in
    kmul (RC (Norm * exp (- ((y - offset1) * (y - offset1)) / (4 * (sigma * sigma))))) (cexp ((0%R, (y * offset2)%R) : CR))) in
  normalize (if isItInK then psi else pyfft psi [0]).

(** coherent, initialconditions.py:84-125.  [x] is an array of floats: of a complex number assigned to an element numpy keeps the real
    part (and warns).  With N=0, [x[0]] is an IndexError. *)
Fixpoint coherentElement (alpha : CR) (n : nat) : R :=
  match n with
  | O => 1%R
  | S m => (cre (kmul (RC (coherentElement alpha m)) alpha) / sqrt (INR n))%R end.
Definition pyCoherent (alpha : CR) (N : nat) : option ndarray :=
  if N =? 0 then None
  else Some (mkArr [N] (fun x => RC (exp (- csq alpha / 2) * coherentElement alpha (nth 0 x 0)))).

(** fock, initialconditions.py:127-147: [psi[i]=1.] on zeros; negative subscripts count from the end *)
Definition fock (dim : nat) (i : Z) : option ndarray :=
  let i := if (i <? 0)%Z then (i + Z.of_nat dim)%Z else i in
  if ((0 <=? i) && (i <? Z.of_nat dim))%Z
  then Some (mkArr [dim] (fun x => if Z.eqb (Z.of_nat (nth 0 x 0)) i then k1 else k0)) else None.

(** momentum_eigen, initialconditions.py:149-169 *)
Definition momentumEigen (k : Z) (fin : nat) : option ndarray := fock (2 ^ fin) (k + Z.of_nat (2 ^ fin / 2)).
