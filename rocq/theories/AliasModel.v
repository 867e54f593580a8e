(** Model of the ownership of the data of state vectors and density operators: CPPQEDcore/quantumdata/ArrayBase.h,
    StateVector.h, DensityOperator.h.

    A [blitz::Array] is a handle on a block of memory: its copy constructor and [reference] share the block, [copy()] makes a
    new one, and assignment copies the elements.  The quantumdata classes put value semantics upon this.  The model keeps the
    blocks and the handles apart, so that sharing is visible.

    Simplified: a subscript is the position in row-major order; blocks are never freed (the reference counts of blitz make a
    block live as long as a handle); arrays of different shapes in an elementwise operation (an assertion of blitz in debug
    mode, out-of-bounds access otherwise), the use of a name which was never constructed and a subscript out of bounds are the
    outcome [Undefined].  Arithmetic of the elements is arbitrary.  Unary minus is modelled for density operators only: for state
    vectors [Derived res(this->getDimensions(),false)] (ArrayBase.h:60) does not compile, [false] being no initializer. *)
From Coq Require Import List Arith Bool.
Import ListNotations.

Section Alias.
  Variables (K : Type) (kz : K) (kadd ksub kmul kdiv : K -> K -> K) (kneg kconj : K -> K).

  (** the two classes, StateVector.h:42 and DensityOperator.h:31 *)
  Inductive kind := Psi | Rho.

  (** the shape of the array: [Dimensions] for a state vector, the dimensions twice for a density operator,
      StateVector.h:75, DensityOperator.h:61-63 *)
  Definition shapeOf (k : kind) (dims : list nat) : list nat := match k with Psi => dims | Rho => dims ++ dims end.

  Definition sizeOf (k : kind) (dims : list nat) : nat := fold_right Nat.mul 1 (shapeOf k dims).

  (** what a C++ object of the two classes is: its class, its dimensions ([LDO_Base]), and [arrayLow_] (ArrayBase.h:92): the
      block and the positions in it in the order of the subscripts *)
  Record obj := { o_kind : kind; o_dims : list nat; o_blk : nat; o_cells : list nat }.

  Record state := { s_heap : list (list K); s_env : nat -> option obj }.

  Inductive outcome := Ok (s : state) | Undefined.

  Definition bindName (e : nat -> option obj) (x : nat) (o : obj) : nat -> option obj :=
    fun y => if Nat.eqb y x then Some o else e y.

  Fixpoint setAt {A} (l : list A) (i : nat) (a : A) : list A :=
    match l, i with
    | [], _ => []
    | _ :: l', 0 => a :: l'
    | b :: l', S i' => b :: setAt l' i' a
    end.

  Definition cell (h : list (list K)) (b c : nat) : K := nth c (nth b h []) kz.

  Definition setCell (h : list (list K)) (b c : nat) (v : K) : list (list K) := setAt h b (setAt (nth b h []) c v).

  Definition contents (h : list (list K)) (o : obj) : list K := map (cell h (o_blk o)) (o_cells o).

  (** a new block and a handle upon the whole of it: the constructor of [blitz::Array] from a shape, and [copy()] *)
  Definition alloc (s : state) (x : nat) (k : kind) (dims : list nat) (v : list K) : state :=
    {| s_heap := s_heap s ++ [v];
       s_env := bindName (s_env s) x
                  {| o_kind := k; o_dims := dims; o_blk := length (s_heap s); o_cells := seq 0 (length v) |} |}.

  (** another handle upon a block: the copy constructor of [blitz::Array] and [reference] *)
  Definition share (s : state) (x : nat) (o : obj) : state :=
    {| s_heap := s_heap s; s_env := bindName (s_env s) x o |}.

  (** the elementwise operations =, +=, -= between arrays, one element after the other *)
  Definition zipInto (f : K -> K -> K) (h : list (list K)) (x y : obj) : list (list K) :=
    fold_left (fun h pq => setCell h (o_blk x) (fst pq) (f (cell h (o_blk x) (fst pq)) (cell h (o_blk y) (snd pq))))
      (combine (o_cells x) (o_cells y)) h.

  (** the elementwise operations *=, /= with a number *)
  Definition mapInto (f : K -> K) (h : list (list K)) (x : obj) : list (list K) :=
    fold_left (fun h p => setCell h (o_blk x) p (f (cell h (o_blk x) p))) (o_cells x) h.

  Definition kind_eqb (a b : kind) : bool := match a, b with Psi, Psi | Rho, Rho => true | _, _ => false end.

  Fixpoint dims_eqb (a b : list nat) : bool :=
    match a, b with
    | [], [] => true
    | x :: a', y :: b' => Nat.eqb x y && dims_eqb a' b'
    | _, _ => false
    end.

  Definition sameShape (x y : obj) : bool := kind_eqb (o_kind x) (o_kind y) && dims_eqb (o_dims x) (o_dims y).

  (** the list of the products of the elements of two lists, the second conjugated or not: doDirect,
      as used in StateVector.h:91-94,160-165 *)
  Definition outer (g : K -> K) (v w : list K) : list K := flat_map (fun a => map (fun b => kmul a (g b)) w) v.

  (** the statements of a program *)
  Inductive cmd :=
  | New (x : nat) (k : kind) (dims : list nat) (init : option (list K)) (** construction from dimensions, and an initializer *)
  | Copy (x y : nat)            (** [X x(y);] *)
  | Move (x y : nat)            (** [X x(std::move(y));] *)
  | Ref (x y : nat)             (** [X x(y.getArray(),byReference);], [x.reference(y);] *)
  | View (x y : nat) (dims : list nat) (pos : list nat) (** [auto x=y.sliceIndex(...);], [y.diagonalSliceIndex(...)] *)
  | Assign (x y : nat)          (** [x=y;] *)
  | MoveAssign (x y : nat)      (** [x=std::move(y);] *)
  | AddTo (x y : nat)           (** [x+=y;] *)
  | SubFrom (x y : nat)         (** [x-=y;] *)
  | MulBy (x : nat) (c : K)     (** [x*=c;] *)
  | DivBy (x : nat) (c : K)     (** [x/=c;] *)
  | Write (x i : nat) (v : K)   (** [x(i)=v;] *)
  | Plus (x y z : nat)          (** [X x(y+z);] *)
  | Minus (x y z : nat)         (** [X x(y-z);] *)
  | Times (x y : nat) (c : K)   (** [X x(y*c);] *)
  | Over (x y : nat) (c : K)    (** [X x(y/c);] *)
  | Neg (x y : nat)             (** [X x(-y);] *)
  | Direct (x y z : nat)        (** [StateVector x(y*z);] *)
  | Dyad (x y : nat)            (** [DensityOperator x(y);], [y] a state vector *)
  | AssignDyad (x y : nat)      (** [x=y;], [x] a density operator, [y] a state vector *)
  | AddDyad (x y : nat) (w : K) (** [y.addTo(x,w);] *)
  | Swap (t x y : nat).         (** [std::swap(x,y);], [t] is the temporary in it *)

  Definition zeros (n : nat) : list K := repeat kz n.

  (** construction from dimensions, StateVector.h:72-75, DensityOperator.h:61-63 *)
  Definition doNew (s : state) (x : nat) (k : kind) (dims : list nat) (init : option (list K)) : outcome :=
    match init with
    | None => Ok (alloc s x k dims (zeros (sizeOf k dims)))
    | Some v => if Nat.eqb (length v) (sizeOf k dims) then Ok (alloc s x k dims v) else Undefined
    end.

  (** the copy constructors, StateVector.h:77-78, DensityOperator.h:68-69 *)
  Definition doCopy (s : state) (x y : nat) : outcome :=
    match s_env s y with
    | Some o => Ok (alloc s x (o_kind o) (o_dims o) (contents (s_heap s) o))
    | None => Undefined
    end.

  (** the move constructors (StateVector.h:84, DensityOperator.h:72-73) pass [std::move(sv.getArray())] to
      [ArrayBase(ArrayLow&& array) : arrayLow_(array)] (ArrayBase.h:34), where [array] has a name and therefore is copied, which
      for [blitz::Array] is sharing: the argument remains a handle upon the same block.  The referencing constructors
      (StateVector.h:70, DensityOperator.h:58-59) and [reference] (StateVector.h:182, DensityOperator.h:182) do the same. *)
  Definition doShare (s : state) (x y : nat) : outcome :=
    match s_env s y with
    | Some o => Ok (share s x o)
    | None => Undefined
    end.

  (** sliceIndex, StateVector.h:124-131, diagonalSliceIndex, DensityOperator.h:142-149: a handle upon some of the elements *)
  Definition doView (s : state) (x y : nat) (dims pos : list nat) : outcome :=
    match s_env s y with
    | Some o =>
        if forallb (fun p => Nat.ltb p (length (o_cells o))) pos && Nat.eqb (length pos) (sizeOf (o_kind o) dims)
        then Ok (share s x {| o_kind := o_kind o; o_dims := dims; o_blk := o_blk o;
                              o_cells := map (fun p => nth p (o_cells o) 0) pos |})
        else Undefined
    | None => Undefined
    end.

  (** an elementwise operation between two objects: the assignments (StateVector.h:100-107, DensityOperator.h:77-84: the
      moving one too assigns the elements, through the templated assignment of ArrayBase.h:47), += and -= (ArrayBase.h:57-58) *)
  Definition doZip (f : K -> K -> K) (s : state) (x y : nat) : outcome :=
    match s_env s x, s_env s y with
    | Some o, Some o' =>
        if sameShape o o' then Ok {| s_heap := zipInto f (s_heap s) o o'; s_env := s_env s |} else Undefined
    | _, _ => Undefined
    end.

  (** *= and /=, ArrayBase.h:66-70 *)
  Definition doMap (f : K -> K) (s : state) (x : nat) : outcome :=
    match s_env s x with
    | Some o => Ok {| s_heap := mapInto f (s_heap s) o; s_env := s_env s |}
    | None => Undefined
    end.

  (** the subscripts which may be assigned to, StateVector.h:111-120, DensityOperator.h:129-136 *)
  Definition doWrite (s : state) (x i : nat) (v : K) : outcome :=
    match s_env s x with
    | Some o =>
        if Nat.ltb i (length (o_cells o))
        then Ok {| s_heap := setCell (s_heap s) (o_blk o) (nth i (o_cells o) 0) v; s_env := s_env s |}
        else Undefined
    | None => Undefined
    end.

  (** the operators which boost::additive1 and boost::multiplicative derive from the above (Operators.h:24-29): [T nrv(lhs);
      nrv+=rhs; return nrv;] *)
  Definition doBin (f : K -> K -> K) (s : state) (x y z : nat) : outcome :=
    match s_env s y, s_env s z with
    | Some o, Some o' =>
        if sameShape o o' then
          let nrv := {| o_kind := o_kind o; o_dims := o_dims o; o_blk := length (s_heap s);
                        o_cells := seq 0 (length (o_cells o)) |} in
          let h := s_heap s ++ [contents (s_heap s) o] in
          Ok {| s_heap := zipInto f h nrv o'; s_env := bindName (s_env s) x nrv |}
        else Undefined
    | _, _ => Undefined
    end.

  Definition doUn (f : K -> K) (s : state) (x y : nat) : outcome :=
    match s_env s y with
    | Some o =>
        let nrv := {| o_kind := o_kind o; o_dims := o_dims o; o_blk := length (s_heap s);
                      o_cells := seq 0 (length (o_cells o)) |} in
        let h := s_heap s ++ [contents (s_heap s) o] in
        Ok {| s_heap := mapInto f h nrv; s_env := bindName (s_env s) x nrv |}
    | None => Undefined
    end.

  (** unary minus, ArrayBase.h:60, for density operators *)
  Definition doNeg (s : state) (x y : nat) : outcome :=
    match s_env s y with
    | Some o => match o_kind o with
                | Rho => Ok (alloc s x Rho (o_dims o) (map kneg (contents (s_heap s) o)))
                | Psi => Undefined
                end
    | None => Undefined
    end.

  (** the direct product of state vectors, StateVector.h:91-94,200-204 *)
  Definition doDirect (s : state) (x y z : nat) : outcome :=
    match s_env s y, s_env s z with
    | Some o, Some o' =>
        match o_kind o, o_kind o' with
        | Psi, Psi => Ok (alloc s x Psi (o_dims o ++ o_dims o')
                            (outer (fun b => b) (contents (s_heap s) o) (contents (s_heap s) o')))
        | _, _ => Undefined
        end
    | _, _ => Undefined
    end.

  (** the density operator of a state vector, DensityOperator.h:65-66 *)
  Definition doDyad (s : state) (x y : nat) : outcome :=
    match s_env s y with
    | Some o => match o_kind o with
                | Psi => Ok (alloc s x Rho (o_dims o) (outer kconj (contents (s_heap s) o) (contents (s_heap s) o)))
                | Rho => Undefined
                end
    | None => Undefined
    end.

  (** the loops of DensityOperator::operator=(const StateVector&), DensityOperator.h:86-94, and StateVector::addTo,
      StateVector.h:173-180: [f] makes the new element of the old one and [vector(i)*conj(vector(j))].
      Note: in [addTo] the order of the product is [weight*vector(i)*conj(vector(j))]. *)
  Definition dyadInto (f : K -> K -> K -> K) (h : list (list K)) (r p : obj) : list (list K) :=
    let d := length (o_cells p) in
    fold_left (fun h i =>
      fold_left (fun h j =>
        let c := nth (i * d + j) (o_cells r) 0 in
        setCell h (o_blk r) c
          (f (cell h (o_blk r) c) (cell h (o_blk p) (nth i (o_cells p) 0)) (cell h (o_blk p) (nth j (o_cells p) 0))))
        (seq 0 d) h) (seq 0 d) h.

  (** [matrixView] and [vectorView] need contiguous storage, ArrayBase.h:75-82, DensityOperator.h:178 *)
  Definition contiguous (o : obj) : bool := dims_eqb (o_cells o) (seq (hd 0 (o_cells o)) (length (o_cells o))).

  Definition doIntoRho (f : K -> K -> K -> K) (s : state) (x y : nat) : outcome :=
    match s_env s x, s_env s y with
    | Some r, Some p =>
        match o_kind r, o_kind p with
        | Rho, Psi =>
            if dims_eqb (o_dims r) (o_dims p) && contiguous r && contiguous p
            then Ok {| s_heap := dyadInto f (s_heap s) r p; s_env := s_env s |} else Undefined
        | _, _ => Undefined
        end
    | _, _ => Undefined
    end.

  Definition andThen (o : outcome) (f : state -> outcome) : outcome := match o with Ok s => f s | Undefined => Undefined end.

  (** std::swap: [T t(std::move(x)); x=std::move(y); y=std::move(t);] *)
  Definition doSwap (s : state) (t x y : nat) : outcome :=
    andThen (doShare s t x) (fun s =>
    andThen (doZip (fun _ b => b) s x y) (fun s =>
    doZip (fun _ b => b) s y t)).

  Definition exec (s : state) (c : cmd) : outcome :=
    match c with
    | New x k dims init => doNew s x k dims init
    | Copy x y => doCopy s x y
    | Move x y => doShare s x y
    | Ref x y => doShare s x y
    | View x y dims pos => doView s x y dims pos
    | Assign x y => doZip (fun _ b => b) s x y
    | MoveAssign x y => doZip (fun _ b => b) s x y
    | AddTo x y => doZip kadd s x y
    | SubFrom x y => doZip ksub s x y
    | MulBy x c => doMap (fun a => kmul a c) s x
    | DivBy x c => doMap (fun a => kdiv a c) s x
    | Write x i v => doWrite s x i v
    | Plus x y z => doBin kadd s x y z
    | Minus x y z => doBin ksub s x y z
    | Times x y c => doUn (fun a => kmul a c) s x y
    | Over x y c => doUn (fun a => kdiv a c) s x y
    | Neg x y => doNeg s x y
    | Direct x y z => doDirect s x y z
    | Dyad x y => doDyad s x y
    | AssignDyad x y => doIntoRho (fun _ a b => kmul a (kconj b)) s x y
    | AddDyad x y w => doIntoRho (fun o a b => kadd o (kmul (kmul w a) (kconj b))) s x y
    | Swap t x y => doSwap s t x y
    end.

  Fixpoint run (s : state) (p : list cmd) : outcome :=
    match p with
    | [] => Ok s
    | c :: p' => andThen (exec s c) (fun s => run s p')
    end.

  Definition start : state := {| s_heap := []; s_env := fun _ => None |}.

  (** what a user sees of an object: its class, its dimensions and its elements *)
  Definition look (s : state) (x : nat) : option (kind * list nat * list K) :=
    match s_env s x with
    | Some o => Some (o_kind o, o_dims o, contents (s_heap s) o)
    | None => None
    end.

End Alias.
