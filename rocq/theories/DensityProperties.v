(** C27-C29, C58, C59: density operators, deflation, partial trace, direct products, norms. *)
From Coq Require Import List Arith ZArith Reals.
From Verif Require Import Star CReal Arr SliceSpec HermSpec DensityModel DensitySpec PureModel DensityProofs PureProofs DensityCases.
Import ListNotations.

(** C27. For every shape (of positive dimensions), Hermitian density operator [rho], with or without off-diagonals: the
    deflation succeeds, gives dim or dim^2 numbers, as many as labels, each number being what its label says; inflating
    the numbers into any density operator [m] restores every element of [rho] if off-diagonals are present, otherwise
    the diagonal only, leaving the off-diagonals of [m] as they were. Labels given by the caller follow. *)
Theorem C27_deflate_faithful : forall (K : StarRing) (P : Parts K) (dims : list nat) (rho m : list nat -> list nat -> K)
    (off : bool) (sub : list nat) (fuel : nat),
  dims <> [] -> (forall n, In n dims -> 0 < n) -> fold_right Nat.mul 1 dims <= fuel -> hermitian dims rho ->
  let dim := fold_right Nat.mul 1 dims in
  exists vals labels,
    deflate P fuel dims rho off = Some vals /\
    keyLabels fuel dims off [] = Some labels /\
    length vals = (if off then dim * dim else dim) /\
    length labels = length vals /\
    Forall2 (says P rho) labels vals /\
    keyLabels fuel dims true sub = option_map (fun l => l ++ map LSub sub) (keyLabels fuel dims true []) /\
    exists m', inflate P fuel dims (fun k => nth k vals (t0 P)) m off = Some m' /\
      (forall i j, inr dims i -> inr dims j -> i = j \/ off = true -> m' i j = rho i j) /\
      (forall i j, inr dims i -> inr dims j -> i <> j -> off = false -> m' i j = m i j).
Proof. exact (fun K P dims rho m off sub fuel => deflate_faithful P dims rho m off sub fuel). Qed.
Print Assumptions C27_deflate_faithful.

(** two two-level systems, rho=|psi><psi| *)
Definition C27_psi (i : list nat) : GaussZ :=
  match i with [0;0] => (1,0)%Z | [0;1] => (0,2)%Z | [1;0] => (3,-1)%Z | _ => (0,0)%Z end.
Example C27_case : deflate GaussParts 4 [2;2] (pure C27_psi) true =
    Some [1; 4; 10; 0;  0; -2; 3; 1; 0; 0; -2; 6; 0; 0; 0; 0]%Z /\
  keyLabels 4 [2;2] true [] = Some [LDiag [0;0]; LDiag [0;1]; LDiag [1;0]; LDiag [1;1];
    LRe [0;0] [0;1]; LIm [0;0] [0;1]; LRe [0;0] [1;0]; LIm [0;0] [1;0]; LRe [0;0] [1;1]; LIm [0;0] [1;1];
    LRe [0;1] [1;0]; LIm [0;1] [1;0]; LRe [0;1] [1;1]; LIm [0;1] [1;1]; LRe [1;0] [1;1]; LIm [1;0] [1;1]] /\
  pure C27_psi [0;1] [1;0] = (-2, 6)%Z.
Proof. vm_compute. auto. Qed.

(** C28. For every shape, nonempty list [V] of kept subsystems, state: reducing a state vector and reducing the density
    operator made of it both succeed and agree; the result is the partial trace, has the same trace, is Hermitian if
    the argument is, and for a product of [b] with a [c] of unit trace is [b]. *)
Theorem C28_partial_trace : forall (K : StarRing) (P : Parts K) (dims V : list nat) (fuel : nat),
  good_positions (length dims) V -> V <> [] -> (forall n, In n dims -> 0 < n) -> fold_right Nat.mul 1 dims <= fuel ->
  let sV := coords V dims in
  (forall (psi : list nat -> K) (arr : list nat -> K), (forall i j, inr dims i -> inr dims j -> arr (i ++ j) = kmul (psi i) (kconj (psi j))) ->
    exists rs rd, reduceSV P fuel V dims psi = Some rs /\ reduceDO fuel V dims arr = Some rd /\
      mmeq sV rs rd /\ mmeq sV rs (ptr V dims (pure psi))) /\
  (forall arr : list nat -> K, exists rd, reduceDO fuel V dims arr = Some rd /\
    let a := fun i j => arr (i ++ j) in
    mmeq sV rd (ptr V dims a) /\
    mtrace sV rd = mtrace dims a /\
    (hermitian dims a -> hermitian sV rd) /\
    (forall b c, mmeq dims a (product V dims b c) -> mtrace (coords (others (length dims) V) dims) c = k1 -> mmeq sV rd b)).
Proof. exact (fun K P dims V fuel => partial_trace_all P dims V fuel). Qed.
Print Assumptions C28_partial_trace.

Example C28_case : good_positions (length [2;3;2]) [2;0] /\
  match reduceSV GaussParts 12 [2;0] [2;3;2] (fun i => (Z.of_nat (6 * nth 0 i 0 + 2 * nth 1 i 0 + nth 2 i 0), Z.of_nat (nth 1 i 0))),
        reduceDO (K:=GaussZ) 12 [2;0] [2;3;2] (fun x => (Z.of_nat (6 * nth 0 x 0 + 2 * nth 1 x 0 + nth 2 x 0), Z.of_nat (nth 4 x 0))) with
  | Some r, Some r' => r [0;1] [1;0] = (85, -15)%Z /\ r' [0;1] [1;0] = (24, 3)%Z
  | _, _ => False end.
Proof. split; [split; [repeat constructor; cbn; intuition discriminate | cbn; intros v [<-|[<-|[]]]; auto with arith] | vm_compute; auto]. Qed.

(** C29 as stated fails: the trace read from a state vector is its norm, that read from its density operator is the
    square of the norm. *)
Theorem C29_trace_refuted : exists psi : carr CR, traceOfSV psi <> traceOfDO (cSh psi) (densityOf psi).
Proof. exact trace_refuted. Qed.
Print Assumptions C29_trace_refuted.

(** What holds: all matrix elements agree, for the constructed and for the assigned density operator, hence the
    expectation value of every operator; *)
Theorem C29_elements_partial : forall (K : StarRing) (psi rho : carr K), cSh rho = cSh psi ++ cSh psi ->
  let dims := cSh psi in
  mmeq dims (indexDO (densityOf psi)) (pure (cElem psi)) /\
  mmeq dims (indexDO (assignSV rho psi)) (pure (cElem psi)) /\
  mmeq dims (indexSV psi) (pure (cElem psi)) /\
  (forall A : list nat -> list nat -> K,
    isum dims (fun i => isum dims (fun j => kmul (A i j) (indexSV psi j i))) =
    isum dims (fun i => isum dims (fun j => kmul (A i j) (indexDO (densityOf psi) j i)))).
Proof. exact (fun K psi rho => pure_agrees psi rho). Qed.
Print Assumptions C29_elements_partial.

(** the purity is the fourth power of the norm, and the traces agree for null and unit vectors only. *)
Theorem C29_trace_partial : forall psi : carr CR,
  purity (densityOf psi) = (sumSq (cSh psi) (cElem psi) * sumSq (cSh psi) (cElem psi))%R /\
  traceOfDO (cSh psi) (densityOf psi) = sumSq (cSh psi) (cElem psi) /\
  (traceOfSV psi = traceOfDO (cSh psi) (densityOf psi) <->
   sumSq (cSh psi) (cElem psi) = 0%R \/ sumSq (cSh psi) (cElem psi) = 1%R).
Proof.
  exact (fun psi => eq_ind (sqrNorm psi) (fun q => purity (densityOf psi) = (q * q)%R /\ traceOfDO (cSh psi) (densityOf psi) = q /\
    (traceOfSV psi = traceOfDO (cSh psi) (densityOf psi) <-> q = 0%R \/ q = 1%R))
    (conj (purity_pure psi) (conj (traceDO_pure psi) (trace_agrees_iff psi))) _ (sqrNorm_ok psi)).
Qed.
Print Assumptions C29_trace_partial.

Definition C29_psi : carr GaussZ := mkCarr (K:=GaussZ) [2;2] (fun p => (Z.of_nat p, 1%Z)).
Example C29_case : indexDO (densityOf C29_psi) [1;0] [1;1] = (7, 1)%Z /\ indexSV C29_psi [1;0] [1;1] = (7, 1)%Z /\
  traceDO [2;2] (densityOf C29_psi) = (18, 0)%Z.
Proof. vm_compute. auto. Qed.

(** C58. Direct products, sums and dyads have the elements their names say, for any shapes; adding a state vector to a
    density operator with a weight adds the weighted dyad; braket is the scalar product, and that of direct products is
    the product of the scalar products. *)
Theorem C58_direct_products : forall (K : StarRing) (A B rho psi : carr K) (w : K), cSh rho = cSh psi ++ cSh psi ->
  (forall x y, inr (cSh A) x -> inr (cSh B) y ->
     cElem (doDirect A B) (x ++ y) = kmul (cElem A x) (cElem B y) /\
     cElem (doDirectSum A B) (x ++ y) = kadd (cElem A x) (cElem B y) /\
     cElem (dyad A B) (x ++ y) = kmul (cElem A x) (kconj (cElem B y))) /\
  mmeq (cSh psi) (indexDO (addTo psi rho w)) (fun i j => kadd (indexDO rho i j) (kmul w (pure (cElem psi) i j))) /\
  (cSh A = cSh B -> braket A B = isum (cSh A) (fun x => kmul (kconj (cElem A x)) (cElem B x))) /\
  (forall C D, cSh C = cSh A -> cSh D = cSh B -> braket (doDirect A B) (doDirect C D) = kmul (braket A C) (braket B D)).
Proof. exact (fun K A B rho psi w => data_all A B rho psi w). Qed.
Print Assumptions C58_direct_products.

Example C58_case : cElem (doDirect C29_psi C29_psi) [1;0;0;1] = (1, 3)%Z /\
  cElem (addTo C29_psi (densityOf C29_psi) (0,1)%Z) [1;0;1;1] = (6, 8)%Z /\
  braket C29_psi C29_psi = (18, 0)%Z.
Proof. vm_compute. auto. Qed.

(** C59. Renormalisation: the state vector (density operator) has unit norm (trace) afterwards, is parallel to what it
    was, and the number returned is the former norm (trace). *)
Theorem C59_renorm : forall (psi : carr CR) (dims : list nat) (rho : carr CR),
  cSh rho = dims ++ dims -> sqrNorm psi <> 0%R -> traceOfDO dims rho <> 0%R ->
  let (n, psi') := renormSV psi in
  let (tr, rho') := renormDO dims rho in
  isum (cSh psi) (fun x => kmul (kconj (cElem psi' x)) (cElem psi' x)) = RC 1 /\
  (0 < n)%R /\ RC (n * n) = isum (cSh psi) (fun x => kmul (kconj (cElem psi x)) (cElem psi x)) /\
  (forall x, kmul (RC n) (cElem psi' x) = cElem psi x) /\
  cre (mtrace dims (indexDO rho')) = 1%R /\
  (forall x, kmul (RC tr) (cElem rho' x) = cElem rho x).
Proof. exact renorm_all. Qed.
Print Assumptions C59_renorm.

Example C59_case : let psi := mkCarr (K:=CR) [1] (fun _ => RC 2) in
  cSh (densityOf psi) = [1] ++ [1] /\ sqrNorm psi = 4%R /\ traceOfDO [1] (densityOf psi) = 4%R.
Proof. exact (conj eq_refl (conj csq2 (eq_trans (traceDO_pure (mkCarr (K:=CR) [1] (fun _ => RC 2))) csq2))). Qed.
