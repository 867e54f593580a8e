(** C26, C30: Hermitian conjugation, partial transposition. *)
From Coq Require Import List Arith ZArith.
From Verif Require Import Star Arr SliceModel HermModel HermSpec HermProofs.
Import ListNotations.

(** C26. For an array object [o] of any view and memory, holding a multi-matrix over the dimensions [dims] (any rank):
    both the in-place and the copying Hermitian conjugation give an object through which the conjugate of the element
    with bra and ket exchanged is read; the in-place one twice gives back the original; the copying one does so
    without touching the original memory. Twice the real part, calculated in place, is M + M^dagger. *)
Theorem C26_hermitian_conjugation : forall (K : StarRing) (dims : list nat) (o : obj K),
  oShape o = dims ++ dims ->
  let rd (o : obj K) := fun i j => oRead o (i ++ j) in
  let R := length dims in
  mmeq dims (rd (hermitianConjugateSelf R o)) (dag (rd o)) /\
  mmeq dims (rd (hermitianConjugateSelf R (hermitianConjugateSelf R o))) (rd o) /\
  mmeq dims (rd (hermitianConjugate R o)) (dag (rd o)) /\
  mmeq dims (rd (hermitianConjugate R (hermitianConjugate R o))) (rd o) /\
  oShape (hermitianConjugateSelf R o) = dims ++ dims /\ oShape (hermitianConjugate R o) = dims ++ dims.
Proof.
  exact (fun K dims o E => conj (proj2 (hcs_spec dims o E)) (conj (hcs_involutive dims o E)
    (conj (proj2 (hc_spec dims o E)) (conj (hc_involutive dims o E)
    (conj (proj1 (hcs_spec dims o E)) (proj1 (hc_spec dims o E))))))).
Qed.
Print Assumptions C26_hermitian_conjugation.

Theorem C26_two_real_part : forall (K : StarRing) (dim : nat) (m : nat -> nat -> K) (i j : nat), i < dim -> j < dim ->
  calculateTwoTimesRealPartOfSelf dim m i j = kadd (m i j) (kconj (m j i)).
Proof. exact (fun K => @twoRe_spec K). Qed.
Print Assumptions C26_two_real_part.

(** a 2x3-dimensional system: the element at ket (0,2), bra (1,1) *)
Definition C26_o : obj GaussZ :=
  mkObj (K:=GaussZ) (fun x => (Z.of_nat (nth 0 x 0 * 1000 + nth 1 x 0 * 100 + nth 2 x 0 * 10 + nth 3 x 0), Z.sub (Z.of_nat (nth 1 x 0)) 5))
        [2;3;2;3] (fun x => x).
Example C26_case : oShape C26_o = [2;3] ++ [2;3] /\
  oRead (hermitianConjugateSelf 2 C26_o) [0;2;1;1] = (1102, 4)%Z /\ oRead C26_o [1;1;0;2] = (1102, -4)%Z /\
  oRead (hermitianConjugate 2 C26_o) [0;2;1;1] = (1102, 4)%Z /\
  calculateTwoTimesRealPartOfSelf (K:=GaussZ) 3 (fun i j => (Z.of_nat (10 * i + j), 7%Z)) 1 2 = (33, 0)%Z.
Proof. vm_compute. auto 10. Qed.

(** C30. For any list [V] of subsystems the transposition list computed for the partial transpose is well formed, and
    the array the eigenvalues of which give the negativity is the partial transpose: bra and ket coordinates exchanged
    at exactly the positions [V]. Partial transposition is an involution, preserves trace and Hermiticity, and the
    transposes with respect to complementary sets are transposes of one another. *)
Theorem C30_partial_transpose : forall (K : StarRing) (dims V : list nat) (o : obj K), oShape o = dims ++ dims ->
  let rd (o : obj K) := fun i j => oRead o (i ++ j) in
  let R := length dims in
  exists o', partialTranspose R V o = Some o' /\ oShape o' = dims ++ dims /\
    mmeq dims (rd o') (ptransp V (rd o)) /\
    mtrace dims (rd o') = mtrace dims (rd o) /\
    (hermitian dims (rd o) -> hermitian dims (rd o')) /\
    (exists o'', partialTranspose R V o' = Some o'' /\ mmeq dims (rd o'') (rd o)) /\
    (forall W, (forall k, k < R -> (In k V <-> ~ In k W)) ->
      exists oW, partialTranspose R W o = Some oW /\ mmeq dims (rd oW) (transp (rd o'))).
Proof. exact (fun K dims V o E => pt_all dims V o E). Qed.
Print Assumptions C30_partial_transpose.

(** the middle one of three subsystems *)
Example C30_case : ptPerm 3 [1] = [0;4;2;3;1;5] /\
  match partialTranspose 2 [1] C26_o with Some o' => oRead o' [0;2;1;1] = (112, -4)%Z /\ oRead C26_o [0;1;1;2] = (112, -4)%Z | None => False end.
Proof. vm_compute. auto. Qed.
