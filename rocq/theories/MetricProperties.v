(** C132, C133: metric transformations, and state vectors on bases which are not orthogonal. *)
From Coq Require Import List Arith Bool Reals.
From Verif Require Import Star CReal Arr MetricModel MetricSpec MetricProofs MetricNorm MetricCases.
Import ListNotations.

(** ** C132 *)
(** The array given for the result refers to the tensor product of the transformations applied to the input; other storage is not changed *)
Theorem C132_tensor_partial : forall (K : StarRing) (ps : list (@part K)) m i o, valid ps -> (factors ps = 1 -> i <> o) -> i <> Buffer -> o <> Buffer -> exists m' a,
  compositeTransform (dimsOf ps) (trafosOf ps) m i o = Some (m', a) /\
  (forall y, inr (dimsOf ps) y -> m' a y = isum (dimsOf ps) (fun x => kmul (tensorOf ps y x) (m i x))) /\
  (forall b, b <> o -> b <> Buffer -> m' b = m b) /\
  (a = o <-> factors ps <= 1 \/ Nat.even (factors ps) = true) /\ (a = o \/ a = Buffer).
Proof. exact (@composite_result). Qed.
Print Assumptions C132_tensor_partial.
(** but not the storage it was given for the result, if the number of transformations is odd, and more than one *)
Theorem C132_storage_refuted : exists (ps : list (@part GaussZ)) m i o m' a y, valid ps /\ i <> o /\ compositeTransform (dimsOf ps) (trafosOf ps) m i o = Some (m', a) /\ inr (dimsOf ps) y /\
  m' o y <> isum (dimsOf ps) (fun x => kmul (tensorOf ps y x) (m i x)).
Proof. exact storage_case. Qed.
Print Assumptions C132_storage_refuted.
(** a single transformation cannot be done in place *)
Theorem C132_in_place_refuted : forall (K : StarRing) (ps : list (@part K)) m o, factors ps = 1 -> compositeTransform (dimsOf ps) (trafosOf ps) m o o = None.
Proof. exact (@overlap). Qed.
Print Assumptions C132_in_place_refuted.
(** Composition is the tensor product, it is associative, and the ranks add *)
Theorem C132_compose : forall (K : StarRing) t1 t2 t3 d1 d2 (m1 m2 : list nat -> list nat -> K), matrix_of t1 d1 m1 -> matrix_of t2 d2 m2 ->
  (exists m, matrix_of (compose t1 t2) (d1 ++ d2) m /\ forall y1 y2 x1 x2, inr d1 y1 -> inr d1 x1 -> m (y1 ++ y2) (x1 ++ x2) = kmul (m1 y1 x1) (m2 y2 x2)) /\
  compose (compose t1 t2) t3 = compose t1 (compose t2 t3) /\ totalRank (compose t1 t2) = totalRank t1 + totalRank t2.
Proof. exact (fun K t1 t2 t3 d1 d2 m1 m2 H1 H2 => conj (compose_matrix t1 t2 d1 d2 m1 m2 H1 H2) (conj (compose_assoc t1 t2 t3) (compose_rank t1 t2))). Qed.
Print Assumptions C132_compose.
(** and a transformation of either kind is multiplication with its matrix *)
Theorem C132_transform : forall (K : StarRing) t dims (M : list nat -> list nat -> K) m i o, matrix_of t dims M -> i <> o -> i <> Buffer -> o <> Buffer -> exists m' a, transform dims t m i o = Some (m', a) /\
  forall y, inr dims y -> m' a y = isum dims (fun x => kmul (M y x) (m i x)).
Proof. exact (@transform_matrix). Qed.
Print Assumptions C132_transform.
Example C132_case : valid (repeat twice 4) /\ factors (repeat twice 4) = 4.
Proof. exact factors_case. Qed.

(** ** C133 *)
(** After an update the norm is the length of the vector whose components are given *)
Theorem C133_norm_partial v space e : on_basis v space e -> norm (update v) = Some (lengthOf v space e).
Proof. exact (metric_norm v space e). Qed.
Print Assumptions C133_norm_partial.
(** the norm of a product is the product of the norms, and the product is on the product basis *)
Theorem C133_product v w s1 s2 e1 e2 : on_basis v s1 e1 -> on_basis w s2 e2 ->
  (exists a b, norm (update v) = Some a /\ norm (update w) = Some b /\ norm (update (times v w)) = Some (a * b)%R) /\
  on_basis (times v w) (s1 ++ s2) (fun x a => kmul (e1 (firstn (length (nDims v)) x) (firstn (length s1) a)) (e2 (skipn (length (nDims v)) x) (skipn (length s1) a))).
Proof. exact (fun H1 H2 => conj (norm_product v w s1 s2 e1 e2 H1 H2) (times_basis v w s1 s2 e1 e2 H1 H2)). Qed.
Print Assumptions C133_product.
(** without an update it is not set for new ones and for copies, and after a multiplication it is that of neither vector *)
Theorem C133_stale_refuted : (forall dims psi t v, norm (newNosv dims psi t) = None /\ norm (copyNosv v) = None) /\
  (forall v space e c, on_basis v space e -> (0 <= c)%R -> norm (scale (RC c) (update v)) = Some (sqrt c * lengthOf v space e)%R /\ lengthOf (scale (RC c) v) space e = (c * lengthOf v space e)%R) /\
  exists v space e c, on_basis v space e /\ norm (scale (RC c) (update v)) <> Some (lengthOf (scale (RC c) v) space e).
Proof. exact (conj norm_unset (conj (fun v space e c H Hc => conj (norm_stale v space e c H Hc) (scaled_length v space e c Hc)) stale_case)). Qed.
Print Assumptions C133_stale_refuted.
Example C133_case psi : on_basis (slantedState psi) [2] slanted /\ metric [2] slanted [0] [1] = k1.
Proof. exact (slanted_case psi). Qed.
