(** C17-C22, C51, C53, C54: Tridiagonal operators. [tmat] (TriSpec.v) is the dense matrix an operator stands
    for, [wf] the class invariant. *)
From Coq Require Import List Arith Bool Reals ZArith.
From Verif Require Import Star CReal Arr TriModel TriSpec TriProofs TriPropagate TriLemmas.
Import ListNotations.

(** C17: apply adds matrix times vector, touches nothing else, and reads no diagonal or vector out of bounds *)
Theorem C17_apply_is_matrix : forall (K : StarRing) (T : Type) (t : tri K T) (psi dpsidt : list nat -> K),
  wf t ->
  (forall y, inr (dims t) y ->
     apply t psi dpsidt y = kadd (dpsidt y) (isum (dims t) (fun x => kmul (tmat t y x) (psi x)))) /\
  (forall y, ~ inr (dims t) y -> apply t psi dpsidt y = dpsidt y) /\
  (forall dg y, inr (repeat 3 (rankOf t)) dg -> nonempty (diags t (code dg)) = true ->
     inRanges (dims t) (diffs t) (map fd dg) y = true ->
     inr (ash (diags t (code dg))) (moveIdx (dims t) (diffs t) (map fd dg) (map fa dg) y) /\
     inr (dims t) (moveIdx (dims t) (diffs t) (map fd dg) (map fp dg) y)).
Proof.
  exact (fun K T t psi dpsidt W => conj (fun y Hy => apply_matrix t psi dpsidt y (proj1 (proj2 W)) Hy)
    (conj (apply_outside t psi dpsidt) (fun dg y => apply_reads t dg y W))).
Qed.
Print Assumptions C17_apply_is_matrix.

(** a binary operator with offsets 1 and 2 (beyond half of the dimension 3) *)
Example C17_case : match direct Nat.eqb (get dflt exA) (get dflt exB') with
  Ok t => wf t /\ dims t = [4; 3] /\
    apply t (fun y => match y with [a; b] => (Z.of_nat (10 * a + b), 1)%Z | _ => (0, 0)%Z end) (fun _ => (0, 0)%Z) [2; 0]
    = (1638, 84)%Z
  | _ => False end.
Proof.
  pose proof exAB_wf as W. destruct (direct Nat.eqb (get dflt exA) (get dflt exB')) as [t| | | | |] eqn:E; try easy.
  split; [exact W|]. apply Ok_inj in E. subst t. vm_compute. auto.
Qed.

(** C18 *)
Theorem C18_dagger_is_adjoint : forall (K : StarRing) (T : Type) (t : tri K T),
  (forall y x, tmat (dagger t) y x = kconj (tmat t x y)) /\
  dims (dagger t) = dims t /\ (wf t -> wf (dagger t)) /\
  (dims (dagger (dagger t)) = dims t /\ diffs (dagger (dagger t)) = diffs t /\ time (dagger (dagger t)) = time t /\
   freqs (dagger (dagger t)) = freqs t /\
   forall i, i < 3 ^ rankOf t -> same_arr (diags (dagger (dagger t)) i) (diags t i)).
Proof. exact (fun K T t => conj (dagger_matrix t) (conj eq_refl (conj (wf_dagger t) (dagger_twice t)))). Qed.
Print Assumptions C18_dagger_is_adjoint.
Example C18_case : tmat (dagger (get dflt exA)) [3] [2] = (3, 0)%Z /\ tmat (get dflt exA) [1] [2] = (0, 2)%Z /\
  tmat (dagger (get dflt exA)) [2] [1] = (0, -2)%Z.
Proof. vm_compute. auto. Qed.

(** C19 *)
Theorem C19_direct_product_is_tensor : forall (K : StarRing) (T : Type) (teq : T -> T -> bool) (t1 t2 t : tri K T),
  wf t1 -> wf t2 -> direct teq t1 t2 = Ok t ->
  wf t /\ dims t = dims t1 ++ dims t2 /\
  (forall y1 y2 x1 x2, length y1 = rankOf t1 -> length x1 = rankOf t1 ->
     tmat t (y1 ++ y2) (x1 ++ x2) = kmul (tmat t1 y1 x1) (tmat t2 y2 x2)) /\
  (forall psi1 psi2 y1 y2, inr (dims t1) y1 -> inr (dims t2) y2 ->
     apply t (fun x => kmul (psi1 (firstn (rankOf t1) x)) (psi2 (skipn (rankOf t1) x))) (fun _ => k0) (y1 ++ y2)
     = kmul (apply t1 psi1 (fun _ => k0) y1) (apply t2 psi2 (fun _ => k0) y2)).
Proof.
  exact (fun K T teq t1 t2 t W1 W2 E => conj (wf_direct teq t1 t2 t W1 W2 E)
   (conj (direct_dims teq t1 t2 t E)
   (conj (fun y1 y2 x1 x2 => direct_matrix teq t1 t2 t y1 y2 x1 x2 W1 W2 E)
         (fun psi1 psi2 y1 y2 => direct_apply teq t1 t2 t psi1 psi2 y1 y2 W1 W2 E)))).
Qed.
Print Assumptions C19_direct_product_is_tensor.
Example C19_case : match direct Nat.eqb (get dflt exA) (get dflt exB') with
   Ok t => tmat t [2; 0] [1; 2] = (42, 0)%Z /\ tmat t [1; 2] [2; 0] = (0, 10)%Z | _ => False end.
Proof. vm_compute. auto. Qed.

(** C20: vector space operations act on the matrices; offset mismatches, and only these, raise the structure
    exception; no undefined behaviour for equal dimensions *)
Theorem C20_vector_space : forall (K : StarRing) (T : Type) (keq : K -> K -> bool) (a b : tri K T),
  wf a -> wf b -> dims b = dims a ->
  (forall c y x, tmat (scale c a) y x = kmul c (tmat a y x)) /\
  (forall y x, tmat (neg a) y x = kopp (tmat a y x)) /\
  (forall t, add keq a b = Ok t -> wf t /\ dims t = dims a /\ forall y x, tmat t y x = kadd (tmat a y x) (tmat b y x)) /\
  (forall t, sub keq a b = Ok t -> wf t /\ dims t = dims a /\ forall y x, tmat t y x = ksub (tmat a y x) (tmat b y x)) /\
  add keq a b <> UB /\
  (add keq a b = StructureMismatch <->
   exists i, i < rankOf a /\ nth i (diffs b) 0 <> 0 /\ nth i (diffs a) 0 <> 0 /\ nth i (diffs b) 0 <> nth i (diffs a) 0).
Proof.
  exact (fun K T keq a b Wa Wb Ed => conj (fun c y x => scale_matrix c a y x) (conj (neg_matrix a)
   (conj (fun t => add_matrix keq a b t Wa Wb Ed) (conj (fun t => sub_matrix keq a b t Wa Wb Ed)
   (conj (add_no_ub keq a b Wa Wb Ed) (add_refused keq a b Wa Wb Ed)))))).
Qed.
Print Assumptions C20_vector_space.
Example C20_case : match add Zeq (get dflt exA) (dagger (get dflt exA)) with Ok t => tmat t [2] [1] = (6, -2)%Z | _ => False end.
Proof. vm_compute. reflexivity. Qed.

(** C20, frequencies. False as stated: operators whose stored frequencies differ are accepted if the frequencies
    coincide in a single place. *)
Theorem C20_frequency_mismatch_refuted :
  exists a b c : tri GaussZ nat, exF1 = Ok a /\ exF2 = Ok b /\ wf a /\ wf b /\ dims b = dims a /\
    nonempty (freqs a 1) = true /\ nonempty (freqs b 1) = true /\
    av (freqs a 1) [1] <> av (freqs b 1) [1] /\ add Zeq a b = Ok c.
Proof. exact freq_mismatch_accepted. Qed.
Print Assumptions C20_frequency_mismatch_refuted.
(** What holds: refused if they differ everywhere. *)
Theorem C20_frequency_mismatch_partial : forall (K : StarRing) (T : Type) (keq : K -> K -> bool) (a b : tri K T) i,
  (forall z w, keq z w = true <-> z = w) -> wf a -> wf b -> dims b = dims a ->
  i < 3 ^ rankOf a -> nonempty (freqs a i) = true -> nonempty (freqs b i) = true ->
  (forall n, inr (ash (freqs a i)) n -> av (freqs a i) n <> av (freqs b i) n) ->
  forall t, add keq a b <> Ok t.
Proof. exact (fun K T keq a b i => add_freqs keq a b i). Qed.
Print Assumptions C20_frequency_mismatch_partial.

(** C21 *)
Theorem C21_propagate : 
  (forall (ts : list R) (t : R) (x : tri CR R),
     eqt (propagate t (fold_left (fun x s => propagate s x) ts x)) (propagate t x) /\
     time (propagate t x) = t) /\
  (forall (x x' : tri CR R) (d k : nat) (D : arr CR) (t : R) (i j : nat),
     dims x = [d] -> diffs x = [k] -> wf x -> wf_freqs x -> furnish x D = Ok x' -> i < d -> j < d ->
     tmat (propagate t x') [i] [j] =
     kmul (kmul (cexp (kmul (RC (t - time x)) (av D [i]))) (tmat x [i] [j])) (cexp (kopp (kmul (RC (t - time x)) (av D [j]))))).
Proof. exact (conj (fun ts t x => conj (propagate_path ts t x) eq_refl) furnish_interaction_picture). Qed.
Print Assumptions C21_propagate.
(** frequencies do act: element 1 becomes exp(i pi)=-1 *)
Example C21_case : tmat exL [1] [0] = RC 1 /\ tmat (propagate 1 exL) [1] [0] = RC (-1).
Proof. exact (conj tmat_exL propagate_exL_el). Qed.

(** C22. False as stated: the product of an operator with frequencies and one without (any operator having a main
    diagonal) loses the frequencies. *)
Theorem C22_propagate_product_refuted :
  exists (a b c c' : tri CR R) (t : R) y x,
    wf a /\ wf b /\ wf_freqs a /\ wf_freqs b /\ direct Reqb a b = Ok c /\
    direct Reqb (propagate t a) (propagate t b) = Ok c' /\
    inr (dims c) y /\ inr (dims c) x /\ tmat (propagate t c) y x <> tmat c' y x.
Proof. exact freq_lost. Qed.
Print Assumptions C22_propagate_product_refuted.
(** What holds: if wherever both factors have diagonals either both or neither of these have frequencies. *)
Theorem C22_propagate_product_partial : forall (a b c : tri CR R) (t : R),
  wf a -> wf b -> wf_freqs a -> wf_freqs b ->
  (forall i j, i < 3 ^ rankOf a -> j < 3 ^ rankOf b ->
    nonempty (diags a i) = true -> nonempty (diags b j) = true -> nonempty (freqs a i) = nonempty (freqs b j)) ->
  direct Reqb a b = Ok c ->
  exists c', direct Reqb (propagate t a) (propagate t b) = Ok c' /\
    forall y x, inr (dims c) y -> inr (dims c) x -> tmat (propagate t c) y x = tmat c' y x.
Proof. exact direct_propagate_tmat. Qed.
Print Assumptions C22_propagate_product_partial.
Example C22_case : forall i j, i < 3 ^ rankOf exL -> j < 3 ^ rankOf exL ->
    nonempty (diags exL i) = true -> nonempty (diags exL j) = true -> nonempty (freqs exL i) = nonempty (freqs exL j).
Proof. intros [|[|[|i]]] [|[|[|j]]]; cbn; congruence. Qed.

(** C51: T-T^dagger and (T+T^dagger)/i can always be formed, and their action conserves the norm *)
Theorem C51_interactions_hermitian : forall (K : StarRing) (T : Type) (keq : K -> K -> bool) (t : tri K T),
  (forall z, keq z z = true) -> wf t ->
  (exists m, minusHC keq t = Ok m /\
     forall psi, kadd (dot (dims t) psi (apply m psi (fun _ => k0))) (dot (dims t) (apply m psi (fun _ => k0)) psi) = k0) /\
  (exists p, plusHC keq t = Ok p /\
     forall psi overI, kconj overI = kopp overI ->
       kadd (dot (dims t) psi (apply (scale overI p) psi (fun _ => k0)))
            (dot (dims t) (apply (scale overI p) psi (fun _ => k0)) psi) = k0).
Proof. exact (fun K T keq t Hk W => interactions_hermitian keq t Hk W). Qed.
Print Assumptions C51_interactions_hermitian.
Example C51_case : exists t, exA = Ok t /\ wf t. Proof. exact exA_ok. Qed.
Example C51_overI : kconj (kopp CI) = kopp (kopp CI : CR).
Proof. cbn. unfold cr_conj, cr_opp. cbn. apply injective_projections; cbn; ring. Qed.

(** C53: the unary constructor either throws or gives the operator with the matrix described by its arguments;
    the offset must not exceed the dimension if a main diagonal is given *)
Theorem C53_unary_constructor_partial : forall (K : StarRing) (T : Type) (t0 : T) (zero minus plus : arr K) k n m p (t : tri K T),
  ash zero = [n] -> ash minus = [m] -> ash plus = [p] -> n = 0 \/ k <= n ->
  unary t0 zero k minus plus false = Ok t ->
  wf t /\ wf_freqs t /\ time t = t0 /\ diffs t = [k] /\ dims t = [if Nat.eqb n 0 then Nat.max m p + k else n] /\
  forall y x, tmat t [y] [x] = kadd (kadd (if Nat.eqb y x then elem zero y else k0)
                 (if Nat.eqb y (x + k) then elem minus x else k0))
                 (if Nat.eqb x (y + k) then elem plus y else k0).
Proof. exact (fun K T t0 zero minus plus k n m p t => unary_wf t0 zero k minus plus n m p t). Qed.
Print Assumptions C53_unary_constructor_partial.
Theorem C53_unary_constructor_refuted :
  exists (t : tri GaussZ nat), unary 0 (gv [1;2]%Z) 5 gn gn false = Ok t /\ dims t = [5].
Proof. exact unary_wrong_dim. Qed.
Print Assumptions C53_unary_constructor_refuted.
Example C53_case : exists t, exA = Ok t /\ wf t. Proof. exact exA_ok. Qed.
Example C53_inconsistent : @unary GaussZ nat 0 (gv [1;2;3]%Z) 1 (gv [1]%Z) gn false = ConsistencyError.
Proof. reflexivity. Qed.

(** C54: the interaction picture of a sum is the sum of interaction pictures, if the frequencies and times are the
    same; adding an operator without frequencies to one with them makes it rotate (refutation of the general claim) *)
Theorem C54_propagate_sum_partial : forall (a b c : tri CR R) (t : R),
  wf a -> wf b -> dims b = dims a -> time b = time a -> freqs b = freqs a -> add CReqb a b = Ok c ->
  forall y x, inr (dims a) y -> inr (dims a) x ->
    tmat (propagate t c) y x = kadd (tmat (propagate t a) y x) (tmat (propagate t b) y x).
Proof. exact add_propagate. Qed.
Print Assumptions C54_propagate_sum_partial.
Theorem C54_propagate_sum_refuted :
  exists (a b c : tri CR R) (t : R) y x,
    wf a /\ wf b /\ dims b = dims a /\ time b = time a /\ add CReqb a b = Ok c /\ inr (dims a) y /\ inr (dims a) x /\
    tmat (propagate t c) y x <> kadd (tmat (propagate t a) y x) (tmat (propagate t b) y x).
Proof. exact sum_rotates. Qed.
Print Assumptions C54_propagate_sum_refuted.
