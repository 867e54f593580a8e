(** C15, C16: slices of multi-dimensional arrays. *)
From Coq Require Import List Arith ZArith.
From Verif Require Import Star Arr SliceModel SliceSpec SliceProofs.
Import ListNotations.

(** C15. The compile-time check accepts exactly the lists of distinct in-range positions, and for these: slice
    iteration visits every slice label once; element [s] of slice [d] is the array element with these
    coordinates; every array element belongs to exactly one (slice, slice index). *)
Theorem C15_slices_partition : forall (rank : nat) (V sh : list nat),
  length sh = rank ->
  (consistent rank V = true <-> good_positions rank V) /\
  (good_positions rank V ->
   let others := filter (fun o => if in_dec Nat.eq_dec o V then false else true) (seq 0 rank) in
   let sV := map (fun v => nth v sh 0) V in
   let sD := map (fun o => nth o sh 0) others in
   (forall fuel, (forall m, In m sh -> 0 < m) -> fold_right Nat.mul 1 sh <= fuel ->
      exists ds, dummies fuel rank V sh = Some ds /\ NoDup ds /\ forall d, In d ds <-> inr sD d) /\
   (forall d s, inr sD d -> inr sV s ->
      exists y, sliceAddr rank V d s = Some y /\ is_element rank V d s y /\ inr sh y) /\
   (forall y, inr sh y ->
      exists d s, inr sD d /\ inr sV s /\ sliceAddr rank V d s = Some y /\
      forall d' s', inr sD d' -> inr sV s' -> sliceAddr rank V d' s' = Some y -> d' = d /\ s' = s)).
Proof.
  exact (fun rank V sh Hsh => conj (consistent_good rank V)
    (fun HV => conj (fun fuel => dummies_all rank V sh fuel HV Hsh) (slice_partition rank V sh HV Hsh))).
Qed.
Print Assumptions C15_slices_partition.

(** rank 11, retained positions in a non-ascending order (the example in the documentation of the code) *)
Example C15_case : consistent 11 [3;6;1;9;7] = true /\
  sliceAddr 4 [2;0] [10;11] [20;21] = Some [21;10;20;11] /\
  dummies 100 3 [1] [2;3;2] = Some [[0;0];[0;1];[1;0];[1;1]].
Proof. vm_compute. auto. Qed.

(** C16. In-place action on all slices with an operator of the subsystems [V] is (operator (x) identity);
    actions on disjoint sets of subsystems commute. *)
Theorem C16_slices_action : forall (K : StarRing) (fuel : nat) (sh : list nat),
  (forall k, In k sh -> 0 < k) -> fold_right Nat.mul 1 sh <= fuel ->
  (forall (M : list nat -> list nat -> K) V psi, good_positions (length sh) V ->
    exists psi', forEachSlice fuel (mat_apply M (map (fun v => nth v sh 0) V)) V sh psi = Some psi' /\
      forall y, inr sh y -> psi' y = lifted_action M V sh psi y) /\
  (forall (M1 M2 : list nat -> list nat -> K) V1 V2 psi,
    good_positions (length sh) V1 -> good_positions (length sh) V2 -> (forall v, In v V1 -> In v V2 -> False) ->
    exists p1 p12 p2 p21,
      forEachSlice fuel (mat_apply M1 (map (fun v => nth v sh 0) V1)) V1 sh psi = Some p1 /\
      forEachSlice fuel (mat_apply M2 (map (fun v => nth v sh 0) V2)) V2 sh p1 = Some p12 /\
      forEachSlice fuel (mat_apply M2 (map (fun v => nth v sh 0) V2)) V2 sh psi = Some p2 /\
      forEachSlice fuel (mat_apply M1 (map (fun v => nth v sh 0) V1)) V1 sh p2 = Some p21 /\
      forall y, inr sh y -> p12 y = p21 y).
Proof.
  exact (fun K fuel sh Hpos Hf =>
    conj (fun M V psi HV => @forEachSlice_lifted K fuel M V sh psi HV Hpos Hf)
         (fun M1 M2 V1 V2 psi H1 H2 Hd => @forEachSlice_comm K fuel M1 M2 V1 V2 sh psi H1 H2 Hd Hpos Hf)).
Qed.
Print Assumptions C16_slices_action.

(** a 2x2 operator on the middle one of three subsystems *)
Definition C16_M : list nat -> list nat -> GaussZ :=
  fun s s' => match s, s' with [0], [1] => (0, 1)%Z | [1], [0] => (2, 0)%Z | _, _ => (0, 0)%Z end.
Definition C16_psi : list nat -> GaussZ :=
  fun y => match y with [a; b; c] => (Z.of_nat (100 * a + 10 * b + c), 0)%Z | _ => (0, 0)%Z end.
Example C16_case : option_map (fun p => map p (indices [2;2;2]))
    (forEachSlice 8 (mat_apply C16_M [2]) [1] [2;2;2] C16_psi)
  = Some [(0,10);(0,11);(0,0);(2,0);(0,110);(0,111);(200,0);(202,0)]%Z.
Proof. vm_compute. reflexivity. Qed.
