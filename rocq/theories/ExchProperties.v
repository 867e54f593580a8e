(** C144: identical subsystems. *)
From Coq Require Import List Arith NArith Reals.
From Verif Require Import Star CReal Arr HermSpec DensitySpec MasterModel MasterSpec CompositeModel CompositeSpec CompositeCases ExchSpec ExchProofs ExchCases.
Import ListNotations.
Local Open Scope nat_scope.

(** The Hamiltonian of the whole keeps the symmetry of states, s being 1 for symmetric, -1 for antisymmetric ones *)
Theorem C144_hamiltonian : forall c w t t0 (M : parts -> op) (s : CR) psi d, wellFormed c -> renaming (length (cDims c)) w -> kinds_kept (cDims c) w -> indistinguishable w (constituents c) ->
  objects (fun sh p => hamiltonian_adds sh p t t0) (cDims c) (constituents c) M ->
  (forall y, inr (cDims c) y -> psi (coords w y) = kmul s (psi y)) -> (forall y, inr (cDims c) y -> d (coords w y) = kmul s (d y)) ->
  exists d', compositeH c t psi d t0 = Some d' /\ forall y, inr (cDims c) y -> d' (coords w y) = kmul s (d' y).
Proof. exact hamiltonian_moved. Qed.
Print Assumptions C144_hamiltonian.
(** ... and so does the exact propagation, if those propagated exactly do not share subsystems *)
Theorem C144_propagator : forall c w t t0 (U : parts -> op) (s : CR) psi, wellFormed c -> renaming (length (cDims c)) w -> kinds_kept (cDims c) w -> indistinguishableU w (constituents c) ->
  objects (fun sh p => propagates_with sh p t t0) (cDims c) (constituents c) U ->
  (forall y, inr (cDims c) y -> psi (coords w y) = kmul s (psi y)) ->
  exists psi', compositeU c t psi t0 = Some psi' /\ forall y, inr (cDims c) y -> psi' (coords w y) = kmul s (psi' y).
Proof. exact propagator_moved. Qed.
Print Assumptions C144_propagator.
(** ... and the master equation that of density operators *)
Theorem C144_master : forall c w t t0 (H : parts -> op) (J : parts -> list op) rho, wellFormed c -> renaming (length (cDims c)) w -> kinds_kept (cDims c) w ->
  indistinguishable w (constituents c) -> indistinguishableL w (constituents c) ->
  objects (fun sh p H => hamiltonian_adds sh p t t0 (minusI H)) (cDims c) (constituents c) H ->
  objects (fun sh p => jumps_are sh p t) (cDims c) (constituents c) J -> objects (fun sh p => supers_are sh p t) (cDims c) (constituents c) J ->
  (N.of_nat (compositeNLi c) <= 2 ^ 64)%N -> hermitian (cDims c) (asOp rho) ->
  (forall x y, inr (cDims c) x -> inr (cDims c) y -> asOp rho (coords w x) (coords w y) = asOp rho x y) ->
  let d := asOp (derivative (compositeQ c) t0 rho t) in forall x y, inr (cDims c) x -> inr (cDims c) y -> d (coords w x) (coords w y) = d x y.
Proof. exact master_moved. Qed.
Print Assumptions C144_master.
Example C144_master_case : forall t t0, indistinguishableL swap12 (constituents twins) /\ objects (fun sh p H => hamiltonian_adds sh p t t0 (minusI H)) (cDims twins) (constituents twins) twinHnh /\ objects (fun sh p => supers_are sh p t) (cDims twins) (constituents twins) twinJ.
Proof. intros t t0. exact (conj twins_sameL (conj (twins_Hnh t t0) (twins_S t))). Qed.
(** A jump of one of the identical subsystems leads from the exchanged state to the exchanged of what the jump of the other leads to, *)
Theorem C144_jump : forall c w t (J : parts -> list op) k k' i V p psi, wellFormed c -> renaming (length (cDims c)) w -> kinds_kept (cDims c) w ->
  objects (fun sh p => jumps_are sh p t) (cDims c) (constituents c) J -> (N.of_nat (compositeNLi c) <= 2 ^ 64)%N ->
  nth_error (constituents c) k = Some (V, p) -> nth_error (constituents c) k' = Some (renamed w V, p) -> i < nLi p ->
  exists a b, compositeJ c t psi (N.of_nat (place nLi (constituents c) k i)) = Some a /\ compositeJ c t (moved w psi) (N.of_nat (place nLi (constituents c) k' i)) = Some b /\
    forall y, inr (cDims c) y -> b y = a (coords w y).
Proof. exact jump_moved. Qed.
Print Assumptions C144_jump.
(** ... and has the same rate there *)
Theorem C144_rates : forall c w t (O : parts -> list op) k k' i V p m, wellFormed c -> renaming (length (cDims c)) w -> kinds_kept (cDims c) w ->
  objects (fun sh p => rates_are sh p t) (cDims c) (constituents c) O ->
  nth_error (constituents c) k = Some (V, p) -> nth_error (constituents c) k' = Some (renamed w V, p) -> i < nLi p ->
  exists r r' x, compositeRates c t m = Some r /\ compositeRates c t (movedLdo w m) = Some r' /\
    nth_error r (place nLi (constituents c) k i) = Some x /\ nth_error r' (place nLi (constituents c) k' i) = Some x.
Proof. exact rates_moved. Qed.
Print Assumptions C144_rates.
(** The columns of identical subsystems are exchanged with the state *)
Theorem C144_averages : forall c w t (O : parts -> list op) k k' i V p m, wellFormed c -> renaming (length (cDims c)) w -> kinds_kept (cDims c) w ->
  objects (fun sh p => averages_are sh p t) (cDims c) (constituents c) O ->
  nth_error (constituents c) k = Some (V, p) -> nth_error (constituents c) k' = Some (renamed w V, p) -> i < nAv p ->
  exists r r' x, compositeAverages c t m = Some r /\ compositeAverages c t (movedLdo w m) = Some r' /\
    nth_error r (place nAv (constituents c) k i) = Some x /\ nth_error r' (place nAv (constituents c) k' i) = Some x.
Proof. exact averages_moved. Qed.
Print Assumptions C144_averages.
(** ... and are the same in symmetric and antisymmetric states *)
Theorem C144_columns : forall c w t (O : parts -> list op) k k' i V p m, wellFormed c -> renaming (length (cDims c)) w -> kinds_kept (cDims c) w ->
  objects (fun sh p => averages_are sh p t) (cDims c) (constituents c) O ->
  nth_error (constituents c) k = Some (V, p) -> nth_error (constituents c) k' = Some (renamed w V, p) -> i < nAv p ->
  (forall x y, inr (cDims c) x -> inr (cDims c) y -> indexOf m (coords w x) (coords w y) = indexOf m x y) ->
  exists r x, compositeAverages c t m = Some r /\ nth_error r (place nAv (constituents c) k i) = Some x /\ nth_error r (place nAv (constituents c) k' i) = Some x.
Proof. exact columns_same. Qed.
Print Assumptions C144_columns.
Example C144_case : forall t t0, wellFormed twins /\ renaming 3 swap12 /\ kinds_kept [2; 2; 2] swap12 /\ indistinguishable swap12 (constituents twins) /\ indistinguishableU swap12 (constituents twins) /\
  objects (fun sh p => hamiltonian_adds sh p t t0) (cDims twins) (constituents twins) twinH /\ objects (fun sh p => propagates_with sh p t t0) (cDims twins) (constituents twins) twinU /\
  objects (fun sh p => jumps_are sh p t) (cDims twins) (constituents twins) twinJ /\ objects (fun sh p => rates_are sh p t) (cDims twins) (constituents twins) twinR /\
  objects (fun sh p => averages_are sh p t) (cDims twins) (constituents twins) twinA /\
  nth_error (constituents twins) 1 = Some ([1], twin) /\ nth_error (constituents twins) 2 = Some (renamed swap12 [1], twin) /\
  nth_error (constituents twins) 3 = Some ([0; 1], exch) /\ nth_error (constituents twins) 4 = Some (renamed swap12 [0; 1], exch) /\
  place nLi (constituents twins) 3 0 = 2 /\ compositeNLi twins = 4 /\
  (forall s y, kmul s s = k1 -> inr [2; 2; 2] y -> shared s (coords swap12 y) = kmul s (shared s y)).
Proof.
  intros t t0. exact (conj twins_well (conj (proj1 twins_renaming) (conj (proj2 twins_renaming) (conj twins_same (conj twins_sameU (conj (twins_H t t0) (conj (twins_U t t0) (conj (twins_J t)
    (conj (twins_R t) (conj (twins_A t) (conj eq_refl (conj eq_refl (conj eq_refl (conj eq_refl (conj eq_refl (conj eq_refl shared_symmetric)))))))))))))))).
Qed.
(** The constituents of which this and C44, C45 and C63 speak: the frees, each with its own subsystem, in order, then the interactions as given; nothing else *)
Theorem C144_constituents : forall c, length (constituents c) = length (cFrees c) + length (cActs c) /\
  (forall i p, nth_error (cFrees c) i = Some p -> nth_error (constituents c) i = Some ([i], p)) /\
  (forall j V p, nth_error (cActs c) j = Some (V, p) -> nth_error (constituents c) (length (cFrees c) + j) = Some (V, p)).
Proof. exact constituents_listed. Qed.
Print Assumptions C144_constituents.
Example C144_constituents_case : nth_error (cFrees twins) 2 = Some twin /\ nth_error (cActs twins) 1 = Some ([0; 2], exch).
Proof. exact (conj eq_refl eq_refl). Qed.
