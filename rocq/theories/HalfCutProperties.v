(** C145: density operators know their dimensions. *)
From Coq Require Import List Arith Bool ZArith Permutation.
From Verif Require Import HalfCutModel HalfCutSpec HalfCutProofs.
Import ListNotations.
Local Open Scope nat_scope.

(** After any program (construction, referencing of arrays, copies, rearrangement of subsystems, slices) every density operator has the dimensions of its array, for kets as for bras, and their product as total dimension: in debug builds without condition upon the arrays referenced, which may then be refused, in release builds if these have the same extents for kets and bras; nothing is then refused *)
Theorem C145_dimensions_partial : forall E debug twofold (cs : list (cmd E)), debug || twofold = true -> reasonableAll debug twofold (Some []) cs ->
  match run debug cs with Some l => Forall sound l | None => twofold = false end.
Proof. exact @run_sound. Qed.
Print Assumptions C145_dimensions_partial.
(** Those constructed have the dimensions asked for *)
Theorem C145_made : forall E dims (e : list nat -> E), sound (ofDimensions dims e) /\ dDims (ofDimensions dims e) = dims.
Proof. exact @new_sound. Qed.
Print Assumptions C145_made.
(** In debug builds exactly the arrays with other extents for bras than for kets are refused *)
Theorem C145_refused : forall E (a : array E) r, length (aShape a) = 2 * r -> (byReference true a = None <-> ~ exists d, aShape a = d ++ d).
Proof. exact @refused_fact. Qed.
Print Assumptions C145_refused.
(** Rearranging the subsystems rearranges the dimensions and both kinds of indices alike, and keeps the total dimension *)
Theorem C145_rearranged : forall E debug p (rho : density E), sound rho -> Permutation p (seq 0 (length (dDims rho))) ->
  exists rho', transposeSelf debug p rho = Some rho' /\ sound rho' /\ dDims rho' = rearranged 0%Z p (dDims rho) /\ dTotal rho' = dTotal rho /\
    forall i j, length i = length p -> length j = length p -> index rho' (rearranged 0 p i) (rearranged 0 p j) = index rho i j.
Proof. exact @transpose_fact. Qed.
Print Assumptions C145_rearranged.
(** Diagonal slices, where the same indices are given for kets and bras: they are never refused, have the dimensions of the subsystems left, and share the elements with the given indices *)
Theorem C145_slices : forall E debug subs (rho : density E), sound rho -> length subs = length (dDims rho) ->
  exists rho', diagonalSliceIndex debug subs rho = Some rho' /\ sound rho' /\ dDims rho' = rearranged 0%Z (keptPlaces subs) (dDims rho) /\
    forall i j, within subs i -> within subs j -> index rho' (rearranged 0 (keptPlaces subs) i) (rearranged 0 (keptPlaces subs) j) = index rho i j.
Proof. exact @slice_fact. Qed.
Print Assumptions C145_slices.
(** The bounds of the indices *)
Theorem C145_bounds : forall E debug (rho : density E), sound rho -> lbound debug rho = Some (map (fun _ => 0%Z) (dDims rho)) /\ ubound debug rho = Some (map (fun n => (n - 1)%Z) (dDims rho)).
Proof. exact @bounds_fact. Qed.
Print Assumptions C145_bounds.
(** The element asked for is the one with first the ket, then the bra indices *)
Theorem C145_element : forall E (rho : density E) i j, index rho i j = aElem (dArray rho) (i ++ j).
Proof. exact @index_fact. Qed.
Print Assumptions C145_element.
(** Joining tiny vectors of any two lengths; halving what was joined from twice the same *)
Theorem C145_joined : forall debug a b, concatenateTinies a b = a ++ b /\ halfCutTiny debug (concatenateTinies a a) = Some a.
Proof. exact joined_fact. Qed.
Print Assumptions C145_joined.
Example C145_joined_case : concatenateTinies [2; 3]%Z [5]%Z = [2; 3; 5]%Z.
Proof. reflexivity. Qed.
(** In release builds a 2-by-3 array is taken for a density operator of dimension 2 *)
Theorem C145_release_refuted : forall E (a : array E), aShape a = [2; 3]%Z -> exists rho, byReference false a = Some rho /\ dDims rho = [2]%Z /\ ~ sound rho.
Proof. exact @unsound_fact. Qed.
Print Assumptions C145_release_refuted.

Definition flat (x : list nat) : Z := fold_left (fun a i => 10 * a + Z.of_nat i)%Z x 0%Z.
Example C145_case : exists l, run true [NewOf [2; 3; 4]%Z flat; Transpose 0 [2; 0; 1]; CopyOf 0; Reference (mkArray [5; 5]%Z flat)] = Some l /\
  map dDims l = [[4; 2; 3]; [4; 2; 3]; [5]]%Z /\ map dTotal l = [24; 24; 5]%Z /\
  map (fun rho => index rho [3; 1; 2] [0; 0; 1]) (firstn 2 l) = [123010; 123010]%Z /\
  run true [Reference (mkArray [2; 3]%Z flat)] = None.
Proof. eexists. split; [reflexivity|]. repeat split; vm_compute; reflexivity. Qed.
Example C145_reasonable : reasonableAll true false (Some []) [NewOf [2; 3; 4]%Z flat; Transpose 0 [2; 0; 1]; CopyOf 0; Reference (mkArray [5; 5]%Z flat)].
Proof.
  cbn -[halfCutTiny transposeSelf]. split; [exact I|]. split.
  - intros rho H. injection H as <-. cbn. apply NoDup_Permutation; [repeat constructor; cbn; intuition discriminate|repeat constructor; cbn; intuition discriminate|]. cbn. intuition.
  - split; [exact I|]. split; [|exact I]. vm_compute. exists 1. reflexivity.
Qed.
Example C145_slices_case : exists rho, run false [NewOf [2; 3; 4]%Z flat; Slice 0 [None; Some 2; None]] = Some [ofDimensions [2; 3; 4]%Z flat; rho] /\ dDims rho = [2; 4]%Z /\ dTotal rho = 8%Z /\
  index rho [1; 3] [0; 2] = 123022%Z /\ ubound true rho = Some [1; 3]%Z /\ keptPlaces [None; Some 2; None] = [0; 2] /\ within [None; Some 2; None] [1; 2; 3].
Proof. eexists. split; [reflexivity|]. repeat split; try (vm_compute; reflexivity). intros [|[|[|[|k]]]] i H; cbn in *; congruence. Qed.
