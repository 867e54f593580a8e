(** C115: state files written and read in Python. *)
From Coq Require Import String Ascii List Arith ZArith Lia.
From Verif Require Import Arr StateFileModel PyStateModel PyStateSpec PyState.
Import ListNotations.
Local Open Scope nat_scope.

(** what any of the trajectories saves is read in Python, all the states with their times, in order; the rest of the archives is skipped *)
Theorem C115_trajectories : forall D (c : codec D) fits, lawful c fits -> forall Traj maxRank m k (arr : Traj -> stored) (time : Traj -> D) (more : Traj -> list byte) xs,
  (typeID m = "CArray" /\ k = Complex \/ typeID m = "DArray" /\ k = Real)%string -> 0 < rank m <= maxRank -> xs <> [] -> (forall x, In x xs -> well_stored fits k (rank m) (arr x)) ->
  pyRead c maxRank (flat_map (writeState m (encMeta c) (fun x => encArray c (arr x) ++ encD c (time x) ++ more x)) xs) = ReadOk m (map (fun x => (arr x, time x)) xs).
Proof. intros D c fits L Traj maxRank m k arr time more xs K. apply (trajectory_read c fits L). unfold kindOf. destruct K as [[-> ->]|[-> ->]]; reflexivity. Qed.
Print Assumptions C115_trajectories.
(** contiguous complex arrays written in Python are read back, *)
Theorem C115_back_partial : forall D (c : codec D) fits, lawful c fits -> forall maxRank a t, npType a = Complex128 -> elements_of a Complex -> contiguous a -> 0 < length (npShape a) <= maxRank -> fits (size (npShape a)) -> (forall n, In n (npShape a) -> fits n) ->
  pyRead c maxRank (fst (pyWrite c maxRank a t)) = ReadOk (arrayMeta (length (npShape a))) [(contents a, t)] /\ snd (pyWrite c maxRank a t) = false.
Proof. exact @complex_back. Qed.
Print Assumptions C115_back_partial.
(** and trajectories are started from them, of any kind having complex arrays of the same rank *)
Theorem C115_start_partial : forall D (c : codec D) fits, lawful c fits -> forall Traj maxRank k own (setArray : stored -> Traj -> Traj) stateIn a t x fuel, npType a = Complex128 -> k = Complex -> elements_of a k -> contiguous a -> 0 < length (npShape a) <= maxRank -> fits (size (npShape a)) ->
  (forall n, In n (npShape a) -> fits n) -> 0 < fuel ->
  readFile (decMeta c) stateIn (fun l y => match decArray c k (length (npShape a)) l with Some (b, _) => (setArray b y, true) | None => (y, false) end) own fuel (fst (pyWrite c maxRank a t)) x = (setArray (contents a) x, Ok).
Proof. exact @started_from. Qed.
Print Assumptions C115_start_partial.
Example C115_case : lawful someCodec (fun n => n < 256) /\ elements_of someArray Complex /\ contiguous someArray /\ size (npShape someArray) = 6 /\
  pyRead someCodec 11 (fst (pyWrite someCodec 11 someArray zero)) = ReadOk (arrayMeta 2) [(mkStored [2; 3] (flat_map (fun n => [ascii_of_nat n; zero]) (seq 0 6)), zero)].
Proof. split; [exact some_lawful|exact some_case]. Qed.

(** real arrays are written under the name of complex ones, so that they cannot be read *)
Theorem C115_real_refuted : forall D (c : codec D) fits, lawful c fits -> forall maxRank a t, npType a = Float64 -> elements_of a Real -> 0 < length (npShape a) <= maxRank -> 0 < size (npShape a) -> fits (size (npShape a)) ->
  pyRead c maxRank (fst (pyWrite c maxRank a t)) = Raised.
Proof. exact @real_raises. Qed.
Print Assumptions C115_real_refuted.
(** strides are ignored: of a transposed array the original is written *)
Theorem C115_strides_refuted : forall D (c : codec D) fits, lawful c fits -> forall maxRank (f : Z -> list D) t, 2 <= maxRank -> (forall z, length (f z) = 2) -> fits 2 -> fits 4 -> f 1%Z <> f 2%Z ->
  let a := mkNp Complex128 [2; 2] [1%Z; 2%Z] f in
  exists s, pyRead c maxRank (fst (pyWrite c maxRank a t)) = ReadOk (arrayMeta 2) [(s, t)] /\ numbers s = f 0%Z ++ f 1%Z ++ f 2%Z ++ f 3%Z /\
    numbers (contents a) = f 0%Z ++ f 2%Z ++ f 1%Z ++ f 3%Z /\ s <> contents a.
Proof. exact @transposed_wrong. Qed.
Print Assumptions C115_strides_refuted.
(** of arrays of other types, e.g. integers, nothing is written, without an error *)
Theorem C115_other_refuted : forall D (c : codec D) maxRank a t, npType a = OtherType -> length (npShape a) <= maxRank -> pyWrite c maxRank a t = ([], false) /\ pyRead c maxRank [] = Raised.
Proof. exact @others_vanish. Qed.
Print Assumptions C115_other_refuted.
Example C115_refuted_case : elements_of (mkNp Float64 [2] [1%Z] (fun z => [ascii_of_nat (Z.to_nat z)])) Real /\ size [2] = 2 /\ pyRead someCodec 11 (fst (pyWrite someCodec 11 (mkNp Float64 [2] [1%Z] (fun z => [ascii_of_nat (Z.to_nat z)])) zero)) = Raised.
Proof. split; [intros z; reflexivity|]. split; [reflexivity|]. vm_compute. reflexivity. Qed.
