(** Model of cpypyqed/io.cc and cpypyqed/blitz2numpy.h: reading and writing state files in Python. *)
From Coq Require Import String Ascii List Arith ZArith Bool.
From Verif Require Import StateFileModel.
Import ListNotations.
Local Open Scope nat_scope.

(** Binary archives: what metadata, integers and floating-point numbers become. Integers and floating-point numbers are of 8 bytes. *)
Record codec {D : Type} := mkCodec {
  encMeta : metadata -> list byte; decMeta : list byte -> option (metadata * list byte);
  encNat : nat -> list byte; decNat : list byte -> option (nat * list byte);
  encD : D -> list byte; decD : list byte -> option (D * list byte) }.
Arguments codec : clear implicits.

Section IO.
Context {D : Type}.
Variable c : codec D.

(** The elements of arrays: dcomp is two floating-point numbers *)
Inductive kind := Real | Complex.
Definition width (k : kind) : nat := match k with Real => 1 | Complex => 2 end.
(** the contents of an array: the extents, and all the floating-point numbers in the order of storage *)
Record stored := mkStored { extents : list nat; numbers : list D }.
Definition size (sh : list nat) : nat := fold_right Nat.mul 1 sh.
(** serialization of blitz arrays: the number of elements, the elements, the extents. (There are more integers in the archive, describing the order of storage and the strides, which are always the same here.) *)
Definition encArray (a : stored) : list byte := encNat c (size (extents a)) ++ flat_map (encD c) (numbers a) ++ flat_map (encNat c) (extents a).
Fixpoint decMany {B} (f : list byte -> option (B * list byte)) (n : nat) (l : list byte) : option (list B * list byte) :=
  match n with
  | O => Some ([], l)
  | S m => match f l with Some (b, l') => match decMany f m l' with Some (bs, l'') => Some (b :: bs, l'') | None => None end | None => None end
  end.
Definition decArray (k : kind) (rank : nat) (l : list byte) : option (stored * list byte) :=
  match decNat c l with
  | None => None
  | Some (n, l1) => match decMany (decD c) (n * width k) l1 with
                    | None => None
                    | Some (xs, l2) => match decMany (decNat c) rank l2 with None => None | Some (sh, l3) => Some (mkStored sh xs, l3) end
                    end
  end.

(** ReadState<AdaptiveIO>, io.cc:47-58: metadata, array, time; the rest of the archive is ignored *)
Definition readArrayTime (k : kind) (rank : nat) (payload : list byte) : option (stored * D) :=
  match decMeta c payload with
  | None => None
  | Some (_, l) => match decArray k rank l with
                   | None => None
                   | Some (a, l') => match decD c l' with Some (t, _) => Some (a, t) | None => None end
                   end
  end.
(** doRead, io.cc:77-92: until the end of the file *)
Fixpoint doRead (fuel : nat) (k : kind) (rank : nat) (file : list byte) : option (list (stored * D)) :=
  match file with
  | [] => Some []
  | _ => match fuel with
         | O => None
         | S f => match readRecord file with
                  | None => None
                  | Some (p, rest) => match readArrayTime k rank p with
                                      | None => None
                                      | Some r => match doRead f k rank rest with Some rs => Some (r :: rs) | None => None end
                                      end
                  end
         end
  end.
Variable maxRank : nat. (* PYTHON_MAX_RANK *)
(** read, io.cc:121-143: [Raised] is an exception *)
Inductive result := Raised | ReadOk (meta : metadata) (contents : list (stored * D)).
Definition pyRead (file : list byte) : result :=
  match readRecord file with
  | None => Raised
  | Some (p, _) =>
      match decMeta c p with
      | None => Raised
      | Some (m, _) =>
          if maxRank <? rank m then Raised else if rank m =? 0 then ReadOk m []
          else if String.eqb (typeID m) "CArray" then match doRead (length file) Complex (rank m) file with Some r => ReadOk m r | None => Raised end
          else if String.eqb (typeID m) "DArray" then match doRead (length file) Real (rank m) file with Some r => ReadOk m r | None => Raised end
          else Raised
      end
  end.

(** An ndarray: the type of elements, extents, strides (in elements), and the memory around its first element *)
Inductive dtype := Float64 | Complex128 | OtherType.
Record npArray := mkNp { npType : dtype; npShape : list nat; npStrides : list Z; npMemory : Z -> list D }.
(** numpyToArray, blitz2numpy.h:28-45: as many elements as there are in the array, from consecutive places *)
Definition numpyToArray (a : npArray) : stored := mkStored (npShape a) (flat_map (fun i => npMemory a (Z.of_nat i)) (seq 0 (size (npShape a)))).
(** WriteState<AdaptiveIO>, io.cc:61-71 *)
Definition arrayMeta (rank : nat) : metadata := mkMeta 0 rank "CArray" ARRAY_ONLY.
Definition writeArrayTime (a : stored) (t : D) : list byte := writeRecord (encMeta c (arrayMeta (length (extents a))) ++ encArray a ++ encD c t).
(** write, io.cc:145-165: the file afterwards, and whether an exception was thrown; the file is truncated first *)
Definition pyWrite (a : npArray) (t : D) : list byte * bool :=
  let r := length (npShape a) in
  if maxRank <? r then ([], true) else if r =? 0 then ([], false)
  else match npType a with Float64 | Complex128 => (writeArrayTime (numpyToArray a) t, false) | OtherType => ([], false) end.
End IO.
