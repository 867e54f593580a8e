(** Model of composite systems: CPPQEDcore/composites/BinarySystem.h, .cc and Composite.h, .tcc, with the wrappers of
    CPPQEDcore/structure/Structure.h, LiouvilleanAveragedCommon.h, ElementAveraged.cc and CPPQEDutils/KeyPrinter.cc, Algorithm.h. *)
From Coq Require Import List Arith NArith Reals Bool String.
From Verif Require Import Star CReal Arr MultiIndexModel SliceModel DensityModel.
Import ListNotations.

Notation array := (list nat -> CR).
Notation op := (list nat -> list nat -> CR).

(** what is written to an output stream: a tabulator, a number (FormDouble), a title, a numbered label *)
Inductive token := Tab | Num (x : R) | Title (s : string) | Label (i : nat) (s : string).

(** ** The interfaces of constituents *)
(** Exact: applicableInMaster and actWithU(t,psi,t0), structure/Exact.h *)
Record exact := mkExact { exMaster : bool; exU : R -> array -> R -> array }.
(** Hamiltonian: addContribution(t,psi,dpsidt,t0), structure/Hamiltonian.h *)
Record hamiltonian := mkHa { haAdd : R -> array -> array -> R -> array }.
(** Liouvillean: nAvr, average (the rates), actWithJ(t,psi,i), actWithSuperoperator(t,rho,drhodt,i), where [None] stands for
    SuperoperatorNotImplementedException, streamKey; structure/Liouvillean.h, LiouvilleanAveragedCommon.h.
    A LazyDensityOperator is what index(i,j) gives. *)
Record liouvillean := mkLi {
  liN : nat; liRates : R -> op -> list R;
  liJ : R -> array -> nat -> array; liSuper : nat -> option (R -> array -> array -> array);
  liTitle : string; liLabels : list string }.
(** Averaged: nAvr, average_v, process_v (in place), stream_v, streamKey_v; structure/Averaged.h *)
Record averaged := mkAv {
  avN : nat; avAverage : R -> op -> list R; avProcess : list R -> list R; avTitle : string; avLabels : list string }.
(** QuantumSystemWrapper, Structure.h:85-190: what of a system is there; the highest frequency *)
Record parts := mkParts { pEx : option exact; pHa : option hamiltonian; pLi : option liouvillean; pAv : option averaged; pFreq : R }.

(** applicableInMaster, Structure.h:132 *)
Definition applicable (p : parts) : bool := match pEx p with Some ex => exMaster ex | None => true end.
(** nAvr<LA_Li>, nAvr<LA_Av>, Structure.h:164-165 *)
Definition nLi (p : parts) : nat := match pLi p with Some li => liN li | None => 0 end.
Definition nAv (p : parts) : nat := match pAv p with Some av => avN av | None => 0 end.
(** LiouvilleanAveragedCommonRanked::average, LiouvilleanAveragedCommon.h:84-98. [None]: number mismatch. (Real numbers are finite.) *)
Definition checked (n : nat) (a : list R) : option (list R) := if Nat.eqb (List.length a) n then Some a else None.
(** structure::average, Structure.h:64-68, for both tags *)
Definition averageLi (p : parts) (t : R) (m : op) : option (list R) :=
  match pLi p with Some li => checked (liN li) (liRates li t m) | None => Some [] end.
Definition averageAv (p : parts) (t : R) (m : op) : option (list R) :=
  match pAv p with Some av => checked (avN av) (avAverage av t m) | None => Some [] end.
(** KeyPrinter::stream, KeyPrinter.cc:14-21; ElementLiouvilleanAveragedCommon.h:45 *)
Fixpoint keyLines (i : nat) (labels : list string) : list token :=
  match labels with [] => [] | s :: ls => Label i s :: keyLines (Datatypes.S i) ls end.
Definition keyStream (title : string) (labels : list string) (os : list token) (i : nat) : list token * nat :=
  ((os ++ Title title :: keyLines i labels)%list, i + List.length labels).
(** streamKey<LA>, Structure.h:167-168 *)
Definition keyAv (p : parts) (x : list token * nat) : list token * nat :=
  match pAv p with Some av => keyStream (avTitle av) (avLabels av) (fst x) (snd x) | None => x end.
Definition keyLi (p : parts) (x : list token * nat) : list token * nat :=
  match pLi p with Some li => keyStream (liTitle li) (liLabels li) (fst x) (snd x) | None => x end.
(** streamCommon, ElementAveraged.cc:13-23 *)
Definition streamCommon (a : list R) (os : list token) : list token := (os ++ Tab :: map Num a)%list.

(** subtraction of size_t *)
Definition wsub (i n : N) : N := ((i + 2 ^ 64 - n) mod 2 ^ 64)%N.

(** a(Range(l+1,u)) for 0 <= l+1 <= u, as the [n] elements from position [from]; and writing them *)
Definition window (from n : nat) (a : list R) : list R := firstn n (skipn from a).
Definition writeWindow (from : nat) (w : list R) (a : list R) : list R := (firstn from a ++ w ++ skipn (from + List.length w) a)%list.

(** ** Slices *)
(** LazyDensityOperator: a state vector or a density operator, the latter as an array with twice as many indices *)
Inductive ldo := Pure (psi : array) | Mixed (rho : array).
(** index(i,j) *)
Definition indexOf (m : ldo) : op := match m with Pure psi => fun i j => kmul (psi i) (kconj (psi j)) | Mixed rho => fun i j => rho (i ++ j)%list end.
(** the slices of it, see DensityModel *)
Definition sliceOf (rank : nat) (V : list nat) (m : ldo) (d : list nat) : option op :=
  match m with
  | Pure psi => option_map (fun sl => indexOf (Pure sl)) (sliceSV rank V psi d)
  | Mixed rho => sliceDO rank V rho d
  end.
(** addition of arrays of averages *)
Definition vplus (a b : list R) : list R := map (fun p => (fst p + snd p)%R) (combine a b).
(** partialTrace<V>(ldo,f) *)
Definition traceOver (dims V : list nat) (m : ldo) (f : op -> option (list R)) : option (list R) :=
  partialTrace (fold_right Nat.mul 1 dims) (List.length dims) V dims (sliceOf (List.length dims) V m) f vplus.

(** for_each(fullRange<V>(psi),f) *)
Definition onSlices (dims V : list nat) (f : array -> array) (psi : array) : option array :=
  forEachSlice (fold_right Nat.mul 1 dims) f V dims psi.
(** for_each(fullRange<V>(psi),fullRange<V>(dpsidt),f): the pair of arrays as an array of pairs *)
Definition onSlices2 (dims V : list nat) (f : array -> array -> array) (psi dpsidt : array) : option array :=
  option_map (fun m y => snd (m y))
    (forEachSlice (fold_right Nat.mul 1 dims) (fun (g : list nat -> CR * CR) s => (fst (g s), f (fun s' => fst (g s')) (fun s' => snd (g s')) s))
       V dims (fun y => (psi y, dpsidt y))).
(** the same with an [f] that may be missing, in which case the call on the first slice throws *)
Definition onSlices2x (dims V : list nat) (f : option (array -> array -> array)) (psi dpsidt : array) : option array :=
  match f with Some f => onSlices2 dims V f psi dpsidt | None => None end.

(** ** BinarySystem *)
Section Binary.
(** dimensions of the frees, the frees, the interaction; Base::Base, BinarySystem.cc:41-45 *)
Record binary := mkBinary { bDims : list nat; bFree0 : parts; bFree1 : parts; bIa : parts }.
Variable b : binary.
Let dims := bDims b.

(** highestFrequency_v, BinarySystem.cc:48-52 *)
Definition binaryFrequency : R := Rmax (pFreq (bIa b)) (Rmax (pFreq (bFree0 b)) (pFreq (bFree1 b))).
(** nAvr, BinarySystem.cc:133-138 *)
Definition binaryNLi : nat := nLi (bFree0 b) + nLi (bFree1 b) + nLi (bIa b).
Definition binaryNAv : nat := nAv (bFree0 b) + nAv (bFree1 b) + nAv (bIa b).
(** average, BinarySystem.cc:143-158: three copies one after the other into an array of size numberAvr. [None] also stands for writing
    outside it. *)
Definition binaryAverage (avr : parts -> R -> op -> option (list R)) (n : nat) (t : R) (m : ldo) : option (list R) :=
  match traceOver dims [0] m (avr (bFree0 b) t), traceOver dims [1] m (avr (bFree1 b) t), avr (bIa b) t (indexOf m) with
  | Some a0, Some a1, Some a01 => checked n (a0 ++ a1 ++ a01)%list
  | _, _, _ => None
  end.
Definition binaryRates := binaryAverage averageLi binaryNLi.
Definition binaryAverages := binaryAverage averageAv binaryNAv.
(** SUCCESSIVE_Ranges, BinarySystem.cc:67-76; [l1] is l+1 *)
Definition successiveRanges {X} (f : parts -> list R -> nat -> X -> X) (getWindow : X -> nat -> nat -> list R) (x : X) : X :=
  let l1 := 0 in let u1 := l1 + nAv (bFree0 b) in
  let x := if l1 <? u1 then f (bFree0 b) (getWindow x l1 (u1 - l1)) l1 x else x in
  let l1 := u1 + nAv (bFree1 b) in
  let x := if u1 <? l1 then f (bFree1 b) (getWindow x u1 (l1 - u1)) u1 x else x in
  let u1 := l1 + nAv (bIa b) in
  if l1 <? u1 then f (bIa b) (getWindow x l1 (u1 - l1)) l1 x else x.
(** process_v, BinarySystem.cc:79-87: in place on the window *)
Definition binaryProcess (a : list R) : list R :=
  successiveRanges (fun p w from a => match pAv p with Some av => writeWindow from (avProcess av w) a | None => a end)
    (fun a from n => window from n a) a.
(** stream_v, BinarySystem.cc:90-105 (null pointers have no averages) *)
Definition binaryStream (a : list R) (os : list token) : list token :=
  successiveRanges (fun p w _ os => streamCommon w os) (fun _ from n => window from n a) os.
(** streamKey, BinarySystem.cc:121-129 *)
Definition binaryKey (key : parts -> list token * nat -> list token * nat) (os : list token) (i : nat) : list token * nat :=
  key (bIa b) (key (bFree1 b) (key (bFree0 b) ((os ++ [Title "Binary system"])%list, i))).

(** Exact, BinarySystem.cc:172-185 *)
Definition binaryApplicable : bool := applicable (bFree0 b) && applicable (bFree1 b) && applicable (bIa b).
Definition binaryU (t : R) (psi : array) (t0 : R) : option array :=
  match (match pEx (bFree0 b) with Some ex => onSlices dims [0] (fun s => exU ex t s t0) psi | None => Some psi end) with
  | Some psi1 =>
      match (match pEx (bFree1 b) with Some ex => onSlices dims [1] (fun s => exU ex t s t0) psi1 | None => Some psi1 end) with
      | Some psi2 => Some (match pEx (bIa b) with Some ex => exU ex t psi2 t0 | None => psi2 end)
      | None => None
      end
  | None => None
  end.
(** Hamiltonian, BinarySystem.cc:195-207 *)
Definition binaryH (t : R) (psi dpsidt : array) (t0 : R) : option array :=
  match (match pHa (bFree0 b) with Some ha => onSlices2 dims [0] (fun s d => haAdd ha t s d t0) psi dpsidt | None => Some dpsidt end) with
  | Some d1 =>
      match (match pHa (bFree1 b) with Some ha => onSlices2 dims [1] (fun s d => haAdd ha t s d t0) psi d1 | None => Some d1 end) with
      | Some d2 => Some (match pHa (bIa b) with Some ha => haAdd ha t psi d2 t0 | None => d2 end)
      | None => None
      end
  | None => None
  end.
(** actWithJ_v, BinarySystem.cc:217-239 *)
Definition binaryJ (t : R) (psi : array) (i : N) : option array :=
  let n := N.of_nat (nLi (bFree0 b)) in
  match pLi (bFree0 b), (i <? n)%N with
  | Some li0, true => onSlices dims [0] (fun s => liJ li0 t s (N.to_nat i)) psi
  | _, _ =>
      let i := wsub i n in
      let n' := match pLi (bFree1 b) with Some _ => N.of_nat (nLi (bFree1 b)) | None => n end in
      match pLi (bFree1 b), (i <? n')%N with
      | Some li1, true => onSlices dims [1] (fun s => liJ li1 t s (N.to_nat i)) psi
      | _, _ =>
          let i := wsub i n' in
          if (i <? N.of_nat (nLi (bIa b)))%N
          then match pLi (bIa b) with Some li => Some (liJ li t psi (N.to_nat i)) | None => Some psi end
          else Some psi
      end
  end.
(** actWithSuperoperator_v, BinarySystem.cc:242-272 *)
Definition binarySuper (t : R) (rho drhodt : array) (i : N) : option array :=
  let dd := (dims ++ dims)%list in
  let n := N.of_nat (nLi (bFree0 b)) in
  match pLi (bFree0 b), (i <? n)%N with
  | Some li0, true => onSlices2x dd [0; 2] (option_map (fun f => f t) (liSuper li0 (N.to_nat i))) rho drhodt
  | _, _ =>
      let i := wsub i n in
      let n' := match pLi (bFree1 b) with Some _ => N.of_nat (nLi (bFree1 b)) | None => n end in
      match pLi (bFree1 b), (i <? n')%N with
      | Some li1, true => onSlices2x dd [1; 3] (option_map (fun f => f t) (liSuper li1 (N.to_nat i))) rho drhodt
      | _, _ =>
          let i := wsub i n' in
          if (i <? N.of_nat (nLi (bIa b)))%N
          then match pLi (bIa b) with Some li => option_map (fun f => f t rho drhodt) (liSuper li (N.to_nat i)) | None => Some drhodt end
          else Some drhodt
      end
  end.
End Binary.

(** ** Composite *)
Section Composite.
(** dimensions; the frees, in the order of the ordinals; the acts with the ordinals they act on *)
Record composite := mkComposite { cDims : list nat; cFrees : list parts; cActs : list (list nat * parts) }.
Variable c : composite.
Let dims := cDims c.

(** mpl::for_each<Ordinals>, then fusion::for_each over the acts: the constituents in this order with Vector<idx> resp. the act itself *)
Definition constituents : list (list nat * parts) :=
  (map (fun ip => ([fst ip], snd ip)) (combine (seq 0 (List.length (cFrees c))) (cFrees c)) ++ cActs c)%list.

(** highestFrequency_v, Composite.tcc:113-123: over the frees only; [None]: no frees *)
Definition compositeFrequency : option R :=
  match cFrees c with [] => None | p :: ps => Some (fold_left (fun x p => if Rlt_dec x (pFreq p) then pFreq p else x) ps (pFreq p)) end.

(** nAvrLA, Composite.tcc:219-231 *)
Definition compositeNLi : nat := fold_left (fun s vp => s + nLi (snd vp)) constituents 0.
Definition compositeNAv : nat := fold_left (fun s vp => s + nAv (snd vp)) constituents 0.
(** averageLA, Composite.tcc:235-264; concatenate, Algorithm.h:52-70: copies into an array of size numberAvr *)
Definition compositeAverage (avr : parts -> R -> op -> option (list R)) (n : nat) (t : R) (m : ldo) : option (list R) :=
  match fold_left (fun acc vp => match acc, traceOver dims (fst vp) m (avr (snd vp) t) with
                                 | Some l, Some a => Some (l ++ a)%list | _, _ => None end) constituents (Some []) with
  | Some l => checked n l
  | None => None
  end.
Definition compositeRates := compositeAverage averageLi compositeNLi.
Definition compositeAverages := compositeAverage averageAv compositeNAv.
(** process_v, Composite.tcc:342-359; [l1] is l+1 *)
Definition compositeProcess (a : list R) : list R :=
  snd (fold_left (fun st vp => match st with (l1, a) =>
         match pAv (snd vp) with
         | Some av => let u1 := l1 + avN av in
                      if l1 <? u1 then (u1, writeWindow l1 (avProcess av (window l1 (u1 - l1) a)) a) else (l1, a)
         | None => (l1, a) end end) constituents (0, a)).
(** stream_v, Composite.tcc:363-383 *)
Definition compositeStream (a : list R) (os : list token) : list token :=
  snd (fold_left (fun st vp => match st with (l1, os) =>
         match pAv (snd vp) with
         | Some av => let u1 := l1 + avN av in
                      if l1 <? u1 then (u1, streamCommon (window l1 (u1 - l1) a) os) else (l1, os)
         | None => (l1, os) end end) constituents (0, os)).
(** streamKeyLA, Composite.tcc:203-215 *)
Definition compositeKey (key : parts -> list token * nat -> list token * nat) (os : list token) (i : nat) : list token * nat :=
  fold_left (fun x vp => key (snd vp) x) constituents (os, i).

(** applicableInMaster_v, Composite.tcc:133-148 *)
Definition compositeApplicable : bool := fold_left (fun r vp => r && applicable (snd vp)) constituents true.
(** actWithU_v, Composite.tcc:152-165 *)
Definition compositeU (t : R) (psi : array) (t0 : R) : option array :=
  fold_left (fun x vp => match x, pEx (snd vp) with
                         | Some psi, Some ex => onSlices dims (fst vp) (fun s => exU ex t s t0) psi
                         | _, None => x
                         | None, _ => None end) constituents (Some psi).
(** addContribution_v, Composite.tcc:174-193 *)
Definition compositeH (t : R) (psi dpsidt : array) (t0 : R) : option array :=
  fold_left (fun x vp => match x, pHa (snd vp) with
                         | Some d, Some ha => onSlices2 dims (fst vp) (fun s d => haAdd ha t s d t0) psi d
                         | _, None => x
                         | None, _ => None end) constituents (Some dpsidt).
(** actWithJ_v, Composite.tcc:275-299: flag, ordoJump, psi *)
Definition compositeJ (t : R) (psi : array) (ordoJump : N) : option array :=
  snd (fold_left (fun st vp => match st with (flag, i, x) =>
         match flag, pLi (snd vp), x with
         | false, Some li, Some psi =>
             let n := N.of_nat (liN li) in
             let i' := wsub i n in
             if (i <? n)%N then (true, i', onSlices dims (fst vp) (fun s => liJ li t s (N.to_nat i)) psi) else (false, i', x)
         | _, _, _ => st end end) constituents (false, ordoJump, Some psi)).
(** actWithSuperoperator_v, Composite.tcc:303-331 *)
Definition compositeSuper (t : R) (rho drhodt : array) (ordoJump : N) : option array :=
  let rank := List.length dims in
  snd (fold_left (fun st vp => match st with (flag, i, x) =>
         match flag, pLi (snd vp), x with
         | false, Some li, Some d =>
             let n := N.of_nat (liN li) in
             let i' := wsub i n in
             if (i <? n)%N
             then (true, i', onSlices2x (dims ++ dims)%list (extendVector rank (fst vp)) (option_map (fun f => f t) (liSuper li (N.to_nat i))) rho d)
             else (false, i', x)
         | _, _, _ => st end end) constituents (false, ordoJump, Some drhodt)).
End Composite.

(** ** Construction of composites *)
(** fillFrees, Composite.tcc:45-61: frees are compared by pointer, which is represented by a number; [Inconsistent] is
    CompositeConsistencyException(idx,i). An act is the list of its ordinals with the frees of its interaction (getFrees()[i]). *)
Inductive filled := Inconsistent (idx i : nat) | Filled (frees : list (option nat)).
Fixpoint fillOne (act : list (nat * nat)) (i : nat) (res : list (option nat)) : filled :=
  match act with
  | [] => Filled res
  | (idx, fr) :: act' =>
      match nth idx res None with
      | Some f => if Nat.eqb f fr then fillOne act' (Datatypes.S i) res else Inconsistent idx i
      | None => fillOne act' (Datatypes.S i) (firstn idx res ++ Some fr :: skipn (Datatypes.S idx) res)%list
      end
  end.
Fixpoint fillAll (acts : list (list (nat * nat))) (res : list (option nat)) : filled :=
  match acts with
  | [] => Filled res
  | a :: acts' => match fillOne a 0 res with Inconsistent idx i => Inconsistent idx i | Filled r => fillAll acts' r end
  end.
(** MaxRank_v, Composite.h:31-32, with MaxMF_t, SeqLess, details_TMP_helpers.h:14-18 *)
Definition maxRank (acts : list (list (nat * nat))) : nat := list_max (map (fun a => list_max (map fst a)) acts).
Definition fillFrees (acts : list (list (nat * nat))) : filled :=
  fillAll acts (repeat None (Datatypes.S (maxRank acts))).
(** CheckMeta_v, details_TMP_helpers.h:20-36, asserted in Composite.h:83-84: every ordinal below the rank occurs in some act *)
Definition checkMeta (acts : list (list (nat * nat))) : bool :=
  forallb (fun o => existsb (fun a => existsb (Nat.eqb o) (map fst a)) acts) (seq 0 (Datatypes.S (maxRank acts))).
(** doMake, Composite.tcc:395-425, and binary::make, BinarySystem.cc:300-335: the selected combination of interfaces *)
Definition characteristics (ps : list parts) : bool * bool * bool :=
  fold_left (fun sc p => match sc with (ex, ha, li) =>
    (ex || match pEx p with Some _ => true | None => false end,
     ha || match pHa p with Some _ => true | None => false end,
     li || match pLi p with Some _ => true | None => false end) end) ps (false, false, false).
