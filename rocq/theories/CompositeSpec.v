(** What a composite of described constituents has to be. *)
From Coq Require Import List Arith NArith Reals String.
From Verif Require Import Star CReal Arr SliceSpec HermSpec DensitySpec MasterModel MasterSpec CompositeModel.
Import ListNotations.

(** The operator [M] of the subsystems [V] on the whole Hilbert space: M (x) 1. *)
Definition embed {K : StarRing} (V dims : list nat) (M : list nat -> list nat -> K) : list nat -> list nat -> K :=
  fun y y' => if listnat_eqb (coords (others (List.length dims) V) y) (coords (others (List.length dims) V) y')
              then M (coords V y) (coords V y') else k0.
(** Re Tr(O rho) *)
Definition expectation (dims : list nat) (O rho : op) : R := cre (mtrace dims (mmul dims O rho)).
Definition identity : op := fun i j => if listnat_eqb i j then k1 else k0.
Definition zero : op := fun _ _ => k0.

(** ** Descriptions of a constituent of shape [sh] by operators; a missing part is described by the empty list, zero, the identity *)
Definition rates_are (sh : list nat) (p : parts) (t : R) (Os : list op) : Prop :=
  match pLi p with Some li => liN li = List.length Os /\ forall rho, liRates li t rho = map (fun O => expectation sh O rho) Os | None => Os = [] end.
Definition averages_are (sh : list nat) (p : parts) (t : R) (Os : list op) : Prop :=
  match pAv p with Some av => avN av = List.length Os /\ forall rho, avAverage av t rho = map (fun O => expectation sh O rho) Os | None => Os = [] end.
Definition jumps_are (sh : list nat) (p : parts) (t : R) (Js : list op) : Prop :=
  match pLi p with
  | Some li => liN li = List.length Js /\ forall i, i < List.length Js -> acts_as sh (fun psi => liJ li t psi i) (nth i Js zero)
  | None => Js = []
  end.
(** the superoperators, where implemented, add J rho J^dagger *)
Definition supers_are (sh : list nat) (p : parts) (t : R) (Js : list op) : Prop :=
  match pLi p with
  | Some li => forall i f, i < List.length Js -> liSuper li i = Some f ->
      forall rho d, mmeq sh (asOp (f t rho d)) (madd (asOp d) (conjugated sh (nth i Js zero) (asOp rho)))
  | None => True
  end.
(** for which jumps the superoperator is implemented *)
Definition given (p : parts) : list bool :=
  match pLi p with Some li => map (fun i => match liSuper li i with Some _ => true | None => false end) (seq 0 (liN li)) | None => [] end.
Definition hamiltonian_adds (sh : list nat) (p : parts) (t t0 : R) (M : op) : Prop :=
  match pHa p with
  | Some ha => forall psi d s, inr sh s -> haAdd ha t psi d t0 s = kadd (d s) (isum sh (fun s' => kmul (M s s') (psi s')))
  | None => M = zero
  end.
(** H/i *)
Definition minusI (H : op) : op := fun i j => kmul (kopp CI) (H i j).
Definition propagates_with (sh : list nat) (p : parts) (t t0 : R) (U : op) : Prop :=
  match pEx p with Some ex => acts_as sh (fun psi => exU ex t psi t0) U | None => U = identity end.
(** processing does not change the number of averages, keys have as many labels as there are averages *)
Definition tidy (p : parts) : Prop :=
  match pAv p with Some av => avN av = List.length (avLabels av) /\ forall w, List.length w = avN av -> List.length (avProcess av w) = avN av | None => True end.
Definition tidyLi (p : parts) : Prop := match pLi p with Some li => liN li = List.length (liLabels li) | None => True end.

(** ** The whole *)
(** the legs of all constituents are good positions, dimensions are positive, every dimension has a free *)
Definition wellFormed (c : composite) : Prop :=
  (forall k, In k (cDims c) -> 0 < k) /\ List.length (cFrees c) = List.length (cDims c) /\
  Forall (fun vp => good_positions (List.length (cDims c)) (fst vp)) (cActs c).
(** the legs of constituents are different subsystems of the whole *)
Definition goodSubs (dims : list nat) (subs : list (list nat * parts)) : Prop := Forall (fun vp => good_positions (List.length dims) (fst vp)) subs.
(** a description of each constituent by what [D] says about its shape and parts *)
Definition described {X} (D : list nat -> parts -> X -> Prop) (dims : list nat) (subs : list (list nat * parts)) (xs : list X) : Prop :=
  Forall2 (fun vp x => D (coords (fst vp) dims) (snd vp) x) subs xs.
(** operators of all constituents on the whole Hilbert space, in order *)
Definition embedded (dims : list nat) (subs : list (list nat * parts)) (Oss : list (list op)) : list op :=
  List.concat (map (fun vO => map (embed (fst (fst vO)) dims) (snd vO)) (combine subs Oss)).
(** their sum, and their product, the first applied first *)
Definition embeddedSum (dims : list nat) (subs : list (list nat * parts)) (Ms : list op) : op :=
  msum (map (fun vM => embed (fst (fst vM)) dims (snd vM)) (combine subs Ms)).
Definition embeddedProduct (dims : list nat) (subs : list (list nat * parts)) (Us : list op) : op :=
  fold_left (fun A vU => mmul dims (embed (fst (fst vU)) dims (snd vU)) A) (combine subs Us) identity.

(** the constituents of a binary system *)
Definition binaryParts (b : binary) : list (list nat * parts) := [([0], bFree0 b); ([1], bFree1 b); ([0; 1], bIa b)].
Definition goodBinary (b : binary) : Prop := exists d0 d1, bDims b = [d0; d1] /\ 0 < d0 /\ 0 < d1.

(** ** Columns *)
(** the columns of each constituent: consecutive pieces of the lengths given *)
Fixpoint pieces (ns : list nat) (a : list R) : list (list R) :=
  match ns with [] => [] | n :: ns' => firstn n a :: pieces ns' (skipn n a) end.
(** what the constituent does with its own columns *)
Definition processOwn (p : parts) (w : list R) : list R := match pAv p with Some av => avProcess av w | None => w end.
(** what it writes of them: nothing if there are none *)
Definition streamOwn (p : parts) (w : list R) : list token := match w with [] => [] | _ => Tab :: map Num w end.
(** labels of a key, with their numbers *)
Definition numbered (os : list token) : list (nat * string) :=
  flat_map (fun tk => match tk with Label i s => [(i, s)] | _ => [] end) os.
Definition labelsAv (p : parts) : list string := match pAv p with Some av => avLabels av | None => [] end.
Definition labelsLi (p : parts) : list string := match pLi p with Some li => liLabels li | None => [] end.

(** ** The composite as the Master trajectory sees it *)
(** [x] stands for the impossible failure of slice iteration *)
Definition orElse {X} (x : X) (o : option X) : X := match o with Some y => y | None => x end.
(** a superoperator throws or not whatever it is applied to *)
Definition compositeQ (c : composite) : qsystem :=
  match characteristics (map snd (constituents c)) with (ex, ha, li) =>
    mkQ (cDims c)
      (if ha then Some (fun t t0 psi => orElse psi (compositeH c t psi (fun _ => k0) t0)) else None)
      (if ex then Some (fun t t0 psi => orElse psi (compositeU c t psi t0)) else None)
      (fun t => if li then
         map (fun i => ((fun psi => orElse psi (compositeJ c t psi (N.of_nat i))),
                        option_map (fun _ rho d => orElse d (compositeSuper c t rho d (N.of_nat i)))
                                   (compositeSuper c t (fun _ => k0) (fun _ => k0) (N.of_nat i))))
             (seq 0 (compositeNLi c))
       else [])
      (compositeApplicable c)
  end.
(** the same for a binary system *)
Definition binaryQ (b : binary) : qsystem :=
  match characteristics [bFree0 b; bFree1 b; bIa b] with (ex, ha, li) =>
    mkQ (bDims b)
      (if ha then Some (fun t t0 psi => orElse psi (binaryH b t psi (fun _ => k0) t0)) else None)
      (if ex then Some (fun t t0 psi => orElse psi (binaryU b t psi t0)) else None)
      (fun t => if li then
         map (fun i => ((fun psi => orElse psi (binaryJ b t psi (N.of_nat i))),
                        option_map (fun _ rho d => orElse d (binarySuper b t rho d (N.of_nat i)))
                                   (binarySuper b t (fun _ => k0) (fun _ => k0) (N.of_nat i))))
             (seq 0 (binaryNLi b))
       else [])
      (binaryApplicable b)
  end.
(** the combinations for which jumps are counted correctly: the second free has a Liouvillean part, or the first has no jumps,
    or the interaction has none *)
Definition countable (b : binary) : Prop := pLi (bFree1 b) <> None \/ nLi (bFree0 b) = 0 \/ nLi (bIa b) = 0.

(** ** Construction *)
(** the acts agree on which free is found at which ordinal *)
Definition consistent (acts : list (list (nat * nat))) : Prop :=
  forall idx f f', In (idx, f) (List.concat acts) -> In (idx, f') (List.concat acts) -> f = f'.
(** every ordinal below the largest occurs in some act *)
Definition covering (acts : list (list (nat * nat))) : Prop :=
  forall idx, (exists idx' f', In (idx', f') (List.concat acts) /\ idx <= idx') -> exists f, In (idx, f) (List.concat acts).
