(** C43-C45, C63-C65: systems composed of others. [embed V dims M] is the operator M of the constituent acting on the subsystems V, on the
    Hilbert space of the whole. *)
From Coq Require Import List Arith NArith Reals Lra Lia String.
From Verif Require Import Star CReal Arr SliceSpec HermSpec DensityModel DensitySpec MasterModel MasterSpec MasterProofs MasterCases
  CompositeModel CompositeSpec EmbedProofs CompositeProofs CompositeLemmas CompositeFacts BinaryProofs FillProofs CompositeCases.
Import ListNotations.
Local Open Scope list_scope.

(** * C43: binary systems. Refuted: if the second free has no Liouvillean part, the jumps of the interaction are lost behind those of the
    first free: here jump 1 is the collective decay, but the doubly excited state is left as it is. *)
Theorem C43_refuted : let b := pair (atom true) darkPart in let js := embedded [2; 2] (binaryParts b) [[atomJ]; []; [exchJ]] in
  goodBinary b /\ described (fun sh p => jumps_are sh p 0%R) [2; 2] (binaryParts b) [[atomJ]; []; [exchJ]] /\
  List.length js = 2 /\ nth 1 js zero [0; 0] [1; 1] = k1 /\
  binaryJ b 0%R both 1%N = Some both /\
  isum [2; 2] (fun k => kmul (nth 1 js zero [1; 1] k) (both k)) <> both [1; 1].
Proof. exact lost_fact. Qed.
Print Assumptions C43_refuted.
(** this is so in every such system, for the first jump of the interaction *)
Theorem C43_lost_refuted : forall b t psi, pLi (bFree1 b) = None -> 0 < nLi (bFree0 b) -> 0 < nLi (bIa b) ->
  (N.of_nat (nLi (bFree0 b) + nLi (bIa b)) <= 2 ^ 64)%N -> binaryJ b t psi (N.of_nat (nLi (bFree0 b))) = Some psi.
Proof. exact bjump_lost. Qed.
Print Assumptions C43_lost_refuted.
Example C43_lost_case : pLi (bFree1 (pair (atom true) darkPart)) = None /\ nLi (bFree0 (pair (atom true) darkPart)) = 1 /\ nLi (bIa (pair (atom true) darkPart)) = 1.
Proof. repeat split. Qed.
(** In all other combinations the i-th jump acts with the i-th of the operators of the first free, the second free, the interaction *)
Theorem C43_jump_partial : forall b, goodBinary b -> forall t Jss, described (fun sh p => jumps_are sh p t) (bDims b) (binaryParts b) Jss ->
  countable b -> let js := embedded (bDims b) (binaryParts b) Jss in (N.of_nat (List.length js) <= 2 ^ 64)%N ->
  forall i psi, i < List.length js ->
  exists psi', binaryJ b t psi (N.of_nat i) = Some psi' /\
    forall y, inr (bDims b) y -> psi' y = isum (bDims b) (fun k => kmul (nth i js zero y k) (psi k)).
Proof. exact bjump_fact. Qed.
Print Assumptions C43_jump_partial.
(** the superoperator, where implemented, adds J rho J^dagger; otherwise it throws *)
Theorem C43_super_partial : forall b, goodBinary b -> forall t Jss, described (fun sh p => jumps_are sh p t) (bDims b) (binaryParts b) Jss ->
  described (fun sh p => supers_are sh p t) (bDims b) (binaryParts b) Jss -> countable b ->
  let js := embedded (bDims b) (binaryParts b) Jss in (N.of_nat (List.length js) <= 2 ^ 64)%N -> forall i, i < List.length js ->
  if nth i (flat_map given (map snd (binaryParts b))) false
  then forall rho d, exists d', binarySuper b t rho d (N.of_nat i) = Some d' /\
     mmeq (bDims b) (asOp d') (madd (asOp d) (conjugated (bDims b) (nth i js zero) (asOp rho)))
  else forall rho d, binarySuper b t rho d (N.of_nat i) = None.
Proof. exact bsuper_fact. Qed.
Print Assumptions C43_super_partial.
(** rates are listed in that order in all combinations *)
Theorem C43_rates : forall b, goodBinary b -> forall t Oss, described (fun sh p => rates_are sh p t) (bDims b) (binaryParts b) Oss ->
  forall m, binaryRates b t m = Some (map (fun O => expectation (bDims b) O (indexOf m)) (embedded (bDims b) (binaryParts b) Oss)).
Proof. exact brates_fact. Qed.
Print Assumptions C43_rates.
Example C43_case : forall t, let b := pair (atom true) (atom false) in goodBinary b /\
  described (fun sh p => jumps_are sh p t) [2; 2] (binaryParts b) [[atomJ]; [atomJ]; [exchJ]] /\
  described (fun sh p => supers_are sh p t) [2; 2] (binaryParts b) [[atomJ]; [atomJ]; [exchJ]] /\ countable b /\
  described (fun sh p => rates_are sh p t) [2; 2] (binaryParts b) [[mmul [2] (dag atomJ) atomJ]; [mmul [2] (dag atomJ) atomJ]; [mmul [2; 2] (dag exchJ) exchJ]].
Proof. intros t. exact (conj (pair_good _ _) (conj (light_jumps t) (conj (light_supers t) (conj light_countable (light_rates t))))). Qed.

(** * C44: composites of any number of frees and interactions *)
Theorem C44_jump : forall c, wellFormed c -> forall t Jss, described (fun sh p => jumps_are sh p t) (cDims c) (constituents c) Jss ->
  let js := embedded (cDims c) (constituents c) Jss in (N.of_nat (List.length js) <= 2 ^ 64)%N ->
  forall i psi, i < List.length js ->
  exists psi', compositeJ c t psi (N.of_nat i) = Some psi' /\
    forall y, inr (cDims c) y -> psi' y = isum (cDims c) (fun k => kmul (nth i js zero y k) (psi k)).
Proof. exact jump_fact. Qed.
Print Assumptions C44_jump.
Theorem C44_super : forall c, wellFormed c -> forall t Jss, described (fun sh p => jumps_are sh p t) (cDims c) (constituents c) Jss ->
  described (fun sh p => supers_are sh p t) (cDims c) (constituents c) Jss ->
  let js := embedded (cDims c) (constituents c) Jss in (N.of_nat (List.length js) <= 2 ^ 64)%N -> forall i, i < List.length js ->
  if nth i (flat_map given (map snd (constituents c))) false
  then forall rho d, exists d', compositeSuper c t rho d (N.of_nat i) = Some d' /\
     mmeq (cDims c) (asOp d') (madd (asOp d) (conjugated (cDims c) (nth i js zero) (asOp rho)))
  else forall rho d, compositeSuper c t rho d (N.of_nat i) = None.
Proof. exact super_fact. Qed.
Print Assumptions C44_super.
Theorem C44_rates : forall c, wellFormed c -> forall t Oss, described (fun sh p => rates_are sh p t) (cDims c) (constituents c) Oss ->
  forall m, compositeRates c t m = Some (map (fun O => expectation (cDims c) O (indexOf m)) (embedded (cDims c) (constituents c) Oss)).
Proof. exact rates_fact. Qed.
Print Assumptions C44_rates.
(** if each rate of each constituent is that of its jump, the i-th rate of the whole is that of the i-th jump *)
Theorem C44_belong : forall dims subs, goodSubs dims subs -> forall Jss Oss,
  Forall2 (fun vp JO => Forall2 (fun J O => mmeq (coords (fst vp) dims) O (mmul (coords (fst vp) dims) (dag J) J)) (fst JO) (snd JO)) subs (combine Jss Oss) ->
  List.length Jss = List.length Oss ->
  Forall2 (fun J O => mmeq dims O (mmul dims (dag J) J)) (embedded dims subs Jss) (embedded dims subs Oss).
Proof. exact belong_fact. Qed.
Print Assumptions C44_belong.
(** two decaying atoms, a dark one, collective decay of the last and the first *)
Example C44_case : forall t, wellFormed trio /\ described (fun sh p => jumps_are sh p t) (cDims trio) (constituents trio) trioJs /\
  described (fun sh p => supers_are sh p t) (cDims trio) (constituents trio) trioJs /\
  described (fun sh p => rates_are sh p t) (cDims trio) (constituents trio) trioOs /\
  Forall2 (fun vp JO => Forall2 (fun J O => mmeq (coords (fst vp) (cDims trio)) O (mmul (coords (fst vp) (cDims trio)) (dag J) J)) (fst JO) (snd JO))
    (constituents trio) (combine trioJs trioOs) /\
  nth 2 (embedded (cDims trio) (constituents trio) trioJs) zero [0; 1; 0] [1; 1; 1] = k1.
Proof.
  intros t. exact (conj trio_well (conj (trio_jumps t) (conj (trio_supers t) (conj (trio_rates t) (conj trio_belong (proj1 (proj2 trio_third))))))).
Qed.

(** * C45: averages, columns, keys *)
Theorem C45_averages : forall c, wellFormed c -> forall t Oss, described (fun sh p => averages_are sh p t) (cDims c) (constituents c) Oss ->
  forall m, compositeAverages c t m = Some (map (fun O => expectation (cDims c) O (indexOf m)) (embedded (cDims c) (constituents c) Oss)).
Proof. exact averages_fact. Qed.
Print Assumptions C45_averages.
Theorem C45_averages_binary : forall b, goodBinary b -> forall t Oss, described (fun sh p => averages_are sh p t) (bDims b) (binaryParts b) Oss ->
  forall m, binaryAverages b t m = Some (map (fun O => expectation (bDims b) O (indexOf m)) (embedded (bDims b) (binaryParts b) Oss)).
Proof. exact baverages_fact. Qed.
Print Assumptions C45_averages_binary.
Theorem C45_process : forall c a, Forall tidy (map snd (constituents c)) -> List.length a = compositeNAv c ->
  compositeProcess c a = List.concat (map (fun pw => processOwn (fst pw) (snd pw))
    (combine (map snd (constituents c)) (pieces (map nAv (map snd (constituents c))) a))).
Proof. exact process_fact. Qed.
Print Assumptions C45_process.
Theorem C45_process_binary : forall b a, Forall tidy (map snd (binaryParts b)) -> List.length a = binaryNAv b ->
  binaryProcess b a = List.concat (map (fun pw => processOwn (fst pw) (snd pw))
    (combine (map snd (binaryParts b)) (pieces (map nAv (map snd (binaryParts b))) a))).
Proof. exact bprocess_fact. Qed.
Print Assumptions C45_process_binary.
Theorem C45_stream : forall c a os, List.length a = compositeNAv c ->
  compositeStream c a os = os ++ List.concat (map (fun pw => streamOwn (fst pw) (snd pw))
    (combine (map snd (constituents c)) (pieces (map nAv (map snd (constituents c))) a))).
Proof. exact stream_fact. Qed.
Print Assumptions C45_stream.
Theorem C45_stream_binary : forall b a os, List.length a = binaryNAv b ->
  binaryStream b a os = os ++ List.concat (map (fun pw => streamOwn (fst pw) (snd pw))
    (combine (map snd (binaryParts b)) (pieces (map nAv (map snd (binaryParts b))) a))).
Proof. exact bstream_fact. Qed.
Print Assumptions C45_stream_binary.
(** the key of averages; its last number is the first one plus the number of columns *)
Theorem C45_key : forall c i, Forall tidy (map snd (constituents c)) ->
  let x := compositeKey c keyAv [] i in let labels := flat_map labelsAv (map snd (constituents c)) in
  List.length labels = compositeNAv c /\ numbered (fst x) = combine (seq i (compositeNAv c)) labels /\ snd x = i + compositeNAv c.
Proof. exact key_whole. Qed.
Print Assumptions C45_key.
Theorem C45_key_binary : forall b i, Forall tidy (map snd (binaryParts b)) ->
  let x := binaryKey b keyAv [] i in let labels := flat_map labelsAv (map snd (binaryParts b)) in
  List.length labels = binaryNAv b /\ numbered (fst x) = combine (seq i (binaryNAv b)) labels /\ snd x = i + binaryNAv b.
Proof. exact bkey_whole. Qed.
Print Assumptions C45_key_binary.
(** the same for the key of the rates *)
Theorem C45_key_rates : forall c i, Forall tidyLi (map snd (constituents c)) ->
  let x := compositeKey c keyLi [] i in let labels := flat_map labelsLi (map snd (constituents c)) in
  List.length labels = compositeNLi c /\ numbered (fst x) = combine (seq i (compositeNLi c)) labels /\ snd x = i + compositeNLi c.
Proof. exact keyLi_whole. Qed.
Print Assumptions C45_key_rates.
Theorem C45_key_rates_binary : forall b i, Forall tidyLi (map snd (binaryParts b)) ->
  let x := binaryKey b keyLi [] i in let labels := flat_map labelsLi (map snd (binaryParts b)) in
  List.length labels = binaryNLi b /\ numbered (fst x) = combine (seq i (binaryNLi b)) labels /\ snd x = i + binaryNLi b.
Proof. exact bkeyLi_whole. Qed.
Print Assumptions C45_key_rates_binary.
Example C45_case : forall t x y z, described (fun sh p => averages_are sh p t) (cDims trio) (constituents trio) trioAs /\
  Forall tidy (map snd (constituents trio)) /\ Forall tidyLi (map snd (constituents trio)) /\ compositeNAv trio = 3 /\
  compositeStream trio [x; y; z] [] = [Tab; Num x; Tab; Num y; Tab; Num z] /\
  described (fun sh p => averages_are sh p t) [2; 2] (binaryParts (pair (atom true) (atom false))) [[atomH]; [atomH]; [exchH]] /\
  Forall tidy (map snd (binaryParts (pair (atom true) (atom false)))) /\ Forall tidyLi (map snd (binaryParts (pair (atom true) (atom false)))).
Proof.
  intros t x y z. exact (conj (trio_averages t) (conj trio_tidy (conj trio_tidyLi (conj eq_refl (conj eq_refl (conj (light_averages t) (conj light_tidy light_tidyLi))))))).
Qed.

(** * C63: Hamiltonian, propagator, master equation *)
Theorem C63_hamiltonian : forall c, wellFormed c -> forall t t0 Ms, described (fun sh p => hamiltonian_adds sh p t t0) (cDims c) (constituents c) Ms ->
  forall psi d, exists d', compositeH c t psi d t0 = Some d' /\
    forall y, inr (cDims c) y -> d' y = kadd (d y) (isum (cDims c) (fun k => kmul (embeddedSum (cDims c) (constituents c) Ms y k) (psi k))).
Proof. exact hamiltonian_fact. Qed.
Print Assumptions C63_hamiltonian.
Theorem C63_hamiltonian_binary : forall b, goodBinary b -> forall t t0 Ms, described (fun sh p => hamiltonian_adds sh p t t0) (bDims b) (binaryParts b) Ms ->
  forall psi d, exists d', binaryH b t psi d t0 = Some d' /\
    forall y, inr (bDims b) y -> d' y = kadd (d y) (isum (bDims b) (fun k => kmul (embeddedSum (bDims b) (binaryParts b) Ms y k) (psi k))).
Proof. exact bhamiltonian_fact. Qed.
Print Assumptions C63_hamiltonian_binary.
Theorem C63_propagator : forall c, wellFormed c -> forall t t0 Us, described (fun sh p => propagates_with sh p t t0) (cDims c) (constituents c) Us ->
  forall psi, exists psi', compositeU c t psi t0 = Some psi' /\
    forall y, inr (cDims c) y -> psi' y = isum (cDims c) (fun k => kmul (embeddedProduct (cDims c) (constituents c) Us y k) (psi k)).
Proof. exact propagator_fact. Qed.
Print Assumptions C63_propagator.
Theorem C63_propagator_binary : forall b, goodBinary b -> forall t t0 Us, described (fun sh p => propagates_with sh p t t0) (bDims b) (binaryParts b) Us ->
  forall psi, exists psi', binaryU b t psi t0 = Some psi' /\
    forall y, inr (bDims b) y -> psi' y = isum (bDims b) (fun k => kmul (embeddedProduct (bDims b) (binaryParts b) Us y k) (psi k)).
Proof. exact bpropagator_fact. Qed.
Print Assumptions C63_propagator_binary.
(** The exact propagation may be used in master equations if and only if that of each constituent having one may. *)
Theorem C63_applicable : forall c, compositeApplicable c = true <-> forall V p ex, In (V, p) (constituents c) -> pEx p = Some ex -> exMaster ex = true.
Proof. exact composite_applicable. Qed.
Print Assumptions C63_applicable.
Theorem C63_applicable_binary : forall b, binaryApplicable b = true <-> forall V p ex, In (V, p) (binaryParts b) -> pEx p = Some ex -> exMaster ex = true.
Proof. exact binary_applicable. Qed.
Print Assumptions C63_applicable_binary.
Example C63_applicable_case : compositeApplicable (mkComposite [2; 2] [exPart [2] flip; mkParts (Some (mkExact false (fun _ psi _ => psi))) None None None 0%R] []) = false.
Proof. reflexivity. Qed.
Theorem C63_isometric : forall dims subs, goodSubs dims subs -> forall Us : list op,
  Forall2 (fun vp U => isometric (coords (fst vp) dims) U) subs Us -> isometric dims (embeddedProduct dims subs Us).
Proof. exact unitary_fact. Qed.
Print Assumptions C63_isometric.
Example C63_propagator_case : forall t t0, wellFormed duo /\ described (fun sh p => propagates_with sh p t t0) (cDims duo) (constituents duo) duoUs /\
  Forall2 (fun vp U => isometric (coords (fst vp) (cDims duo)) U) (constituents duo) duoUs /\
  goodBinary duoB /\ described (fun sh p => propagates_with sh p t t0) (bDims duoB) (binaryParts duoB) duoUs.
Proof. intros t t0. exact (conj duo_well (conj (duo_propagates t t0) (conj duo_isometric (conj duoB_good (duoB_propagates t t0))))). Qed.
(** The master equation of the whole: the Hermitian Hamiltonians [hs] and the jump operators of the constituents, where [Hs] are the
    non-Hermitian Hamiltonians the constituents implement *)
Theorem C63_master : forall c, wellFormed c -> forall t t0 hs Hs Jss rho, let dims := cDims c in let subs := constituents c in
  described (fun sh p H => hamiltonian_adds sh p t t0 (minusI H)) dims subs Hs ->
  described (fun sh p => jumps_are sh p t) dims subs Jss -> described (fun sh p => supers_are sh p t) dims subs Jss ->
  (N.of_nat (List.length (embedded dims subs Jss)) <= 2 ^ 64)%N ->
  Forall2 (fun vp h => hermitian (coords (fst vp) dims) h) subs hs ->
  Forall2 (fun vp x => mmeq (coords (fst vp) dims) (snd (fst x)) (nonHermitian (coords (fst vp) dims) (fst (fst x)) (snd x))) subs (combine (combine hs Hs) Jss) ->
  hermitian dims (asOp rho) ->
  let H := embeddedSum dims subs hs in let js := embedded dims subs Jss in
  let d := asOp (derivative (compositeQ c) t0 rho t) in
  mmeq dims d (lindblad dims (nonHermitian dims H js) js (asOp rho)) /\ hermitian dims H /\ hermitian dims d /\ mtrace dims d = k0.
Proof. exact master_fact. Qed.
Print Assumptions C63_master.
(** For binary systems with the exception of C43 *)
Theorem C43_master_partial : forall b, goodBinary b -> forall t t0 hs Hs Jss rho, let dims := bDims b in let subs := binaryParts b in countable b ->
  described (fun sh p H => hamiltonian_adds sh p t t0 (minusI H)) dims subs Hs ->
  described (fun sh p => jumps_are sh p t) dims subs Jss -> described (fun sh p => supers_are sh p t) dims subs Jss ->
  (N.of_nat (List.length (embedded dims subs Jss)) <= 2 ^ 64)%N ->
  Forall2 (fun vp h => hermitian (coords (fst vp) dims) h) subs hs ->
  Forall2 (fun vp x => mmeq (coords (fst vp) dims) (snd (fst x)) (nonHermitian (coords (fst vp) dims) (fst (fst x)) (snd x))) subs (combine (combine hs Hs) Jss) ->
  hermitian dims (asOp rho) ->
  let H := embeddedSum dims subs hs in let js := embedded dims subs Jss in
  let d := asOp (derivative (binaryQ b) t0 rho t) in
  mmeq dims d (lindblad dims (nonHermitian dims H js) js (asOp rho)) /\ hermitian dims H /\ hermitian dims d /\ mtrace dims d = k0.
Proof. exact bmaster_fact. Qed.
Print Assumptions C43_master_partial.
Example C63_master_case : forall t t0, described (fun sh p H => hamiltonian_adds sh p t t0 (minusI H)) (cDims trio) (constituents trio) trioHnh /\
  Forall2 (fun vp h => hermitian (coords (fst vp) (cDims trio)) h) (constituents trio) trioH /\
  Forall2 (fun vp x => mmeq (coords (fst vp) (cDims trio)) (snd (fst x)) (nonHermitian (coords (fst vp) (cDims trio)) (fst (fst x)) (snd x)))
    (constituents trio) (combine (combine trioH trioHnh) trioJs) /\
  described (fun sh p H => hamiltonian_adds sh p t t0 (minusI H)) [2; 2] (binaryParts (pair (atom true) (atom false)))
    [nonHermitian [2] atomH [atomJ]; nonHermitian [2] atomH [atomJ]; nonHermitian [2; 2] exchH [exchJ]].
Proof. intros t t0. exact (conj (trio_hamiltonian t t0) (conj trio_hermitian (conj trio_nh (light_hamiltonian t t0)))). Qed.

(** * C64: the highest frequency. Refuted for composites: interactions are not considered. *)
Theorem C64_refuted : exists c x, compositeFrequency c = Some x /\ exists vp, In vp (constituents c) /\ (x < pFreq (snd vp))%R.
Proof. exact (ex_intro _ trio low_frequency). Qed.
Print Assumptions C64_refuted.
(** it is the highest one of the frees *)
Theorem C64_frees_partial : forall c x, compositeFrequency c = Some x ->
  (forall p, In p (cFrees c) -> (pFreq p <= x)%R) /\ exists p, In p (cFrees c) /\ x = pFreq p.
Proof. exact frequency_fact. Qed.
Print Assumptions C64_frees_partial.
(** binary systems consider the interaction, too *)
Theorem C64_binary : forall b, (forall vp, In vp (binaryParts b) -> (pFreq (snd vp) <= binaryFrequency b)%R) /\
  exists vp, In vp (binaryParts b) /\ binaryFrequency b = pFreq (snd vp).
Proof. exact bfrequency_fact. Qed.
Print Assumptions C64_binary.
Example C64_case : exists x, compositeFrequency trio = Some x.
Proof. exact (let (x, H) := low_frequency in ex_intro _ x (proj1 H)). Qed.

(** * C65: construction of composites. It throws exactly if two acts disagree on a free, naming the ordinal and the place in the second of
    them; otherwise the table of frees is the union of what the acts say, without gaps. *)
Theorem C65_fill : forall acts,
  match fillFrees acts with
  | Filled l => consistent acts /\ List.length l = S (maxRank acts) /\ forall idx f, nth idx l None = Some f <-> In (idx, f) (List.concat acts)
  | Inconsistent idx i => ~ consistent acts /\ exists before a after f f', acts = before ++ a :: after /\ nth_error a i = Some (idx, f) /\
      In (idx, f') (List.concat before ++ firstn i a) /\ f <> f'
  end.
Proof. exact fill_fact. Qed.
Print Assumptions C65_fill.
Theorem C65_check : forall acts, (exists idx f, In (idx, f) (List.concat acts)) -> (checkMeta acts = true <-> covering acts).
Proof. exact check_fact. Qed.
Print Assumptions C65_check.
Theorem C65_construction : forall acts, (exists idx f, In (idx, f) (List.concat acts)) -> checkMeta acts = true -> consistent acts ->
  exists l, fillFrees acts = Filled (map Some l) /\ forall idx f, nth_error l idx = Some f <-> In (idx, f) (List.concat acts).
Proof. exact construction_fact. Qed.
Print Assumptions C65_construction.
(** the composite has an interface exactly if one of its constituents has it *)
Theorem C65_characteristics : forall ps, characteristics ps =
  (existsb (fun p => match pEx p with Some _ => true | None => false end) ps,
   existsb (fun p => match pHa p with Some _ => true | None => false end) ps,
   existsb (fun p => match pLi p with Some _ => true | None => false end) ps).
Proof. exact characteristics_fact. Qed.
Print Assumptions C65_characteristics.
Example C65_case : checkMeta goodActs = true /\ fillFrees goodActs = Filled [Some 5; Some 6; Some 7] /\ fillFrees badActs = Inconsistent 2 1 /\
  characteristics [atom true; darkPart] = (false, true, true).
Proof. exact (conj (proj1 goodActs_filled) (conj (proj2 goodActs_filled) (conj badActs_throw eq_refl))). Qed.
