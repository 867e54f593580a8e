(** Concrete composites: decaying two-level atoms, an exchange interaction with a collective decay. *)
From Coq Require Import List Arith NArith Reals Lra Lia Bool String.
From Verif Require Import Star CReal Arr SliceSpec HermSpec DensityModel DensitySpec MasterModel MasterSpec MasterProofs MasterCases
  CompositeModel CompositeSpec EmbedProofs CompositeProofs CompositeLemmas CompositeFacts BinaryProofs FillProofs.
Import ListNotations.
Add Ring CRK : (k_ring CR).
Local Notation len := List.length.
Local Open Scope list_scope.
Local Open Scope string_scope.

(** a constituent made of a Hermitian Hamiltonian, one jump operator and one observable *)
Definition opPart (sh : list nat) (h j o : op) (super : bool) (name : string) (freq : R) : parts :=
  mkParts None
    (Some (mkHa (fun t psi d t0 s => kadd (d s) (matop sh (minusI (nonHermitian sh h [j])) psi s))))
    (Some (mkLi 1 (fun t rho => [expectation sh (mmul sh (dag j) j) rho]) (fun t psi i => matop sh j psi)
             (fun i => if super then Some (fun t => superOf sh j) else None) name ["decay"]))
    (Some (mkAv 1 (fun t rho => [expectation sh o rho]) (fun w => w) name ["population"])) freq.
Definition darkPart : parts := mkParts None None None None 0.
Lemma opPart_h sh h j o super name freq t t0 : hamiltonian_adds sh (opPart sh h j o super name freq) t t0 (minusI (nonHermitian sh h [j])).
Proof. intros psi d s Hs. reflexivity. Qed.
Lemma opPart_j sh h j o super name freq t : jumps_are sh (opPart sh h j o super name freq) t [j].
Proof. split; [reflexivity|]. intros [|i] Hi; [apply matop_acts|cbn in Hi; lia]. Qed.
Lemma opPart_r sh h j o super name freq t : rates_are sh (opPart sh h j o super name freq) t [mmul sh (dag j) j].
Proof. split; reflexivity. Qed.
Lemma opPart_a sh h j o super name freq t : averages_are sh (opPart sh h j o super name freq) t [o].
Proof. split; reflexivity. Qed.
Lemma opPart_s sh h j o super name freq t : supers_are sh (opPart sh h j o super name freq) t [j].
Proof.
  intros i f Hi E. assert (i = 0) by (cbn in Hi; lia). subst i. cbn in E. destruct super; [|discriminate]. injection E as <-. exact (proj2 (channel_super sh j)).
Qed.
Lemma opPart_tidy sh h j o super name freq : tidy (opPart sh h j o super name freq).
Proof. split; [reflexivity|]. auto. Qed.

Definition exchH : op := fun i j => match i, j with [0; 1], [1; 0] => k1 | [1; 0], [0; 1] => k1 | _, _ => k0 end.
Definition exchJ : op := fun i j => match i, j with [0; 0], [1; 1] => k1 | _, _ => k0 end.
Definition atom (super : bool) : parts := opPart [2] atomH atomJ atomH super "atom" 1.
Definition exch : parts := opPart [2; 2] exchH exchJ exchH false "exchange" 5.

(** three two-level systems, the last one without dynamics of its own, the interaction between the last and the first *)
Definition trio : composite := mkComposite [2; 2; 2] [atom true; atom false; darkPart] [([2; 0], exch)].
Lemma trio_well : wellFormed trio.
Proof.
  split; [intros k Hk; cbn in Hk; intuition lia|]. split; [reflexivity|]. constructor; [|constructor]. split.
  - repeat constructor; cbn; intuition congruence.
  - cbn. intros v Hv. intuition lia.
Qed.
Definition trioJs : list (list op) := [[atomJ]; [atomJ]; []; [exchJ]].
Definition trioOs : list (list op) := [[mmul [2] (dag atomJ) atomJ]; [mmul [2] (dag atomJ) atomJ]; []; [mmul [2; 2] (dag exchJ) exchJ]].
Definition trioAs : list (list op) := [[atomH]; [atomH]; []; [exchH]].
Definition trioH : list op := [atomH; atomH; zero; exchH].
Definition trioHnh : list op := [nonHermitian [2] atomH [atomJ]; nonHermitian [2] atomH [atomJ]; zero; nonHermitian [2; 2] exchH [exchJ]].
Lemma trio_jumps t : described (fun sh p => jumps_are sh p t) (cDims trio) (constituents trio) trioJs.
Proof. repeat apply Forall2_cons; try apply Forall2_nil; try reflexivity; apply opPart_j. Qed.
Lemma trio_supers t : described (fun sh p => supers_are sh p t) (cDims trio) (constituents trio) trioJs.
Proof. repeat apply Forall2_cons; try apply Forall2_nil; try exact I; apply opPart_s. Qed.
Lemma trio_rates t : described (fun sh p => rates_are sh p t) (cDims trio) (constituents trio) trioOs.
Proof. repeat apply Forall2_cons; try apply Forall2_nil; try reflexivity; apply opPart_r. Qed.
Lemma trio_averages t : described (fun sh p => averages_are sh p t) (cDims trio) (constituents trio) trioAs.
Proof. repeat apply Forall2_cons; try apply Forall2_nil; try reflexivity; apply opPart_a. Qed.
Lemma zero_minusI : minusI zero = zero.
Proof. apply Coq.Logic.FunctionalExtensionality.functional_extensionality. intros i. apply Coq.Logic.FunctionalExtensionality.functional_extensionality. intros j. unfold minusI, zero. ring. Qed.
Lemma trio_hamiltonian t t0 : described (fun sh p H => hamiltonian_adds sh p t t0 (minusI H)) (cDims trio) (constituents trio) trioHnh.
Proof. repeat apply Forall2_cons; try apply Forall2_nil; try apply zero_minusI; apply opPart_h. Qed.
Lemma trio_tidy : Forall tidy (map snd (constituents trio)).
Proof. repeat apply Forall_cons; try apply Forall_nil; try exact I; apply opPart_tidy. Qed.
Lemma trio_tidyLi : Forall tidyLi (map snd (constituents trio)).
Proof. repeat apply Forall_cons; try apply Forall_nil; try exact I; reflexivity. Qed.
Lemma exch_hermitian : hermitian [2; 2] exchH.
Proof.
  intros i j Hi Hj. destruct (BinaryProofs.inr2 _ _ _ Hi) as (a & b & ->). destruct (BinaryProofs.inr2 _ _ _ Hj) as (a' & b' & ->).
  unfold dag, exchH. destruct a as [|[|a]], b as [|[|b]], a' as [|[|a']], b' as [|[|b']]; try apply kconj_0; apply kconj_1.
Qed.
Lemma zero_hermitian sh : hermitian sh zero.
Proof. intros i j _ _. apply kconj_0. Qed.
Lemma trio_hermitian : Forall2 (fun vp h => hermitian (coords (fst vp) (cDims trio)) h) (constituents trio) trioH.
Proof. repeat apply Forall2_cons; try apply Forall2_nil; try apply atomH_hermitian; try apply zero_hermitian; apply exch_hermitian. Qed.
Lemma trio_nh : Forall2 (fun vp x => mmeq (coords (fst vp) (cDims trio)) (snd (fst x)) (nonHermitian (coords (fst vp) (cDims trio)) (fst (fst x)) (snd x)))
  (constituents trio) (combine (combine trioH trioHnh) trioJs).
Proof.
  repeat apply Forall2_cons; try apply Forall2_nil; cbn [fst snd coords]; intros i j _ _; try reflexivity. unfold nonHermitian, msum, zero. cbn [map]. unfold ksum. cbn [map fold_right]. ring.
Qed.
Lemma trio_belong : Forall2 (fun vp JO => Forall2 (fun J O => mmeq (coords (fst vp) (cDims trio)) O (mmul (coords (fst vp) (cDims trio)) (dag J) J)) (fst JO) (snd JO))
  (constituents trio) (combine trioJs trioOs).
Proof. repeat apply Forall2_cons; try apply Forall2_nil; cbn [fst snd]; repeat constructor; intros i j _ _; reflexivity. Qed.

(** the collective decay takes the first and the last system down and leaves the one in the middle alone *)
Lemma trio_third : embedded (cDims trio) (constituents trio) trioJs =
    [embed [0] [2; 2; 2] atomJ; embed [1] [2; 2; 2] atomJ; embed [2; 0] [2; 2; 2] exchJ] /\
  nth 2 (embedded (cDims trio) (constituents trio) trioJs) zero [0; 1; 0] [1; 1; 1] = k1 /\
  nth 2 (embedded (cDims trio) (constituents trio) trioJs) zero [0; 0; 0] [1; 1; 1] = k0 /\
  nth 1 (embedded (cDims trio) (constituents trio) trioJs) zero [1; 0; 1] [1; 1; 1] = k1.
Proof. repeat split. Qed.

(** ** A binary system: one atom decays, the other not, and there is a collective decay *)
Definition pair (f0 f1 : parts) : binary := mkBinary [2; 2] f0 f1 exch.
Lemma pair_good f0 f1 : goodBinary (pair f0 f1).
Proof. exists 2, 2. repeat split; lia. Qed.
Definition both : array := fun y => match y with [1; 1] => k1 | _ => k0 end.
Lemma dark_jumps t : described (fun sh p => jumps_are sh p t) [2; 2] (binaryParts (pair (atom true) darkPart)) [[atomJ]; []; [exchJ]].
Proof. repeat apply Forall2_cons; try apply Forall2_nil; try reflexivity; apply opPart_j. Qed.
Lemma light_jumps t : described (fun sh p => jumps_are sh p t) [2; 2] (binaryParts (pair (atom true) (atom false))) [[atomJ]; [atomJ]; [exchJ]].
Proof. repeat apply Forall2_cons; try apply Forall2_nil; try reflexivity; apply opPart_j. Qed.
Lemma light_supers t : described (fun sh p => supers_are sh p t) [2; 2] (binaryParts (pair (atom true) (atom false))) [[atomJ]; [atomJ]; [exchJ]].
Proof. repeat apply Forall2_cons; try apply Forall2_nil; try exact I; apply opPart_s. Qed.
Lemma light_rates t : described (fun sh p => rates_are sh p t) [2; 2] (binaryParts (pair (atom true) (atom false)))
  [[mmul [2] (dag atomJ) atomJ]; [mmul [2] (dag atomJ) atomJ]; [mmul [2; 2] (dag exchJ) exchJ]].
Proof. repeat apply Forall2_cons; try apply Forall2_nil; try reflexivity; apply opPart_r. Qed.
Lemma light_countable : countable (pair (atom true) (atom false)).
Proof. left. discriminate. Qed.
Lemma light_averages t : described (fun sh p => averages_are sh p t) [2; 2] (binaryParts (pair (atom true) (atom false))) [[atomH]; [atomH]; [exchH]].
Proof. repeat apply Forall2_cons; try apply Forall2_nil; apply opPart_a. Qed.
Lemma light_tidy : Forall tidy (map snd (binaryParts (pair (atom true) (atom false)))).
Proof. repeat apply Forall_cons; try apply Forall_nil; apply opPart_tidy. Qed.
Lemma light_tidyLi : Forall tidyLi (map snd (binaryParts (pair (atom true) (atom false)))).
Proof. repeat apply Forall_cons; try apply Forall_nil; reflexivity. Qed.
Lemma light_hamiltonian t t0 : described (fun sh p H => hamiltonian_adds sh p t t0 (minusI H)) [2; 2] (binaryParts (pair (atom true) (atom false)))
  [nonHermitian [2] atomH [atomJ]; nonHermitian [2] atomH [atomJ]; nonHermitian [2; 2] exchH [exchJ]].
Proof. repeat apply Forall2_cons; try apply Forall2_nil; apply opPart_h. Qed.

Lemma lost_fact : let b := pair (atom true) darkPart in let js := embedded [2; 2] (binaryParts b) [[atomJ]; []; [exchJ]] in
  goodBinary b /\ described (fun sh p => jumps_are sh p 0) [2; 2] (binaryParts b) [[atomJ]; []; [exchJ]] /\
  len js = 2 /\ nth 1 js zero [0; 0] [1; 1] = k1 /\
  binaryJ b 0 both 1%N = Some both /\
  isum [2; 2] (fun k => kmul (nth 1 js zero [1; 1] k) (both k)) <> both [1; 1].
Proof.
  cbn zeta. split; [apply pair_good|]. split; [apply dark_jumps|]. split; [reflexivity|]. split; [reflexivity|]. split; [reflexivity|].
  unfold isum. rewrite ksum_zero.
  - unfold both. intros E. apply (f_equal cre) in E. cbn in E. lra.
  - intros k _. change (nth 1 (embedded [2; 2] (binaryParts (pair (atom true) darkPart)) [[atomJ]; []; [exchJ]]) zero) with (embed [0; 1] [2; 2] exchJ).
    unfold embed. destruct (listnat_eqb _ _); [|ring]. cbn [coords map nth exchJ]. ring.
Qed.

(** ** Propagators: the first of two atoms is flipped, then both together acquire a phase depending on the state of the first *)
Definition flip : op := fun i j => match i, j with [0], [1] => k1 | [1], [0] => k1 | _, _ => k0 end.
Definition phase : op := fun i j => if listnat_eqb i j then match i with 1 :: _ => CI | _ => k1 end else k0.
Definition exPart (sh : list nat) (U : op) : parts := mkParts (Some (mkExact true (fun t psi t0 => matop sh U psi))) None None None 1.
Definition duo : composite := mkComposite [2; 2] [exPart [2] flip; darkPart] [([0; 1], exPart [2; 2] phase)].
Lemma duo_well : wellFormed duo.
Proof.
  split; [intros k Hk; cbn in Hk; intuition lia|]. split; [reflexivity|]. constructor; [|constructor]. split.
  - repeat constructor; cbn; intuition congruence.
  - cbn. intros v Hv. intuition lia.
Qed.
Definition duoUs : list op := [flip; identity; phase].
Lemma duo_propagates t t0 : described (fun sh p => propagates_with sh p t t0) (cDims duo) (constituents duo) duoUs.
Proof. repeat apply Forall2_cons; try apply Forall2_nil; try reflexivity; apply matop_acts. Qed.
Lemma flip_isometric : isometric [2] flip.
Proof.
  intros i j Hi Hj. unfold mmul, dag. rewrite isum2. destruct (MasterCases.inr2 _ Hi) as [->| ->], (MasterCases.inr2 _ Hj) as [->| ->]; apply cr_eq; cbn; ring.
Qed.
Lemma phase_isometric : isometric [2; 2] phase.
Proof.
  intros i j Hi Hj. unfold mmul, dag.
  transitivity (isum [2; 2] (fun k => if listnat_eqb i k then kmul (kconj (phase k i)) (phase k j) else k0)).
  - apply isum_ext. intros k Hk. destruct (listnat_eqb_spec i k) as [->|N]; [reflexivity|]. unfold phase at 1.
    destruct (listnat_eqb_spec k i) as [->|_]; [congruence|]. rewrite kconj_0. ring.
  - rewrite (isum_delta [2; 2] i (fun k => kmul (kconj (phase k i)) (phase k j)) Hi). unfold phase. rewrite listnat_eqb_refl.
    destruct (listnat_eqb i j); [|ring]. destruct i as [|[|[|a]] i]; apply cr_eq; cbn; ring.
Qed.
Lemma duo_isometric : Forall2 (fun vp U => isometric (coords (fst vp) (cDims duo)) U) (constituents duo) duoUs.
Proof. repeat apply Forall2_cons; try apply Forall2_nil; [apply flip_isometric|apply identity_isometric|apply phase_isometric]. Qed.
Definition duoB : binary := mkBinary [2; 2] (exPart [2] flip) darkPart (exPart [2; 2] phase).
Lemma duoB_good : goodBinary duoB. Proof. exists 2, 2. repeat split; lia. Qed.
Lemma duoB_propagates t t0 : described (fun sh p => propagates_with sh p t t0) (bDims duoB) (binaryParts duoB) duoUs.
Proof. repeat apply Forall2_cons; try apply Forall2_nil; try reflexivity; apply matop_acts. Qed.

Lemma low_frequency : exists x, compositeFrequency trio = Some x /\ exists vp, In vp (constituents trio) /\ (x < pFreq (snd vp))%R.
Proof.
  destruct (compositeFrequency trio) as [x|] eqn:E; [|discriminate]. exists x. split; [reflexivity|]. exists ([2; 0], exch). split; [cbn; auto|].
  destruct (frequency_fact trio x E) as [_ (p & [<-|[<-|[<-|[]]]] & ->)]; cbn; lra.
Qed.

(** ** Construction *)
Definition goodActs : list (list (nat * nat)) := [[(2, 7); (0, 5)]; [(1, 6); (2, 7)]].
Definition badActs : list (list (nat * nat)) := [[(2, 7); (0, 5)]; [(1, 6); (2, 8)]].
Lemma goodActs_filled : checkMeta goodActs = true /\ fillFrees goodActs = Filled [Some 5; Some 6; Some 7].
Proof. split; reflexivity. Qed.
Lemma badActs_throw : fillFrees badActs = Inconsistent 2 1.
Proof. reflexivity. Qed.

(** exact propagation in master equations *)
Lemma applicable_spec p : applicable p = true <-> forall ex, pEx p = Some ex -> exMaster ex = true.
Proof.
  unfold applicable. destruct (pEx p) as [ex|]; split; intros H; auto.
  - intros ex' E. now injection E as <-.
  - intros ex' E. discriminate.
Qed.
Lemma composite_applicable c : compositeApplicable c = true <-> forall V p ex, In (V, p) (constituents c) -> pEx p = Some ex -> exMaster ex = true.
Proof.
  unfold compositeApplicable.
  assert (G : forall l r, fold_left (fun r vp => (r && applicable (snd vp))%bool) l r = true <-> r = true /\ forall (V : list nat) p ex, In (V, p) l -> pEx p = Some ex -> exMaster ex = true).
  { induction l as [|[V p] l IH]; intros r; cbn [fold_left]; [split; [intros ->; split; [reflexivity|intros ? ? ? []]|tauto]|].
    rewrite IH, Bool.andb_true_iff. cbn [snd]. rewrite applicable_spec. split.
    - intros [[Hr H1] H2]. split; [exact Hr|]. intros V' p' ex [E|Hin] Ep; [injection E as <- <-; now apply H1|now apply (H2 V' p')].
    - intros [Hr H]. split; [split; [exact Hr|]|].
      + intros ex Ep. apply (H V p ex); [now left|exact Ep].
      + intros V' p' ex Hin Ep. apply (H V' p' ex); [now right|exact Ep]. }
  rewrite G. tauto.
Qed.
Lemma binary_applicable b : binaryApplicable b = true <-> forall V p ex, In (V, p) (binaryParts b) -> pEx p = Some ex -> exMaster ex = true.
Proof.
  unfold binaryApplicable, binaryParts. rewrite !Bool.andb_true_iff, !applicable_spec. split.
  - intros [[H1 H2] H3] V p ex [E|[E|[E|[]]]] Ep; injection E as <- <-; auto.
  - intros H. split; [split|]; intros ex E; [apply (H [0] (bFree0 b) ex)|apply (H [1] (bFree1 b) ex)|apply (H [0; 1] (bIa b) ex)]; cbn; auto.
Qed.
