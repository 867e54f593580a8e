(** The facts about composites of any number of constituents. *)
From Coq Require Import List Arith NArith Reals Lra Lia Bool String.
From Verif Require Import Star CReal Arr SliceSpec HermSpec DensityModel DensitySpec
  MasterModel MasterSpec MasterProofs MasterFacts CompositeModel CompositeSpec EmbedProofs CompositeProofs CompositeLemmas.
Import ListNotations.
Add Ring CRF : (k_ring CR).
Local Notation len := List.length.
Local Open Scope list_scope.

Lemma F2_weaken {A B} (P Q : A -> B -> Prop) l m : (forall a b, P a b -> Q a b) -> Forall2 P l m -> Forall2 Q l m.
Proof. intros H F. induction F; constructor; auto. Qed.
Lemma F2_len {A B} {P : A -> B -> Prop} {l m} : Forall2 P l m -> len l = len m.
Proof. induction 1; cbn; auto. Qed.
Lemma F2_both {A B} (P Q : A -> B -> Prop) l m : Forall2 P l m -> Forall2 Q l m -> Forall2 (fun a b => P a b /\ Q a b) l m.
Proof. intros F. induction F; intros H'; inversion H'; subst; constructor; auto. Qed.
Lemma F2_map {A B C} (P : A -> C -> Prop) (f : B -> C) l m : Forall2 (fun a b => P a (f b)) l m -> Forall2 P l (map f m).
Proof. intros F. induction F; constructor; auto. Qed.

Section Product.
Variable dims : list nat.
Lemma isometric_product (a b : op) : isometric dims a -> isometric dims b -> isometric dims (mmul dims a b).
Proof.
  intros Ha Hb i j Hi Hj. rewrite <- (Hb i j Hi Hj). unfold mmul, dag.
  transitivity (isum dims (fun k => isum dims (fun l => isum dims (fun m => kmul (kmul (kconj (b l i)) (kmul (kconj (a k l)) (a k m))) (b m j))))).
  - apply isum_ext. intros k Hk. rewrite isum_conj. rewrite <- isum_scal_r. apply isum_ext. intros l Hl.
    rewrite <- isum_scal_l. apply isum_ext. intros m Hm. rewrite kconj_mul. ring.
  - rewrite isum_swap. apply isum_ext. intros l Hl. rewrite isum_swap.
    transitivity (isum dims (fun m => kmul (kmul (kconj (b l i)) (if listnat_eqb l m then k1 else k0)) (b m j))).
    + apply isum_ext. intros m Hm. rewrite <- (Ha l m Hl Hm). unfold mmul, dag. rewrite isum_scal_r. f_equal. now rewrite isum_scal_l.
    + rewrite <- (isum_delta dims l (fun m => kmul (kconj (b l i)) (b m j)) Hl). apply isum_ext. intros m Hm. destruct (listnat_eqb l m); ring.
Qed.
Lemma identity_isometric : isometric dims identity.
Proof.
  intros i j Hi Hj. unfold mmul, dag. transitivity (isum dims (fun k => kmul (identity i k) (identity k j))); [|now rewrite (identity_acts dims (fun k => identity k j) i Hi)].
  apply isum_ext. intros k Hk. f_equal. unfold identity. destruct (listnat_eqb_spec k i) as [->|N].
  - rewrite listnat_eqb_refl. apply kconj_1.
  - destruct (listnat_eqb_spec i k); [congruence|apply kconj_0].
Qed.
Lemma embed_isometric V (U : op) : good_positions (len dims) V -> isometric (coords V dims) U -> isometric dims (embed V dims U).
Proof.
  intros G H i j Hi Hj. transitivity (mmul dims (embed V dims (dag U)) (embed V dims U) i j).
  - unfold mmul. apply isum_ext. intros k Hk. now rewrite (embed_dag dims V U).
  - rewrite (embed_mmul dims V G) by auto. change (embed V dims (mmul (coords V dims) (dag U) U) i j = identity i j).
    rewrite <- (embed_identity dims V G i j Hi Hj). unfold embed. destruct (listnat_eqb _ _); [|reflexivity].
    destruct (coords_split dims V G i Hi) as (_ & Hi' & _). destruct (coords_split dims V G j Hj) as (_ & Hj' & _). now apply H.
Qed.
Lemma product_isometric (subs : list (list nat * parts)) (Us : list op) : Forall2 (fun vp U => isometric (coords (fst vp) dims) U) subs Us -> goodSubs dims subs ->
  forall A, isometric dims A -> isometric dims (fold_left (fun A vU => mmul dims (embed (fst (fst vU)) dims (snd vU)) A) (combine subs Us) A).
Proof.
  induction 1 as [|[V p] U s u HU H IH]; intros G A HA; [exact HA|]. inversion G as [|? ? G1 G2]; subst. cbn [combine fold_left fst snd] in *.
  apply IH; auto. apply isometric_product; auto. now apply embed_isometric.
Qed.
End Product.

Section Lists.
Variable dims : list nat.
Variable subs : list (list nat * parts).
Hypothesis G : goodSubs dims subs.
Lemma same_number t Jss Oss : described (fun sh p => jumps_are sh p t) dims subs Jss -> described (fun sh p => rates_are sh p t) dims subs Oss ->
  len (embedded dims subs Jss) = len (embedded dims subs Oss).
Proof.
  clear G.
  unfold described. intros H. revert Oss. induction H as [|[V p] Js s j HJ H IH]; intros Oss HO; inversion HO as [|? Os ? o HO1 HO2]; subst; [reflexivity|].
  rewrite !embedded_cons, !app_length, !map_length. cbn [fst snd] in *. unfold jumps_are in HJ. unfold rates_are in HO1.
  rewrite (IH _ HO2). destruct (pLi p); [destruct HJ as [<- _]; destruct HO1 as [<- _]; reflexivity|now subst].
Qed.
Lemma belong_fact Jss Oss :
  Forall2 (fun vp JO => Forall2 (fun J O => mmeq (coords (fst vp) dims) O (mmul (coords (fst vp) dims) (dag J) J)) (fst JO) (snd JO)) subs (combine Jss Oss) ->
  len Jss = len Oss -> Forall2 (fun J O => mmeq dims O (mmul dims (dag J) J)) (embedded dims subs Jss) (embedded dims subs Oss).
Proof.
  revert Jss Oss. revert G. induction subs as [|[V p] s IH]; intros Gs Jss Oss H L.
  - constructor.
  - destruct Jss as [|Js Jss], Oss as [|Os Oss]; try discriminate; [inversion H|]. inversion H as [|? ? ? ? H1 H2]; subst. inversion Gs as [|? ? G1 G2]; subst.
    cbn [fst snd] in *. rewrite !embedded_cons. apply Forall2_app; [|apply IH; auto].
    clear -G1 H1. induction H1 as [|J O Js Os H1 H2 IH]; constructor; auto. cbn [fst].
    intros i j Hi Hj. transitivity (mmul dims (embed V dims (dag J)) (embed V dims J) i j).
    + rewrite (embed_mmul dims V G1) by auto. unfold embed. destruct (listnat_eqb _ _); [|reflexivity].
      destruct (coords_split dims V G1 i Hi) as (_ & Hi' & _). destruct (coords_split dims V G1 j Hj) as (_ & Hj' & _). now apply H1.
    + unfold mmul. apply isum_ext. intros k Hk. now rewrite (embed_dag dims V J).
Qed.
Lemma embeddedSum_minusI Hs y k : embeddedSum dims subs (map minusI Hs) y k = kmul (kopp CI) (embeddedSum dims subs Hs y k).
Proof.
  clear. revert Hs; induction subs as [|vp s IH]; intros Hs; [unfold embeddedSum, msum; cbn [combine map]; unfold ksum; cbn [map fold_right]; ring|].
  destruct Hs as [|H Hs]; [unfold embeddedSum, msum; cbn [combine map]; unfold ksum; cbn [map fold_right]; ring|].
  change (kadd (embed (fst vp) dims (minusI H) y k) (embeddedSum dims s (map minusI Hs) y k) =
          kmul (kopp CI) (kadd (embed (fst vp) dims H y k) (embeddedSum dims s Hs y k))).
  rewrite IH. unfold embed, minusI. destruct (listnat_eqb _ _); ring.
Qed.
Lemma embeddedSum_none t t0 Ms : described (fun sh p => hamiltonian_adds sh p t t0) dims subs Ms ->
  existsb (fun p => match pHa p with Some _ => true | None => false end) (map snd subs) = false -> forall y k, embeddedSum dims subs Ms y k = k0.
Proof.
  clear G.
  unfold described. intros H E y k. induction H as [|[V p] M s m HM H IH]; [unfold embeddedSum, msum; cbn [combine map]; unfold ksum; reflexivity|].
  cbn [map existsb snd] in E. apply orb_false_elim in E. destruct E as [E1 E2].
  change (kadd (embed V dims M y k) (embeddedSum dims s m y k) = k0). rewrite IH by auto. unfold hamiltonian_adds in HM. cbn [snd] in HM.
  destruct (pHa p); [discriminate|]. subst M. unfold embed, zero. destruct (listnat_eqb _ _); ring.
Qed.
Lemma nolindblad t Jss : described (fun sh p => jumps_are sh p t) dims subs Jss ->
  existsb (fun p => match pLi p with Some _ => true | None => false end) (map snd subs) = false -> embedded dims subs Jss = [].
Proof.
  clear G.
  unfold described. induction 1 as [|[V p] Js s j HJ H IH]; intros E; [reflexivity|].
  cbn [map existsb snd] in E. apply orb_false_elim in E. destruct E as [E1 E2]. rewrite embedded_cons, IH by auto.
  unfold jumps_are in HJ. cbn [snd] in HJ. destruct (pLi p); [discriminate|]. now subst Js.
Qed.
(** the sum of the embedded non-Hermitian Hamiltonians is the non-Hermitian Hamiltonian of the whole *)
Lemma nonHermitian_whole hs Hs Jss :
  Forall2 (fun vp x => mmeq (coords (fst vp) dims) (snd (fst x)) (nonHermitian (coords (fst vp) dims) (fst (fst x)) (snd x))) subs (combine (combine hs Hs) Jss) ->
  len hs = len Hs -> len Hs = len Jss -> len subs = len Jss ->
  mmeq dims (embeddedSum dims subs Hs) (nonHermitian dims (embeddedSum dims subs hs) (embedded dims subs Jss)).
Proof.
  revert hs Hs Jss. revert G. induction subs as [|[V p] s IH]; intros Gs hs Hs Jss H L1 L2 L3 i j Hi Hj.
  - unfold embeddedSum, nonHermitian, embedded, msum. cbn [combine map List.concat]. unfold ksum. cbn [map fold_right]. ring.
  - destruct hs as [|h hs], Hs as [|HH Hs], Jss as [|Js Jss]; try discriminate. inversion H as [|? ? ? ? H1 H2]; subst. inversion Gs as [|? ? G1 G2]; subst.
    cbn [fst snd] in H1, G1. cbn [len] in L1, L2, L3. injection L1 as L1. injection L2 as L2. injection L3 as L3.
    change (kadd (embed V dims HH i j) (embeddedSum dims s Hs i j) =
      nonHermitian dims (fun y k => kadd (embed V dims h y k) (embeddedSum dims s hs y k)) (map (embed V dims) Js ++ embedded dims s Jss) i j).
    rewrite (IH G2 hs Hs Jss H2 L1 L2 L3 i j Hi Hj). unfold nonHermitian at 1 2. rewrite map_app. unfold msum. rewrite ksum_app.
    assert (E : ksum (fun a : op => a i j) (map (fun a => mmul dims (dag a) a) (map (embed V dims) Js)) = embed V dims (msum (map (fun a => mmul (coords V dims) (dag a) a) Js)) i j).
    { clear -G1 Hi Hj. unfold msum. induction Js as [|J Js IH]; cbn [map].
      - unfold ksum, embed. cbn. destruct (listnat_eqb _ _); reflexivity.
      - unfold ksum in *. cbn [map fold_right] in *. rewrite IH. 
        assert (E : mmul dims (dag (embed V dims J)) (embed V dims J) i j = embed V dims (mmul (coords V dims) (dag J) J) i j).
        { rewrite <- (embed_mmul dims V G1) by auto. unfold mmul. apply isum_ext. intros k Hk. now rewrite (embed_dag dims V J). }
        rewrite E. unfold embed. destruct (listnat_eqb _ _); [reflexivity|ring]. }
    rewrite E. unfold embed. destruct (listnat_eqb _ _).
    + destruct (coords_split dims V G1 i Hi) as (_ & Hi' & _). destruct (coords_split dims V G1 j Hj) as (_ & Hj' & _).
      rewrite (H1 _ _ Hi' Hj'). unfold nonHermitian. ring.
    + ring.
Qed.
Lemma embeddedSum_hermitian hs : Forall2 (fun vp h => hermitian (coords (fst vp) dims) h) subs hs -> hermitian dims (embeddedSum dims subs hs).
Proof.
  revert hs. revert G. induction subs as [|[V p] s IH]; intros Gs hs H i j Hi Hj; inversion H as [|? h ? hs' H1 H2]; subst.
  - unfold dag, embeddedSum, msum. cbn [combine map]. unfold ksum. cbn [map fold_right]. apply kconj_0.
  - inversion Gs as [|? ? G1 G2]; subst. cbn [fst] in *. unfold dag.
    change (kconj (kadd (embed V dims h j i) (embeddedSum dims s hs' j i)) = kadd (embed V dims h i j) (embeddedSum dims s hs' i j)).
    rewrite kconj_add. f_equal; [|now apply (IH G2 hs' H2 i j)].
    change (dag (embed V dims h) i j = embed V dims h i j). rewrite (embed_dag dims V h i j). unfold embed. destruct (listnat_eqb _ _); [|reflexivity].
    destruct (coords_split dims V G1 i Hi) as (_ & Hi' & _). destruct (coords_split dims V G1 j Hj) as (_ & Hj' & _). now apply (H1 (coords V i) (coords V j)).
Qed.
(** the propagator is unitary if those of the constituents are *)
Lemma unitary_fact (Us : list op) : Forall2 (fun vp U => isometric (coords (fst vp) dims) U) subs Us -> isometric dims (embeddedProduct dims subs Us).
Proof. intros H. unfold embeddedProduct. apply (product_isometric dims subs Us H G). apply identity_isometric. Qed.
Lemma jumps_number t Jss : described (fun sh p => jumps_are sh p t) dims subs Jss ->
  fold_right (fun vp s => nLi (snd vp) + s) 0 subs = len (embedded dims subs Jss).
Proof.
  clear G.
  unfold described. induction 1 as [|[V p] Js s j HJ H IH]; [reflexivity|]. rewrite embedded_cons, app_length, map_length. cbn [fold_right snd fst] in *. rewrite IH. f_equal.
  unfold jumps_are, nLi in *. destruct (pLi p); [apply HJ|now subst].
Qed.
End Lists.

Section Facts.
Variable c : composite.
Hypothesis W : wellFormed c.
Let dims := cDims c.
Let subs := constituents c.
Let Hpos : forall k, In k dims -> 0 < k := proj1 W.
Let G : goodSubs dims subs := constituents_good c W.

Lemma jump_fact t Jss : described (fun sh p => jumps_are sh p t) dims subs Jss -> (N.of_nat (len (embedded dims subs Jss)) <= 2 ^ 64)%N ->
  forall i psi, i < len (embedded dims subs Jss) ->
  exists psi', compositeJ c t psi (N.of_nat i) = Some psi' /\
    forall y, inr dims y -> psi' y = isum dims (fun k => kmul (nth i (embedded dims subs Jss) zero y k) (psi k)).
Proof.
  intros H L i psi Hi. destruct (jump_fold dims Hpos t subs Jss H G (N.of_nat i) psi) as [J _]; [lia|]. rewrite Nat2N.id in J. exact (J Hi).
Qed.
Lemma rates_fact t Oss : described (fun sh p => rates_are sh p t) dims subs Oss -> forall m,
  compositeRates c t m = Some (map (fun O => expectation dims O (indexOf m)) (embedded dims subs Oss)).
Proof.
  intros H m. unfold compositeRates, compositeAverage. fold dims subs.
  rewrite (avr_fold dims Hpos averageLi t m subs Oss); auto.
  - cbn [app]. unfold checked. rewrite map_length. unfold compositeNLi. fold subs. rewrite (len_embedded_li dims t subs Oss H). cbn. now rewrite Nat.eqb_refl.
  - revert H. apply F2_weaken. intros vp Os H1. now apply rates_value.
Qed.
Lemma averages_fact t Oss : described (fun sh p => averages_are sh p t) dims subs Oss -> forall m,
  compositeAverages c t m = Some (map (fun O => expectation dims O (indexOf m)) (embedded dims subs Oss)).
Proof.
  intros H m. unfold compositeAverages, compositeAverage. fold dims subs.
  rewrite (avr_fold dims Hpos averageAv t m subs Oss); auto.
  - cbn [app]. unfold checked. rewrite map_length. unfold compositeNAv. fold subs. rewrite (len_embedded_av dims t subs Oss H). cbn. now rewrite Nat.eqb_refl.
  - revert H. apply F2_weaken. intros vp Os H1. now apply averages_value.
Qed.

(** columns *)
Lemma process_fact a : Forall tidy (map snd subs) -> len a = compositeNAv c ->
  compositeProcess c a = List.concat (map (fun pw => processOwn (fst pw) (snd pw)) (combine (map snd subs) (pieces (map nAv (map snd subs)) a))).
Proof.
  intros T L. unfold compositeProcess. fold subs. rewrite map_map.
  apply (process_fold subs) with (pre := []); auto.
  - unfold tidyList. clearbody G. clearbody subs. clear -T. induction subs as [|vp s IH]; [constructor|]. inversion T; subst. constructor; auto.
  - unfold compositeNAv in L. fold subs in L. rewrite (fold_count nAv) in L. exact L.
Qed.
Lemma stream_fact a os : len a = compositeNAv c ->
  compositeStream c a os = os ++ List.concat (map (fun pw => streamOwn (fst pw) (snd pw)) (combine (map snd subs) (pieces (map nAv (map snd subs)) a))).
Proof.
  intros L. unfold compositeStream. fold subs. rewrite map_map.
  pose proof (stream_fold subs [] a [] os) as H. rewrite app_nil_r in H. cbn [app len] in H. apply H.
  unfold compositeNAv in L. fold subs in L. rewrite (fold_count nAv) in L. exact L.
Qed.
Lemma keyAv_fact i : let x := compositeKey c keyAv [] i in
  numbered (fst x) = combine (seq i (len (flat_map labelsAv (map snd subs)))) (flat_map labelsAv (map snd subs)) /\
  snd x = i + len (flat_map labelsAv (map snd subs)).
Proof. destruct (key_fold keyAv labelsAv keyAv_ok subs [] i) as [H1 H2]. split; [exact H1|exact H2]. Qed.
Lemma keyLi_fact i : let x := compositeKey c keyLi [] i in
  numbered (fst x) = combine (seq i (len (flat_map labelsLi (map snd subs)))) (flat_map labelsLi (map snd subs)) /\
  snd x = i + len (flat_map labelsLi (map snd subs)).
Proof. destruct (key_fold keyLi labelsLi keyLi_ok subs [] i) as [H1 H2]. split; [exact H1|exact H2]. Qed.
Lemma labels_number : Forall tidy (map snd subs) -> len (flat_map labelsAv (map snd subs)) = compositeNAv c.
Proof.
  unfold compositeNAv. fold subs. rewrite (fold_count nAv). cbn [Nat.add]. clearbody G. clearbody subs. clear. induction subs as [|[V p] s IH]; intros T; [reflexivity|].
  inversion T as [|? ? T1 T2]; subst. cbn [map flat_map fold_right snd] in *. rewrite app_length, IH by auto. f_equal.
  unfold labelsAv, nAv, tidy in *. destruct (pAv p); [symmetry; apply T1|reflexivity].
Qed.

Lemma labelsLi_number : Forall tidyLi (map snd subs) -> len (flat_map labelsLi (map snd subs)) = compositeNLi c.
Proof.
  unfold compositeNLi. fold subs. rewrite (fold_count nLi). cbn [Nat.add]. clearbody G. clearbody subs. clear. induction subs as [|[V p] s IH]; intros T; [reflexivity|].
  inversion T as [|? ? T1 T2]; subst. cbn [map flat_map fold_right snd] in *. rewrite app_length, IH by auto. f_equal.
  unfold labelsLi, nLi, tidyLi in *. destruct (pLi p); [symmetry; apply T1|reflexivity].
Qed.
(** Hamiltonian, propagator *)
Lemma hamiltonian_fact t t0 Ms : described (fun sh p => hamiltonian_adds sh p t t0) dims subs Ms -> forall psi d,
  exists d', compositeH c t psi d t0 = Some d' /\
    forall y, inr dims y -> d' y = kadd (d y) (isum dims (fun k => kmul (embeddedSum dims subs Ms y k) (psi k))).
Proof. intros H psi d. apply (h_fold dims Hpos t t0 psi subs Ms H G). Qed.
Lemma propagator_fact t t0 Us : described (fun sh p => propagates_with sh p t t0) dims subs Us -> forall psi,
  exists psi', compositeU c t psi t0 = Some psi' /\
    forall y, inr dims y -> psi' y = isum dims (fun k => kmul (embeddedProduct dims subs Us y k) (psi k)).
Proof.
  intros H psi. apply (u_fold dims Hpos t t0 subs Us H G psi psi identity). intros y Hy. symmetry. now apply identity_acts.
Qed.
Lemma given_nth p li i : pLi p = Some li -> i < liN li -> nth i (given p) false = match liSuper li i with Some _ => true | None => false end.
Proof.
  intros E H. unfold given. rewrite E. rewrite (nth_indep _ false (match liSuper li 0 with Some _ => true | None => false end)) by now rewrite map_length, seq_length.
  rewrite (map_nth (fun i => match liSuper li i with Some _ => true | None => false end)). now rewrite seq_nth.
Qed.
Lemma given_len p : len (given p) = nLi p.
Proof. unfold given, nLi. destruct (pLi p); [now rewrite map_length, seq_length|reflexivity]. Qed.
Lemma implemented_given ss i : implemented ss i = nth i (flat_map given (map snd ss)) false.
Proof.
  revert i. induction ss as [|[V p] ss IH]; intros i; [destruct i; reflexivity|]. cbn [implemented map flat_map snd].
  destruct (pLi p) as [li|] eqn:E.
  - assert (L : len (given p) = liN li) by (rewrite given_len; unfold nLi; now rewrite E). destruct (Nat.ltb_spec i (liN li)) as [Lt|Ge].
    + rewrite app_nth1 by lia. symmetry. now apply given_nth.
    + rewrite app_nth2 by lia. rewrite L. apply IH.
  - assert (given p = []) as -> by (unfold given; now rewrite E). apply IH.
Qed.
Lemma super_fact t Jss : described (fun sh p => jumps_are sh p t) dims subs Jss -> described (fun sh p => supers_are sh p t) dims subs Jss ->
  (N.of_nat (len (embedded dims subs Jss)) <= 2 ^ 64)%N ->
  forall i, i < len (embedded dims subs Jss) ->
  if nth i (flat_map given (map snd subs)) false then forall rho d, exists d', compositeSuper c t rho d (N.of_nat i) = Some d' /\
     mmeq dims (asOp d') (madd (asOp d) (conjugated dims (nth i (embedded dims subs Jss) zero) (asOp rho)))
  else forall rho d, compositeSuper c t rho d (N.of_nat i) = None.
Proof.
  intros H1 H2 L i Hi. rewrite <- implemented_given.
  assert (H : Forall2 (fun vp Js => jumps_are (coords (fst vp) dims) (snd vp) t Js /\ supers_are (coords (fst vp) dims) (snd vp) t Js) subs Jss).
  { now apply F2_both. }
  assert (K : forall rho d, if implemented subs i then exists d', compositeSuper c t rho d (N.of_nat i) = Some d' /\
     mmeq dims (asOp d') (madd (asOp d) (conjugated dims (nth i (embedded dims subs Jss) zero) (asOp rho)))
     else compositeSuper c t rho d (N.of_nat i) = None).
  { intros rho d. pose proof (super_fold dims Hpos t rho subs Jss H G (N.of_nat i) d ltac:(lia)) as S. rewrite Nat2N.id in S. exact (S Hi). }
  destruct (implemented subs i); intros rho d; apply K.
Qed.

(** Master equation *)
Lemma characteristics_ex ps ex ha li : fold_left (fun sc p => match sc with (ex, ha, li) =>
    (ex || match pEx p with Some _ => true | None => false end,
     ha || match pHa p with Some _ => true | None => false end,
     li || match pLi p with Some _ => true | None => false end) end) ps (ex, ha, li) =
  (ex || existsb (fun p => match pEx p with Some _ => true | None => false end) ps,
   ha || existsb (fun p => match pHa p with Some _ => true | None => false end) ps,
   li || existsb (fun p => match pLi p with Some _ => true | None => false end) ps).
Proof.
  revert ex ha li; induction ps as [|p ps IH]; intros ex ha li; cbn [fold_left existsb]; [now rewrite !orb_false_r|]. rewrite IH. now rewrite !orb_assoc.
Qed.
Lemma existsb_none {A} (f : A -> bool) l : existsb f l = false -> forall x, In x l -> f x = false.
Proof. intros H x Hx. destruct (f x) eqn:E; auto. exfalso. rewrite <- not_true_iff_false in H. apply H. apply existsb_exists. eauto. Qed.

Lemma number_jumps t Jss : described (fun sh p => jumps_are sh p t) dims subs Jss -> compositeNLi c = len (embedded dims subs Jss).
Proof.
  unfold compositeNLi. fold subs. rewrite (fold_count nLi). cbn [Nat.add]. unfold described.
  induction 1 as [|[V p] Js s j HJ H IH]; [reflexivity|]. rewrite embedded_cons, app_length, map_length. cbn [fold_right snd fst] in *. rewrite IH. f_equal.
  unfold jumps_are, nLi in *. destruct (pLi p); [apply HJ|now subst].
Qed.
Lemma Forall2_nth_seq {B} (P : channel CR -> B -> Prop) (f : nat -> channel CR) (l : list B) d :
  (forall i, i < len l -> P (f i) (nth i l d)) -> Forall2 P (map f (seq 0 (len l))) l.
Proof.
  revert f. induction l as [|b l IH]; intros f H; cbn [len seq map]; constructor.
  - apply (H 0). cbn; lia.
  - rewrite <- seq_shift, map_map. apply IH. intros i Hi. apply (H (S i)). cbn; lia.
Qed.

Lemma master_data t t0 Hs Jss :
  described (fun sh p H => hamiltonian_adds sh p t t0 (minusI H)) dims subs Hs ->
  described (fun sh p => jumps_are sh p t) dims subs Jss -> described (fun sh p => supers_are sh p t) dims subs Jss ->
  (N.of_nat (len (embedded dims subs Jss)) <= 2 ^ 64)%N ->
  qDims (compositeQ c) = dims /\
  hamiltonian_is dims (option_map (fun h => h t t0) (qHa (compositeQ c))) (embeddedSum dims subs Hs) /\
  Forall2 (channel_is dims) (qLi (compositeQ c) t) (embedded dims subs Jss).
Proof.
  intros HH HJ HS L.
  assert (HM : described (fun sh p => hamiltonian_adds sh p t t0) dims subs (map minusI Hs)).
  { now apply F2_map. }
  unfold compositeQ. fold subs. destruct (characteristics (map snd subs)) as [[ex ha] li] eqn:Ec.
  unfold characteristics in Ec. rewrite characteristics_ex in Ec. cbn [orb] in Ec. injection Ec as Eex Eha Eli. cbn [qDims qHa qLi].
  split; [reflexivity|]. split.
  - destruct ha; cbn [option_map hamiltonian_is].
    + intros psi y Hy. destruct (hamiltonian_fact t t0 _ HM psi (fun _ => k0)) as [d' [-> F]]. cbn [orElse]. rewrite F by auto.
      transitivity (isum dims (fun k => kmul (embeddedSum dims subs (map minusI Hs) y k) (psi k))); [ring|].
      apply isum_ext. intros k Hk. now rewrite (embeddedSum_minusI dims subs).
    + intros y k. pose proof (embeddedSum_none dims subs t t0 _ HM Eha y k) as E. rewrite (embeddedSum_minusI dims subs) in E.
      transitivity (kmul CI (kmul (kopp CI) (embeddedSum dims subs Hs y k))); [|rewrite E; ring].
      generalize (embeddedSum dims subs Hs y k). intros z. apply cr_eq; cbn; ring.
  - destruct li.
    + rewrite (number_jumps t Jss HJ). apply (Forall2_nth_seq _ _ _ zero). intros i Hi. split; cbn [fst snd].
      * intros psi y Hy. destruct (jump_fact t Jss HJ L i psi Hi) as [psi' [-> F]]. cbn [orElse]. now apply F.
      * pose proof (super_fact t Jss HJ HS L i Hi) as S. destruct (nth i (flat_map given (map snd subs)) false).
        -- destruct (S (fun _ => k0) (fun _ => k0)) as [d0 [-> _]]. cbn [option_map]. intros rho d. destruct (S rho d) as [d' [-> F]]. exact F.
        -- rewrite S. exact I.
    + rewrite (nolindblad dims subs t Jss HJ) by auto. constructor.
Qed.


Lemma master_fact t t0 hs Hs Jss rho :
  described (fun sh p H => hamiltonian_adds sh p t t0 (minusI H)) dims subs Hs ->
  described (fun sh p => jumps_are sh p t) dims subs Jss -> described (fun sh p => supers_are sh p t) dims subs Jss ->
  (N.of_nat (len (embedded dims subs Jss)) <= 2 ^ 64)%N ->
  Forall2 (fun vp h => hermitian (coords (fst vp) dims) h) subs hs ->
  Forall2 (fun vp x => mmeq (coords (fst vp) dims) (snd (fst x)) (nonHermitian (coords (fst vp) dims) (fst (fst x)) (snd x))) subs (combine (combine hs Hs) Jss) ->
  hermitian dims (asOp rho) ->
  let H := embeddedSum dims subs hs in let js := embedded dims subs Jss in
  let d := asOp (derivative (compositeQ c) t0 rho t) in
  mmeq dims d (lindblad dims (nonHermitian dims H js) js (asOp rho)) /\ hermitian dims H /\ hermitian dims d /\ mtrace dims d = k0.
Proof.
  intros HH HJ HS L Hh HnH Hr. cbn zeta. destruct (master_data t t0 Hs Jss HH HJ HS L) as (D & H1 & H2).
  assert (L1 : len hs = len Hs).
  { rewrite <- (F2_len Hh). apply (F2_len HH). }
  assert (L2 : len Hs = len Jss). { rewrite <- (F2_len HH). apply (F2_len HJ). }
  pose proof (nonHermitian_whole dims subs G hs Hs Jss HnH L1 L2 (F2_len HJ)) as E.
  pose proof (embeddedSum_hermitian dims subs G hs Hh) as Hherm.
  destruct (lindblad_fact (compositeQ c) t0 rho t (embeddedSum dims subs Hs) (embedded dims subs Jss)) as (F1 & F2 & F3);
    try rewrite D; auto. rewrite D in F1, F2, F3.
  repeat split; auto.
  - intros i j Hi Hj. rewrite F1 by auto. unfold lindblad. f_equal. f_equal. f_equal.
    + unfold mmul. apply isum_ext. intros k Hk. now rewrite E.
    + unfold mmul. apply isum_ext. intros k Hk. f_equal. unfold dag. now rewrite E.
  - apply F3 with (h := embeddedSum dims subs hs); auto.
Qed.


Lemma master_propagator t t0 Us : described (fun sh p => propagates_with sh p t t0) dims subs Us ->
  Forall2 (fun vp U => isometric (coords (fst vp) dims) U) subs Us ->
  forall u, mmeq dims u (embeddedProduct dims subs Us) -> existsb (fun p => match pEx p with Some _ => true | None => false end) (map snd subs) = true ->
  propagator_is (compositeQ c) t t0 u.
Proof.
  intros H HI u Hu E. unfold propagator_is, compositeQ. fold subs. destruct (characteristics (map snd subs)) as [[ex ha] li] eqn:Ec.
  unfold characteristics in Ec. rewrite characteristics_ex in Ec. cbn [orb] in Ec. rewrite E in Ec. injection Ec as <- Eha Eli. cbn [qEx qDims]. fold dims. split.
  - intros psi y Hy. destruct (propagator_fact t t0 Us H psi) as [psi' [-> F]]. cbn [orElse]. rewrite F by auto. apply isum_ext. intros k Hk. now rewrite Hu.
  - pose proof (unitary_fact dims subs G Us HI) as I. intros i j Hi Hj. rewrite <- (I i j Hi Hj). unfold mmul. apply isum_ext. intros k Hk. unfold dag. now rewrite !Hu.
Qed.
End Facts.

Lemma key_whole c i : Forall tidy (map snd (constituents c)) ->
  let x := compositeKey c keyAv [] i in let labels := flat_map labelsAv (map snd (constituents c)) in
  len labels = compositeNAv c /\ numbered (fst x) = combine (seq i (compositeNAv c)) labels /\ snd x = i + compositeNAv c.
Proof. intros T. cbn zeta. pose proof (labels_number c T) as L. destruct (keyAv_fact c i) as [H1 H2]. rewrite L in *. auto. Qed.
Lemma keyLi_whole c i : Forall tidyLi (map snd (constituents c)) ->
  let x := compositeKey c keyLi [] i in let labels := flat_map labelsLi (map snd (constituents c)) in
  len labels = compositeNLi c /\ numbered (fst x) = combine (seq i (compositeNLi c)) labels /\ snd x = i + compositeNLi c.
Proof. intros T. cbn zeta. pose proof (labelsLi_number c T) as L. destruct (keyLi_fact c i) as [H1 H2]. rewrite L in *. auto. Qed.
