From Coq Require Import List Arith Bool Lia Reals Lra ZArith Permutation.
From Verif Require Import Star CReal Arr SliceModel SliceSpec SliceProofs HermSpec DensityModel DensitySpec DensityProofs PTraceProofs
  PureModel PureProofs.
Import ListNotations.
Notation mfun K := (list nat -> list nat -> K).

Lemma deflate_faithful {K : StarRing} (P : Parts K) (dims : list nat) (rho m : mfun K) (off : bool) (sub : list nat) fuel :
  dims <> [] -> (forall n, In n dims -> 0 < n) -> fold_right Nat.mul 1 dims <= fuel -> hermitian dims rho ->
  let dim := fold_right Nat.mul 1 dims in
  exists vals labels,
    deflate P fuel dims rho off = Some vals /\
    keyLabels fuel dims off [] = Some labels /\
    length vals = (if off then dim * dim else dim) /\
    length labels = length vals /\
    Forall2 (says P rho) labels vals /\
    keyLabels fuel dims true sub = option_map (fun l => l ++ map LSub sub) (keyLabels fuel dims true []) /\
    exists m', inflate P fuel dims (fun k => nth k vals (t0 P)) m off = Some m' /\
      (forall i j, inr dims i -> inr dims j -> i = j \/ off = true -> m' i j = rho i j) /\
      (forall i j, inr dims i -> inr dims j -> i <> j -> off = false -> m' i j = m i j).
Proof.
  intros Hne Hpos Hf Hh dim.
  exists (deflated P rho dims off), (map LDiag (indices dims) ++ (if off then offL (fun i j => [LRe i j; LIm i j]) (indices dims) else [])).
  split; [|split; [|split; [|split; [|split; [|split]]]]].
  - now apply deflate_ok.
  - rewrite (keyLabels_ok dims off [] fuel Hne Hpos Hf). now rewrite app_nil_r.
  - apply deflated_length.
  - pose proof (labels_says P rho dims off) as HF. clear -HF. induction HF; cbn; auto.
  - apply labels_says.
  - rewrite !(keyLabels_ok dims true _ fuel Hne Hpos Hf). cbn. now rewrite app_nil_r, <- app_assoc.
  - destruct (inflate_deflate P rho m dims off fuel (fun k => nth k (deflated P rho dims off) (t0 P))) as [m' (E & H1 & H2)]; auto.
    exists m'. split; [exact E|]. split; [exact H1|]. intros i j Hi Hj Hd Ho. apply H2. auto.
Qed.

Lemma partial_trace_all {K : StarRing} (P : Parts K) (dims V : list nat) (fuel : nat) : good_positions (length dims) V ->
  V <> [] -> (forall n, In n dims -> 0 < n) -> fold_right Nat.mul 1 dims <= fuel ->
  let sV := coords V dims in
  (forall (psi : list nat -> K) (arr : list nat -> K), (forall i j, inr dims i -> inr dims j -> arr (i ++ j) = kmul (psi i) (kconj (psi j))) ->
    exists rs rd, reduceSV P fuel V dims psi = Some rs /\ reduceDO fuel V dims arr = Some rd /\
      mmeq sV rs rd /\ mmeq sV rs (ptr V dims (pure psi))) /\
  (forall arr : list nat -> K, exists rd, reduceDO fuel V dims arr = Some rd /\
    let a := fun i j => arr (i ++ j) in
    mmeq sV rd (ptr V dims a) /\
    mtrace sV rd = mtrace dims a /\
    (hermitian dims a -> hermitian sV rd) /\
    (forall b c, mmeq dims a (product V dims b c) -> mtrace (coords (others (length dims) V) dims) c = k1 -> mmeq sV rd b)).
Proof.
  intros HV Hne Hpos Hf sV.
  assert (Hcongr : forall a b : mfun K, mmeq dims a b -> mmeq sV (ptr V dims a) (ptr V dims b)).
  { intros a b H s s' Hs Hs'. rewrite <- !(sum_ptr dims V HV) by auto. apply ksum_ext. intros d Hd. apply in_indices in Hd.
    apply H; apply (addr_inr (length dims) V HV dims eq_refl); auto. }
  split.
  - intros psi arr Ha. destruct (reduceSV_ok P dims V HV Hpos fuel Hf psi Hne) as [rs [E1 H1]].
    destruct (reduceDO_ok dims V HV Hpos fuel Hf arr) as [rd [E2 H2]].
    exists rs, rd. split; [exact E1|]. split; [exact E2|]. split; [|exact H1].
    intros s s' Hs Hs'. rewrite (H1 s s' Hs Hs'), (H2 s s' Hs Hs'). apply Hcongr; auto.
    intros i j Hi Hj. rewrite Ha by auto. reflexivity.
  - intros arr. destruct (reduceDO_ok dims V HV Hpos fuel Hf arr) as [rd [E H]]. exists rd. split; [exact E|]. intros a.
    fold a in H. split; [exact H|]. split; [|split].
    + rewrite <- (ptr_trace dims V HV a). apply isum_ext. intros i Hi. apply H; auto.
    + intros Hh i j Hi Hj. unfold dag. rewrite (H j i Hj Hi), (H i j Hi Hj). now apply (ptr_hermitian dims V HV a Hh).
    + intros b c Hp Ht s s' Hs Hs'. rewrite (H s s' Hs Hs'). rewrite (Hcongr _ _ Hp s s' Hs Hs').
      rewrite (ptr_product dims V HV b c s s' Hs Hs').
      replace (shD (length dims) V dims) with (coords (others (length dims) V) dims)
        by (unfold shD, coords, others; now rewrite negated_spec).
      rewrite Ht. rewrite (Rmul_comm (k_ring K)). apply (Rmul_1_l (k_ring K)).
Qed.

Lemma pure_agrees {K : StarRing} (psi rho : carr K) : cSh rho = cSh psi ++ cSh psi ->
  let dims := cSh psi in
  mmeq dims (indexDO (densityOf psi)) (pure (cElem psi)) /\
  mmeq dims (indexDO (assignSV rho psi)) (pure (cElem psi)) /\
  mmeq dims (indexSV psi) (pure (cElem psi)) /\
  (forall A : mfun K,
    isum dims (fun i => isum dims (fun j => kmul (A i j) (indexSV psi j i))) =
    isum dims (fun i => isum dims (fun j => kmul (A i j) (indexDO (densityOf psi) j i)))).
Proof.
  intros E dims. split; [|split; [|split]].
  - intros i j Hi Hj. rewrite densityOf_elem by auto. reflexivity.
  - intros i j Hi Hj. rewrite assignSV_elem by auto. reflexivity.
  - intros i j _ _. reflexivity.
  - intros A. apply isum_ext. intros i Hi. apply isum_ext. intros j Hj. now rewrite densityOf_elem by auto.
Qed.

Local Open Scope R_scope.
Lemma csq2 : sqrNorm (mkCarr (K:=CR) [1%nat] (fun _ => RC 2)) = 4.
Proof. unfold sqrNorm, cSize, rsum. cbn. unfold csq. cbn. ring. Qed.

Lemma trace_refuted : exists psi : carr CR, traceOfSV psi <> traceOfDO (cSh psi) (densityOf psi).
Proof.
  exists (mkCarr (K:=CR) [1%nat] (fun _ => RC 2)). rewrite trace_agrees_iff, csq2. lra.
Qed.

Lemma data_all {K : StarRing} (A B rho psi : carr K) w : cSh rho = cSh psi ++ cSh psi ->
  (forall x y, inr (cSh A) x -> inr (cSh B) y ->
     cElem (doDirect A B) (x ++ y) = kmul (cElem A x) (cElem B y) /\
     cElem (doDirectSum A B) (x ++ y) = kadd (cElem A x) (cElem B y) /\
     cElem (dyad A B) (x ++ y) = kmul (cElem A x) (kconj (cElem B y))) /\
  mmeq (cSh psi) (indexDO (addTo psi rho w)) (fun i j => kadd (indexDO rho i j) (kmul w (pure (cElem psi) i j))) /\
  (cSh A = cSh B -> braket A B = isum (cSh A) (fun x => kmul (kconj (cElem A x)) (cElem B x))) /\
  (forall C D, cSh C = cSh A -> cSh D = cSh B -> braket (doDirect A B) (doDirect C D) = kmul (braket A C) (braket B D)).
Proof.
  intros E. split; [|split; [|split]].
  - intros x y Hx Hy. destruct (doDirect_elem A B x y Hx Hy) as [H1 H2]. split; [exact H1|]. split; [exact H2|].
    unfold dyad. rewrite (proj1 (doDirect_elem A (cConj B) x y Hx Hy)). now rewrite cConj_elem.
  - intros i j Hi Hj. rewrite addTo_elem by auto. reflexivity.
  - apply braket_ok.
  - intros C D E1 E2. apply direct_braket; auto.
Qed.

Lemma renorm_all (psi : carr CR) (dims : list nat) (rho : carr CR) : cSh rho = dims ++ dims -> sqrNorm psi <> 0 -> traceOfDO dims rho <> 0 ->
  let (n, psi') := renormSV psi in
  let (tr, rho') := renormDO dims rho in
  isum (cSh psi) (fun x => kmul (kconj (cElem psi' x)) (cElem psi' x)) = RC 1 /\
  0 < n /\ RC (n * n) = isum (cSh psi) (fun x => kmul (kconj (cElem psi x)) (cElem psi x)) /\
  (forall x, kmul (RC n) (cElem psi' x) = cElem psi x) /\
  cre (mtrace dims (indexDO rho')) = 1 /\
  (forall x, kmul (RC tr) (cElem rho' x) = cElem rho x).
Proof.
  intros E Hp Ht. pose proof (renormSV_ok psi Hp) as H1. pose proof (renormDO_ok dims rho E Ht) as H2.
  unfold renormSV, renormDO in *. destruct H1 as (H1 & H3 & H4 & H5), H2 as [H2 H6].
  assert (G : forall a : carr CR, isum (cSh a) (fun x => kmul (kconj (cElem a x)) (cElem a x)) = RC (sqrNorm a)).
  { intros a. rewrite sqrNorm_ok. unfold sumSq, isum. rewrite <- ksum_RC. apply ksum_ext. intros x _. apply csq_conj. }
  split; [|split; [|split; [|split; [|split]]]]; auto.
  - rewrite <- H1. apply (G (scaleBy psi (/ frobeniusNorm psi))).
  - rewrite H3. symmetry. apply G.
  - rewrite <- traceDO_ok by auto. exact H2.
Qed.
