(** The composites as a whole. *)
From Coq Require Import List Arith NArith Reals Lra Lia Bool Permutation String.
From Verif Require Import Star CReal Arr MultiIndexModel SliceModel SliceSpec SliceProofs HermSpec DensityModel DensitySpec
  MasterModel MasterSpec MasterProofs CompositeModel CompositeSpec EmbedProofs CompositeProofs.
Import ListNotations.
Add Ring CRL : (k_ring CR).
Local Notation len := List.length.
Local Open Scope list_scope.


Lemma constituents_good c : wellFormed c -> goodSubs (cDims c) (constituents c).
Proof.
  intros (_ & L & H). unfold goodSubs, constituents. apply Forall_app. split; [|exact H].
  apply Forall_forall. intros vp Hin. apply in_map_iff in Hin. destruct Hin as [[i p] [<- Hin]]. cbn [fst].
  apply in_combine_l, in_seq in Hin. split; [constructor; [easy|constructor]|]. intros v [<-|[]]. lia.
Qed.
Lemma embedded_cons dims vp subs Os Oss : embedded dims (vp :: subs) (Os :: Oss) = map (embed (fst vp) dims) Os ++ embedded dims subs Oss.
Proof. reflexivity. Qed.

Lemma wsub_le i n : (n <= i)%N -> (i < 2 ^ 64)%N -> wsub i n = (i - n)%N.
Proof.
  intros H1 H2. unfold wsub. replace (i + 2 ^ 64 - n)%N with ((i - n) + 1 * 2 ^ 64)%N by lia.
  rewrite N.mod_add by lia. apply N.mod_small. lia.
Qed.

Section Subs.
Variable dims : list nat.
Hypothesis Hpos : forall k, In k dims -> 0 < k.

(** ** jumps *)
Definition jumpStep (t : R) (st : bool * N * option array) (vp : list nat * parts) : bool * N * option array :=
  match st with (flag, i, x) =>
    match flag, pLi (snd vp), x with
    | false, Some li, Some psi =>
        let n := N.of_nat (liN li) in
        let i' := wsub i n in
        if (i <? n)%N then (true, i', onSlices dims (fst vp) (fun s => liJ li t s (N.to_nat i)) psi) else (false, i', x)
    | _, _, _ => st end end.
Lemma jump_done t subs i x : snd (fold_left (jumpStep t) subs (true, i, x)) = x.
Proof. induction subs as [|vp subs IH]; cbn; auto. Qed.

Lemma jump_fold t subs Jss : Forall2 (fun vp Js => jumps_are (coords (fst vp) dims) (snd vp) t Js) subs Jss -> goodSubs dims subs ->
  forall i psi, (i < 2 ^ 64)%N ->
  (N.to_nat i < len (embedded dims subs Jss) ->
   exists psi', snd (fold_left (jumpStep t) subs (false, i, Some psi)) = Some psi' /\
     forall y, inr dims y -> psi' y = isum dims (fun k => kmul (nth (N.to_nat i) (embedded dims subs Jss) zero y k) (psi k))) /\
  (len (embedded dims subs Jss) <= N.to_nat i -> snd (fold_left (jumpStep t) subs (false, i, Some psi)) = Some psi).
Proof.
  induction 1 as [|[V p] Js subs Jss HJ H IH]; intros G i psi Hi; [cbn; split; [lia|auto]|].
  inversion G as [|? ? G1 G2]; subst. rewrite embedded_cons, app_length, map_length. cbn [fst snd] in *.
  unfold jumps_are in HJ. cbn [fold_left]. unfold jumpStep at 2 4. cbn [snd fst].
  destruct (pLi p) as [li|].
  - destruct HJ as [HN HJ]. cbn zeta. destruct (N.ltb_spec i (N.of_nat (liN li))) as [Lt|Ge].
    + rewrite !jump_done. split; [|intros; lia]. intros _.
      assert (Hlt : N.to_nat i < len Js) by lia.
      destruct (onSlices_embed dims V G1 Hpos (fun s => liJ li t s (N.to_nat i)) (nth (N.to_nat i) Js zero) psi) as [psi' [E F]]; [now apply HJ|].
      exists psi'. split; [exact E|]. intros y Hy. rewrite app_nth1 by now rewrite map_length.
      rewrite (nth_indep _ zero (embed V dims zero)) by now rewrite map_length. rewrite map_nth. now apply F.
    + rewrite wsub_le by (auto; lia). destruct (IH G2 (i - N.of_nat (liN li))%N psi) as [I1 I2]; [lia|].
      split; intros Hlt.
      * destruct I1 as [psi' [E F]]; [lia|]. exists psi'. split; [exact E|]. intros y Hy. rewrite F by auto.
        rewrite app_nth2 by (rewrite map_length; lia). rewrite map_length. do 2 f_equal. apply Coq.Logic.FunctionalExtensionality.functional_extensionality. intros k.
        do 2 f_equal. replace (N.to_nat (i - N.of_nat (liN li))) with (N.to_nat i - len Js) by lia. reflexivity.
      * apply I2. lia.
  - subst Js. cbn [map app len Nat.add]. apply IH; auto.
Qed.

(** ** superoperators *)
Definition superStep (t : R) (rho : array) (st : bool * N * option array) (vp : list nat * parts) : bool * N * option array :=
  match st with (flag, i, x) =>
    match flag, pLi (snd vp), x with
    | false, Some li, Some d =>
        let n := N.of_nat (liN li) in
        let i' := wsub i n in
        if (i <? n)%N
        then (true, i', onSlices2x (dims ++ dims)%list (extendVector (len dims) (fst vp)) (option_map (fun f => f t) (liSuper li (N.to_nat i))) rho d)
        else (false, i', x)
    | _, _, _ => st end end.
Lemma super_done t rho subs i x : snd (fold_left (superStep t rho) subs (true, i, x)) = x.
Proof. induction subs as [|vp subs IH]; cbn; auto. Qed.

(** whether the superoperator is there for jump [i] *)
Fixpoint implemented (subs : list (list nat * parts)) (i : nat) : bool :=
  match subs with
  | [] => false
  | (V, p) :: subs' => match pLi p with
                  | Some li => if i <? liN li then match liSuper li i with Some _ => true | None => false end else implemented subs' (i - liN li)
                  | None => implemented subs' i end
  end.
Lemma super_fold t rho subs Jss : Forall2 (fun vp Js => jumps_are (coords (fst vp) dims) (snd vp) t Js /\ supers_are (coords (fst vp) dims) (snd vp) t Js) subs Jss ->
  goodSubs dims subs -> forall i d, (i < 2 ^ 64)%N -> N.to_nat i < len (embedded dims subs Jss) ->
  if implemented subs (N.to_nat i)
  then exists d', snd (fold_left (superStep t rho) subs (false, i, Some d)) = Some d' /\
     mmeq dims (asOp d') (madd (asOp d) (conjugated dims (nth (N.to_nat i) (embedded dims subs Jss) zero) (asOp rho)))
  else snd (fold_left (superStep t rho) subs (false, i, Some d)) = None.
Proof.
  induction 1 as [|[V p] Js subs Jss [HJ HS] H IH]; intros G i d Hi; [cbn; lia|].
  inversion G as [|? ? G1 G2]; subst. rewrite embedded_cons, app_length, map_length. cbn [fst snd] in *.
  unfold jumps_are in HJ. unfold supers_are in HS. cbn [fold_left implemented]. unfold superStep at 2 4. cbn [snd fst].
  destruct (pLi p) as [li|].
  - destruct HJ as [HN HJ]. cbn zeta. intros Hlt. destruct (N.ltb_spec i (N.of_nat (liN li))) as [Lt|Ge].
    + rewrite !super_done. replace (N.to_nat i <? liN li) with true by (symmetry; apply Nat.ltb_lt; lia).
      destruct (liSuper li (N.to_nat i)) as [f|] eqn:Ef; cbn [option_map onSlices2x]; [|reflexivity].
      assert (Hl : N.to_nat i < len Js) by lia.
      destruct (onSlices2_super dims V G1 Hpos (f t) (nth (N.to_nat i) Js zero) rho d) as [d' [E F]]; [now apply HS|].
      exists d'. split; [exact E|]. rewrite app_nth1 by now rewrite map_length.
      rewrite (nth_indep _ zero (embed V dims zero)) by now rewrite map_length. now rewrite map_nth.
    + rewrite wsub_le by (auto; lia). replace (N.to_nat i <? liN li) with false by (symmetry; apply Nat.ltb_ge; lia).
      rewrite app_nth2 by (rewrite map_length; lia). rewrite map_length.
      specialize (IH G2 (i - N.of_nat (liN li))%N d ltac:(lia) ltac:(lia)).
      replace (N.to_nat (i - N.of_nat (liN li))) with (N.to_nat i - liN li) in IH by lia. rewrite HN in IH |- *. exact IH.
  - subst Js. cbn [map app len Nat.add]. apply IH; auto.
Qed.

(** ** averages *)
Lemma avr_fold (avr : parts -> R -> op -> option (list R)) t m subs Oss :
  Forall2 (fun vp Os => forall rho, avr (snd vp) t rho = Some (map (fun O => expectation (coords (fst vp) dims) O rho) Os)) subs Oss -> goodSubs dims subs ->
  forall l, fold_left (fun acc vp => match acc, traceOver dims (fst vp) m (avr (snd vp) t) with
                                 | Some l, Some a => Some (l ++ a)%list | _, _ => None end) subs (Some l) =
    Some (l ++ map (fun O => expectation dims O (indexOf m)) (embedded dims subs Oss)).
Proof.
  induction 1 as [|[V p] Os subs Oss HO H IH]; intros G l; [cbn; now rewrite app_nil_r|].
  inversion G as [|? ? G1 G2]; subst. cbn [fold_left fst snd] in *.
  rewrite (traceOver_ok dims V G1 Hpos m _ Os HO). rewrite IH by auto. rewrite embedded_cons, map_app, map_map, app_assoc. reflexivity.
Qed.
Lemma len_embedded_li t subs Oss : Forall2 (fun vp Os => rates_are (coords (fst vp) dims) (snd vp) t Os) subs Oss ->
  forall k, fold_left (fun s vp => s + nLi (snd vp)) subs k = k + len (embedded dims subs Oss).
Proof.
  induction 1 as [|[V p] Os subs Oss HO H IH]; intros k; [cbn; lia|]. rewrite embedded_cons, app_length, map_length. cbn [fold_left fst snd] in *.
  rewrite IH. unfold rates_are, nLi in *. destruct (pLi p); [destruct HO as [-> _]; lia|subst; cbn; lia].
Qed.
Lemma len_embedded_av t subs Oss : Forall2 (fun vp Os => averages_are (coords (fst vp) dims) (snd vp) t Os) subs Oss ->
  forall k, fold_left (fun s vp => s + nAv (snd vp)) subs k = k + len (embedded dims subs Oss).
Proof.
  induction 1 as [|[V p] Os subs Oss HO H IH]; intros k; [cbn; lia|]. rewrite embedded_cons, app_length, map_length. cbn [fold_left fst snd] in *.
  rewrite IH. unfold averages_are, nAv in *. destruct (pAv p); [destruct HO as [-> _]; lia|subst; cbn; lia].
Qed.
Lemma rates_value sh p t Os : rates_are sh p t Os -> forall rho, averageLi p t rho = Some (map (fun O => expectation sh O rho) Os).
Proof.
  unfold rates_are, averageLi. destruct (pLi p) as [li|]; [|now intros -> rho]. intros [HN H] rho. unfold checked. rewrite H, map_length, HN, Nat.eqb_refl. reflexivity.
Qed.
Lemma averages_value sh p t Os : averages_are sh p t Os -> forall rho, averageAv p t rho = Some (map (fun O => expectation sh O rho) Os).
Proof.
  unfold averages_are, averageAv. destruct (pAv p) as [av|]; [|now intros -> rho]. intros [HN H] rho. unfold checked. rewrite H, map_length, HN, Nat.eqb_refl. reflexivity.
Qed.

(** ** Hamiltonian and propagator *)
Lemma h_fold t t0 psi subs Ms : Forall2 (fun vp M => hamiltonian_adds (coords (fst vp) dims) (snd vp) t t0 M) subs Ms -> goodSubs dims subs ->
  forall d, exists d', fold_left (fun x vp => match x, pHa (snd vp) with
                         | Some d, Some ha => onSlices2 dims (fst vp) (fun s d => haAdd ha t s d t0) psi d
                         | _, None => x
                         | None, _ => None end) subs (Some d) = Some d' /\
    forall y, inr dims y -> d' y = kadd (d y) (isum dims (fun k => kmul (embeddedSum dims subs Ms y k) (psi k))).
Proof.
  induction 1 as [|[V p] M subs Ms HM H IH]; intros G d.
  - exists d. split; [reflexivity|]. intros y Hy. unfold isum. rewrite ksum_zero; [ring|]. intros k _. unfold embeddedSum, msum. cbn. apply cr_eq; cbn; ring.
  - inversion G as [|? ? G1 G2]; subst. cbn [fold_left fst snd] in *. unfold hamiltonian_adds in HM.
    assert (S : forall y k, embeddedSum dims ((V, p) :: subs) (M :: Ms) y k = kadd (embed V dims M y k) (embeddedSum dims subs Ms y k)) by reflexivity.
    destruct (pHa p) as [ha|].
    + destruct (onSlices2_embed dims V G1 Hpos (fun s d => haAdd ha t s d t0) M psi d HM) as [d1 [E1 F1]]. rewrite E1.
      destruct (IH G2 d1) as [d' [E F]]. exists d'. split; [exact E|]. intros y Hy. rewrite F, F1 by auto.
      transitivity (kadd (d y) (kadd (isum dims (fun k => kmul (embed V dims M y k) (psi k))) (isum dims (fun k => kmul (embeddedSum dims subs Ms y k) (psi k))))); [ring|].
      f_equal. unfold isum. rewrite <- ksum_add. apply ksum_ext. intros k _. rewrite S. ring.
    + subst M. destruct (IH G2 d) as [d' [E F]]. exists d'. split; [exact E|]. intros y Hy. rewrite F by auto. f_equal. apply isum_ext. intros k Hk. rewrite S.
      unfold embed at 1, zero. destruct (listnat_eqb _ _); ring.
Qed.

Lemma acts_compose f g (A B : op) : acts_as dims f A -> acts_as dims g B -> acts_as dims (fun psi => g (f psi)) (mmul dims B A).
Proof.
  intros HA HB psi i Hi. rewrite HB by auto. unfold mmul.
  transitivity (isum dims (fun k => isum dims (fun l => kmul (B i k) (kmul (A k l) (psi l))))).
  - apply isum_ext. intros k Hk. rewrite HA by auto. now rewrite isum_scal_l.
  - rewrite isum_swap. apply isum_ext. intros l Hl. rewrite <- isum_scal_r. apply isum_ext. intros k Hk. ring.
Qed.
Lemma embed_identity V : good_positions (len dims) V -> mmeq dims (embed V dims identity) identity.
Proof.
  intros G i j Hi Hj. unfold embed, identity. destruct (coords_split dims V G i Hi) as (_ & _ & Ei). destruct (coords_split dims V G j Hj) as (_ & _ & Ej).
  destruct (listnat_eqb_spec i j) as [->|N]; [now rewrite !listnat_eqb_refl|].
  destruct (listnat_eqb_spec (coords (others (len dims) V) i) (coords (others (len dims) V) j)) as [E1|]; [|reflexivity].
  destruct (listnat_eqb_spec (coords V i) (coords V j)) as [E2|]; [|reflexivity]. exfalso. apply N. rewrite <- Ei, <- Ej. now rewrite E1, E2.
Qed.
Lemma identity_acts (psi : array) i : inr dims i -> isum dims (fun k => kmul (identity i k) (psi k)) = psi i.
Proof.
  intros Hi. rewrite <- (isum_delta dims i psi Hi). apply isum_ext. intros k Hk. unfold identity. destruct (listnat_eqb i k); ring.
Qed.
Lemma identity_mmul (A : op) : mmeq dims (mmul dims identity A) A.
Proof. intros i j Hi Hj. unfold mmul. apply (identity_acts (fun k => A k j) i Hi). Qed.

Lemma u_fold t t0 subs Us : Forall2 (fun vp U => propagates_with (coords (fst vp) dims) (snd vp) t t0 U) subs Us -> goodSubs dims subs ->
  forall psi0 psi A, (forall y, inr dims y -> psi y = isum dims (fun k => kmul (A y k) (psi0 k))) ->
  exists psi', fold_left (fun x vp => match x, pEx (snd vp) with
                         | Some psi, Some ex => onSlices dims (fst vp) (fun s => exU ex t s t0) psi
                         | _, None => x
                         | None, _ => None end) subs (Some psi) = Some psi' /\
    forall y, inr dims y -> psi' y = isum dims (fun k => kmul (fold_left (fun A vU => mmul dims (embed (fst (fst vU)) dims (snd vU)) A) (combine subs Us) A y k) (psi0 k)).
Proof.
  induction 1 as [|[V p] U subs Us HU H IH]; intros G psi0 psi A HA.
  - exists psi. split; [reflexivity|]. exact HA.
  - inversion G as [|? ? G1 G2]; subst. cbn [fold_left combine fst snd] in *. unfold propagates_with in HU.
    assert (Step : forall psi1, (forall y, inr dims y -> psi1 y = isum dims (fun k => kmul (embed V dims U y k) (psi k))) ->
       forall y, inr dims y -> psi1 y = isum dims (fun k => kmul (mmul dims (embed V dims U) A y k) (psi0 k))).
    { intros psi1 H1 y Hy. rewrite H1 by auto. unfold mmul.
      transitivity (isum dims (fun k => isum dims (fun l => kmul (embed V dims U y k) (kmul (A k l) (psi0 l))))).
      - apply isum_ext. intros k Hk. rewrite HA by auto. now rewrite isum_scal_l.
      - rewrite isum_swap. apply isum_ext. intros l Hl. rewrite <- isum_scal_r. apply isum_ext. intros k Hk. ring. }
    destruct (pEx p) as [ex|].
    + destruct (onSlices_embed dims V G1 Hpos (fun s => exU ex t s t0) U psi HU) as [psi1 [E1 F1]]. rewrite E1. apply IH; auto.
    + subst U. apply IH; auto. apply Step. intros y Hy. rewrite <- (identity_acts psi y Hy). apply isum_ext. intros k Hk. now rewrite embed_identity.
Qed.

(** ** columns *)
Definition tidyList (subs : list (list nat * parts)) : Prop := Forall (fun vp => tidy (snd vp)) subs.
Lemma firstn_prefix (pre rest : list R) : firstn (len pre) (pre ++ rest) = pre.
Proof. rewrite firstn_app, Nat.sub_diag, firstn_all. cbn. apply app_nil_r. Qed.
Lemma skipn_prefix (pre rest : list R) : skipn (len pre) (pre ++ rest) = rest.
Proof. rewrite skipn_app, Nat.sub_diag, skipn_all. reflexivity. Qed.
Lemma write_at (pre w w' rest : list R) : len w' = len w -> writeWindow (len pre) w' (pre ++ w ++ rest) = (pre ++ w') ++ rest.
Proof.
  intros L. unfold writeWindow. rewrite firstn_prefix. rewrite L. rewrite (app_assoc pre w rest). rewrite <- app_length. rewrite skipn_prefix. now rewrite app_assoc.
Qed.
Lemma window_at (pre w rest : list R) n : n = len w -> window (len pre) n (pre ++ w ++ rest) = w.
Proof. intros ->. unfold window. now rewrite skipn_prefix, firstn_prefix. Qed.

Lemma split_at (a : list R) n : n <= len a -> exists w r, a = w ++ r /\ len w = n /\ firstn n a = w /\ skipn n a = r.
Proof. intros L. exists (firstn n a), (skipn n a). rewrite firstn_skipn, firstn_length. repeat split. lia. Qed.

Lemma process_fold subs : tidyList subs -> forall pre a, len a = fold_right (fun vp s => nAv (snd vp) + s) 0 subs ->
  snd (fold_left (fun st vp => match st with (l1, a) =>
         match pAv (snd vp) with
         | Some av => let u1 := l1 + avN av in
                      if l1 <? u1 then (u1, writeWindow l1 (avProcess av (window l1 (u1 - l1) a)) a) else (l1, a)
         | None => (l1, a) end end) subs (len pre, pre ++ a)) =
  pre ++ List.concat (map (fun pw => processOwn (fst pw) (snd pw)) (combine (map snd subs) (pieces (map (fun vp => nAv (snd vp)) subs) a))).
Proof.
  induction 1 as [|[V p] subs HT H IH]; intros pre a L.
  - cbn. cbn in L. destruct a; [reflexivity|discriminate].
  - cbn [fold_right snd] in L. cbn [fold_left map combine pieces List.concat snd fst]. unfold tidy in HT. cbn [snd] in HT.
    unfold processOwn at 1. destruct (pAv p) as [av|] eqn:Ep; [assert (En : nAv p = avN av) by (unfold nAv; now rewrite Ep)|assert (En : nAv p = 0) by (unfold nAv; now rewrite Ep)]; rewrite En in L |- *.
    + destruct HT as [_ HT]. destruct (split_at a (avN av)) as (w & r & Ea & Lw & -> & ->); [lia|]. subst a.
      rewrite app_length in L. assert (Lr : len r = fold_right (fun vp s => nAv (snd vp) + s) 0 subs) by lia.
      cbn zeta. destruct (Nat.ltb_spec (len pre) (len pre + avN av)) as [Lt|Ge].
      * replace (len pre + avN av - len pre) with (avN av) by lia. rewrite (window_at pre w r) by auto.
        rewrite write_at by (rewrite HT; auto).
        replace (len pre + avN av) with (len (pre ++ avProcess av w)) by (rewrite app_length, HT; auto).
        rewrite IH by auto. now rewrite app_assoc.
      * assert (E0 : avN av = 0) by lia. assert (Ew : w = []) by (apply length_zero_iff_nil; lia).
        assert (Pw : avProcess av w = []) by (apply length_zero_iff_nil; rewrite HT; lia). rewrite Pw. rewrite Ew. cbn [app]. now apply IH.
    + cbn [firstn skipn app]. apply IH. exact L.
Qed.
Lemma stream_fold (subs : list (list nat * parts)) : forall pre a rest os, len a = fold_right (fun vp s => nAv (snd vp) + s) 0 subs ->
  snd (fold_left (fun st vp => match st with (l1, os) =>
         match pAv (snd vp) with
         | Some av => let u1 := l1 + avN av in
                      if l1 <? u1 then (u1, streamCommon (window l1 (u1 - l1) (pre ++ a ++ rest)) os) else (l1, os)
         | None => (l1, os) end end) subs (len pre, os)) =
  os ++ List.concat (map (fun pw => streamOwn (fst pw) (snd pw)) (combine (map snd subs) (pieces (map (fun vp => nAv (snd vp)) subs) a))).
Proof.
  induction subs as [|[V p] subs IH]; intros pre a rest os L.
  - cbn. now rewrite app_nil_r.
  - cbn [fold_right snd] in L. cbn [fold_left map combine pieces List.concat snd fst].
    destruct (pAv p) as [av|] eqn:Ep; [assert (En : nAv p = avN av) by (unfold nAv; now rewrite Ep)|assert (En : nAv p = 0) by (unfold nAv; now rewrite Ep)]; rewrite En in L |- *.
    + destruct (split_at a (avN av)) as (w & r & Ea & Lw & -> & ->); [lia|]. subst a.
      rewrite app_length in L. assert (Lr : len r = fold_right (fun vp s => nAv (snd vp) + s) 0 subs) by lia.
      cbn zeta. destruct (Nat.ltb_spec (len pre) (len pre + avN av)) as [Lt|Ge].
      * replace (len pre + avN av - len pre) with (avN av) by lia. rewrite <- (app_assoc w r rest). rewrite (window_at pre w (r ++ rest)) by auto.
        replace (len pre + avN av) with (len (pre ++ w)) by (rewrite app_length; lia).
        rewrite (app_assoc pre w (r ++ rest)). rewrite IH by auto. unfold streamCommon, streamOwn at 2. destruct w as [|x w']; [cbn in Lw; lia|].
        cbn. now rewrite <- app_assoc.
      * assert (E0 : avN av = 0) by lia. assert (Ew : w = []) by (apply length_zero_iff_nil; lia). subst w.
        cbn [streamOwn app]. apply IH. exact Lr.
    + cbn [firstn skipn streamOwn app]. apply IH. exact L.
Qed.
Lemma numbered_lines i ls : numbered (keyLines i ls) = combine (seq i (len ls)) ls.
Proof. revert i; induction ls as [|s ls IH]; intros i; cbn; auto. f_equal. apply IH. Qed.
Lemma combine_seq_app {A} (l1 l2 : list A) i : combine (seq i (len (l1 ++ l2))) (l1 ++ l2) = combine (seq i (len l1)) l1 ++ combine (seq (i + len l1) (len l2)) l2.
Proof.
  revert i; induction l1 as [|a l1 IH]; intros i; cbn [app len seq combine].
  - now rewrite Nat.add_0_r.
  - f_equal. rewrite IH. now rewrite Nat.add_succ_r.
Qed.
Lemma numbered_app a b : numbered (a ++ b) = numbered a ++ numbered b.
Proof. unfold numbered. apply flat_map_app. Qed.
Lemma key_fold (key : parts -> list token * nat -> list token * nat) (labels : parts -> list string) :
  (forall p os i, numbered (fst (key p (os, i))) = numbered os ++ combine (seq i (len (labels p))) (labels p) /\ snd (key p (os, i)) = i + len (labels p)) ->
  forall (subs : list (list nat * parts)) os i, let x := fold_left (fun x vp => key (snd vp) x) subs (os, i) in
    numbered (fst x) = numbered os ++ combine (seq i (len (flat_map labels (map snd subs)))) (flat_map labels (map snd subs)) /\
    snd x = i + len (flat_map labels (map snd subs)).
Proof.
  intros Hk. induction subs as [|[V p] subs IH]; intros os i; cbn [fold_left map flat_map snd].
  - cbn. rewrite app_nil_r. split; [reflexivity|lia].
  - destruct (key p (os, i)) as [os' i'] eqn:E. destruct (Hk p os i) as [H1 H2]. rewrite E in H1, H2. cbn [fst snd] in H1, H2.
    destruct (IH os' i') as [I1 I2]. cbn zeta. rewrite I1, I2, H1, H2. rewrite combine_seq_app, app_length. split; [now rewrite app_assoc|lia].
Qed.
Lemma keyAv_ok p os i : numbered (fst (keyAv p (os, i))) = numbered os ++ combine (seq i (len (labelsAv p))) (labelsAv p) /\ snd (keyAv p (os, i)) = i + len (labelsAv p).
Proof.
  unfold keyAv, labelsAv. destruct (pAv p) as [av|]; cbn [fst snd].
  - unfold keyStream. cbn [fst snd]. rewrite numbered_app. cbn [numbered flat_map app]. fold numbered. split; [|reflexivity]. f_equal. apply numbered_lines.
  - cbn. rewrite app_nil_r. split; [reflexivity|lia].
Qed.
Lemma keyLi_ok p os i : numbered (fst (keyLi p (os, i))) = numbered os ++ combine (seq i (len (labelsLi p))) (labelsLi p) /\ snd (keyLi p (os, i)) = i + len (labelsLi p).
Proof.
  unfold keyLi, labelsLi. destruct (pLi p) as [li|]; cbn [fst snd].
  - unfold keyStream. cbn [fst snd]. rewrite numbered_app. cbn [numbered flat_map app]. fold numbered. split; [|reflexivity]. f_equal. apply numbered_lines.
  - cbn. rewrite app_nil_r. split; [reflexivity|lia].
Qed.
Lemma fold_count (g : parts -> nat) (subs : list (list nat * parts)) k :
  fold_left (fun s vp => s + g (snd vp)) subs k = k + fold_right (fun vp s => g (snd vp) + s) 0 subs.
Proof. revert k; induction subs as [|vp subs IH]; intros k; cbn; [lia|]. rewrite IH. lia. Qed.
End Subs.
