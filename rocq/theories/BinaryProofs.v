(** The facts about binary systems. *)
From Coq Require Import List Arith NArith Reals Lra Lia Bool String.
From Verif Require Import Star CReal Arr SliceSpec SliceProofs HermSpec DensityModel DensitySpec
  MasterModel MasterSpec MasterProofs MasterFacts CompositeModel CompositeSpec EmbedProofs CompositeProofs CompositeLemmas CompositeFacts.
Import ListNotations.
Add Ring CRB : (k_ring CR).
Local Notation len := List.length.
Local Open Scope list_scope.

Lemma inr2 d0 d1 y : inr [d0; d1] y -> exists a b, y = [a; b].
Proof. intros H. pose proof (inr_length _ _ H) as L. destruct y as [|a [|b [|? ?]]]; try discriminate. eauto. Qed.
Lemma embed01 d0 d1 (M : op) y y' : inr [d0; d1] y -> inr [d0; d1] y' -> embed [0; 1] [d0; d1] M y y' = M y y'.
Proof. intros H H'. destruct (inr2 _ _ _ H) as (a & b & ->). destruct (inr2 _ _ _ H') as (a' & b' & ->). reflexivity. Qed.

Section Bin.
Variable b : binary.
Hypothesis GB : goodBinary b.
Let dims := bDims b.
Let subs := binaryParts b.
Lemma bpos : forall k, In k dims -> 0 < k.
Proof. destruct GB as (d0 & d1 & E & H0 & H1). unfold dims. rewrite E. intros k [<-|[<-|[]]]; auto. Qed.
Lemma bgood : goodSubs dims subs.
Proof.
  destruct GB as (d0 & d1 & E & H0 & H1). unfold goodSubs, subs, binaryParts, dims. rewrite E. cbn [len].
  assert (K : forall V, NoDup V -> (forall v, In v V -> v < 2) -> good_positions 2 V) by (intros V K1 K2; split; auto).
  repeat (apply Forall_cons; [apply K; [repeat constructor; cbn; intuition congruence|cbn; intuition lia]|]). constructor.
Qed.
Lemma bembed (M : op) y y' : inr dims y -> inr dims y' -> embed [0; 1] dims M y y' = M y y'.
Proof. destruct GB as (d0 & d1 & E & _ & _). unfold dims. rewrite E. apply embed01. Qed.
Lemma bgood0 : good_positions (len dims) [0]. Proof. pose proof bgood as G. inversion G as [|? ? G1 G2]; subst. exact G1. Qed.
Lemma bgood1 : good_positions (len dims) [1].
Proof. pose proof bgood as G. inversion G as [|? ? G1 G2]; subst. inversion G2 as [|? ? G3 G4]; subst. exact G3. Qed.
Lemma bcoords : coords [0; 1] dims = dims.
Proof. destruct GB as (d0 & d1 & E & _ & _). unfold dims. rewrite E. reflexivity. Qed.

Lemma embedded3 J0 J1 J2 : embedded dims subs [J0; J1; J2] = map (embed [0] dims) J0 ++ map (embed [1] dims) J1 ++ map (embed [0; 1] dims) J2.
Proof. unfold embedded, subs, binaryParts. cbn [combine map List.concat fst snd]. now rewrite app_nil_r. Qed.
Lemma three {X} (D : list nat -> parts -> X -> Prop) xs : described D dims subs xs ->
  exists x0 x1 x2, xs = [x0; x1; x2] /\ D (coords [0] dims) (bFree0 b) x0 /\ D (coords [1] dims) (bFree1 b) x1 /\ D dims (bIa b) x2.
Proof.
  unfold described, subs, binaryParts. intros H. inversion H as [|? x0 ? ? H0 T0]; subst. inversion T0 as [|? x1 ? ? H1 T1]; subst.
  inversion T1 as [|? x2 ? ? H2 T2]; subst. inversion T2; subst. cbn [fst snd] in *. rewrite bcoords in H2. exists x0, x1, x2. auto.
Qed.
Lemma nth_embed V Js i : i < len Js -> nth i (map (embed V dims) Js) zero = embed V dims (nth i Js zero).
Proof. intros H. rewrite (nth_indep _ zero (embed V dims zero)) by now rewrite map_length. apply map_nth. Qed.
Lemma jumps_len sh p t Js : jumps_are sh p t Js -> nLi p = len Js.
Proof. unfold jumps_are, nLi. destruct (pLi p); [intros [H _]; exact H|now intros ->]. Qed.

(** where the jump [i] is found *)
Lemma where_jump t J0 J1 J2 i : jumps_are (coords [0] dims) (bFree0 b) t J0 -> jumps_are (coords [1] dims) (bFree1 b) t J1 -> jumps_are dims (bIa b) t J2 ->
  countable b -> (N.of_nat (len J0 + len J1 + len J2) <= 2 ^ 64)%N -> i < len J0 + len J1 + len J2 ->
  (exists li, pLi (bFree0 b) = Some li /\ i < len J0 /\
     (forall psi, binaryJ b t psi (N.of_nat i) = onSlices dims [0] (fun s => liJ li t s i) psi) /\
     (forall rho d, binarySuper b t rho d (N.of_nat i) = onSlices2x (dims ++ dims) [0; 2] (option_map (fun f => f t) (liSuper li i)) rho d)) \/
  (exists li, pLi (bFree1 b) = Some li /\ len J0 <= i < len J0 + len J1 /\
     (forall psi, binaryJ b t psi (N.of_nat i) = onSlices dims [1] (fun s => liJ li t s (i - len J0)) psi) /\
     (forall rho d, binarySuper b t rho d (N.of_nat i) = onSlices2x (dims ++ dims) [1; 3] (option_map (fun f => f t) (liSuper li (i - len J0))) rho d)) \/
  (exists li, pLi (bIa b) = Some li /\ len J0 + len J1 <= i /\
     (forall psi, binaryJ b t psi (N.of_nat i) = Some (liJ li t psi (i - len J0 - len J1))) /\
     (forall rho d, binarySuper b t rho d (N.of_nat i) = option_map (fun f => f t rho d) (liSuper li (i - len J0 - len J1)))).
Proof.
  intros H0 H1 H2 C L Hi. pose proof (jumps_len _ _ _ _ H0) as N0. pose proof (jumps_len _ _ _ _ H1) as N1. pose proof (jumps_len _ _ _ _ H2) as N2.
  unfold binaryJ, binarySuper. fold dims. rewrite N0, N1, N2.
  assert (Step1 : len J0 <= i -> wsub (N.of_nat i) (N.of_nat (len J0)) = N.of_nat (i - len J0)) by (intros; rewrite wsub_le by lia; lia).
  destruct (N.ltb_spec (N.of_nat i) (N.of_nat (len J0))) as [Lt|Ge].
  - left. unfold nLi in N0. destruct (pLi (bFree0 b)) as [li|]; [|lia]. exists li. rewrite Nat2N.id. repeat split; auto; lia.
  - right. rewrite Step1 by lia.
    assert (S2 : exists n', match pLi (bFree1 b) with Some _ => N.of_nat (len J1) | None => N.of_nat (len J0) end = n' /\
              (pLi (bFree1 b) <> None -> n' = N.of_nat (len J1)) /\ (pLi (bFree1 b) = None -> n' = N.of_nat (len J0))) by (destruct (pLi (bFree1 b)); eexists; repeat split; congruence).
    destruct S2 as (n' & -> & Sn & Sm).
    assert (Case : (exists li, pLi (bFree1 b) = Some li /\ i < len J0 + len J1 /\ n' = N.of_nat (len J1)) \/
                   (len J0 + len J1 <= i /\ n' = N.of_nat (len J1))).
    { unfold nLi in N1. destruct (pLi (bFree1 b)) as [li|] eqn:E1.
      - destruct (Nat.lt_ge_cases i (len J0 + len J1)); [left; exists li|right]; repeat split; auto; apply Sn; congruence.
      - right. rewrite <- N1 in *. split; [lia|]. rewrite Sm by auto. destruct C as [C|[C|C]]; [congruence| |]; rewrite ?N0, ?N2 in C; lia. }
    destruct Case as [(li & E1 & Hlt & ->)|[Hge ->]].
    + left. exists li. rewrite E1. replace (N.of_nat (i - len J0) <? N.of_nat (len J1))%N with true by (symmetry; apply N.ltb_lt; lia). rewrite Nat2N.id.
      repeat split; auto; try lia; destruct (pLi (bFree0 b)); reflexivity.
    + right. replace (N.of_nat (i - len J0) <? N.of_nat (len J1))%N with false by (symmetry; apply N.ltb_ge; lia).
      rewrite wsub_le by lia. replace (N.of_nat (i - len J0) - N.of_nat (len J1))%N with (N.of_nat (i - len J0 - len J1)) by lia.
      replace (N.of_nat (i - len J0 - len J1) <? N.of_nat (len J2))%N with true by (symmetry; apply N.ltb_lt; lia). rewrite Nat2N.id.
      unfold nLi in N2. destruct (pLi (bIa b)) as [li|]; [|lia]. exists li. repeat split; auto; try lia; destruct (pLi (bFree0 b)), (pLi (bFree1 b)); reflexivity.
Qed.

Lemma bjump_fact t Jss : described (fun sh p => jumps_are sh p t) dims subs Jss -> countable b -> (N.of_nat (len (embedded dims subs Jss)) <= 2 ^ 64)%N ->
  forall i psi, i < len (embedded dims subs Jss) ->
  exists psi', binaryJ b t psi (N.of_nat i) = Some psi' /\
    forall y, inr dims y -> psi' y = isum dims (fun k => kmul (nth i (embedded dims subs Jss) zero y k) (psi k)).
Proof.
  intros H C L i psi Hi. destruct (three _ _ H) as (J0 & J1 & J2 & -> & H0 & H1 & H2). rewrite embedded3 in *. rewrite !app_length, !map_length in L, Hi.
  destruct (where_jump t J0 J1 J2 i H0 H1 H2 C) as [(li & E & Hr & F & _)|[(li & E & Hr & F & _)|(li & E & Hr & F & _)]]; try lia; rewrite F.
  - unfold jumps_are in H0. rewrite E in H0. destruct H0 as [_ H0].
    destruct (onSlices_embed dims [0] bgood0 bpos (fun s => liJ li t s i) (nth i J0 zero) psi (H0 i Hr)) as [psi' [E1 F1]]. exists psi'. split; [exact E1|].
    intros y Hy. rewrite app_nth1 by now rewrite map_length. rewrite nth_embed by auto. now apply F1.
  - unfold jumps_are in H1. rewrite E in H1. destruct H1 as [_ H1].
    destruct (onSlices_embed dims [1] bgood1 bpos (fun s => liJ li t s (i - len J0)) (nth (i - len J0) J1 zero) psi (H1 (i - len J0) ltac:(lia))) as [psi' [E1 F1]]. exists psi'. split; [exact E1|].
    intros y Hy. rewrite app_nth2 by (rewrite map_length; lia). rewrite map_length. rewrite app_nth1 by (rewrite map_length; lia). rewrite nth_embed by lia. now apply F1.
  - unfold jumps_are in H2. rewrite E in H2. destruct H2 as [_ H2]. exists (liJ li t psi (i - len J0 - len J1)). split; [reflexivity|].
    intros y Hy. rewrite app_nth2 by (rewrite map_length; lia). rewrite map_length. rewrite app_nth2 by (rewrite map_length; lia). rewrite map_length. rewrite nth_embed by lia.
    rewrite H2 by (auto; lia). apply isum_ext. intros k Hk. now rewrite bembed.
Qed.

Lemma bsuper_fact t Jss : described (fun sh p => jumps_are sh p t) dims subs Jss -> described (fun sh p => supers_are sh p t) dims subs Jss -> countable b ->
  (N.of_nat (len (embedded dims subs Jss)) <= 2 ^ 64)%N -> forall i, i < len (embedded dims subs Jss) ->
  if nth i (flat_map given (map snd subs)) false
  then (forall rho d, exists d', binarySuper b t rho d (N.of_nat i) = Some d' /\
     mmeq dims (asOp d') (madd (asOp d) (conjugated dims (nth i (embedded dims subs Jss) zero) (asOp rho))))
  else (forall rho d, binarySuper b t rho d (N.of_nat i) = None).
Proof.
  intros H S C L i Hi. destruct (three _ _ H) as (J0 & J1 & J2 & -> & H0 & H1 & H2).
  destruct (three _ _ S) as (J0' & J1' & J2' & E' & S0 & S1 & S2). injection E' as <- <- <-.
  rewrite embedded3 in *. rewrite !app_length, !map_length in L, Hi.
  assert (Fl : flat_map given (map snd subs) = given (bFree0 b) ++ given (bFree1 b) ++ given (bIa b)) by (unfold subs, binaryParts; cbn [map flat_map snd]; now rewrite app_nil_r).
  rewrite Fl. assert (L0 : len (given (bFree0 b)) = len J0) by (rewrite given_len; now apply (jumps_len _ _ t) in H0).
  assert (L1 : len (given (bFree1 b)) = len J1) by (rewrite given_len; now apply (jumps_len _ _ t) in H1).
  pose proof (jumps_len _ _ t _ H0) as N0. pose proof (jumps_len _ _ t _ H1) as N1. pose proof (jumps_len _ _ t _ H2) as N2. unfold nLi in N0, N1, N2.
  destruct (where_jump t J0 J1 J2 i H0 H1 H2 C) as [(li & E & Hr & _ & F)|[(li & E & Hr & _ & F)|(li & E & Hr & _ & F)]]; try lia.
  - rewrite E in N0. rewrite app_nth1 by lia. rewrite (given_nth _ li) by (auto; lia). unfold supers_are in S0. rewrite E in S0. destruct (liSuper li i) as [f|] eqn:Ef; [|intros rho d; rewrite F; reflexivity].
    intros rho d. rewrite F. cbn [option_map onSlices2x].
    destruct (onSlices2_super dims [0] bgood0 bpos (f t) (nth i J0 zero) rho d (S0 i f Hr Ef)) as [d' [E1 F1]].
    exists d'. split.
    + rewrite <- E1. f_equal. destruct GB as (d0 & d1 & Ed & _ & _). unfold dims. rewrite Ed. reflexivity.
    + rewrite app_nth1 by now rewrite map_length. rewrite nth_embed by auto. exact F1.
  - rewrite E in N1. rewrite app_nth2, L0 by lia. rewrite app_nth1 by lia. rewrite (given_nth _ li) by (auto; lia). unfold supers_are in S1. rewrite E in S1. destruct (liSuper li (i - len J0)) as [f|] eqn:Ef; [|intros rho d; rewrite F; reflexivity].
    intros rho d. rewrite F. cbn [option_map onSlices2x].
    destruct (onSlices2_super dims [1] bgood1 bpos (f t) (nth (i - len J0) J1 zero) rho d (S1 (i - len J0) f ltac:(lia) Ef)) as [d' [E1 F1]].
    exists d'. split.
    + rewrite <- E1. f_equal. destruct GB as (d0 & d1 & Ed & _ & _). unfold dims. rewrite Ed. reflexivity.
    + rewrite app_nth2 by (rewrite map_length; lia). rewrite map_length. rewrite app_nth1 by (rewrite map_length; lia). rewrite nth_embed by lia. exact F1.
  - rewrite E in N2. rewrite app_nth2, L0 by lia. rewrite app_nth2, L1 by lia. rewrite (given_nth _ li) by (auto; lia). unfold supers_are in S2. rewrite E in S2. destruct (liSuper li (i - len J0 - len J1)) as [f|] eqn:Ef; [|intros rho d; rewrite F; reflexivity].
    intros rho d. rewrite F. cbn [option_map]. exists (f t rho d). split; [reflexivity|].
    rewrite app_nth2 by (rewrite map_length; lia). rewrite map_length. rewrite app_nth2 by (rewrite map_length; lia). rewrite map_length. rewrite nth_embed by lia.
    intros y z Hy Hz. rewrite (S2 (i - len J0 - len J1) f ltac:(lia) Ef rho d y z Hy Hz). unfold madd. f_equal. unfold conjugated, mmul. apply isum_ext. intros k Hk. rewrite bembed by auto. f_equal.
    apply isum_ext. intros l Hl. f_equal. unfold dag. now rewrite bembed.
Qed.

(** the jump lost: the first one of the interaction *)
Lemma bjump_lost t psi : pLi (bFree1 b) = None -> 0 < nLi (bFree0 b) -> 0 < nLi (bIa b) -> (N.of_nat (nLi (bFree0 b) + nLi (bIa b)) <= 2 ^ 64)%N ->
  binaryJ b t psi (N.of_nat (nLi (bFree0 b))) = Some psi.
Proof.
  intros E H H' L. unfold binaryJ. remember (N.of_nat (nLi (bFree0 b))) as n eqn:En. rewrite N.ltb_irrefl. rewrite E.
  assert (Z : wsub n n = 0%N) by (rewrite wsub_le; lia). rewrite Z. 
  assert (Y : (wsub 0 n <? N.of_nat (nLi (bIa b)))%N = false).
  { apply N.ltb_ge. unfold wsub. rewrite N.mod_small by lia. lia. }
  rewrite Y. destruct (pLi (bFree0 b)); reflexivity.
Qed.

(** averages *)
Lemma bavr (avr : parts -> R -> op -> option (list R)) n t m O0 O1 O2 :
  (forall rho, avr (bFree0 b) t rho = Some (map (fun O => expectation (coords [0] dims) O rho) O0)) ->
  (forall rho, avr (bFree1 b) t rho = Some (map (fun O => expectation (coords [1] dims) O rho) O1)) ->
  (forall rho, avr (bIa b) t rho = Some (map (fun O => expectation dims O rho) O2)) -> n = len O0 + len O1 + len O2 ->
  binaryAverage b avr n t m = Some (map (fun O => expectation dims O (indexOf m)) (embedded dims subs [O0; O1; O2])).
Proof.
  intros H0 H1 H2 ->. unfold binaryAverage. fold dims.
  rewrite (traceOver_ok dims [0] bgood0 bpos m _ O0 H0), (traceOver_ok dims [1] bgood1 bpos m _ O1 H1), H2. unfold checked.
  rewrite !app_length, !map_length, Nat.add_assoc, Nat.eqb_refl. rewrite embedded3, !map_app, !map_map. do 3 f_equal.
  apply map_ext. intros O. unfold expectation, mtrace, mmul. f_equal. apply isum_ext. intros i Hi. apply isum_ext. intros j Hj. now rewrite bembed.
Qed.
Lemma brates_fact t Oss : described (fun sh p => rates_are sh p t) dims subs Oss -> forall m,
  binaryRates b t m = Some (map (fun O => expectation dims O (indexOf m)) (embedded dims subs Oss)).
Proof.
  intros H m. destruct (three _ _ H) as (J0 & J1 & J2 & -> & H0 & H1 & H2). unfold binaryRates. apply bavr; try (intros rho; now apply rates_value).
  unfold binaryNLi, nLi. unfold rates_are in *. destruct (pLi (bFree0 b)), (pLi (bFree1 b)), (pLi (bIa b));
    repeat match goal with H : _ /\ _ |- _ => destruct H as [-> _] | H : _ = [] |- _ => subst end; reflexivity.
Qed.
Lemma baverages_fact t Oss : described (fun sh p => averages_are sh p t) dims subs Oss -> forall m,
  binaryAverages b t m = Some (map (fun O => expectation dims O (indexOf m)) (embedded dims subs Oss)).
Proof.
  intros H m. destruct (three _ _ H) as (J0 & J1 & J2 & -> & H0 & H1 & H2). unfold binaryAverages. apply bavr; try (intros rho; now apply averages_value).
  unfold binaryNAv, nAv. unfold averages_are in *. destruct (pAv (bFree0 b)), (pAv (bFree1 b)), (pAv (bIa b));
    repeat match goal with H : _ /\ _ |- _ => destruct H as [-> _] | H : _ = [] |- _ => subst end; reflexivity.
Qed.

(** columns *)
Lemma bprocess_fact a : Forall tidy (map snd subs) -> len a = binaryNAv b ->
  binaryProcess b a = List.concat (map (fun pw => processOwn (fst pw) (snd pw)) (combine (map snd subs) (pieces (map nAv (map snd subs)) a))).
Proof.
  intros T L. transitivity (snd (fold_left (fun st vp => match st with (l1, a) =>
         match pAv (snd vp) with
         | Some av => let u1 := l1 + avN av in
                      if l1 <? u1 then (u1, writeWindow l1 (avProcess av (window l1 (u1 - l1) a)) a) else (l1, a)
         | None => (l1, a) end end) subs (0, a))).
  - unfold binaryProcess, successiveRanges, subs, binaryParts. cbn [fold_left snd]. unfold nAv.
    destruct (pAv (bFree0 b)) as [a0|] eqn:E0; cbn zeta;
      [destruct (Nat.ltb_spec 0 (0 + avN a0)); [|replace (0 + avN a0) with 0 by lia]|rewrite ?Nat.add_0_r, ?Nat.ltb_irrefl];
      (destruct (pAv (bFree1 b)) as [a1|] eqn:E1; cbn zeta;
        [match goal with |- context [if ?l <? ?l + avN a1 then _ else _] => destruct (Nat.ltb_spec l (l + avN a1)); [|replace (l + avN a1) with l by lia] end
        |rewrite ?Nat.add_0_r, ?Nat.ltb_irrefl]);
      (destruct (pAv (bIa b)) as [a2|] eqn:E2; cbn zeta;
        [match goal with |- context [if ?l <? ?l + avN a2 then _ else _] => destruct (Nat.ltb_spec l (l + avN a2)) end
        |rewrite ?Nat.add_0_r, ?Nat.ltb_irrefl]); reflexivity.
  - rewrite map_map. apply (process_fold subs) with (pre := []).
    + unfold tidyList. subst subs. cbn in T |- *. inversion T as [|? ? T0 T1]; subst. inversion T1 as [|? ? T2 T3]; subst. inversion T3; subst. repeat constructor; auto.
    + rewrite L. unfold binaryNAv. cbn. lia.
Qed.
Lemma bstream_fact a os : len a = binaryNAv b ->
  binaryStream b a os = os ++ List.concat (map (fun pw => streamOwn (fst pw) (snd pw)) (combine (map snd subs) (pieces (map nAv (map snd subs)) a))).
Proof.
  intros L. transitivity (snd (fold_left (fun st vp => match st with (l1, os) =>
         match pAv (snd vp) with
         | Some av => let u1 := l1 + avN av in
                      if l1 <? u1 then (u1, streamCommon (window l1 (u1 - l1) a) os) else (l1, os)
         | None => (l1, os) end end) subs (0, os))).
  - unfold binaryStream, successiveRanges, subs, binaryParts. cbn [fold_left snd]. unfold nAv.
    destruct (pAv (bFree0 b)) as [a0|] eqn:E0; cbn zeta;
      [destruct (Nat.ltb_spec 0 (0 + avN a0)); [|replace (0 + avN a0) with 0 by lia]|rewrite ?Nat.add_0_r, ?Nat.ltb_irrefl];
      (destruct (pAv (bFree1 b)) as [a1|] eqn:E1; cbn zeta;
        [match goal with |- context [if ?l <? ?l + avN a1 then _ else _] => destruct (Nat.ltb_spec l (l + avN a1)); [|replace (l + avN a1) with l by lia] end
        |rewrite ?Nat.add_0_r, ?Nat.ltb_irrefl]);
      (destruct (pAv (bIa b)) as [a2|] eqn:E2; cbn zeta;
        [match goal with |- context [if ?l <? ?l + avN a2 then _ else _] => destruct (Nat.ltb_spec l (l + avN a2)) end
        |rewrite ?Nat.add_0_r, ?Nat.ltb_irrefl]); reflexivity.
  - rewrite map_map. pose proof (stream_fold subs [] a [] os) as H. rewrite app_nil_r in H. cbn [app len] in H. apply H.
    rewrite L. unfold binaryNAv. cbn. lia.
Qed.
Lemma bkey_fact (key : parts -> list token * nat -> list token * nat) (labels : parts -> list string) i :
  (forall p os i, numbered (fst (key p (os, i))) = numbered os ++ combine (seq i (len (labels p))) (labels p) /\ snd (key p (os, i)) = i + len (labels p)) ->
  let x := binaryKey b key [] i in
  numbered (fst x) = combine (seq i (len (flat_map labels (map snd subs)))) (flat_map labels (map snd subs)) /\
  snd x = i + len (flat_map labels (map snd subs)).
Proof. intros Hk. destruct (key_fold key labels Hk subs [Title "Binary system"] i) as [H1 H2]. split; [exact H1|exact H2]. Qed.
Lemma blabels_number : Forall tidy (map snd subs) -> len (flat_map labelsAv (map snd subs)) = binaryNAv b.
Proof.
  intros T. assert (K : forall p, tidy p -> len (labelsAv p) = nAv p).
  { intros p Hp. unfold labelsAv, nAv, tidy in *. destruct (pAv p); [symmetry; apply Hp|reflexivity]. }
  subst subs. cbn in T |- *. inversion T as [|? ? T0 T1]; subst. inversion T1 as [|? ? T2 T3]; subst. inversion T3; subst.
  rewrite !app_length, !K by auto. unfold binaryNAv. cbn. lia.
Qed.

(** Hamiltonian, propagator *)
Lemma good2 : goodSubs dims [([0], bFree0 b); ([1], bFree1 b)].
Proof. pose proof bgood0. pose proof bgood1. repeat constructor; auto; apply H || apply H0. Qed.
Lemma bhamiltonian_fact t t0 Ms : described (fun sh p => hamiltonian_adds sh p t t0) dims subs Ms -> forall psi d,
  exists d', binaryH b t psi d t0 = Some d' /\
    forall y, inr dims y -> d' y = kadd (d y) (isum dims (fun k => kmul (embeddedSum dims subs Ms y k) (psi k))).
Proof.
  intros H psi d. destruct (three _ _ H) as (M0 & M1 & M2 & -> & H0 & H1 & H2).
  destruct (h_fold dims bpos t t0 psi [([0], bFree0 b); ([1], bFree1 b)] [M0; M1]) with (d := d) as [d2 [E F]]; [repeat constructor; auto|apply good2|].
  assert (Sum : forall y k, inr dims y -> inr dims k -> embeddedSum dims subs [M0; M1; M2] y k = kadd (embeddedSum dims [([0], bFree0 b); ([1], bFree1 b)] [M0; M1] y k) (M2 y k)).
  { intros y k Hy Hk. rewrite <- (bembed M2 y k Hy Hk). unfold embeddedSum, subs, binaryParts, msum. cbn [combine map fst snd]. unfold ksum. cbn [map fold_right]. ring. }
  assert (E' : match (match pHa (bFree0 b) with Some ha => onSlices2 dims [0] (fun s d => haAdd ha t s d t0) psi d | None => Some d end) with
     | Some d1 => match pHa (bFree1 b) with Some ha => onSlices2 dims [1] (fun s d => haAdd ha t s d t0) psi d1 | None => Some d1 end
     | None => None end = Some d2).
  { rewrite <- E. cbn [fold_left fst snd]. destruct (pHa (bFree0 b)) as [ha0|]; [destruct (onSlices2 dims [0] _ psi d)|]; destruct (pHa (bFree1 b)); reflexivity. }
  unfold binaryH. fold dims.
  destruct (match pHa (bFree0 b) with Some ha => onSlices2 dims [0] (fun s d => haAdd ha t s d t0) psi d | None => Some d end) as [d1|]; [|discriminate].
  rewrite E'. unfold hamiltonian_adds in H2. destruct (pHa (bIa b)) as [ha|].
  - eexists. split; [reflexivity|]. intros y Hy. rewrite H2, F by auto.
    transitivity (kadd (d y) (kadd (isum dims (fun k => kmul (embeddedSum dims [([0], bFree0 b); ([1], bFree1 b)] [M0; M1] y k) (psi k))) (isum dims (fun k => kmul (M2 y k) (psi k))))); [ring|].
    f_equal. unfold isum. rewrite <- ksum_add. apply ksum_ext. intros k Hk. apply in_indices in Hk. rewrite Sum by auto. ring.
  - eexists. split; [reflexivity|]. intros y Hy. rewrite F by auto. f_equal. apply isum_ext. intros k Hk. rewrite Sum by auto. subst M2. unfold zero. ring.
Qed.
Lemma bpropagator_fact t t0 Us : described (fun sh p => propagates_with sh p t t0) dims subs Us -> forall psi,
  exists psi', binaryU b t psi t0 = Some psi' /\
    forall y, inr dims y -> psi' y = isum dims (fun k => kmul (embeddedProduct dims subs Us y k) (psi k)).
Proof.
  intros H psi. destruct (three _ _ H) as (U0 & U1 & U2 & -> & H0 & H1 & H2).
  destruct (u_fold dims bpos t t0 [([0], bFree0 b); ([1], bFree1 b)] [U0; U1]) with (psi0 := psi) (psi := psi) (A := identity) as [d2 [E F]]; [repeat constructor; auto|apply good2|intros y Hy; symmetry; now apply identity_acts|].
  set (P := fold_left (fun A vU => mmul dims (embed (fst (fst vU)) dims (snd vU)) A) (combine [([0], bFree0 b); ([1], bFree1 b)] [U0; U1]) identity) in F.
  assert (Prod : forall y k, inr dims y -> embeddedProduct dims subs [U0; U1; U2] y k = mmul dims U2 P y k).
  { intros y k Hy. change (mmul dims (embed [0; 1] dims U2) P y k = mmul dims U2 P y k). unfold mmul. apply isum_ext. intros l Hl. now rewrite bembed. }
  assert (E' : match (match pEx (bFree0 b) with Some ex => onSlices dims [0] (fun s => exU ex t s t0) psi | None => Some psi end) with
     | Some psi1 => match pEx (bFree1 b) with Some ex => onSlices dims [1] (fun s => exU ex t s t0) psi1 | None => Some psi1 end
     | None => None end = Some d2).
  { rewrite <- E. cbn [fold_left fst snd]. destruct (pEx (bFree0 b)) as [ex0|]; [destruct (onSlices dims [0] _ psi)|]; destruct (pEx (bFree1 b)); reflexivity. }
  unfold binaryU. fold dims.
  destruct (match pEx (bFree0 b) with Some ex => onSlices dims [0] (fun s => exU ex t s t0) psi | None => Some psi end) as [d1|]; [|discriminate].
  rewrite E'. 
  assert (Step : forall psi', (forall y, inr dims y -> psi' y = isum dims (fun k => kmul (U2 y k) (d2 k))) ->
     forall y, inr dims y -> psi' y = isum dims (fun k => kmul (embeddedProduct dims subs [U0; U1; U2] y k) (psi k))).
  { intros psi' H' y Hy. rewrite H' by auto. transitivity (isum dims (fun k => isum dims (fun l => kmul (U2 y k) (kmul (P k l) (psi l))))).
    - apply isum_ext. intros k Hk. rewrite F by auto. now rewrite isum_scal_l.
    - rewrite isum_swap. apply isum_ext. intros l Hl. rewrite Prod by auto. unfold mmul. rewrite <- isum_scal_r. apply isum_ext. intros k Hk. ring. }
  unfold propagates_with in H2. destruct (pEx (bIa b)) as [ex|]; eexists; (split; [reflexivity|]); apply Step; intros y Hy.
  - apply (H2 d2 y Hy).
  - subst U2. symmetry. now apply identity_acts.
Qed.

(** Master equation *)
Lemma bmaster_data t t0 Hs Jss : countable b ->
  described (fun sh p H => hamiltonian_adds sh p t t0 (minusI H)) dims subs Hs ->
  described (fun sh p => jumps_are sh p t) dims subs Jss -> described (fun sh p => supers_are sh p t) dims subs Jss ->
  (N.of_nat (len (embedded dims subs Jss)) <= 2 ^ 64)%N ->
  qDims (binaryQ b) = dims /\
  hamiltonian_is dims (option_map (fun h => h t t0) (qHa (binaryQ b))) (embeddedSum dims subs Hs) /\
  Forall2 (channel_is dims) (qLi (binaryQ b) t) (embedded dims subs Jss).
Proof.
  intros C HH HJ HS L.
  assert (HM : described (fun sh p => hamiltonian_adds sh p t t0) dims subs (map minusI Hs)) by now apply F2_map.
  unfold binaryQ. change [bFree0 b; bFree1 b; bIa b] with (map snd subs). destruct (characteristics (map snd subs)) as [[ex ha] li] eqn:Ec.
  unfold characteristics in Ec. rewrite characteristics_ex in Ec. cbn [orb] in Ec. injection Ec as Eex Eha Eli. cbn [qDims qHa qLi].
  split; [reflexivity|]. split.
  - destruct ha; cbn [option_map hamiltonian_is].
    + intros psi y Hy. destruct (bhamiltonian_fact t t0 _ HM psi (fun _ => k0)) as [d' [-> F]]. cbn [orElse]. rewrite F by auto.
      transitivity (isum dims (fun k => kmul (embeddedSum dims subs (map minusI Hs) y k) (psi k))); [ring|].
      apply isum_ext. intros k Hk. now rewrite (embeddedSum_minusI dims subs).
    + intros y k. pose proof (embeddedSum_none dims subs t t0 _ HM Eha y k) as E. rewrite (embeddedSum_minusI dims subs) in E.
      transitivity (kmul CI (kmul (kopp CI) (embeddedSum dims subs Hs y k))); [|rewrite E; ring].
      generalize (embeddedSum dims subs Hs y k). intros z. apply cr_eq; cbn; ring.
  - destruct li.
    + replace (binaryNLi b) with (len (embedded dims subs Jss)) by (rewrite <- (jumps_number dims subs t Jss HJ); unfold binaryNLi; cbn; lia).
      apply (Forall2_nth_seq _ _ _ zero). intros i Hi. split; cbn [fst snd].
      * intros psi y Hy. destruct (bjump_fact t Jss HJ C L i psi Hi) as [psi' [-> F]]. cbn [orElse]. now apply F.
      * pose proof (bsuper_fact t Jss HJ HS C L i Hi) as S. destruct (nth i (flat_map given (map snd subs)) false).
        -- destruct (S (fun _ => k0) (fun _ => k0)) as [d0 [-> _]]. cbn [option_map]. intros rho d. destruct (S rho d) as [d' [-> F]]. exact F.
        -- rewrite S. exact I.
    + rewrite (nolindblad dims subs t Jss HJ) by auto. constructor.
Qed.
Lemma bmaster_fact t t0 hs Hs Jss rho : countable b ->
  described (fun sh p H => hamiltonian_adds sh p t t0 (minusI H)) dims subs Hs ->
  described (fun sh p => jumps_are sh p t) dims subs Jss -> described (fun sh p => supers_are sh p t) dims subs Jss ->
  (N.of_nat (len (embedded dims subs Jss)) <= 2 ^ 64)%N ->
  Forall2 (fun vp h => hermitian (coords (fst vp) dims) h) subs hs ->
  Forall2 (fun vp x => mmeq (coords (fst vp) dims) (snd (fst x)) (nonHermitian (coords (fst vp) dims) (fst (fst x)) (snd x))) subs (combine (combine hs Hs) Jss) ->
  hermitian dims (asOp rho) ->
  let H := embeddedSum dims subs hs in let js := embedded dims subs Jss in
  let d := asOp (derivative (binaryQ b) t0 rho t) in
  mmeq dims d (lindblad dims (nonHermitian dims H js) js (asOp rho)) /\ hermitian dims H /\ hermitian dims d /\ mtrace dims d = k0.
Proof.
  intros C HH HJ HS L Hh HnH Hr. cbn zeta. destruct (bmaster_data t t0 Hs Jss C HH HJ HS L) as (D & H1 & H2).
  assert (L1 : len hs = len Hs) by (rewrite <- (F2_len Hh); apply (F2_len HH)).
  assert (L2 : len Hs = len Jss) by (rewrite <- (F2_len HH); apply (F2_len HJ)).
  pose proof (nonHermitian_whole dims subs bgood hs Hs Jss HnH L1 L2 (F2_len HJ)) as E.
  pose proof (embeddedSum_hermitian dims subs bgood hs Hh) as Hherm.
  destruct (lindblad_fact (binaryQ b) t0 rho t (embeddedSum dims subs Hs) (embedded dims subs Jss)) as (F1 & F2 & F3);
    try rewrite D; auto; [apply bpos|]. rewrite D in F1, F2, F3.
  repeat split; auto.
  - intros i j Hi Hj. rewrite F1 by auto. unfold lindblad. f_equal. f_equal. f_equal.
    + unfold mmul. apply isum_ext. intros k Hk. now rewrite E.
    + unfold mmul. apply isum_ext. intros k Hk. f_equal. unfold dag. now rewrite E.
  - apply F3 with (h := embeddedSum dims subs hs); auto.
Qed.
End Bin.

Lemma bkey_whole b i : Forall tidy (map snd (binaryParts b)) ->
  let x := binaryKey b keyAv [] i in let labels := flat_map labelsAv (map snd (binaryParts b)) in
  len labels = binaryNAv b /\ numbered (fst x) = combine (seq i (binaryNAv b)) labels /\ snd x = i + binaryNAv b.
Proof. intros T. cbn zeta. pose proof (blabels_number b T) as L. destruct (bkey_fact b keyAv labelsAv i keyAv_ok) as [H1 H2]. rewrite L in *. auto. Qed.
Lemma bkeyLi_whole b i : Forall tidyLi (map snd (binaryParts b)) ->
  let x := binaryKey b keyLi [] i in let labels := flat_map labelsLi (map snd (binaryParts b)) in
  len labels = binaryNLi b /\ numbered (fst x) = combine (seq i (binaryNLi b)) labels /\ snd x = i + binaryNLi b.
Proof.
  intros T. cbn zeta. assert (L : len (flat_map labelsLi (map snd (binaryParts b))) = binaryNLi b).
  { assert (K : forall p, tidyLi p -> len (labelsLi p) = nLi p).
    { intros p Hp. unfold labelsLi, nLi, tidyLi in *. destruct (pLi p); [symmetry; apply Hp|reflexivity]. }
    cbn in T |- *. inversion T as [|? ? T0 T1]; subst. inversion T1 as [|? ? T2 T3]; subst. inversion T3; subst.
    rewrite !app_length, !K by auto. unfold binaryNLi. cbn. lia. }
  destruct (bkey_fact b keyLi labelsLi i keyLi_ok) as [H1 H2]. rewrite L in *. auto.
Qed.
