(** Renaming the subsystems of a composite. *)
From Coq Require Import List Arith NArith Reals Lra Lia Bool Permutation.
From Verif Require Import Star CReal Arr MultiIndexModel SliceModel SliceSpec SliceProofs HermSpec HermProofs DensityModel DensitySpec DensityProofs PTraceProofs
  MasterModel MasterSpec MasterProofs MasterLemmas MasterFacts CompositeModel CompositeSpec EmbedProofs CompositeProofs CompositeLemmas CompositeFacts ExchSpec.
Import ListNotations.
Add Ring CRX : (k_ring CR).
Local Notation len := List.length.
Local Open Scope nat_scope.
Local Open Scope list_scope.

Section Renaming.
Variables (dims w : list nat).
Let n := len dims.
Hypothesis Hw : renaming n w.
Hypothesis Hk : kinds_kept dims w.

Lemma w_len : len w = n.
Proof. rewrite (Permutation_length Hw), seq_length. reflexivity. Qed.
Lemma w_good : good_positions n w.
Proof.
  split; [apply (Permutation_NoDup (Permutation_sym Hw)), seq_NoDup|]. intros v Hv. apply (Permutation_in _ Hw) in Hv. apply in_seq in Hv. lia.
Qed.
Lemma w_lt v : v < n -> nth v w 0 < n.
Proof. intros Hv. apply (proj2 w_good). apply nth_In. rewrite w_len. exact Hv. Qed.
Lemma w_inj u v : u < n -> v < n -> nth u w 0 = nth v w 0 -> u = v.
Proof. intros Hu Hv E. apply (proj1 (NoDup_nth w 0) (proj1 w_good)); rewrite ?w_len; auto. Qed.
Lemma w_onto o : o < n -> exists v, v < n /\ nth v w 0 = o.
Proof.
  intros Ho. assert (In o w) by (apply (Permutation_in _ (Permutation_sym Hw)), in_seq; lia).
  destruct (In_nth _ _ 0 H) as (v & Hv & E). rewrite w_len in Hv. eauto.
Qed.
Lemma nth_coords v y : v < n -> nth v (coords w y) 0 = nth (nth v w 0) y 0.
Proof.
  intros Hv. unfold coords. rewrite (nth_indep _ 0 ((fun v => nth v y 0) 0)) by (rewrite map_length, w_len; exact Hv).
  exact (map_nth (fun v => nth v y 0) w 0 v).
Qed.
Lemma coords_coords V y : (forall v, In v V -> v < n) -> coords V (coords w y) = coords (renamed w V) y.
Proof.
  intros HV. unfold coords at 1 3. unfold renamed. rewrite map_map. apply map_ext_in. intros v Hv. apply nth_coords. auto.
Qed.
Lemma coords_eq L y z : coords L y = coords L z <-> forall o, In o L -> nth o y 0 = nth o z 0.
Proof.
  unfold coords. induction L as [|a L IH]; cbn; [split; [intros _ o []|auto]|]. split.
  - intros E o [<-|Ho]; injection E as E1 E2; [exact E1|]. apply IH; auto.
  - intros H. f_equal; [apply H; auto|]. apply IH. auto.
Qed.
Lemma in_others V o : In o (others n V) <-> o < n /\ ~ In o V.
Proof.
  unfold others. rewrite filter_In, in_seq. destruct (in_dec Nat.eq_dec o V); intuition (try lia; try discriminate).
Qed.
Lemma others_moved V y z : (forall v, In v V -> v < n) ->
  coords (others n V) (coords w y) = coords (others n V) (coords w z) <-> coords (others n (renamed w V)) y = coords (others n (renamed w V)) z.
Proof.
  intros HV. rewrite !coords_eq. split; intros H o Ho; apply in_others in Ho; destruct Ho as [Ho Hni].
  - destruct (w_onto o Ho) as (v & Hv & <-). rewrite <- !nth_coords by exact Hv. apply H. apply in_others. split; [exact Hv|].
    intros HiV. apply Hni. unfold renamed. apply in_map_iff. eauto.
  - rewrite !nth_coords by exact Ho. apply H. apply in_others. split; [apply w_lt; exact Ho|]. unfold renamed. rewrite in_map_iff.
    intros (v & E & Hv). apply Hni. rewrite <- (w_inj v o); auto.
Qed.
Lemma embed_moved V (M : op) y z : (forall v, In v V -> v < n) -> embed V dims M (coords w y) (coords w z) = embed (renamed w V) dims M y z.
Proof.
  intros HV. unfold embed. fold n. rewrite !(coords_coords V) by exact HV. pose proof (others_moved V y z HV) as H.
  destruct (listnat_eqb_spec (coords (others n V) (coords w y)) (coords (others n V) (coords w z))) as [E|E];
  destruct (listnat_eqb_spec (coords (others n (renamed w V)) y) (coords (others n (renamed w V)) z)) as [E'|E']; try reflexivity; tauto.
Qed.
Lemma others_w : others n w = [].
Proof.
  destruct (others n w) as [|o l] eqn:E; [reflexivity|]. exfalso. assert (Ho : In o (others n w)) by (rewrite E; left; reflexivity).
  apply in_others in Ho. destruct Ho as [Ho Hni]. apply Hni. apply (Permutation_in _ (Permutation_sym Hw)), in_seq. lia.
Qed.
Lemma inr_moved y : inr dims y -> inr dims (coords w y).
Proof. intros Hy. destruct (coords_split dims w w_good y Hy) as (_ & H & _). change (shV w dims) with (coords w dims) in H. unfold kinds_kept in Hk. rewrite Hk in H. exact H. Qed.
Lemma isum_moved (f : list nat -> CR) : isum dims (fun x => f (coords w x)) = isum dims f.
Proof.
  rewrite (isum_split dims w w_good (fun x => f (coords w x))).
  assert (E : shD n w dims = []). { pose proof (shD_length n w w_good dims eq_refl) as L. rewrite w_len, Nat.sub_diag in L. destruct (shD n w dims); [reflexivity|discriminate]. }
  change (len dims) with n. rewrite E, isum_nil.
  assert (Hs : shV w dims = dims) by exact Hk. transitivity (isum (shV w dims) f); [|now rewrite Hs].
  apply isum_ext. intros s Hs'. f_equal. refine (proj2 (coords_addr dims w w_good [] s _ Hs')). change (inr (shD n w dims) []). rewrite E. constructor.
Qed.

(** ** sums of embedded operators *)
Lemma sum_subs subs (M : parts -> op) y z : embeddedSum dims subs (map (fun vp => M (snd vp)) subs) y z = ksum (fun vp : list nat * parts => embed (fst vp) dims (M (snd vp)) y z) subs.
Proof.
  unfold embeddedSum, msum. induction subs as [|vp subs IH]; [reflexivity|]. cbn. f_equal. exact IH.
Qed.
Lemma sum_active subs (M : parts -> op) y z : (forall vp, In vp subs -> hasH vp = false -> forall i j, M (snd vp) i j = k0) ->
  ksum (fun vp : list nat * parts => embed (fst vp) dims (M (snd vp)) y z) subs = ksum (fun vp => embed (fst vp) dims (M (snd vp)) y z) (filter hasH subs).
Proof.
  induction subs as [|vp subs IH]; intros H; [reflexivity|]. cbn [filter ksum map fold_right].
  assert (E := IH (fun v Hv => H v (or_intror Hv))). destruct (hasH vp) eqn:B; cbn in *.
  - f_equal. exact E.
  - rewrite E. unfold embed at 1. rewrite (H vp (or_introl eq_refl) B). destruct (listnat_eqb _ _); apply cr_eq; cbn; ring.
Qed.
Lemma sum_moved subs (M : parts -> op) y z : goodSubs dims subs -> (forall vp, In vp subs -> hasH vp = false -> forall i j, M (snd vp) i j = k0) -> indistinguishable w subs ->
  embeddedSum dims subs (map (fun vp => M (snd vp)) subs) (coords w y) (coords w z) = embeddedSum dims subs (map (fun vp => M (snd vp)) subs) y z.
Proof.
  intros Hg Hz Hi. rewrite !sum_subs, (sum_active subs M y z Hz), (sum_active subs M (coords w y) (coords w z) Hz). unfold indistinguishable in Hi. symmetry. rewrite <- (ksum_perm _ _ _ Hi), ksum_map. apply ksum_ext. intros vp Hvp.
  apply filter_In in Hvp. unfold goodSubs in Hg. rewrite Forall_forall in Hg. cbn. symmetry. apply embed_moved. apply (proj2 (Hg vp (proj1 Hvp))).
Qed.
End Renaming.

Lemma subs_good c : wellFormed c -> goodSubs (cDims c) (constituents c).
Proof.
  intros (_ & HL & HA). unfold goodSubs, constituents. apply Forall_app. split; [|exact HA]. apply Forall_forall. intros vp Hvp. apply in_map_iff in Hvp.
  destruct Hvp as ((i & p) & <- & Hip). apply in_combine_l in Hip. apply in_seq in Hip. cbn. split; [repeat constructor; easy|]. intros v [<-|[]]. lia.
Qed.
Lemma objects_described {X} (D : list nat -> parts -> X -> Prop) dims subs (f : parts -> X) : objects D dims subs f -> described D dims subs (map (fun vp => f (snd vp)) subs).
Proof.
  unfold objects, described. induction subs as [|vp subs IH]; intros H; cbn; constructor; [apply H; left; reflexivity|]. apply IH. intros v Hv. apply H. right. exact Hv.
Qed.

Lemma hamiltonian_moved c w t t0 (M : parts -> op) (s : CR) psi d : wellFormed c -> renaming (len (cDims c)) w -> kinds_kept (cDims c) w -> indistinguishable w (constituents c) ->
  objects (fun sh p => hamiltonian_adds sh p t t0) (cDims c) (constituents c) M ->
  (forall y, inr (cDims c) y -> psi (coords w y) = kmul s (psi y)) -> (forall y, inr (cDims c) y -> d (coords w y) = kmul s (d y)) ->
  exists d', compositeH c t psi d t0 = Some d' /\ forall y, inr (cDims c) y -> d' (coords w y) = kmul s (d' y).
Proof.
  intros Hc Hw Hk Hi HM Hpsi Hd. destruct (hamiltonian_fact c Hc t t0 _ (objects_described _ _ _ _ HM) psi d) as (d' & E & H). exists d'. split; [exact E|].
  intros y Hy. rewrite !H by (auto; now apply inr_moved). rewrite Hd by exact Hy. set (G := embeddedSum _ _ _).
  transitivity (kadd (kmul s (d y)) (kmul s (isum (cDims c) (fun k => kmul (G y k) (psi k))))); [|ring]. f_equal.
  rewrite <- (isum_moved (cDims c) w Hw Hk), <- isum_scal_l. apply isum_ext. intros k Hk'. rewrite Hpsi by exact Hk'. unfold G. rewrite sum_moved; auto.
  - ring.
  - now apply subs_good.
  - intros vp Hvp B. specialize (HM vp Hvp). unfold hamiltonian_adds in HM. unfold hasH in B. destruct (pHa (snd vp)); [discriminate|now rewrite HM].
Qed.

(** ** places *)
Lemma embedded_place dims subs (J : parts -> list op) k i V p : nth_error subs k = Some (V, p) -> i < len (J p) ->
  let js := embedded dims subs (map (fun vp => J (snd vp)) subs) in
  let at_ := list_sum (map (fun vp => len (J (snd vp))) (firstn k subs)) + i in at_ < len js /\ nth at_ js zero = embed V dims (nth i (J p) zero).
Proof.
  revert k. induction subs as [|vp subs IH]; intros [|k] E Hi; cbn [nth_error] in E; try discriminate; cbn [map firstn]; rewrite embedded_cons; cbn zeta.
  - injection E as ->. change (list_sum [] + i) with i. cbn [fst snd]. rewrite app_length, map_length. split; [lia|]. rewrite app_nth1 by (rewrite map_length; exact Hi).
    rewrite (nth_indep _ zero (embed V dims zero)) by (rewrite map_length; exact Hi). apply map_nth.
  - specialize (IH k E Hi). cbn zeta in IH. destruct IH as [IH1 IH2]. change (list_sum (?a :: ?l)) with (a + list_sum l). rewrite app_length, map_length.
    set (q := list_sum _) in *. replace (len (J (snd vp)) + q + i) with (len (J (snd vp)) + (q + i)) by lia. split; [lia|].
    rewrite app_nth2 by (rewrite map_length; lia). rewrite map_length. replace (len (J (snd vp)) + (q + i) - len (J (snd vp))) with (q + i) by lia. exact IH2.
Qed.
Lemma place_len {count : parts -> nat} (J : parts -> list op) subs k i : (forall vp, In vp subs -> count (snd vp) = len (J (snd vp))) ->
  place count subs k i = list_sum (map (fun vp => len (J (snd vp))) (firstn k subs)) + i.
Proof.
  intros H. unfold place. f_equal. f_equal. apply map_ext_in. intros vp Hvp. apply H. rewrite <- (firstn_skipn k subs). apply in_or_app. left. exact Hvp.
Qed.

Lemma embedded_count c (J : parts -> list op) : (forall vp, In vp (constituents c) -> nLi (snd vp) = len (J (snd vp))) ->
  len (embedded (cDims c) (constituents c) (map (fun vp => J (snd vp)) (constituents c))) = compositeNLi c.
Proof.
  intros HN. unfold compositeNLi. assert (G : forall subs acc, (forall vp, In vp subs -> nLi (snd vp) = len (J (snd vp))) ->
    fold_left (fun s vp => s + nLi (snd vp)) subs acc = acc + len (embedded (cDims c) subs (map (fun vp => J (snd vp)) subs))).
  { induction subs as [|vp subs IH]; intros acc H; [cbn; lia|]. cbn [fold_left map]. rewrite IH by (intros v Hv; apply H; right; exact Hv).
    rewrite embedded_cons, app_length, map_length, (H vp) by (left; reflexivity). lia. }
  rewrite G by exact HN. reflexivity.
Qed.
Lemma jump_moved c w t (J : parts -> list op) k k' i V p psi : wellFormed c -> renaming (len (cDims c)) w -> kinds_kept (cDims c) w ->
  objects (fun sh p => jumps_are sh p t) (cDims c) (constituents c) J -> (N.of_nat (compositeNLi c) <= 2 ^ 64)%N ->
  nth_error (constituents c) k = Some (V, p) -> nth_error (constituents c) k' = Some (renamed w V, p) -> i < nLi p ->
  exists a b, compositeJ c t psi (N.of_nat (place nLi (constituents c) k i)) = Some a /\ compositeJ c t (moved w psi) (N.of_nat (place nLi (constituents c) k' i)) = Some b /\
    forall y, inr (cDims c) y -> b y = a (coords w y).
Proof.
  intros Hc Hw Hk HJ H64 E1 E2 Hi. pose proof (subs_good c Hc) as Hg. unfold goodSubs in Hg. rewrite Forall_forall in Hg.
  assert (HN : forall vp, In vp (constituents c) -> nLi (snd vp) = len (J (snd vp))).
  { intros vp Hvp. specialize (HJ vp Hvp). unfold jumps_are in HJ. unfold nLi. destruct (pLi (snd vp)); [exact (proj1 HJ)|now rewrite HJ]. }
  assert (Hi' : i < len (J p)) by (rewrite <- (HN (V, p) (nth_error_In _ _ E1) : _ = len (J p)); exact Hi).
  destruct (embedded_place (cDims c) _ J k i V p E1 Hi') as [L1 P1]. destruct (embedded_place (cDims c) _ J k' i _ p E2 Hi') as [L2 P2].
  rewrite <- (place_len J) in L1, P1, L2, P2 by exact HN.
  set (js := embedded (cDims c) (constituents c) (map (fun vp => J (snd vp)) (constituents c))) in *.
  assert (L : len js = compositeNLi c) by (exact (embedded_count c J HN)).
  pose proof (objects_described _ _ _ _ HJ) as HD. rewrite <- L in H64.
  destruct (jump_fact c Hc t _ HD H64 _ psi L1) as (a & Ea & Ha). destruct (jump_fact c Hc t _ HD H64 _ (moved w psi) L2) as (b & Eb & Hb).
  exists a, b. split; [exact Ea|]. split; [exact Eb|]. intros y Hy. fold js in Ha, Hb. rewrite Ha by (now apply inr_moved). rewrite Hb by exact Hy. rewrite P1, P2.
  rewrite <- (isum_moved (cDims c) w Hw Hk (fun k0 => kmul (embed V (cDims c) (nth i (J p) zero) (coords w y) k0) (psi k0))).
  apply isum_ext. intros z _. rewrite (embed_moved (cDims c) w Hw); [reflexivity|]. exact (proj2 (Hg (V, p) (nth_error_In _ _ E1))).
Qed.

Lemma index_moved w m x y : len x = len w -> indexOf (movedLdo w m) x y = indexOf m (coords w x) (coords w y).
Proof.
  intros Hx. destruct m as [psi|rho]; cbn; [reflexivity|]. unfold moved. rewrite <- Hx, firstn_app, firstn_all, Nat.sub_diag, firstn_O, app_nil_r, skipn_app, skipn_all, Nat.sub_diag. reflexivity.
Qed.
Lemma expectation_moved dims w V (O : op) m : renaming (len dims) w -> kinds_kept dims w -> good_positions (len dims) V ->
  expectation dims (embed (renamed w V) dims O) (indexOf (movedLdo w m)) = expectation dims (embed V dims O) (indexOf m).
Proof.
  intros Hw Hk HV. unfold expectation. f_equal. unfold mtrace, mmul.
  symmetry. rewrite <- (isum_moved dims w Hw Hk). apply isum_ext. intros y Hy. rewrite <- (isum_moved dims w Hw Hk). apply isum_ext. intros z Hz.
  rewrite (embed_moved dims w Hw V O y z (proj2 HV)), index_moved; [reflexivity|]. rewrite (inr_length _ _ Hz). symmetry. exact (w_len dims w Hw).
Qed.
Lemma columns_moved c w (count : parts -> nat) (O : parts -> list op) k k' i V p m : wellFormed c -> renaming (len (cDims c)) w -> kinds_kept (cDims c) w ->
  (forall vp, In vp (constituents c) -> count (snd vp) = len (O (snd vp))) ->
  nth_error (constituents c) k = Some (V, p) -> nth_error (constituents c) k' = Some (renamed w V, p) -> i < count p ->
  let es := embedded (cDims c) (constituents c) (map (fun vp => O (snd vp)) (constituents c)) in
  exists x, nth_error (map (fun O => expectation (cDims c) O (indexOf m)) es) (place count (constituents c) k i) = Some x /\
    nth_error (map (fun O => expectation (cDims c) O (indexOf (movedLdo w m))) es) (place count (constituents c) k' i) = Some x.
Proof.
  intros Hc Hw Hk HN E1 E2 Hi es. pose proof (subs_good c Hc) as Hg. unfold goodSubs in Hg. rewrite Forall_forall in Hg.
  assert (Hi' : i < len (O p)) by (rewrite <- (HN (V, p) (nth_error_In _ _ E1) : _ = len (O p)); exact Hi).
  destruct (embedded_place (cDims c) _ O k i V p E1 Hi') as [L1 P1]. destruct (embedded_place (cDims c) _ O k' i _ p E2 Hi') as [L2 P2].
  rewrite <- (place_len O) in L1, P1, L2, P2 by exact HN. fold es in L1, P1, L2, P2.
  exists (expectation (cDims c) (embed V (cDims c) (nth i (O p) zero)) (indexOf m)). split.
  - apply (map_nth_error (fun O => expectation (cDims c) O (indexOf m))). rewrite (nth_error_nth' es zero L1). now rewrite P1.
  - rewrite <- (expectation_moved (cDims c) w V _ m Hw Hk (Hg _ (nth_error_In _ _ E1))). apply (map_nth_error (fun O => expectation (cDims c) O (indexOf (movedLdo w m)))). rewrite (nth_error_nth' es zero L2). now rewrite P2.
Qed.
Lemma rates_moved c w t (O : parts -> list op) k k' i V p m : wellFormed c -> renaming (len (cDims c)) w -> kinds_kept (cDims c) w ->
  objects (fun sh p => rates_are sh p t) (cDims c) (constituents c) O ->
  nth_error (constituents c) k = Some (V, p) -> nth_error (constituents c) k' = Some (renamed w V, p) -> i < nLi p ->
  exists r r' x, compositeRates c t m = Some r /\ compositeRates c t (movedLdo w m) = Some r' /\
    nth_error r (place nLi (constituents c) k i) = Some x /\ nth_error r' (place nLi (constituents c) k' i) = Some x.
Proof.
  intros Hc Hw Hk HO E1 E2 Hi. pose proof (objects_described _ _ _ _ HO) as HD.
  destruct (columns_moved c w nLi O k k' i V p m Hc Hw Hk) as (x & X1 & X2); auto.
  { intros vp Hvp. specialize (HO vp Hvp). unfold rates_are in HO. unfold nLi. destruct (pLi (snd vp)); [exact (proj1 HO)|now rewrite HO]. }
  eexists _, _, x. split; [exact (rates_fact c Hc t _ HD m)|]. split; [exact (rates_fact c Hc t _ HD (movedLdo w m))|]. auto.
Qed.
Lemma averages_moved c w t (O : parts -> list op) k k' i V p m : wellFormed c -> renaming (len (cDims c)) w -> kinds_kept (cDims c) w ->
  objects (fun sh p => averages_are sh p t) (cDims c) (constituents c) O ->
  nth_error (constituents c) k = Some (V, p) -> nth_error (constituents c) k' = Some (renamed w V, p) -> i < nAv p ->
  exists r r' x, compositeAverages c t m = Some r /\ compositeAverages c t (movedLdo w m) = Some r' /\
    nth_error r (place nAv (constituents c) k i) = Some x /\ nth_error r' (place nAv (constituents c) k' i) = Some x.
Proof.
  intros Hc Hw Hk HO E1 E2 Hi. pose proof (objects_described _ _ _ _ HO) as HD.
  destruct (columns_moved c w nAv O k k' i V p m Hc Hw Hk) as (x & X1 & X2); auto.
  { intros vp Hvp. specialize (HO vp Hvp). unfold averages_are in HO. unfold nAv. destruct (pAv (snd vp)); [exact (proj1 HO)|now rewrite HO]. }
  eexists _, _, x. split; [exact (averages_fact c Hc t _ HD m)|]. split; [exact (averages_fact c Hc t _ HD (movedLdo w m))|]. auto.
Qed.

(** ** products of embedded operators *)
Section Products.
Variables (dims : list nat).
Let n := len dims.
Definition agree (V y z : list nat) : Prop := forall o, o < n -> ~ In o V -> nth o y 0 = nth o z 0.
Lemma agree_spec V y z : coords (others n V) y = coords (others n V) z <-> agree V y z.
Proof.
  rewrite coords_eq. unfold agree. split; intros H o; [intros Ho Hn; apply H, (in_others dims); auto|]. intros Ho. apply (in_others dims) in Ho. apply H; tauto.
Qed.
Lemma embed_cases V (M : op) y z : (agree V y z /\ embed V dims M y z = M (coords V y) (coords V z)) \/ (~ agree V y z /\ embed V dims M y z = k0).
Proof.
  unfold embed. fold n. destruct (listnat_eqb_spec (coords (others n V) y) (coords (others n V) z)) as [E|E]; [left|right]; rewrite agree_spec in E; auto.
Qed.
Definition disjoint (V W : list nat) : Prop := forall v, In v V -> In v W -> False.
Lemma two_embedded V W (A B : op) y z : good_positions n V -> good_positions n W -> disjoint V W -> inr dims y -> inr dims z ->
  mmul dims (embed V dims A) (embed W dims B) y z =
  if listnat_eqb (coords (others n (V ++ W)) y) (coords (others n (V ++ W)) z) then kmul (A (coords V y) (coords V z)) (B (coords W y) (coords W z)) else k0.
Proof.
  intros GV GW Hd Hy Hz. unfold mmul. pose proof (inr_length _ _ Hy) as Ly. pose proof (inr_length _ _ Hz) as Lz. fold n in Ly, Lz.
  destruct (listnat_eqb_spec (coords (others n (V ++ W)) y) (coords (others n (V ++ W)) z)) as [E|E]; rewrite agree_spec in E.
  - set (k0' := replace_at V (coords V z) y).
    assert (C : coords V k0' = coords V z) by (apply replace_coords; [exact (proj1 GV)|intros v Hv; rewrite Ly; exact (proj2 GV v Hv)|unfold coords; apply map_length]).
    assert (CV : forall o, In o V -> nth o k0' 0 = nth o z 0) by (apply coords_eq; exact C).
    assert (CN : forall o, ~ In o V -> nth o k0' 0 = nth o y 0) by (intros o Ho; now apply nth_replace_nIn).
    assert (CW : coords W k0' = coords W y) by (apply coords_eq; intros o Ho; apply CN; intros Ho'; exact (Hd o Ho' Ho)).
    rewrite (isum_single dims _ k0').
    + destruct (embed_cases V A y k0') as [[_ ->]|[N _]]; [|exfalso; apply N; intros o _ Ho; symmetry; now apply CN].
      destruct (embed_cases W B k0' z) as [[_ ->]|[N _]].
      * now rewrite C, CW.
      * exfalso. apply N. intros o Ho HW. destruct (in_dec Nat.eq_dec o V) as [I|I]; [now apply CV|]. rewrite CN by exact I. apply E; [exact Ho|]. rewrite in_app_iff. tauto.
    + apply replace_inr; auto. exact (proj1 (proj2 (coords_split dims V GV z Hz))).
    + intros b Hb Nb. pose proof (inr_length _ _ Hb) as Lb. fold n in Lb. destruct (embed_cases V A y b) as [[E1 _]|[_ ->]]; [|ring]. destruct (embed_cases W B b z) as [[E2 _]|[_ ->]]; [|ring].
      exfalso. apply Nb. apply nth_ext with 0 0; [unfold k0'; rewrite replace_at_length; congruence|]. intros o Ho. rewrite Lb in Ho.
      destruct (in_dec Nat.eq_dec o V) as [I|I]; [rewrite CV by exact I; apply E2; [exact Ho|intros I'; exact (Hd o I I')]|]. rewrite CN by exact I. symmetry. now apply E1.
  - apply isum_zero. intros b Hb. destruct (embed_cases V A y b) as [[E1 _]|[_ ->]]; [|ring]. destruct (embed_cases W B b z) as [[E2 _]|[_ ->]]; [|ring].
    exfalso. apply E. intros o Ho I. rewrite in_app_iff in I. rewrite E1 by tauto. apply E2; tauto.
Qed.
Lemma embedded_commute V W (A B : op) : good_positions n V -> good_positions n W -> disjoint V W ->
  mmeq dims (mmul dims (embed V dims A) (embed W dims B)) (mmul dims (embed W dims B) (embed V dims A)).
Proof.
  intros GV GW Hd y z Hy Hz. rewrite two_embedded by auto. rewrite two_embedded; auto; [|intros v H1 H2; exact (Hd v H2 H1)].
  assert (E : coords (others n (V ++ W)) y = coords (others n (V ++ W)) z <-> coords (others n (W ++ V)) y = coords (others n (W ++ V)) z).
  { rewrite !agree_spec. unfold agree. split; intros H o Ho I; apply H; auto; rewrite in_app_iff in *; tauto. }
  destruct (listnat_eqb_spec (coords (others n (V ++ W)) y) (coords (others n (V ++ W)) z)); destruct (listnat_eqb_spec (coords (others n (W ++ V)) y) (coords (others n (W ++ V)) z)); try tauto. ring.
Qed.

Variable U : parts -> op.
Definition product (l : list (list nat * parts)) (X : op) : op := fold_left (fun X vp => mmul dims (embed (fst vp) dims (U (snd vp))) X) l X.
Lemma product_subs l X : fold_left (fun A vU => mmul dims (embed (fst (fst vU)) dims (snd vU)) A) (combine l (map (fun vp => U (snd vp)) l)) X = product l X.
Proof. revert X. induction l as [|vp l IH]; intros X; [reflexivity|]. cbn. apply IH. Qed.
Lemma mmeq_refl (X : op) : mmeq dims X X. Proof. intros y z _ _. reflexivity. Qed.
Lemma mmeq_trans (X Y Z : op) : mmeq dims X Y -> mmeq dims Y Z -> mmeq dims X Z. Proof. intros H1 H2 y z Hy Hz. rewrite H1 by auto. now apply H2. Qed.
Lemma product_ext l : forall X Y : op, mmeq dims X Y -> mmeq dims (product l X) (product l Y).
Proof. induction l as [|vp l IH]; intros X Y H; [exact H|]. cbn. apply IH. apply mmul_ext; [apply mmeq_refl|exact H]. Qed.
Lemma product_perm l l' : Permutation l l' -> goodSubs dims l -> (forall a b, In a l -> In b l -> a = b \/ disjoint (fst a) (fst b)) ->
  forall X, mmeq dims (product l X) (product l' X).
Proof.
  induction 1 as [|a l l' P IH|a b l|l l' l'' P1 IH1 P2 IH2]; intros G C X.
  - apply mmeq_refl.
  - inversion G; subst. cbn. apply IH; auto. intros x y Hx Hy. apply C; right; auto.
  - cbn. apply product_ext. inversion G as [|? ? G1 G']; subst. inversion G' as [|? ? G2 G'']; subst.
    destruct (C a b) as [->|D]; [right; left; reflexivity|left; reflexivity|apply mmeq_refl|].
    intros y z Hy Hz. rewrite !mmul_assoc. apply (mmul_ext dims); auto; [|apply mmeq_refl]. now apply embedded_commute.
  - apply mmeq_trans with (product l' X); [now apply IH1|]. apply IH2.
    + unfold goodSubs in *. rewrite Forall_forall in *. intros x Hx. apply G. now apply (Permutation_in _ (Permutation_sym P1)).
    + intros x y Hx Hy. apply C; now apply (Permutation_in _ (Permutation_sym P1)).
Qed.
Lemma product_active l : goodSubs dims l -> (forall vp, In vp l -> hasU vp = false -> U (snd vp) = identity) -> forall X, mmeq dims (product l X) (product (filter hasU l) X).
Proof.
  induction l as [|vp l IH]; intros G H X; [apply mmeq_refl|]. inversion G; subst. cbn [filter]. destruct (hasU vp) eqn:B; cbn [product fold_left].
  - apply IH; auto. intros v Hv. apply H. right. exact Hv.
  - apply mmeq_trans with (product l X); [|apply IH; auto; intros v Hv; apply H; right; exact Hv]. apply product_ext. rewrite (H vp (or_introl eq_refl) B).
    apply mmeq_trans with (mmul dims identity X); [|apply identity_mmul]. apply mmul_ext; [|apply mmeq_refl]. now apply embed_identity.
Qed.
Variable w : list nat.
Hypothesis Hw : renaming n w.
Hypothesis Hk : kinds_kept dims w.
Lemma product_renamed l : goodSubs dims l -> forall X Y : op, (forall y z, inr dims y -> inr dims z -> X (coords w y) (coords w z) = Y y z) ->
  forall y z, inr dims y -> inr dims z -> product l X (coords w y) (coords w z) = product (map (renamedSub w) l) Y y z.
Proof.
  induction l as [|vp l IH]; intros G X Y H y z Hy Hz; [now apply H|]. inversion G as [|? ? G1 G2]; subst. cbn [map product fold_left]. apply IH; auto. clear y z Hy Hz.
  intros y z Hy Hz. unfold mmul. rewrite <- (isum_moved dims w Hw Hk). apply isum_ext. intros k Hk'. rewrite H by auto. cbn. f_equal. apply embed_moved; auto. exact (proj2 G1).
Qed.
Lemma coords_w_inj y z : inr dims y -> inr dims z -> coords w y = coords w z -> y = z.
Proof.
  intros Hy Hz E. apply nth_ext with 0 0; [now rewrite (inr_length _ _ Hy), (inr_length _ _ Hz)|]. intros o Ho. rewrite (inr_length _ _ Hy) in Ho.
  destruct (w_onto dims w Hw o Ho) as (v & Hv & <-). rewrite <- !(nth_coords dims w Hw) by exact Hv. now rewrite E.
Qed.
Lemma product_moved subs : goodSubs dims subs -> (forall vp, In vp subs -> hasU vp = false -> U (snd vp) = identity) -> indistinguishableU w subs ->
  forall y z, inr dims y -> inr dims z -> product subs identity (coords w y) (coords w z) = product subs identity y z.
Proof.
  intros G H [P D] y z Hy Hz. assert (Gf : goodSubs dims (filter hasU subs)).
  { unfold goodSubs in *. rewrite Forall_forall in *. intros x Hx. apply filter_In in Hx. now apply G. }
  rewrite (product_active subs G H identity (coords w y) (coords w z)) by (now apply inr_moved). rewrite (product_active subs G H identity y z) by auto.
  assert (I : forall a b, inr dims a -> inr dims b -> identity (coords w a) (coords w b) = identity a b).
  { intros a b Ha Hb. unfold identity. destruct (listnat_eqb_spec a b) as [->|N]; [now rewrite listnat_eqb_refl|].
    destruct (listnat_eqb_spec (coords w a) (coords w b)) as [E|]; [|reflexivity]. exfalso. exact (N (coords_w_inj a b Ha Hb E)). }
  rewrite (product_renamed (filter hasU subs) Gf identity identity I y z Hy Hz).
  symmetry. refine (product_perm _ _ (Permutation_sym P) Gf _ identity y z Hy Hz). exact D.
Qed.
End Products.

Lemma propagator_moved c w t t0 (U : parts -> op) (s : CR) psi : wellFormed c -> renaming (len (cDims c)) w -> kinds_kept (cDims c) w -> indistinguishableU w (constituents c) ->
  objects (fun sh p => propagates_with sh p t t0) (cDims c) (constituents c) U ->
  (forall y, inr (cDims c) y -> psi (coords w y) = kmul s (psi y)) ->
  exists psi', compositeU c t psi t0 = Some psi' /\ forall y, inr (cDims c) y -> psi' (coords w y) = kmul s (psi' y).
Proof.
  intros Hc Hw Hk Hi HU Hpsi. destruct (propagator_fact c Hc t t0 _ (objects_described _ _ _ _ HU) psi) as (psi' & E & H). exists psi'. split; [exact E|].
  intros y Hy. rewrite !H by (auto; now apply inr_moved). rewrite <- (isum_moved (cDims c) w Hw Hk), <- isum_scal_l. apply isum_ext. intros k Hk'. rewrite Hpsi by exact Hk'.
  unfold embeddedProduct. rewrite (product_subs (cDims c) U), (product_moved (cDims c) U w Hw Hk); auto.
  - ring.
  - now apply subs_good.
  - intros vp Hvp B. specialize (HU vp Hvp). unfold propagates_with in HU. unfold hasU in B. destruct (pEx (snd vp)); [discriminate|exact HU].
Qed.

(** ** columns in symmetric states *)
Lemma expectation_same dims w V (O rho : op) : renaming (len dims) w -> kinds_kept dims w -> good_positions (len dims) V ->
  (forall x y, inr dims x -> inr dims y -> rho (coords w x) (coords w y) = rho x y) ->
  expectation dims (embed (renamed w V) dims O) rho = expectation dims (embed V dims O) rho.
Proof.
  intros Hw Hk HV Hr. unfold expectation. f_equal. unfold mtrace, mmul.
  symmetry. rewrite <- (isum_moved dims w Hw Hk). apply isum_ext. intros y Hy. rewrite <- (isum_moved dims w Hw Hk). apply isum_ext. intros z Hz.
  rewrite (embed_moved dims w Hw V O y z (proj2 HV)), Hr by auto. reflexivity.
Qed.
Lemma columns_same c w t (O : parts -> list op) k k' i V p m : wellFormed c -> renaming (len (cDims c)) w -> kinds_kept (cDims c) w ->
  objects (fun sh p => averages_are sh p t) (cDims c) (constituents c) O ->
  nth_error (constituents c) k = Some (V, p) -> nth_error (constituents c) k' = Some (renamed w V, p) -> i < nAv p ->
  (forall x y, inr (cDims c) x -> inr (cDims c) y -> indexOf m (coords w x) (coords w y) = indexOf m x y) ->
  exists r x, compositeAverages c t m = Some r /\ nth_error r (place nAv (constituents c) k i) = Some x /\ nth_error r (place nAv (constituents c) k' i) = Some x.
Proof.
  intros Hc Hw Hk HO E1 E2 Hi Hm. pose proof (objects_described _ _ _ _ HO) as HD. pose proof (subs_good c Hc) as Hg. unfold goodSubs in Hg. rewrite Forall_forall in Hg.
  assert (HN : forall vp, In vp (constituents c) -> nAv (snd vp) = len (O (snd vp))).
  { intros vp Hvp. specialize (HO vp Hvp). unfold averages_are in HO. unfold nAv. destruct (pAv (snd vp)); [exact (proj1 HO)|now rewrite HO]. }
  assert (Hi' : i < len (O p)) by (rewrite <- (HN (V, p) (nth_error_In _ _ E1) : _ = len (O p)); exact Hi).
  destruct (embedded_place (cDims c) _ O k i V p E1 Hi') as [L1 P1]. destruct (embedded_place (cDims c) _ O k' i _ p E2 Hi') as [L2 P2].
  rewrite <- (place_len O) in L1, P1, L2, P2 by exact HN. eexists _, (expectation (cDims c) (embed V (cDims c) (nth i (O p) zero)) (indexOf m)).
  split; [exact (averages_fact c Hc t _ HD m)|]. split.
  - apply (map_nth_error (fun O => expectation (cDims c) O (indexOf m))). rewrite (nth_error_nth' _ zero L1). now rewrite P1.
  - rewrite <- (expectation_same (cDims c) w V _ (indexOf m) Hw Hk (Hg _ (nth_error_In _ _ E1)) Hm). apply (map_nth_error (fun O => expectation (cDims c) O (indexOf m))). rewrite (nth_error_nth' _ zero L2). now rewrite P2.
Qed.

(** ** the master equation *)
Lemma mmul_moved dims w (A B A' B' : op) : renaming (len dims) w -> kinds_kept dims w ->
  (forall x y, inr dims x -> inr dims y -> A (coords w x) (coords w y) = A' x y) -> (forall x y, inr dims x -> inr dims y -> B (coords w x) (coords w y) = B' x y) ->
  forall x y, inr dims x -> inr dims y -> mmul dims A B (coords w x) (coords w y) = mmul dims A' B' x y.
Proof. intros Hw Hk HA HB x y Hx Hy. unfold mmul. rewrite <- (isum_moved dims w Hw Hk). apply isum_ext. intros k Hk'. rewrite HA, HB by auto. reflexivity. Qed.
Lemma conjugated_moved dims w V (J rho : op) : renaming (len dims) w -> kinds_kept dims w -> good_positions (len dims) V ->
  (forall x y, inr dims x -> inr dims y -> rho (coords w x) (coords w y) = rho x y) ->
  forall x y, inr dims x -> inr dims y -> conjugated dims (embed V dims J) rho (coords w x) (coords w y) = conjugated dims (embed (renamed w V) dims J) rho x y.
Proof.
  intros Hw Hk HV Hr. unfold conjugated. apply mmul_moved; auto; [intros x y _ _; apply embed_moved; auto; exact (proj2 HV)|]. apply mmul_moved; auto.
  intros x y _ _. unfold dag. f_equal. apply embed_moved; auto. exact (proj2 HV).
Qed.
Lemma ksum_app' {A} (f : A -> CR) l l' : ksum f (l ++ l') = kadd (ksum f l) (ksum f l').
Proof. induction l as [|a l IH]; cbn; [apply cr_eq; cbn; ring|]. rewrite IH. apply cr_eq; cbn; ring. Qed.
Lemma jumps_sum dims subs (J : parts -> list op) (F : op -> CR) : (forall vp, In vp subs -> hasLi vp = false -> J (snd vp) = []) ->
  ksum F (embedded dims subs (map (fun vp => J (snd vp)) subs)) = ksum (fun vp : list nat * parts => ksum (fun j => F (embed (fst vp) dims j)) (J (snd vp))) (filter hasLi subs).
Proof.
  induction subs as [|vp subs IH]; intros H; [reflexivity|]. cbn [map]. rewrite embedded_cons, ksum_app', IH by (intros v Hv; apply H; right; exact Hv). rewrite ksum_map.
  cbn [filter]. destruct (hasLi vp) eqn:B; [reflexivity|]. rewrite (H vp (or_introl eq_refl) B). cbn. apply cr_eq; cbn; ring.
Qed.
Lemma master_moved c w t t0 (H : parts -> op) (J : parts -> list op) rho : wellFormed c -> renaming (len (cDims c)) w -> kinds_kept (cDims c) w ->
  indistinguishable w (constituents c) -> indistinguishableL w (constituents c) ->
  objects (fun sh p H => hamiltonian_adds sh p t t0 (minusI H)) (cDims c) (constituents c) H ->
  objects (fun sh p => jumps_are sh p t) (cDims c) (constituents c) J -> objects (fun sh p => supers_are sh p t) (cDims c) (constituents c) J ->
  (N.of_nat (compositeNLi c) <= 2 ^ 64)%N -> hermitian (cDims c) (asOp rho) ->
  (forall x y, inr (cDims c) x -> inr (cDims c) y -> asOp rho (coords w x) (coords w y) = asOp rho x y) ->
  let d := asOp (derivative (compositeQ c) t0 rho t) in forall x y, inr (cDims c) x -> inr (cDims c) y -> d (coords w x) (coords w y) = d x y.
Proof.
  intros Hc Hw Hk HiH HiL HH HJ HS H64 Hh Hr d. pose proof (subs_good c Hc) as Hg.
  assert (HN : forall vp, In vp (constituents c) -> nLi (snd vp) = len (J (snd vp))).
  { intros vp Hvp. specialize (HJ vp Hvp). unfold jumps_are in HJ. unfold nLi. destruct (pLi (snd vp)); [exact (proj1 HJ)|now rewrite HJ]. }
  set (Jss := map (fun vp => J (snd vp)) (constituents c)). set (Hs := map (fun vp => H (snd vp)) (constituents c)).
  assert (L : (N.of_nat (len (embedded (cDims c) (constituents c) Jss)) <= 2 ^ 64)%N) by (unfold Jss; now rewrite (embedded_count c J HN)).
  destruct (master_data c Hc t t0 Hs Jss (objects_described _ _ _ _ HH) (objects_described _ _ _ _ HJ) (objects_described _ _ _ _ HS) L) as (D & H1 & H2).
  destruct (lindblad_fact (compositeQ c) t0 rho t (embeddedSum (cDims c) (constituents c) Hs) (embedded (cDims c) (constituents c) Jss)) as (F1 & _ & _); try rewrite D; auto.
  { exact (proj1 Hc). }
  rewrite D in F1. fold d in F1. intros x y Hx Hy. rewrite !F1 by (auto; now apply inr_moved). unfold lindblad.
  assert (SH : forall a b, embeddedSum (cDims c) (constituents c) Hs (coords w a) (coords w b) = embeddedSum (cDims c) (constituents c) Hs a b).
  { intros a b. unfold Hs. apply sum_moved; auto. intros vp Hvp B i j. specialize (HH vp Hvp). unfold hamiltonian_adds in HH. unfold hasH in B. destruct (pHa (snd vp)); [discriminate|].
    apply (f_equal (fun f : op => f i j)) in HH. unfold minusI, zero in HH. apply (f_equal (kmul CI)) in HH. transitivity (kmul CI (kmul (kopp CI) (H (snd vp) i j))); [apply cr_eq; cbn; ring|]. rewrite HH. apply cr_eq; cbn; ring. }
  f_equal; [f_equal; f_equal|].
  - apply mmul_moved; auto.
  - apply mmul_moved; auto. intros a b _ _. unfold dag. now rewrite SH.
  - unfold msum. rewrite !ksum_map. unfold Jss.
    assert (Hz : forall vp, In vp (constituents c) -> hasLi vp = false -> J (snd vp) = []).
    { intros vp Hvp B. specialize (HJ vp Hvp). unfold jumps_are in HJ. unfold hasLi in B. destruct (pLi (snd vp)); [discriminate|exact HJ]. }
    rewrite (jumps_sum (cDims c) (constituents c) J (fun a => conjugated (cDims c) a (asOp rho) (coords w x) (coords w y)) Hz).
    rewrite (jumps_sum (cDims c) (constituents c) J (fun a => conjugated (cDims c) a (asOp rho) x y) Hz).
    unfold indistinguishableL in HiL. symmetry. rewrite <- (ksum_perm _ _ _ HiL), ksum_map. apply ksum_ext. intros vp Hvp. apply filter_In in Hvp. cbn [fst snd renamedSub]. apply (@ksum_ext CR). intros j _.
    unfold goodSubs in Hg. rewrite Forall_forall in Hg. symmetry. apply conjugated_moved; auto. exact (Hg vp (proj1 Hvp)).
Qed.

(** ** which constituents there are *)
Lemma constituents_listed c : len (constituents c) = len (cFrees c) + len (cActs c) /\
  (forall i p, nth_error (cFrees c) i = Some p -> nth_error (constituents c) i = Some ([i], p)) /\
  (forall j V p, nth_error (cActs c) j = Some (V, p) -> nth_error (constituents c) (len (cFrees c) + j) = Some (V, p)).
Proof.
  assert (L : len (map (fun ip : nat * parts => ([fst ip], snd ip)) (combine (seq 0 (len (cFrees c))) (cFrees c))) = len (cFrees c)) by (rewrite map_length, combine_length, seq_length; lia).
  unfold constituents. split; [rewrite app_length, L; reflexivity|]. split.
  - intros i p E. assert (Hi : i < len (cFrees c)) by (apply nth_error_Some; congruence). rewrite nth_error_app1 by (now rewrite L).
    assert (G : forall l s i, nth_error l i = Some p -> nth_error (map (fun ip : nat * parts => ([fst ip], snd ip)) (combine (seq s (len l)) l)) i = Some ([s + i], p)).
    { induction l as [|q l IH]; intros s [|k] Ek; cbn in *; try discriminate; [injection Ek as ->; now rewrite Nat.add_0_r|]. rewrite (IH (S s) k Ek). do 3 f_equal. lia. }
    exact (G (cFrees c) 0 i E).
  - intros j V p E. rewrite nth_error_app2 by (rewrite L; lia). rewrite L. replace (len (cFrees c) + j - len (cFrees c)) with j by lia. exact E.
Qed.
