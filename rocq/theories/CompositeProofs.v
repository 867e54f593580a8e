(** Composites: jumps, Hamiltonian, propagator, superoperators as embedded operators. *)
From Coq Require Import List Arith NArith Reals Lra Lia Bool Permutation String.
From Verif Require Import Star CReal Arr MultiIndexModel SliceModel SliceSpec SliceProofs HermSpec HermProofs DensityModel DensitySpec DensityProofs PTraceProofs
  MasterModel MasterSpec MasterProofs CompositeModel CompositeSpec EmbedProofs.
Import ListNotations.
Add Ring CRC : (k_ring CR).
Local Notation len := List.length.

(** ** one constituent *)
Section One.
Variables (dims V : list nat).
Hypothesis HV : good_positions (len dims) V.
Hypothesis Hpos : forall k, In k dims -> 0 < k.

Lemma onSlices_embed f (M : op) psi : acts_as (coords V dims) f M ->
  exists psi', onSlices dims V f psi = Some psi' /\ forall y, inr dims y -> psi' y = isum dims (fun k => kmul (embed V dims M y k) (psi k)).
Proof.
  intros Hf. destruct (slices_spec dims V HV Hpos f psi) as [m' [E H]].
  - apply (acts_as_ext _ _ _ Hf).
  - exists m'. split; [exact E|]. intros y Hy. rewrite H by auto. rewrite (embed_sum dims V HV M psi y Hy). apply Hf. now apply (coords_split dims V HV).
Qed.
Lemma onSlices2_embed f (M : op) psi d : (forall psi d s, inr (coords V dims) s -> f psi d s = kadd (d s) (isum (coords V dims) (fun s' => kmul (M s s') (psi s')))) ->
  exists d', onSlices2 dims V f psi d = Some d' /\ forall y, inr dims y -> d' y = kadd (d y) (isum dims (fun k => kmul (embed V dims M y k) (psi k))).
Proof.
  intros Hf. unfold onSlices2.
  match goal with |- context [forEachSlice _ ?F V dims ?m] => destruct (slices_spec dims V HV Hpos F m) as [m' [E H]] end.
  - intros g g' Eg s Hs. rewrite Eg by auto. f_equal. rewrite !Hf by auto. rewrite Eg by auto. f_equal. apply isum_ext. intros s' Hs'. now rewrite Eg.
  - rewrite E. eexists. split; [reflexivity|]. intros y Hy. cbv beta. rewrite H by auto. cbn [fst snd]. destruct (coords_split dims V HV y Hy) as (H1 & H2 & H3).
    rewrite Hf by auto. rewrite H3. f_equal. now rewrite (embed_sum dims V HV M psi y Hy).
Qed.
End One.

(** ** superoperators: positions [V] in the kets and in the bras *)
Section Double.
Variables (dims V : list nat).
Hypothesis HV : good_positions (len dims) V.
Hypothesis Hpos : forall k, In k dims -> 0 < k.
Let n := len dims.
Let W := extendVector n V.
Lemma W_good : good_positions (len (dims ++ dims)) W.
Proof.
  destruct HV as [Hn Hb]. rewrite app_length. fold n. unfold W, extendVector. split.
  - apply NoDup_app'; auto.
    + apply NoDup_map_inj; auto. intros; lia.
    + intros a Ha Hb'. apply in_map_iff in Hb'. destruct Hb' as [v [<- Hv]]. apply Hb in Ha. fold n in Ha. lia.
  - intros v Hv. apply in_app_iff in Hv. destruct Hv as [Hv|Hv]; [apply Hb in Hv; fold n in Hv; lia|].
    apply in_map_iff in Hv. destruct Hv as [w [<- Hw]]. apply Hb in Hw. fold n in Hw. lia.
Qed.
Lemma coords_app (i j : list nat) : len i = n -> coords W (i ++ j) = coords V i ++ coords V j.
Proof.
  intros Li. unfold coords, W, extendVector. rewrite map_app, map_map. f_equal; apply map_ext_in; intros v Hv.
  - apply app_nth1. rewrite Li. now apply HV.
  - rewrite app_nth2 by lia. f_equal. lia.
Qed.
Lemma coords_shape : coords W (dims ++ dims) = coords V dims ++ coords V dims.
Proof. now apply coords_app. Qed.
Lemma others_app (i j : list nat) : len i = n -> coords (others (n + n) W) (i ++ j) = coords (others n V) i ++ coords (others n V) j.
Proof.
  intros Li. unfold others. rewrite seq_app, filter_app. unfold coords. rewrite map_app. f_equal.
  - assert (E : filter (fun o => if in_dec Nat.eq_dec o W then false else true) (seq 0 n) = filter (fun o => if in_dec Nat.eq_dec o V then false else true) (seq 0 n)).
    { apply filter_ext_in. intros o Ho. apply in_seq in Ho. unfold W, extendVector.
      destruct (in_dec Nat.eq_dec o (V ++ map (fun v => v + n) V)) as [H|H]; destruct (in_dec Nat.eq_dec o V) as [H'|H']; auto; exfalso.
      - apply in_app_iff in H. destruct H as [H|H]; [auto|]. apply in_map_iff in H. destruct H as [v [E _]]. lia.
      - apply H, in_app_iff. auto. }
    rewrite E. apply map_ext_in. intros o Ho. apply filter_In in Ho. destruct Ho as [Ho _]. apply in_seq in Ho. apply app_nth1. lia.
  - cbn [Nat.add].
    assert (E : forall l, filter (fun o => if in_dec Nat.eq_dec o W then false else true) (map (fun o => o + n) l) = map (fun o => o + n) (filter (fun o => if in_dec Nat.eq_dec o V then false else true) l)).
    { induction l as [|o l IH]; cbn [map filter]; auto. rewrite IH.
      destruct (in_dec Nat.eq_dec (o + n) W) as [H|H]; destruct (in_dec Nat.eq_dec o V) as [H'|H']; auto; exfalso; unfold W, extendVector in H; rewrite in_app_iff, in_map_iff in H.
      - destruct H as [H|[v [E Hv]]]; [apply HV in H; fold n in H; lia|]. assert (v = o) by lia. now subst.
      - apply H. right. now exists o. }
    assert (E2 : seq n n = map (fun o => o + n) (seq 0 n)).
    { apply (nth_ext _ _ 0 0); [now rewrite map_length, !seq_length|]. intros k Hk. rewrite seq_length in Hk.
      rewrite (nth_indep (map _ _) 0 (0 + n)) by (rewrite map_length, seq_length; lia).
      rewrite (map_nth (fun o => o + n)), !seq_nth by lia. lia. }
    rewrite E2, E, map_map. apply map_ext_in. intros o _. rewrite app_nth2 by lia. f_equal. lia.
Qed.
Lemma addr_app i j s s' : inr dims i -> inr dims j -> inr (coords V dims) s -> inr (coords V dims) s' ->
  addr (len (dims ++ dims)) W (coords (others (len (dims ++ dims)) W) (i ++ j)) (s ++ s') =
  addr n V (coords (others n V) i) s ++ addr n V (coords (others n V) j) s'.
Proof.
  intros Hi Hj Hs Hs'. destruct (coords_split dims V HV i Hi) as (H1 & _ & _). destruct (coords_split dims V HV j Hj) as (H2 & _ & _).
  pose proof (addr_inr n V HV dims eq_refl _ _ H1 Hs) as I1. pose proof (addr_inr n V HV dims eq_refl _ _ H2 Hs') as I2.
  pose proof (inr_length _ _ I1) as L1. pose proof (inr_length _ _ Hi) as Li.
  destruct (coords_addr dims V HV _ _ H1 Hs) as [A1 A2]. destruct (coords_addr dims V HV _ _ H2 Hs') as [B1 B2].
  fold n in A1, A2, B1, B2.
  assert (Iy : inr (dims ++ dims) (addr n V (coords (others n V) i) s ++ addr n V (coords (others n V) j) s')) by now apply Forall2_app.
  destruct (coords_split (dims ++ dims) W W_good _ Iy) as (_ & _ & C).
  rewrite coords_app, A2, B2 in C by exact L1.
  replace (len (dims ++ dims)) with (n + n) in C |- * by (rewrite app_length; reflexivity). rewrite others_app in C |- * by (exact L1 || exact Li). rewrite A1, B1 in C. exact C.
Qed.

Lemma onSlices2_super f (J : op) rho d :
  (forall rho d, mmeq (coords V dims) (asOp (f rho d)) (madd (asOp d) (conjugated (coords V dims) J (asOp rho)))) ->
  exists d', onSlices2 (dims ++ dims) W f rho d = Some d' /\ mmeq dims (asOp d') (madd (asOp d) (conjugated dims (embed V dims J) (asOp rho))).
Proof.
  intros Hf. unfold onSlices2. set (sV := coords V dims) in *.
  assert (Hpos2 : forall k, In k (dims ++ dims) -> 0 < k) by (intros k Hk; apply in_app_iff in Hk; destruct Hk; auto).
  assert (Split : forall x, inr (sV ++ sV) x -> exists a b, x = a ++ b /\ inr sV a /\ inr sV b).
  { intros x Hx. apply Forall2_app_inv_r in Hx. destruct Hx as (a & b & Ha & Hb & ->). now exists a, b. }
  match goal with |- context [forEachSlice _ ?F W _ ?m] => destruct (slices_spec (dims ++ dims) W W_good Hpos2 F m) as [m' [E H]] end.
  - change (shV W (dims ++ dims)) with (coords W (dims ++ dims)). rewrite coords_shape. fold sV. intros g g' Eg s Hs. rewrite Eg by auto. f_equal.
    destruct (Split s Hs) as (a & b & -> & Ha & Hb).
    change (asOp (f (fun s' => fst (g s')) (fun s' => snd (g s'))) a b = asOp (f (fun s' => fst (g' s')) (fun s' => snd (g' s'))) a b).
    rewrite !Hf by auto. unfold madd. f_equal; [unfold asOp; rewrite Eg by (now apply Forall2_app); reflexivity|].
    apply conjugated_ext; auto; [intros x y _ _; reflexivity|]. intros x y Hx Hy. unfold asOp. rewrite Eg by (now apply Forall2_app). reflexivity.
  - rewrite E. eexists. split; [reflexivity|]. intros i j Hi Hj. unfold asOp at 1. rewrite H by now apply Forall2_app. cbn [fst snd].
    destruct (coords_split dims V HV i Hi) as (H1 & H2 & H3). destruct (coords_split dims V HV j Hj) as (K1 & K2 & K3).
    rewrite coords_app by exact (inr_length _ _ Hi).
    match goal with |- f ?a ?b (?x ++ ?y) = _ => change (asOp (f a b) x y = madd (asOp d) (conjugated dims (embed V dims J) (asOp rho)) i j) end.
    rewrite Hf by auto. unfold madd. f_equal.
    + unfold asOp. rewrite addr_app by auto. f_equal. exact (f_equal2 (@app nat) H3 K3).
    + unfold conjugated, mmul. rewrite (embed_sum dims V HV J (fun k => isum dims (fun k' => kmul (asOp rho k k') (dag (embed V dims J) k' j))) i Hi).
      apply isum_ext. intros s Hs. f_equal.
      transitivity (isum dims (fun k' => kconj (kmul (embed V dims J j k') (kconj (asOp rho (addr (len dims) V (coords (others (len dims) V) i) s) k'))))).
      * rewrite <- isum_conj, (embed_sum dims V HV J (fun k' => kconj (asOp rho (addr (len dims) V (coords (others (len dims) V) i) s) k')) j Hj), isum_conj.
        apply isum_ext. intros s' Hs'. rewrite kconj_mul, kconj_invol. unfold asOp, dag. rewrite addr_app by auto. fold n. ring.
      * apply isum_ext. intros k Hk. rewrite kconj_mul, kconj_invol. unfold dag. ring.
Qed.
End Double.

(** ** averages *)
Section Avr.
Variables (dims V : list nat).
Hypothesis HV : good_positions (len dims) V.
Hypothesis Hpos : forall k, In k dims -> 0 < k.

Lemma vplus_map {X} (a b : X -> R) (Os : list X) : vplus (map a Os) (map b Os) = map (fun O => (a O + b O)%R) Os.
Proof. unfold vplus. induction Os as [|O Os IH]; cbn; [reflexivity|]. now rewrite IH. Qed.
Lemma fold_vplus {X} (Os : list X) (h : X -> list nat -> R) ds : forall a : X -> R,
  fold_left (fun acc d => vplus acc (map (fun O => h O d) Os)) ds (map a Os) = map (fun O => (a O + PureModel.rsum (h O) ds)%R) Os.
Proof.
  induction ds as [|d ds IH]; intros a; cbn [fold_left].
  - apply map_ext. intros O. unfold PureModel.rsum. cbn. ring.
  - rewrite vplus_map, IH. apply map_ext. intros O. unfold PureModel.rsum. cbn [fold_right]. ring.
Qed.

Lemma cre_isum sh (g : list nat -> CR) : cre (isum sh g) = PureModel.rsum (fun d => cre (g d)) (indices sh).
Proof. unfold isum. induction (indices sh) as [|a l IH]; [reflexivity|]. unfold ksum, PureModel.rsum in *. cbn [map fold_right]. rewrite <- IH. reflexivity. Qed.
Lemma rsum_perm {A} (f : A -> R) l l' : Permutation l l' -> PureModel.rsum f l = PureModel.rsum f l'.
Proof. unfold PureModel.rsum. induction 1; cbn [fold_right]; lra. Qed.
Lemma expectation_ext sh O a b : mmeq sh a b -> expectation sh O a = expectation sh O b.
Proof. intros H. unfold expectation. f_equal. apply mtrace_ext. apply mmul_ext; auto. intros i j _ _. reflexivity. Qed.

Lemma slice_index (m : ldo) : exists sl, (forall d, sliceOf (len dims) V m d = Some (sl d)) /\
  forall d, mmeq (coords V dims) (sl d) (fun s s' => indexOf m (addr (len dims) V d s) (addr (len dims) V d s')).
Proof.
  destruct (transposer_perm (len dims) V HV) as [r [Er Pr]]. destruct m as [psi|rho].
  - exists (fun d => indexOf (Pure (fun s => psi (transposeIdx r (fillIdx V (ordinals (len dims)) d s))))). split.
    + intros d. unfold sliceOf, sliceSV. now rewrite Er.
    + intros d i j _ _. unfold indexOf, addr, sliceAddr. now rewrite Er.
  - exists (fun d s s' => rho (transposeIdx (r ++ map (fun v => v + len dims) r) (fillIdx V (ordinals (len dims)) d s ++ fillIdx V (ordinals (len dims)) d s'))). split.
    + intros d. unfold sliceOf, sliceDO. now rewrite Er.
    + intros d i j _ _. unfold indexOf. f_equal. rewrite (transposeIdx_double (len dims)); auto.
      * unfold addr, sliceAddr. now rewrite Er.
      * rewrite fillIdx_length. unfold ordinals. apply seq_length.
      * rewrite fillIdx_length. unfold ordinals. apply seq_length.
Qed.

Lemma traceOver_ok (m : ldo) (f : op -> option (list R)) (Os : list op) :
  (forall rho, f rho = Some (map (fun O => expectation (coords V dims) O rho) Os)) ->
  traceOver dims V m f = Some (map (fun O => expectation dims (embed V dims O) (indexOf m)) Os).
Proof.
  intros Hf. destruct (slice_index m) as [sl [S1 S2]].
  destruct (dummies_perm dims V HV Hpos (fold_right Nat.mul 1 dims) (Nat.le_refl _)) as [d0 [ds [E HP]]].
  unfold traceOver, partialTrace. rewrite E, S1, Hf.
  rewrite (fold_partial (sliceOf (len dims) V m) sl f (fun d => map (fun O => expectation (coords V dims) O (sl d)) Os) vplus ds) by auto.
  f_equal. rewrite (fold_vplus Os (fun O d => expectation (coords V dims) O (sl d)) ds). apply map_ext. intros O.
  unfold expectation at 3. rewrite (trace_embed dims V HV O (indexOf m)), cre_isum. rewrite <- (rsum_perm _ _ _ HP).
  unfold PureModel.rsum. cbn [fold_right]. f_equal; [apply expectation_ext, S2|].
  clear - S2. induction ds as [|d ds IH]; cbn; auto. rewrite IH. f_equal. apply expectation_ext, S2.
Qed.
End Avr.
