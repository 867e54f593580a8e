(** Two parts of a system: the positions V and the others. *)
From Coq Require Import List Arith Reals Lra Lia Bool Permutation.
From Verif Require Import Star CReal Arr MultiIndexModel SliceModel SliceSpec SliceProofs HermSpec HermProofs DensityModel DensitySpec DensityProofs PTraceProofs EmbedProofs
  PureModel PureProofs ElementProofs EntangleSpec SpectralProofs.
Import ListNotations.
Local Open Scope R_scope.
Add Ring CRBip : (k_ring CR).

Definition form (dims : list nat) (phi : list nat -> CR) (M : op) (chi : list nat -> CR) : CR :=
  isum dims (fun x => isum dims (fun y => kmul (kmul (kconj (phi x)) (M x y)) (chi y))).
Lemma mean_form dims phi M : mean dims phi M = form dims phi M phi.
Proof. reflexivity. Qed.
Definition complete {B} (sh : list nat) (J : list B) (b : B -> list nat -> CR) : Prop :=
  forall x y, inr sh x -> inr sh y -> ksum (fun j => kmul (b j x) (kconj (b j y))) J = if listnat_eqb x y then k1 else k0.
Definition unitvec (d x : list nat) : CR := if listnat_eqb d x then k1 else k0.
Lemma unitvec_complete sh : complete sh (indices sh) unitvec.
Proof.
  intros x y Hx Hy. unfold unitvec. transitivity (isum sh (fun d => kmul (if listnat_eqb x d then k1 else k0 : CR) (if listnat_eqb d y then k1 else k0))).
  - unfold isum. apply ksum_ext. intros d _. rewrite (listnat_eqb_sym d x). destruct (listnat_eqb d y); rewrite ?kconj_1, ?kconj_0; reflexivity.
  - now rewrite (isum_delta' sh x (fun d => if listnat_eqb d y then k1 else k0 : CR)).
Qed.
Lemma form_pure dims phi psi chi : form dims phi (pure psi) chi = kmul (inner dims phi psi) (kconj (inner dims chi psi)).
Proof.
  unfold form, pure, inner. rewrite isum_conj, <- isum_scal_r. apply isum_ext. intros x _. rewrite <- isum_scal_l. apply isum_ext. intros y _.
  rewrite kconj_mul, kconj_invol. ring.
Qed.
Lemma mean_pure dims phi psi : mean dims phi (pure psi) = RC (csq (inner dims phi psi)).
Proof. rewrite mean_form, form_pure. apply csq_conj_r. Qed.
Lemma form_ext dims phi M M' chi : mmeq dims M M' -> form dims phi M chi = form dims phi M' chi.
Proof. intros E. unfold form. apply isum_ext. intros x Hx. apply isum_ext. intros y Hy. now rewrite E. Qed.

Section Bip.
Variables (dims V : list nat).
Let n := length dims.
Hypothesis HV : good_positions n V.
Let sV := shV V dims.
Let sD := shD n V dims.
Let O := others n V.

Definition tensor (b a : list nat -> CR) : list nat -> CR := fun y => kmul (b (coords O y)) (a (coords V y)).
Lemma split2 (g : list nat -> CR) : isum dims g = isum sD (fun d => isum sV (fun s => g (addr n V d s))).
Proof. apply (isum_split dims V HV). Qed.
Lemma tensor_addr b a d s : inr sD d -> inr sV s -> tensor b a (addr n V d s) = kmul (b d) (a s).
Proof. intros Hd Hs. unfold tensor, O. destruct (coords_addr dims V HV d s Hd Hs) as [E1 E2]. fold n in E1, E2. now rewrite E1, E2. Qed.
Lemma inner_tensor b a b' a' : inner dims (tensor b a) (tensor b' a') = kmul (inner sD b b') (inner sV a a').
Proof.
  unfold inner. rewrite split2, <- isum_scal_r. apply isum_ext. intros d Hd. rewrite <- isum_scal_l. apply isum_ext. intros s Hs. rewrite !tensor_addr by auto. rewrite kconj_mul. ring.
Qed.
Lemma coordsO d s : inr sD d -> inr sV s -> coords O (addr n V d s) = d.
Proof. intros Hd Hs. apply (coords_addr dims V HV d s Hd Hs). Qed.
Lemma coordsV d s : inr sD d -> inr sV s -> coords V (addr n V d s) = s.
Proof. intros Hd Hs. apply (coords_addr dims V HV d s Hd Hs). Qed.
Lemma ptr_V (r : op) s s' : inr sV s -> inr sV s' -> ptr V dims r s s' = isum sD (fun d => r (addr n V d s) (addr n V d s')).
Proof. intros Hs Hs'. symmetry. apply (sum_ptr dims V HV r s s' Hs Hs'). Qed.

Lemma others_good : good_positions n O.
Proof. unfold O, others. split; [apply NoDup_filter, seq_NoDup|]. intros v H. apply filter_In in H. destruct H as [H _]. apply in_seq in H. lia. Qed.
Lemma in_others o : In o O <-> (o < n)%nat /\ ~ In o V.
Proof.
  unfold O, others. rewrite filter_In, in_seq. destruct (in_dec Nat.eq_dec o V) as [H|H]; split; intros G; [destruct G; discriminate|tauto|split; [lia|exact H]|split; [lia|reflexivity]].
Qed.
Lemma shapeO : shV O dims = sD.
Proof. unfold sD, shD, shV, O, others. now rewrite negated_spec. Qed.
Lemma addr_replaceO d d' s : inr sD d -> inr sD d' -> inr sV s -> replace_at O d' (addr n V d s) = addr n V d' s.
Proof.
  intros Hd Hd' Hs. pose proof (addr_inr n V HV dims eq_refl d s) as Hy. specialize (Hy Hd Hs).
  assert (Ly : length (addr n V d s) = n) by (apply (inr_length _ _ Hy)).
  assert (Hr : inr dims (replace_at O d' (addr n V d s))).
  { apply replace_inr; [apply others_good|exact Hy|]. change (inr (shV O dims) d'). now rewrite shapeO. }
  destruct (coords_split dims V HV _ Hr) as (_ & _ & E). rewrite <- E. fold n. fold O.
  assert (E1 : coords O (replace_at O d' (addr n V d s)) = d').
  { unfold coords. apply replace_coords; [apply others_good| |].
    - intros v Hv. rewrite Ly. now apply others_good.
    - rewrite (inr_length _ _ Hd'). rewrite <- shapeO. apply shV_length. }
  assert (E2 : coords V (replace_at O d' (addr n V d s)) = s).
  { transitivity (coords V (addr n V d s)).
    - unfold coords. apply map_ext_in. intros v Hv. apply nth_replace_nIn. rewrite in_others. tauto.
    - apply (coords_addr dims V HV d s Hd Hs). }
  now rewrite E1, E2.
Qed.
Lemma ptr_O (r : op) d d' : inr sD d -> inr sD d' -> ptr O dims r d d' = isum sV (fun s => r (addr n V d s) (addr n V d' s)).
Proof.
  intros Hd Hd'. unfold ptr. rewrite ksum_filter.
  change (isum dims (fun y => if listnat_eqb (map (fun v => nth v y 0%nat) O) d then r y (replace_at O d' y) else k0) = isum sV (fun s => r (addr n V d s) (addr n V d' s))).
  rewrite split2. transitivity (isum sD (fun e => if listnat_eqb d e then isum sV (fun s => r (addr n V e s) (addr n V d' s)) else k0)).
  - apply isum_ext. intros e He. rewrite (listnat_eqb_sym d e). destruct (listnat_eqb e d) eqn:Ed.
    + apply isum_ext. intros s Hs. change (map (fun v => nth v (addr n V e s) 0%nat) O) with (coords O (addr n V e s)).
      rewrite (coordsO e s He Hs), Ed. now rewrite addr_replaceO.
    + apply isum_zero. intros s Hs. change (map (fun v => nth v (addr n V e s) 0%nat) O) with (coords O (addr n V e s)).
      now rewrite (coordsO e s He Hs), Ed.
  - now rewrite (isum_delta sD d (fun e => isum sV (fun s => r (addr n V e s) (addr n V d' s)))).
Qed.
Lemma trace_V (r : op) : mtrace sV (ptr V dims r) = mtrace dims r.
Proof.
  unfold mtrace. rewrite split2. rewrite isum_swap. apply isum_ext. intros s Hs. now rewrite ptr_V.
Qed.
Lemma trace_O (r : op) : mtrace sD (ptr O dims r) = mtrace dims r.
Proof. unfold mtrace. rewrite split2. apply isum_ext. intros d Hd. now rewrite ptr_O. Qed.

(** summing over a complete set of the other part gives the partial trace *)
Lemma form_split f g f' g' (r : op) : form dims (tensor f g) r (tensor f' g') =
  isum sD (fun d => isum sV (fun s => isum sD (fun d' => isum sV (fun s' => kmul (kmul (kmul (kconj (f d)) (kconj (g s))) (r (addr n V d s) (addr n V d' s'))) (kmul (f' d') (g' s')))))).
Proof.
  unfold form. rewrite split2. apply isum_ext. intros d Hd. apply isum_ext. intros s Hs. rewrite split2. apply isum_ext. intros d' Hd'. apply isum_ext. intros s' Hs'.
  rewrite !tensor_addr by auto. now rewrite kconj_mul.
Qed.
Lemma complete_conj {B} sh (J : list B) b x y : complete sh J b -> inr sh x -> inr sh y ->
  ksum (fun j => kmul (kconj (b j x)) (b j y)) J = if listnat_eqb x y then k1 else k0.
Proof. intros C Hx Hy. rewrite listnat_eqb_sym, <- (C y x Hy Hx). apply ksum_ext. intros; ring. Qed.
Lemma form_V {B} (J : list B) (b : B -> list nat -> CR) g g' (r : op) : complete sD J b ->
  ksum (fun j => form dims (tensor (b j) g) r (tensor (b j) g')) J = form sV g (ptr V dims r) g'.
Proof.
  intros C.
  transitivity (isum sD (fun d => isum sV (fun s => isum sD (fun d' => isum sV (fun s' =>
     kmul (ksum (fun j => kmul (kconj (b j d)) (b j d')) J) (kmul (kmul (kconj (g s)) (r (addr n V d s) (addr n V d' s'))) (g' s'))))))).
  - rewrite (ksum_ext _ (fun j => isum sD (fun d => isum sV (fun s => isum sD (fun d' => isum sV (fun s' =>
       kmul (kmul (kconj (b j d)) (b j d')) (kmul (kmul (kconj (g s)) (r (addr n V d s) (addr n V d' s'))) (g' s')))))))).
    + rewrite <- isum_ksum. apply isum_ext. intros d _. rewrite <- isum_ksum. apply isum_ext. intros s _. rewrite <- isum_ksum. apply isum_ext. intros d' _.
      rewrite <- isum_ksum. apply isum_ext. intros s' _. now rewrite ksum_scal_r.
    + intros j _. rewrite form_split. apply isum_ext. intros d _. apply isum_ext. intros s _. apply isum_ext. intros d' _. apply isum_ext. intros s' _. ring.
  - transitivity (isum sD (fun d => isum sV (fun s => isum sV (fun s' => kmul (kmul (kconj (g s)) (r (addr n V d s) (addr n V d s'))) (g' s'))))).
    + apply isum_ext. intros d Hd. apply isum_ext. intros s Hs.
      transitivity (isum sD (fun d' => kmul (if listnat_eqb d d' then k1 else k0) (isum sV (fun s' => kmul (kmul (kconj (g s)) (r (addr n V d s) (addr n V d' s'))) (g' s'))))).
      * apply isum_ext. intros d' Hd'. rewrite (complete_conj sD J b d d') by auto. apply isum_scal_l.
      * now rewrite (isum_delta' sD d (fun d' => isum sV (fun s' => kmul (kmul (kconj (g s)) (r (addr n V d s) (addr n V d' s'))) (g' s')))).
    + rewrite isum_swap. unfold form. apply isum_ext. intros s Hs. rewrite isum_swap. apply isum_ext. intros s' Hs'. rewrite ptr_V by auto.
      rewrite isum_scal_r. f_equal. apply isum_scal_l.
Qed.
Lemma form_O {A} (I : list A) (al : A -> list nat -> CR) f f' (r : op) : complete sV I al ->
  ksum (fun i => form dims (tensor f (al i)) r (tensor f' (al i))) I = form sD f (ptr O dims r) f'.
Proof.
  intros C.
  transitivity (isum sD (fun d => isum sV (fun s => isum sD (fun d' => isum sV (fun s' =>
     kmul (ksum (fun i => kmul (kconj (al i s)) (al i s')) I) (kmul (kmul (kconj (f d)) (r (addr n V d s) (addr n V d' s'))) (f' d'))))))).
  - rewrite (ksum_ext _ (fun i => isum sD (fun d => isum sV (fun s => isum sD (fun d' => isum sV (fun s' =>
       kmul (kmul (kconj (al i s)) (al i s')) (kmul (kmul (kconj (f d)) (r (addr n V d s) (addr n V d' s'))) (f' d')))))))).
    + rewrite <- isum_ksum. apply isum_ext. intros d _. rewrite <- isum_ksum. apply isum_ext. intros s _. rewrite <- isum_ksum. apply isum_ext. intros d' _.
      rewrite <- isum_ksum. apply isum_ext. intros s' _. now rewrite ksum_scal_r.
    + intros j _. rewrite form_split. apply isum_ext. intros d _. apply isum_ext. intros s _. apply isum_ext. intros d' _. apply isum_ext. intros s' _. ring.
  - unfold form. apply isum_ext. intros d Hd. rewrite isum_swap. apply isum_ext. intros d' Hd'. rewrite ptr_O by auto. rewrite <- isum_scal_l, <- isum_scal_r.
    apply isum_ext. intros s Hs.
    transitivity (isum sV (fun s' => kmul (if listnat_eqb s s' then k1 else k0) (kmul (kmul (kconj (f d)) (r (addr n V d s) (addr n V d' s'))) (f' d')))).
    + apply isum_ext. intros s' Hs'. now rewrite (complete_conj sV I al s s').
    + now rewrite (isum_delta' sV s (fun s' => kmul (kmul (kconj (f d)) (r (addr n V d s) (addr n V d' s'))) (f' d'))).
Qed.
Lemma density_V r : density dims r -> density sV (ptr V dims r).
Proof.
  intros [Ht Hp]. split; [now rewrite trace_V|]. intros phi. exists (rsum (fun d => cre (mean dims (tensor (unitvec d) phi) r)) (indices sD)). split.
  - apply rsum_nonneg. intros d _. destruct (Hp (tensor (unitvec d) phi)) as (x & Hx & E). rewrite E. exact Hx.
  - rewrite mean_form, <- (form_V (indices sD) unitvec) by apply unitvec_complete. rewrite <- ksum_RC. apply ksum_ext. intros d _.
    destruct (Hp (tensor (unitvec d) phi)) as (x & Hx & E). rewrite mean_form in E |- *. rewrite E. reflexivity.
Qed.
Lemma density_O r : density dims r -> density sD (ptr O dims r).
Proof.
  intros [Ht Hp]. split; [now rewrite trace_O|]. intros phi. exists (rsum (fun s => cre (mean dims (tensor phi (unitvec s)) r)) (indices sV)). split.
  - apply rsum_nonneg. intros d _. destruct (Hp (tensor phi (unitvec d))) as (x & Hx & E). rewrite E. exact Hx.
  - rewrite mean_form, <- (form_O (indices sV) unitvec) by apply unitvec_complete. rewrite <- ksum_RC. apply ksum_ext. intros d _.
    destruct (Hp (tensor phi (unitvec d))) as (x & Hx & E). rewrite mean_form in E |- *. rewrite E. reflexivity.
Qed.

(** eigenvectors of a product *)
Lemma product_tensor (b c : op) f g d s : inr sD d -> inr sV s ->
  isum dims (fun y => kmul (product V dims b c (addr n V d s) y) (tensor f g y)) = kmul (isum sD (fun d' => kmul (c d d') (f d'))) (isum sV (fun s' => kmul (b s s') (g s'))).
Proof.
  intros Hd Hs. rewrite split2, <- isum_scal_r. apply isum_ext. intros d' Hd'. rewrite <- isum_scal_l. apply isum_ext. intros s' Hs'. rewrite tensor_addr by auto.
  unfold product. change (others (length dims) V) with O. rewrite !coordsO, !coordsV by auto. ring.
Qed.
Lemma fam_product (b c : op) (I J : list nat) al be v u : eigfam sV b I al v -> eigfam sD c J be u ->
  eigfam dims (product V dims b c) (list_prod J I) (fun ji => be (fst ji) * al (snd ji)) (fun ji => tensor (u (fst ji)) (v (snd ji))).
Proof.
  intros (Hn & Ho & Ho' & Hc & He) (Gn & Go & Go' & Gc & Ge). split; [|split; [|split; [|split]]].
  - clear - Hn Gn. induction Gn as [|j J Hj Gn IH]; [constructor|]. cbn [list_prod]. apply NoDup_app'.
    + apply NoDup_map_inj; [|exact Hn]. intros x y _ _ E. congruence.
    + exact IH.
    + intros [j' i] Hi Hi'. apply in_map_iff in Hi. destruct Hi as (i' & E & _). injection E as <- <-. apply in_prod_iff in Hi'. tauto.
  - intros [j i] Hk. apply in_prod_iff in Hk. destruct Hk as [Hj Hi]. cbn [fst snd]. rewrite inner_tensor, Ho, Go by auto. ring.
  - intros [j i] [j' i'] Hk Hk' N. apply in_prod_iff in Hk, Hk'. destruct Hk as [Hj Hi], Hk' as [Hj' Hi']. cbn [fst snd]. rewrite inner_tensor.
    destruct (Nat.eq_dec j j') as [->|D].
    + rewrite (Ho' i i') by (auto; intros ->; now apply N). ring.
    + rewrite (Go' j j') by auto. ring.
  - intros x y Hx Hy. destruct (coords_split dims V HV x Hx) as (X1 & X2 & X3), (coords_split dims V HV y Hy) as (Y1 & Y2 & Y3).
    transitivity (kmul (ksum (fun j => kmul (u j (coords O x)) (kconj (u j (coords O y)))) J) (ksum (fun i => kmul (v i (coords V x)) (kconj (v i (coords V y)))) I)).
    + rewrite <- ksum_scal_r. transitivity (ksum (fun j => ksum (fun i => kmul (tensor (u j) (v i) x) (kconj (tensor (u j) (v i) y))) I) J).
      * clear. induction J as [|j J IH]; [reflexivity|]. cbn [list_prod]. rewrite ksum_app, ksum_map, IH. reflexivity.
      * apply ksum_ext. intros j _. rewrite <- ksum_scal_l. apply ksum_ext. intros i _. unfold tensor. rewrite kconj_mul. ring.
    + rewrite Gc, Hc by auto. destruct (listnat_eqb_spec x y) as [->|N].
      * rewrite !listnat_eqb_refl. ring.
      * destruct (listnat_eqb_spec (coords O x) (coords O y)) as [E1|]; [|ring]. destruct (listnat_eqb_spec (coords V x) (coords V y)) as [E2|]; [|ring].
        exfalso. apply N. rewrite <- X3, <- Y3. fold n O. now rewrite E1, E2.
  - intros [j i] x Hk Hx. apply in_prod_iff in Hk. destruct Hk as [Hj Hi]. cbn [fst snd]. destruct (coords_split dims V HV x Hx) as (X1 & X2 & X3). fold n O in X1, X3.
    rewrite <- X3. rewrite product_tensor by auto. rewrite Ge, He by auto. rewrite tensor_addr by auto. rewrite <- RC_mul. ring.
Qed.
End Bip.
