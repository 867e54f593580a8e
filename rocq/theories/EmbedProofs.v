(** Slices and embedded operators. *)
From Coq Require Import List Arith NArith Reals Lra Lia Bool Permutation.
From Verif Require Import Star CReal Arr MultiIndexModel SliceModel SliceSpec SliceProofs HermSpec HermProofs DensityModel DensitySpec DensityProofs PTraceProofs
  MasterModel MasterSpec MasterProofs CompositeModel CompositeSpec.
Import ListNotations.

Section Embed.
Context {K : StarRing}.
Local Open Scope K_scope.
Add Ring KRE : (k_ring K).
Notation mfun := (list nat -> list nat -> K).
Variables (dims V : list nat).
Let n := length dims.
Hypothesis HV : good_positions n V.
Let sV := shV V dims.
Let sD := shD n V dims.

Lemma sV_len s : inr sV s -> length s = length V.
Proof. intros Hs. rewrite (inr_length _ _ Hs). apply shV_length. Qed.
Lemma sD_len d : inr sD d -> length d = (n - length V)%nat.
Proof. intros Hd. rewrite (inr_length _ _ Hd). now apply shD_length. Qed.

Lemma isum_split (g : list nat -> K) : isum dims g = isum sD (fun d => isum sV (fun s => g (addr n V d s))).
Proof.
  unfold isum. transitivity (ksum g (flat_map (fun d => map (fun s => addr n V d s) (indices sV)) (indices sD))).
  2:{ rewrite ksum_flat_map. apply ksum_ext. intros d _. now rewrite ksum_map. }
  symmetry. apply ksum_perm. apply NoDup_Permutation.
  - apply NoDup_flat_map.
    + apply indices_NoDup.
    + intros d Hd. apply in_indices in Hd. apply NoDup_map_inj; [|apply indices_NoDup].
      intros s s' Hs Hs' E. apply in_indices in Hs, Hs'.
      destruct (of_addr n V HV d s (sV_len s Hs) (sD_len d Hd)) as (_ & E2 & _).
      destruct (of_addr n V HV d s' (sV_len s' Hs') (sD_len d Hd)) as (_ & E2' & _). rewrite E in E2. congruence.
    + intros d d' y Hd Hd' Hy Hy'. apply in_indices in Hd, Hd'. apply in_map_iff in Hy, Hy'.
      destruct Hy as [s [<- Hs]], Hy' as [s' [E Hs']]. apply in_indices in Hs, Hs'.
      destruct (of_addr n V HV d s (sV_len s Hs) (sD_len d Hd)) as (E1 & _ & _).
      destruct (of_addr n V HV d' s' (sV_len s' Hs') (sD_len d' Hd')) as (E1' & _ & _). rewrite E in E1'. congruence.
  - apply indices_NoDup.
  - intros y. rewrite in_flat_map, in_indices. split.
    + intros [d [Hd Hy]]. apply in_map_iff in Hy. destruct Hy as [s [<- Hs]]. apply in_indices in Hd, Hs. now apply addr_inr.
    + intros Hy. assert (Ly : length y = n) by (apply (inr_length _ _ Hy)).
      pose proof (proj1 (inr_split n V HV dims eq_refl y Ly) Hy) as [H1 H2].
      exists (dOf n V y). split; [now apply in_indices|]. apply in_map_iff. exists (sOf V y).
      split; [apply addr_of; auto | now apply in_indices].
Qed.

Lemma isum_delta sh (d0 : list nat) (g : list nat -> K) : inr sh d0 -> isum sh (fun d => if listnat_eqb d0 d then g d else 0) = g d0.
Proof.
  intros H. unfold isum. apply in_indices in H. pose proof (indices_NoDup sh) as Nd. revert Nd H.
  induction (indices sh) as [|a l IH]; intros Nd H; [destruct H|]. inversion Nd as [|? ? Hni Hnd]; subst.
  unfold ksum in *. cbn [map fold_right]. destruct H as [->|H].
  - rewrite listnat_eqb_refl. fold (ksum (fun d => if listnat_eqb d0 d then g d else 0) l). rewrite ksum_zero; [ring|]. intros b Hb.
    destruct (listnat_eqb_spec d0 b) as [->|]; [contradiction|reflexivity].
  - rewrite IH by auto. destruct (listnat_eqb_spec d0 a) as [->|]; [contradiction|]. ring.
Qed.

(** coordinates of an address *)
Lemma coords_addr d s : inr sD d -> inr sV s -> coords (others n V) (addr n V d s) = d /\ coords V (addr n V d s) = s.
Proof.
  intros Hd Hs. destruct (of_addr n V HV d s (sV_len s Hs) (sD_len d Hd)) as (E1 & E2 & _).
  unfold dOf, sOf in *. unfold others, coords. rewrite <- negated_spec. auto.
Qed.
Lemma coords_split y : inr dims y -> inr sD (coords (others n V) y) /\ inr sV (coords V y) /\ addr n V (coords (others n V) y) (coords V y) = y.
Proof.
  intros Hy. assert (Ly : length y = n) by (apply (inr_length _ _ Hy)).
  pose proof (proj1 (inr_split n V HV dims eq_refl y Ly) Hy) as [H1 H2].
  assert (E : coords (others n V) y = dOf n V y) by (unfold coords, others, dOf; now rewrite <- negated_spec).
  assert (E' : coords V y = sOf V y) by reflexivity. rewrite E, E'. split; [exact H1|]. split; [exact H2|]. now apply addr_of.
Qed.

(** the embedded operator on a vector: sum within the slice *)
Lemma embed_sum (M : mfun) (g : list nat -> K) y : inr dims y ->
  isum dims (fun k => embed V dims M y k * g k) = isum sV (fun s => M (coords V y) s * g (addr n V (coords (others n V) y) s)).
Proof.
  intros Hy. destruct (coords_split y Hy) as (H1 & H2 & _). rewrite isum_split.
  transitivity (isum sD (fun d => if listnat_eqb (coords (others n V) y) d then isum sV (fun s => M (coords V y) s * g (addr n V d s)) else 0)).
  - apply isum_ext. intros d Hd. destruct (listnat_eqb (coords (others n V) y) d) eqn:E.
    + apply isum_ext. intros s Hs. destruct (coords_addr d s Hd Hs) as [E1 E2]. unfold embed. fold n. rewrite E1, E2, E. reflexivity.
    + unfold isum. apply ksum_zero. intros s Hs. apply in_indices in Hs. destruct (coords_addr d s Hd Hs) as [E1 E2]. unfold embed. fold n. rewrite E1, E. ring.
  - now rewrite (isum_delta sD _ (fun d => isum sV (fun s => M (coords V y) s * g (addr n V d s)))).
Qed.

Lemma embed_dag (M : mfun) i j : dag (embed V dims M) i j = embed V dims (dag M) i j.
Proof.
  unfold dag, embed. destruct (listnat_eqb_spec (coords (others (length dims) V) j) (coords (others (length dims) V) i)) as [E|E];
  destruct (listnat_eqb_spec (coords (others (length dims) V) i) (coords (others (length dims) V) j)) as [E'|E']; try congruence. apply kconj_0.
Qed.
Lemma embed_mmul (A B : mfun) : mmeq dims (mmul dims (embed V dims A) (embed V dims B)) (embed V dims (mmul sV A B)).
Proof.
  intros i j Hi Hj. unfold mmul. rewrite (embed_sum A (fun k => embed V dims B k j)) by auto.
  destruct (coords_split i Hi) as (H1 & H2 & _). unfold embed. fold n.
  destruct (listnat_eqb (coords (others n V) i) (coords (others n V) j)) eqn:E.
  - apply isum_ext. intros s Hs. destruct (coords_addr _ s H1 Hs) as [E1 E2]. rewrite E1, E2, E. reflexivity.
  - unfold isum. apply ksum_zero. intros s Hs. apply in_indices in Hs. destruct (coords_addr _ s H1 Hs) as [E1 E2]. rewrite E1, E. ring.
Qed.

(** trace of O rho with an embedded O *)
Lemma trace_embed (O rho : mfun) : mtrace dims (mmul dims (embed V dims O) rho) =
  isum sD (fun d => mtrace sV (mmul sV O (fun s s' => rho (addr n V d s) (addr n V d s')))).
Proof.
  unfold mtrace at 1. rewrite isum_split. apply isum_ext. intros d Hd. unfold mtrace. apply isum_ext. intros s Hs.
  unfold mmul. rewrite (embed_sum O (fun k => rho k (addr n V d s))) by now apply addr_inr.
  destruct (coords_addr d s Hd Hs) as [E1 E2]. rewrite E1, E2. reflexivity.
Qed.

(** ** slices *)
Hypothesis Hpos : forall k, In k dims -> (0 < k)%nat.
Lemma fuelD : (fold_right Nat.mul 1 sD <= fold_right Nat.mul 1 dims)%nat.
Proof. apply (fuel_D dims V HV Hpos). lia. Qed.

Lemma slices_spec {A} (f : @mem A -> @mem A) (m : @mem A) :
  (forall g g', (forall s, inr sV s -> g s = g' s) -> forall s, inr sV s -> f g s = f g' s) ->
  exists m', forEachSlice (fold_right Nat.mul 1%nat dims) f V dims m = Some m' /\
    forall y, inr dims y -> m' y = f (fun s => m (addr n V (coords (others n V) y) s)) (coords V y).
Proof.
  intros Hf. destruct (forEachSlice_spec n V HV dims eq_refl (fold_right Nat.mul 1%nat dims) f m Hf Hpos fuelD) as [m' [E H]].
  exists m'. split; [exact E|]. intros y Hy. rewrite H by auto.
  assert (Eq : coords (others n V) y = dOf n V y) by (unfold coords, others, dOf; now rewrite <- negated_spec). now rewrite Eq.
Qed.
End Embed.
