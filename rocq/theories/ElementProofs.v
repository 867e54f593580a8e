From Coq Require Import List Arith Bool Lia Reals Lra.
From Verif Require Import Star CReal PureModel PureProofs ElementModel ElementSpec.
Import ListNotations.
Add Ring CRE : (k_ring CR).

(** ** loops *)
Lemma upd_eq f n v : upd f n v n = v. Proof. unfold upd. now rewrite Nat.eqb_refl. Qed.
Lemma upd_neq f n v k : k <> n -> upd f n v k = f k. Proof. intros H. unfold upd. apply Nat.eqb_neq in H. now rewrite H. Qed.

Lemma loop_up (g : nat -> CR -> CR -> CR) N : forall psi k,
  fold_left (fun p n => upd p n (g n (p n) (p (n + 1)))) (seq 0 N) psi k =
  if k <? N then g k (psi k) (psi (k + 1)) else psi k.
Proof.
  induction N as [|N IH]; intros psi k; [reflexivity|].
  rewrite seq_S, fold_left_app. cbn [fold_left plus]. unfold upd at 1. rewrite !IH.
  destruct (Nat.eqb_spec k N) as [->|H].
  - rewrite Nat.ltb_irrefl. replace (N + 1 <? N) with false by (symmetry; apply Nat.ltb_ge; lia).
    replace (N <? S N) with true by (symmetry; apply Nat.ltb_lt; lia). reflexivity.
  - destruct (Nat.ltb_spec k N), (Nat.ltb_spec k (S N)); auto; lia.
Qed.

Lemma loop_down (g : nat -> CR -> CR -> CR) N : forall psi k,
  fold_left (fun p n => upd p n (g n (p n) (p (n - 1)))) (rev (seq 1 N)) psi k =
  if andb (1 <=? k) (k <=? N) then g k (psi k) (psi (k - 1)) else psi k.
Proof.
  induction N as [|N IH]; intros psi k.
  - cbn. destruct k as [|k]; reflexivity.
  - rewrite seq_S, rev_app_distr. cbn [rev app fold_left plus]. rewrite IH. unfold upd.
    destruct (Nat.leb_spec 1 k), (Nat.leb_spec k N), (Nat.leb_spec k (S N)); cbn [andb]; try lia;
      destruct (Nat.eqb_spec k (S N)); try lia; auto.
    + destruct (Nat.eqb_spec (k - 1) (S N)); try lia. reflexivity.
    + subst. reflexivity.
Qed.

Lemma row_loop (w : nat -> CR) m N s : forall d i j,
  fold_left (fun d n => upd2 d m n (kadd (d m n) (w n))) (seq s N) d i j =
  if andb (i =? m) (andb (s <=? j) (j <? s + N)) then kadd (d i j) (w j) else d i j.
Proof.
  induction N as [|N IH]; intros d i j.
  - cbn [seq fold_left]. destruct (Nat.eqb_spec i m), (Nat.leb_spec s j), (Nat.ltb_spec j (s + 0)); cbn; auto; lia.
  - rewrite seq_S, fold_left_app. cbn [fold_left]. unfold upd2 at 1. rewrite !IH.
    destruct (Nat.eqb_spec i m) as [->|Hi]; cbn [andb]; auto.
    destruct (Nat.eqb_spec j (s + N)) as [->|Hj].
    + rewrite Nat.eqb_refl. cbn [andb].
      replace (s + N <? s + N) with false by (symmetry; apply Nat.ltb_ge; lia). rewrite andb_false_r.
      replace (s <=? s + N) with true by (symmetry; apply Nat.leb_le; lia).
      replace (s + N <? s + S N) with true by (symmetry; apply Nat.ltb_lt; lia). reflexivity.
    + destruct (Nat.leb_spec s j), (Nat.ltb_spec j (s + N)), (Nat.ltb_spec j (s + S N)); cbn; auto; lia.
Qed.

Lemma square_loop (w : nat -> nat -> CR) N s N' s' : forall d i j,
  fold_left (fun d m => fold_left (fun d n => upd2 d m n (kadd (d m n) (w m n))) (seq s N) d) (seq s' N') d i j =
  if andb (andb (s' <=? i) (i <? s' + N')) (andb (s <=? j) (j <? s + N)) then kadd (d i j) (w i j) else d i j.
Proof.
  induction N' as [|N' IH]; intros d i j.
  - cbn [seq fold_left]. destruct (Nat.leb_spec s' i), (Nat.ltb_spec i (s' + 0)); cbn; auto; lia.
  - rewrite seq_S, fold_left_app. cbn [fold_left]. rewrite row_loop, IH.
    destruct (Nat.eqb_spec i (s' + N')) as [->|Hi]; cbn [andb].
    + replace (s' + N' <? s' + N') with false by (symmetry; apply Nat.ltb_ge; lia).
      replace (s' + N' <? s' + S N') with true by (symmetry; apply Nat.ltb_lt; lia).
      replace (s' <=? s' + N') with true by (symmetry; apply Nat.leb_le; lia). cbn [andb].
      destruct (s <=? j), (j <? s + N); reflexivity.
    + destruct (Nat.leb_spec s' i), (Nat.ltb_spec i (s' + N')), (Nat.ltb_spec i (s' + S N')); cbn [andb]; auto; lia.
Qed.

(** ** sums *)
Lemma lsum_ext dim f g : (forall n, n < dim -> f n = g n) -> lsum dim f = lsum dim g.
Proof. intros H. apply ksum_ext. intros n Hn. apply in_seq in Hn. apply H. lia. Qed.
Lemma lsum_zero dim f : (forall n, n < dim -> f n = k0) -> lsum dim f = k0.
Proof. intros H. apply ksum_zero. intros n Hn. apply in_seq in Hn. apply H. lia. Qed.
Lemma lsum_at dim f k : k < dim -> (forall n, n < dim -> n <> k -> f n = k0) -> lsum dim f = f k.
Proof.
  intros Hk H. apply (ksum_single f (seq 0 dim) k).
  - apply seq_NoDup.
  - apply in_seq. lia.
  - intros b Hb Hn. apply in_seq in Hb. apply H; [lia|auto].
Qed.
Lemma lsum_if dim (f : nat -> CR) k : lsum dim (fun n => if n =? k then f n else k0) = if k <? dim then f k else k0.
Proof.
  destruct (Nat.ltb_spec k dim).
  - rewrite (lsum_at dim _ k); [now rewrite Nat.eqb_refl|auto|]. intros n _ Hn. apply Nat.eqb_neq in Hn. now rewrite Hn.
  - apply lsum_zero. intros n Hn. destruct (Nat.eqb_spec n k); [lia|auto].
Qed.
Lemma fold_rsum {A} (f : A -> R) l : forall a, fold_left (fun res n => (res + f n)%R) l a = (a + rsum f l)%R.
Proof. induction l as [|x l IH]; intros a; cbn [fold_left]; [unfold rsum; cbn; lra|]. rewrite IH. unfold rsum. cbn [fold_right]. lra. Qed.
Lemma rsum_add {A} (f g : A -> R) l : rsum (fun a => (f a + g a)%R) l = (rsum f l + rsum g l)%R.
Proof. induction l as [|x l IH]; unfold rsum in *; cbn [fold_right]; [lra|]. rewrite IH. lra. Qed.
Lemma rsum_from1 (f : nat -> R) dim : f 0%nat = 0%R -> rsum f (seq 1 (dim - 1)) = rsum f (seq 0 dim).
Proof.
  intros H. destruct dim as [|d]; [reflexivity|]. replace (S d - 1)%nat with d by lia.
  change (rsum f (seq 0 (S d))) with (f 0%nat + rsum f (seq 1 d))%R. lra.
Qed.
Lemma lsum_RC dim f : lsum dim (fun n => RC (f n)) = RC (rsum f (seq 0 dim)).
Proof. apply ksum_RC. Qed.
Lemma sqrt_sq_RC x : (0 <= x)%R -> kmul (RC (sqrt x)) (RC (sqrt x)) = RC x.
Proof. intros H. rewrite RC_mul, sqrt_sqrt; auto. Qed.

(** ** operators with at most one element in every row: row m has c m in column s m, if p m *)
Definition mono (p : nat -> bool) (s : nat -> nat) (c : nat -> CR) : mat := fun m n => if andb (p m) (n =? s m) then c m else k0.
Definition live (dim : nat) (p : nat -> bool) (s : nat -> nat) (m : nat) : bool := andb (p m) (s m <? dim).

Lemma mono_act dim p s c psi m :
  lsum dim (fun n => kmul (mono p s c m n) (psi n)) = if live dim p s m then kmul (c m) (psi (s m)) else k0.
Proof.
  unfold mono, live. destruct (p m); cbn [andb].
  - rewrite (lsum_ext dim _ (fun n => if n =? s m then kmul (c m) (psi n) else k0)).
    + rewrite (lsum_if dim (fun n => kmul (c m) (psi n))). reflexivity.
    + intros n _. destruct (n =? s m); ring.
  - apply lsum_zero. intros; ring.
Qed.
Lemma mono_sandwich dim p s c rho m n :
  sandwich dim (mono p s c) rho m n =
  if andb (live dim p s m) (live dim p s n) then kmul (kmul (c m) (rho (s m) (s n))) (kconj (c n)) else k0.
Proof.
  unfold sandwich.
  rewrite (lsum_ext dim _ (fun k => kmul (mono p s c m k) (if live dim p s n then kmul (rho k (s n)) (kconj (c n)) else k0))).
  - rewrite mono_act. destruct (live dim p s m), (live dim p s n); cbn [andb]; ring.
  - intros k _.
    rewrite (lsum_ext dim _ (fun l => kmul (mono p s (fun n => kconj (c n)) n l) (kmul (mono p s c m k) (rho k l)))).
    + rewrite mono_act. destruct (live dim p s n); ring.
    + intros l _. unfold mono. destruct (p n && (l =? s n))%bool; rewrite ?kconj_0; ring.
Qed.
(** the same for the adjoint: if p and s are inverse to q and r on the levels *)
Lemma mono_jdagj dim p s c q r m n : m < dim -> n < dim ->
  (forall k l, k < dim -> l < dim -> (p k = true /\ l = s k) <-> (q l = true /\ k = r l)) -> 
  jdagj dim (mono p s c) m n = if m =? n then (if live dim q r m then RC (csq (c (r m))) else k0) else k0.
Proof.
  intros Hm Hn Hinv. unfold jdagj.
  destruct (Nat.eqb_spec m n) as [<-|Hne].
  - unfold live. destruct (andb (q m) (r m <? dim)) eqn:E.
    + apply andb_true_iff in E. destruct E as [E1 E2]. apply Nat.ltb_lt in E2.
      destruct (proj2 (Hinv (r m) m E2 Hm) (conj E1 eq_refl)) as [F1 F2].
      rewrite (lsum_at dim _ (r m)); auto.
      * unfold mono. rewrite F1, <- F2, Nat.eqb_refl. cbn [andb]. now rewrite csq_conj.
      * intros k Hk Hkn. unfold mono. destruct (p k) eqn:Ep; cbn [andb]; [|ring].
        destruct (Nat.eqb_spec m (s k)) as [Es|Es]; [|ring].
        destruct (proj1 (Hinv k m Hk Hm) (conj Ep Es)). congruence.
    + apply lsum_zero. intros k Hk. unfold mono. destruct (p k) eqn:Ep; cbn [andb]; [|ring].
      destruct (Nat.eqb_spec m (s k)) as [Es|Es]; [|ring].
      destruct (proj1 (Hinv k m Hk Hm) (conj Ep Es)) as [A B].
      rewrite A in E. cbn in E. apply Nat.ltb_ge in E. lia.
  - apply lsum_zero. intros k Hk. unfold mono. destruct (p k); cbn [andb]; [|ring].
    destruct (Nat.eqb_spec m (s k)), (Nat.eqb_spec n (s k)); try (rewrite ?kconj_0; ring). congruence.
Qed.

(** describing a Lindblad operator by such an operator *)
Lemma mono_describes dim p s c l :
  (forall psi m, m < dim -> lbJump l psi m = if live dim p s m then kmul (c m) (psi (s m)) else k0) ->
  (forall super, lbSuper l = Some super -> forall rho d m n, m < dim -> n < dim ->
     super rho d m n = kadd (d m n) (if andb (live dim p s m) (live dim p s n) then kmul (kmul (c m) (rho (s m) (s n))) (kconj (c n)) else k0)) ->
  describes dim l (mono p s c).
Proof.
  intros H1 H2. split.
  - intros psi m Hm. rewrite mono_act. now apply H1.
  - destruct (lbSuper l) as [super|]; [|exact I]. intros rho d m n Hm Hn. rewrite mono_sandwich. now apply H2.
Qed.

(** ** traces *)
Lemma trace_sandwich dim J rho : mtr dim (sandwich dim J rho) = lsum dim (fun k => lsum dim (fun l => kmul (jdagj dim J l k) (rho k l))).
Proof.
  unfold mtr, sandwich, jdagj, lsum.
  rewrite ksum_swap. apply ksum_ext. intros k _.
  rewrite ksum_swap. apply ksum_ext. intros l _.
  rewrite <- ksum_scal_r. apply ksum_ext. intros m _. ring.
Qed.
Lemma norm_sandwich dim f J psi : is_operator dim f J -> norm2 dim (f psi) = cre (mtr dim (sandwich dim J (fun m n => kmul (psi m) (kconj (psi n))))).
Proof.
  intros H. unfold norm2.
  assert (E : lsum dim (fun n => RC (csq (f psi n))) = mtr dim (sandwich dim J (fun m n => kmul (psi m) (kconj (psi n))))).
  { unfold mtr. apply lsum_ext. intros m Hm. rewrite <- csq_conj, H by auto. unfold sandwich, lsum.
    rewrite ksum_conj. rewrite <- ksum_scal_l. apply ksum_ext. intros k _. rewrite <- ksum_scal_r. apply ksum_ext. intros l _.
    rewrite kconj_mul. ring. }
  rewrite <- E, lsum_RC. reflexivity.
Qed.

(** the rate as a sum over populations *)
Lemma rate_lemma dim l J D rate : is_operator dim (lbJump l) J -> lbRate l = Some rate ->
  (forall m n, m < dim -> n < dim -> jdagj dim J m n = if m =? n then RC (D m) else k0) ->
  (forall x, rate x = rsum (fun n => (D n * ldDiag x n)%R) (seq 0 dim)) -> rate_of_jump dim l J.
Proof.
  intros HJ Er HD Hr. unfold rate_of_jump. rewrite Er.
  assert (T : forall rho, mtr dim (sandwich dim J rho) = lsum dim (fun n => kmul (RC (D n)) (rho n n))).
  { intros rho. rewrite trace_sandwich. apply lsum_ext. intros k Hk.
    rewrite (lsum_at dim _ k); auto.
    - rewrite HD, Nat.eqb_refl by auto. reflexivity.
    - intros n Hn Hne. rewrite HD by auto. apply Nat.eqb_neq in Hne. rewrite Hne. ring. }
  split.
  - intros psi. rewrite (norm_sandwich dim _ J psi HJ), T, Hr. unfold lsum. rewrite cre_ksum. apply rsum_ext. intros n _.
    cbn [ldDiag ldoSV]. generalize (D n), (psi n). intros x [a b]. cbn. unfold csq; cbn. ring.
  - intros rho. rewrite T, Hr. unfold lsum. rewrite cre_ksum. apply rsum_ext. intros n _.
    cbn [ldDiag ldoDO]. generalize (D n), (rho n n). intros x [a b]. cbn. ring.
Qed.

(** the trace under the Master equation *)
Lemma trace_master dim G c Js rho : damping_matches dim everywhere G c Js ->
  mtr dim (masterOf dim G Js rho) = kmul (RC c) (mtr dim rho).
Proof.
  intros H. unfold mtr, masterOf. unfold lsum at 1. rewrite !ksum_add.
  assert (A : ksum (fun m => lsum dim (fun k => kmul (G m k) (rho k m))) (seq 0 dim) = lsum dim (fun k => lsum dim (fun l => kmul (G l k) (rho k l)))).
  { unfold lsum. rewrite ksum_swap. reflexivity. }
  assert (B : ksum (fun m => lsum dim (fun k => kmul (rho m k) (kconj (G m k)))) (seq 0 dim) =
              lsum dim (fun k => lsum dim (fun l => kmul (kconj (G k l)) (rho k l)))).
  { apply ksum_ext. intros m _. apply lsum_ext. intros k _. ring. }
  assert (C : ksum (fun m => ksum (fun J => sandwich dim J rho m m) Js) (seq 0 dim) =
              lsum dim (fun k => lsum dim (fun l => kmul (ksum (fun J => jdagj dim J l k) Js) (rho k l)))).
  { rewrite ksum_swap. transitivity (ksum (fun J => mtr dim (sandwich dim J rho)) Js); [reflexivity|].
    rewrite (ksum_ext _ (fun J => lsum dim (fun k => lsum dim (fun l => kmul (jdagj dim J l k) (rho k l))))) by (intros; apply trace_sandwich).
    unfold lsum. rewrite ksum_swap. apply ksum_ext. intros k _. rewrite ksum_swap. apply ksum_ext. intros l _.
    now rewrite ksum_scal_r. }
  rewrite A, B, C. unfold lsum. rewrite <- !ksum_add, <- ksum_scal_l. apply ksum_ext. intros k Hk. apply in_seq in Hk.
  rewrite <- !ksum_add.
  rewrite (ksum_ext _ (fun l => if l =? k then kmul (RC c) (rho k l) else k0)).
  - fold (lsum dim (fun l => if l =? k then kmul (RC c) (rho k l) else k0)).
    rewrite (lsum_if dim (fun l => kmul (RC c) (rho k l))). replace (k <? dim) with true by (symmetry; apply Nat.ltb_lt; lia). reflexivity.
  - intros l Hl. apply in_seq in Hl. specialize (H l k ltac:(lia) ltac:(lia) I).
    transitivity (kmul (kadd (kadd (G l k) (kconj (G k l))) (ksum (fun J => jdagj dim J l k) Js)) (rho k l)); [ring|].
    rewrite H. destruct (l =? k); ring.
Qed.
