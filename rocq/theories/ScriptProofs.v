(** The Heisenberg picture, for ScriptProperties.v *)
From Coq Require Import List Arith Lia Reals Lra.
From Verif Require Import Star CReal Arr HermSpec MasterSpec MasterProofs MasterLemmas TriModel ElementModel ElementSpec ElementProofs ModeModel ModeSpec ModeProofs DampSpec InteractionSpec InteractionProofs AverageSpec AverageProofs ScriptSpec.
Import ListNotations.
Local Open Scope nat_scope.
Local Open Scope K_scope.
Add Ring CRsc : (k_ring CR).

Definition heis (dims : list nat) (G : op) (Js : list op) (A : op) : op :=
  fun y x => mmul dims A G y x + mmul dims (hc G) A y x + ksum (fun J => mmul dims (hc J) (mmul dims A J) y x) Js.

Lemma mean_add dims A r s : mean dims A (fun y x => r y x + s y x) = mean dims A r + mean dims A s.
Proof.
  unfold mean, mtrace, mmul. rewrite <- isum_add. apply isum_ext. intros i _. rewrite <- isum_add. apply isum_ext. intros k _. ring.
Qed.
Lemma mean_sum {X} dims A (f : X -> op) l : mean dims A (fun y x => ksum (fun J => f J y x) l) = ksum (fun J => mean dims A (f J)) l.
Proof.
  induction l as [|a l IH].
  - change (mean dims A (fun _ _ => k0) = k0). unfold mean, mtrace, mmul. apply isum_zero. intros y _. apply isum_zero. intros x _. ring.
  - change (mean dims A (fun y x => f a y x + ksum (fun J => f J y x) l) = mean dims A (f a) + ksum (fun J => mean dims A (f J)) l). now rewrite mean_add, IH.
Qed.
Lemma mean_addA dims A B rho : mean dims (fun y x => A y x + B y x) rho = mean dims A rho + mean dims B rho.
Proof. unfold mean, mtrace, mmul. rewrite <- isum_add. apply isum_ext. intros i _. rewrite <- isum_add. apply isum_ext. intros k _. ring. Qed.
Lemma mean_scalA dims c A rho : mean dims (fun y x => c * A y x) rho = c * mean dims A rho.
Proof. unfold mean, mtrace, mmul. rewrite <- isum_scal_l. apply isum_ext. intros i _. rewrite <- isum_scal_l. apply isum_ext. intros k _. ring. Qed.
Lemma mean_sumA {X} dims (f : X -> op) rho l : mean dims (fun y x => ksum (fun J => f J y x) l) rho = ksum (fun J => mean dims (f J) rho) l.
Proof.
  induction l as [|a l IH].
  - change (mean dims (fun _ _ => k0) rho = k0). unfold mean, mtrace, mmul. apply isum_zero. intros y _. apply isum_zero. intros x _. ring.
  - change (mean dims (fun y x => f a y x + ksum (fun J => f J y x) l) rho = mean dims (f a) rho + ksum (fun J => mean dims (f J) rho) l). now rewrite mean_addA, IH.
Qed.
Lemma mean_evolution dims G Js A rho : mean dims A (evolution dims G Js rho) = mean dims (heis dims G Js A) rho.
Proof.
  unfold evolution, heis. rewrite !mean_add, !mean_addA, mean_sum, mean_sumA. f_equal; [f_equal|].
  - unfold mean. apply mtrace_ext. intros y x _ _. apply mmul_assoc.
  - unfold mean. rewrite (mtrace_ext _ _ (mmul dims (mmul dims A rho) (hc G))) by (intros y x _ _; apply mmul_assoc).
    rewrite trace_mmul. apply mtrace_ext. intros y x _ _. apply mmul_assoc.
  - apply ksum_ext. intros J _. unfold mean, conjugated.
    rewrite (mtrace_ext _ _ (mmul dims (mmul dims (mmul dims A J) rho) (dag J))).
    + rewrite trace_mmul. apply mtrace_ext. intros y x _ _. apply mmul_assoc.
    + intros y x Hy Hx. rewrite mmul_assoc. apply mmul_assoc.
Qed.
Lemma mean_room dims N X Y rho : room N rho -> (forall y x, inr dims y -> inr dims x -> (last y 0%nat + 1 < N)%nat -> (last x 0%nat + 1 < N)%nat -> X y x = Y y x) ->
  mean dims X rho = mean dims Y rho.
Proof.
  intros Hr H. unfold mean, mtrace, mmul. apply isum_ext. intros y Hy. apply isum_ext. intros x Hx.
  destruct (lt_dec (last y 0 + 1) N)%nat as [A|A]; [destruct (lt_dec (last x 0 + 1) N)%nat as [B|B]|].
  - now rewrite H.
  - rewrite (Hr x y) by lia. ring.
  - rewrite (Hr x y) by lia. ring.
Qed.
Lemma mean_ext dims X Y rho : (forall y x, inr dims y -> inr dims x -> X y x = Y y x) -> mean dims X rho = mean dims Y rho.
Proof. intros H. unfold mean, mtrace, mmul. apply isum_ext. intros y Hy. apply isum_ext. intros x Hx. now rewrite H. Qed.

(** ** Products *)
Definition mm (d : nat) (A B : mat) : mat := fun i j => lsum d (fun k => A i k * B k j).
Lemma mm1 d A B i j : mmul [d] (kron [A]) (kron [B]) [i] [j] = mm d A B i j.
Proof. unfold mmul, mm, lsum. rewrite isum_cons. apply ksum_ext. intros k _. rewrite isum_nil. cbn [kron]. ring. Qed.
Lemma mm2 a b A B C D i i' j j' : mmul [a; b] (kron [A; B]) (kron [C; D]) [i; i'] [j; j'] = mm a A C i j * mm b B D i' j'.
Proof.
  unfold mmul, mm, lsum. rewrite isum_cons, <- ksum_scal_r. apply ksum_ext. intros k _. rewrite isum_cons, <- ksum_scal_l. apply ksum_ext. intros k' _.
  rewrite isum_nil. cbn [kron]. ring.
Qed.
Lemma inr1 d y : inr [d] y -> exists i, y = [i] /\ i < d.
Proof. intros H. inversion H as [|a b c e H1 H2]; subst. inversion H2; subst. eauto. Qed.
Lemma inr2 a b y : inr [a; b] y -> exists i i', y = [i; i'] /\ i < a /\ i' < b.
Proof. intros H. inversion H as [|x c u e H1 H2]; subst. inversion H2 as [|x' c' u' e' H3 H4]; subst. inversion H4; subst. eauto. Qed.

Lemma mm_one_l d B i j : i < d -> mm d one B i j = B i j.
Proof.
  intros Hi. unfold mm, one. rewrite (lsum_at d _ i Hi).
  - unfold ElementSpec.identity. rewrite Nat.eqb_refl. ring.
  - intros n _ Hn. unfold ElementSpec.identity. destruct (Nat.eqb_spec i n); [congruence|ring].
Qed.
Lemma mm_one_r d B i j : j < d -> mm d B one i j = B i j.
Proof.
  intros Hj. unfold mm, one. rewrite (lsum_at d _ j Hj).
  - unfold ElementSpec.identity. rewrite Nat.eqb_refl. ring.
  - intros n _ Hn. unfold ElementSpec.identity. destruct (Nat.eqb_spec n j); [congruence|ring].
Qed.
Notation sq n := (RC (sqrt (INR n))).
Lemma mm_ann_l d B i j : i + 1 < d -> mm d annihilation B i j = sq (i + 1) * B (i + 1)%nat j.
Proof.
  intros Hi. unfold mm. rewrite (lsum_at d _ (i + 1) Hi).
  - unfold annihilation. now rewrite Nat.eqb_refl.
  - intros n _ Hn. unfold annihilation. destruct (Nat.eqb_spec n (i + 1)); [congruence|ring].
Qed.
Lemma mm_ann_r0 d B i : mm d B annihilation i 0 = k0.
Proof. unfold mm. apply lsum_zero. intros n _. unfold annihilation. destruct (Nat.eqb_spec 0 (n + 1)); [lia|ring]. Qed.
Lemma mm_ann_r d B i j : j + 1 < d -> mm d B annihilation i (j + 1) = B i j * sq (j + 1).
Proof.
  intros Hj. unfold mm. rewrite (lsum_at d _ j ltac:(lia)).
  - unfold annihilation. now rewrite Nat.eqb_refl.
  - intros n _ Hn. unfold annihilation. destruct (Nat.eqb_spec (j + 1) (n + 1)); [lia|ring].
Qed.
Lemma mm_cre_l0 d B j : mm d creation B 0 j = k0.
Proof. unfold mm. apply lsum_zero. intros n _. unfold creation. destruct (Nat.eqb_spec 0 (n + 1)); [lia|ring]. Qed.
Lemma mm_cre_l d B i j : i + 1 < d -> mm d creation B (i + 1) j = sq (i + 1) * B i j.
Proof.
  intros Hi. unfold mm. rewrite (lsum_at d _ i ltac:(lia)).
  - unfold creation. now rewrite Nat.eqb_refl.
  - intros n _ Hn. unfold creation. destruct (Nat.eqb_spec (i + 1) (n + 1)); [lia|ring].
Qed.
Lemma mm_cre_r d B i j : j + 1 < d -> mm d B creation i j = B i (j + 1)%nat * sq (j + 1).
Proof.
  intros Hj. unfold mm. rewrite (lsum_at d _ (j + 1) Hj).
  - unfold creation. now rewrite Nat.eqb_refl.
  - intros n _ Hn. unfold creation. destruct (Nat.eqb_spec n (j + 1)); [congruence|ring].
Qed.
Lemma sq_sq n : sq n * sq n = RC (INR n).
Proof. apply cr_eq; cbn; [|ring]. rewrite Rmult_0_r, Rminus_0_r. apply sqrt_sqrt, pos_INR. Qed.

(** ** The mode *)
Definition heisM (d : nat) (G : mat) (Js : list mat) (A : mat) : mat :=
  fun i j => mm d A G i j + mm d (adj G) A i j + ksum (fun J => mm d (adj J) (mm d A J) i j) Js.
Lemma mm_scale d c c' A B C i j : mm d (fun m n => c * A m n) (mm d B (fun m n => c' * C m n)) i j = c * c' * mm d A (mm d B C) i j.
Proof.
  unfold mm. rewrite <- lsum_scale. apply lsum_ext. intros k _.
  transitivity (c * A i k * (c' * lsum d (fun l => B k l * C l j))); [|ring]. f_equal. rewrite <- lsum_scale. apply lsum_ext. intros l _. ring.
Qed.
Lemma mm_ext d A A' B B' i j : (forall k, k < d -> A i k = A' i k) -> (forall k, k < d -> B k j = B' k j) -> mm d A B i j = mm d A' B' i j.
Proof. intros H1 H2. unfold mm. apply lsum_ext. intros k Hk. now rewrite H1, H2. Qed.
Lemma root_sq x : (0 <= x)%R -> RC (sqrt x) * RC (sqrt x) = RC x.
Proof. intros H. apply cr_eq; cbn; [|ring]. rewrite Rmult_0_r, Rminus_0_r. now apply sqrt_sqrt. Qed.
Lemma jump_term d c A J i j : (0 <= c)%R -> mm d (adj (mscale (sqrt c) J)) (mm d A (mscale (sqrt c) J)) i j = RC c * mm d (adj J) (mm d A J) i j.
Proof.
  intros Hc. rewrite <- (root_sq c Hc), <- mm_scale. apply mm_ext; [|reflexivity].
  intros k _. unfold adj, mscale. rewrite kconj_mul, RC_conj. reflexivity.
Qed.
Lemma jump_zero d A J i j : mm d (adj (mscale 0 J)) (mm d A (mscale 0 J)) i j = k0.
Proof. unfold mm. apply lsum_zero. intros n _. unfold adj, mscale. rewrite kconj_mul, RC_conj. change (RC 0) with (k0 : CR). ring. Qed.
Lemma adj_ann i j : adj annihilation i j = creation i j. Proof. apply annihilation_conj. Qed.
Lemma adj_cre i j : adj creation i j = annihilation i j. Proof. apply creation_conj. Qed.
Lemma jumps_sum d p A i j : (0 <= pKappa p)%R -> (0 <= pNTh p)%R ->
  ksum (fun J => mm d (adj J) (mm d A J) i j) (modeJumps p) =
  RC (2 * (pKappa p * (pNTh p + 1))) * mm d creation (mm d A annihilation) i j + RC (2 * (pKappa p * pNTh p)) * mm d annihilation (mm d A creation) i j.
Proof.
  intros Hk Hn. assert (0 <= pKappa p * pNTh p)%R by now apply Rmult_le_pos.
  assert (E1 : mm d (adj annihilation) (mm d A annihilation) i j = mm d creation (mm d A annihilation) i j) by (apply mm_ext; auto using adj_ann).
  assert (E2 : mm d (adj creation) (mm d A creation) i j = mm d annihilation (mm d A creation) i j) by (apply mm_ext; auto using adj_cre).
  unfold modeJumps, Reqb. destruct (Req_EM_T (pKappa p) 0) as [E|E]; [|destruct (Req_EM_T (pNTh p) 0) as [E'|E']]; unfold ksum; cbn [map fold_right].
  - rewrite E. replace (2 * (0 * (pNTh p + 1)))%R with 0%R by ring. replace (2 * (0 * pNTh p))%R with 0%R by ring. change (RC 0) with (k0 : CR). ring.
  - rewrite E'. rewrite jump_term by lra. rewrite E1. replace (2 * (pKappa p * (0 + 1)))%R with (2 * pKappa p)%R by ring.
    replace (2 * (pKappa p * 0))%R with 0%R by ring. change (RC 0) with (k0 : CR). ring.
  - rewrite !jump_term by lra. rewrite E1, E2. ring.
Qed.

Lemma RC_INR_add a b : RC (INR (a + b)) = RC (INR a) + RC (INR b).
Proof. rewrite plus_INR. apply cr_eq; cbn; ring. Qed.
Lemma sq_1 : sq (0 + 1) * sq (0 + 1) = k1.
Proof. rewrite sq_sq. apply cr_eq; cbn; ring. Qed.
Lemma sq_next n : sq (n + 1) * sq (n + 1) = RC (INR n) + k1.
Proof. rewrite sq_sq, RC_INR_add. reflexivity. Qed.
Lemma sq_next2 n : sq (n + 1 + 1) * sq (n + 1 + 1) = RC (INR n) + k1 + k1.
Proof. rewrite sq_sq, !RC_INR_add. reflexivity. Qed.
Section Mode.
Variable p : modePars.
Hypothesis Hk : (0 <= pKappa p)%R.
Hypothesis Hn : (0 <= pNTh p)%R.
Hypothesis Hkerr : pKerr p = 0%R.
Hypothesis Hkerr' : pKerrAlter p = 0%R.
Let N := pCutoff p.
Let z := ((pKappa p * (2 * pNTh p + 1), - pDelta p)%R : CR).
Let kap := RC (pKappa p).
Let kn := RC (pKappa p * pNTh p).
Let two := (k1 + k1 : CR).
Lemma gen_at m n : modeGenerator p m n = (if m =? n then - (RC (INR m) * z) else k0) + (pEta p * creation m n - kconj (pEta p) * annihilation m n).
Proof.
  unfold modeGenerator. rewrite Hkerr, Hkerr'. f_equal. destruct (m =? n); [|reflexivity]. fold z.
  replace (RC ((0 + 0) * (INR m * (INR m - 1)))) with (k0 : CR) by (apply cr_eq; cbn; ring). replace (RC (- INR m)) with (- RC (INR m)) by (apply cr_eq; cbn; ring). ring.
Qed.
Lemma z_conj : kconj z = two * (two * kn + kap) - z.
Proof. unfold z, two, kn, kap. apply cr_eq; cbn; ring. Qed.
Lemma conj_gen m n : kconj (modeGenerator p m n) = (if m =? n then - (RC (INR m) * kconj z) else k0) + (kconj (pEta p) * annihilation n m - pEta p * creation n m).
Proof.
  rewrite gen_at. rewrite kconj_add, kconj_sub, !kconj_mul, kconj_invol, creation_conj, annihilation_conj. f_equal. destruct (m =? n); [|apply kconj_0].
  now rewrite kconj_opp, kconj_mul, RC_conj.
Qed.
Lemma c1 : RC (2 * (pKappa p * (pNTh p + 1))) = two * (kn + kap). Proof. unfold two, kn, kap. apply cr_eq; cbn; ring. Qed.
Lemma c2 : RC (2 * (pKappa p * pNTh p)) = two * kn. Proof. unfold two, kn. apply cr_eq; cbn; ring. Qed.

Ltac split_eqb := repeat match goal with |- context [(?a =? ?b)%nat] => destruct (Nat.eqb_spec a b); [|]; try lia end.
Ltac fin := repeat match goal with |- context [RC (INR (?a + ?b))] => rewrite (RC_INR_add a b) end; change (RC (INR 1)) with (k1 : CR); change (RC (INR 0)) with (k0 : CR).

Lemma heis_a i j : i + 1 < N -> j + 1 < N ->
  heisM N (modeGenerator p) (modeJumps p) annihilation i j = (- z + two * (two * kn)) * annihilation i j + pEta p * one i j.
Proof.
  intros Hi Hj. unfold heisM. rewrite jumps_sum by auto. rewrite c1, c2.
  rewrite mm_ann_l, (mm_ann_l N (mm N annihilation creation)), mm_cre_r by lia.
  rewrite (mm_ext N (adj (modeGenerator p)) (fun x y => kconj (modeGenerator p y x)) annihilation annihilation i j) by reflexivity.
  destruct j as [|j].
  - rewrite mm_ann_r0. rewrite gen_at.
    assert (E : mm N creation (mm N annihilation annihilation) i 0 = k0).
    { unfold mm at 1. apply lsum_zero. intros n _. rewrite mm_ann_r0. ring. }
    rewrite E. unfold annihilation, creation, one, ElementSpec.identity. split_eqb; subst; try ring.
    ring [sq_1].
  - replace (S j) with (j + 1)%nat by lia. rewrite mm_ann_r by lia. cbv beta. rewrite conj_gen, gen_at, z_conj.
    destruct i as [|i].
    + rewrite mm_cre_l0. unfold annihilation, creation, one, ElementSpec.identity. split_eqb; subst; cbn [Nat.add] in *; try ring.
      change (RC (INR 1)) with (k1 : CR). change (RC (INR 0)) with (k0 : CR). rewrite (sq_sq 2). replace (RC (INR 2)) with two by (apply cr_eq; cbn; ring). unfold two. ring.
    + replace (S i) with (i + 1)%nat by lia. rewrite mm_cre_l, mm_ann_r by lia.
      unfold annihilation, creation, one, ElementSpec.identity. split_eqb; subst; try ring.
      * rewrite !RC_INR_add. change (RC (INR 1)) with (k1 : CR). pose proof (sq_next i) as E1. pose proof (sq_next2 (i + 1)) as E2. rewrite RC_INR_add in E2. change (RC (INR 1)) with (k1 : CR) in E2.
        set (a := sq (i + 1)) in *. set (b := sq (i + 1 + 1)) in *. set (c := sq (i + 1 + 1 + 1)) in *. unfold two. ring [E1 E2].
      * assert (j = i) by lia. subst j. pose proof (sq_next i) as E1. pose proof (sq_next2 i) as E2. set (a := sq (i + 1)) in *. set (b := sq (i + 1 + 1)) in *. ring [E1 E2].
Qed.
Lemma heis_1 i j : i + 1 < N -> j + 1 < N -> heisM N (modeGenerator p) (modeJumps p) one i j = two * kn * one i j.
Proof.
  intros Hi Hj. unfold heisM. rewrite jumps_sum by auto. rewrite c1, c2. rewrite mm_one_l, mm_one_r by lia.
  rewrite (mm_ext N creation creation (mm N one annihilation) annihilation i j) by (intros; auto using mm_one_l).
  rewrite (mm_ext N annihilation annihilation (mm N one creation) creation i j) by (intros; auto using mm_one_l).
  unfold adj. rewrite conj_gen, gen_at, z_conj, mm_ann_l by lia.
  assert (E : mm N creation annihilation i j = if i =? j then RC (INR i) else k0).
  { destruct i as [|i].
    - rewrite mm_cre_l0. destruct (0 =? j); reflexivity.
    - replace (S i) with (i + 1)%nat by lia. rewrite mm_cre_l by lia. unfold annihilation. rewrite (Nat.eqb_sym j). destruct (Nat.eqb_spec (i + 1) j) as [<-|]; [apply sq_sq|ring]. }
  rewrite E. unfold annihilation, creation, one, ElementSpec.identity. split_eqb; subst; try ring.
  pose proof (sq_next j) as E1. set (a := sq (j + 1)) in *. unfold two. ring [E1].
Qed.
End Mode.
