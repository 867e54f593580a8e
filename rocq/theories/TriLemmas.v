(** Statements assembled for the property theorems on Tridiagonal; concrete witnesses. *)
From Coq Require Import List Arith Lia Bool Reals Lra ZArith.
From Verif Require Import Star CReal Arr TriModel TriSpec TriProofs TriPropagate.
Import ListNotations.

(** ** tensor product of vectors *)
Section Direct.
Context {K : StarRing} {T : Type}.
Add Ring KR : (k_ring K).
Local Open Scope K_scope.

Lemma direct_apply teq (t1 t2 t : tri K T) psi1 psi2 y1 y2 : wf t1 -> wf t2 -> direct teq t1 t2 = Ok t ->
  inr (dims t1) y1 -> inr (dims t2) y2 ->
  apply t (fun x => psi1 (firstn (rankOf t1) x) * psi2 (skipn (rankOf t1) x)) (fun _ => 0) (y1 ++ y2)
  = apply t1 psi1 (fun _ => 0) y1 * apply t2 psi2 (fun _ => 0) y2.
Proof.
  intros W1 W2 E H1 H2. pose proof (wf_direct teq t1 t2 t W1 W2 E) as W.
  assert (Ed : dims t = dims t1 ++ dims t2).
  { unfold direct in E. destruct (teq _ _); [|discriminate]. injection E as <-. reflexivity. }
  rewrite !apply_matrix; try apply W; try apply W1; try apply W2; auto.
  2:{ rewrite Ed. apply inr_app; auto. now apply inr_length. }
  replace (0 + isum (dims t1) (fun x => tmat t1 y1 x * psi1 x)) with (isum (dims t1) (fun x => tmat t1 y1 x * psi1 x)) by ring.
  replace (0 + isum (dims t2) (fun x => tmat t2 y2 x * psi2 x)) with (isum (dims t2) (fun x => tmat t2 y2 x * psi2 x)) by ring.
  rewrite Ed, isum_app. rewrite <- isum_scal_r.
  match goal with |- 0 + ?A = ?B => replace (0 + A) with A by ring end.
  apply isum_ext. intros x1 Hx1. rewrite <- isum_scal_l. apply isum_ext. intros x2 Hx2.
  rewrite (direct_matrix teq t1 t2 t); auto; try (unfold rankOf; now apply inr_length).
  assert (L : rankOf t1 = length x1) by (unfold rankOf; symmetry; now apply inr_length).
  rewrite L, firstn_app, Nat.sub_diag, firstn_all, firstn_O, app_nil_r, skipn_app, Nat.sub_diag, skipn_all, skipn_O.
  cbn [app]. ring.
Qed.

Lemma sub_matrix keq (a b c : tri K T) : wf a -> wf b -> dims b = dims a -> sub keq a b = Ok c ->
  wf c /\ dims c = dims a /\ forall y x, tmat c y x = tmat a y x - tmat b y x.
Proof.
  intros Wa Wb Ed E. unfold sub in E. destruct (add_matrix keq a (neg b) c) as (W & D & H); auto using wf_neg.
  split; auto. split; auto. intros y x. rewrite H, neg_matrix. ring.
Qed.

(** frequencies: refused if, at some diagonal, every element differs; otherwise the result carries those of the
    right operand where it has any *)
Lemma add_freqs keq (to from : tri K T) i : (forall a b, keq a b = true <-> a = b) -> wf to -> wf from -> dims from = dims to ->
  (i < 3 ^ rankOf to)%nat -> nonempty (freqs to i) = true -> nonempty (freqs from i) = true ->
  (forall n, inr (ash (freqs to i)) n -> av (freqs to i) n <> av (freqs from i) n) ->
  forall t, add keq to from <> Ok t.
Proof.
  intros Hk Wt Wf Ed Hi Nt Nf Hd t E. unfold add in E. destruct (mergeDiffs _ _); [|discriminate].
  destruct (existsb _ _) in E; [discriminate|]. destruct (existsb _ _) eqn:E2 in E; [discriminate|].
  assert (H : existsb (fun i => freqClash keq (freqs from i) (freqs to i)) (seq 0 (3 ^ rankOf to)) = true).
  { apply existsb_exists. exists i. split; [apply in_seq; lia|]. unfold freqClash. rewrite Nt, Nf. cbn.
    unfold allDiffer. apply forallb_forall. intros n Hn. apply in_indices in Hn. apply negb_true_iff.
    destruct (keq _ _) eqn:Eq; auto. apply Hk in Eq. exfalso. eapply Hd; eauto. }
  congruence.
Qed.

(** expectation values: anti-Hermitian H/i conserves the norm *)
Definition dot (sh : list nat) (f g : list nat -> K) : K := isum sh (fun y => kconj (f y) * g y).

Lemma antiherm_norm (sh : list nat) (M : list nat -> list nat -> K) psi :
  (forall y x, M y x = - kconj (M x y)) ->
  dot sh psi (fun y => isum sh (fun x => M y x * psi x)) + dot sh (fun y => isum sh (fun x => M y x * psi x)) psi = 0.
Proof.
  intros H. unfold dot.
  rewrite (isum_ext sh (fun y => kconj (psi y) * isum sh (fun x => M y x * psi x))
                       (fun y => isum sh (fun x => kconj (psi y) * (M y x * psi x)))) by (intros; now rewrite isum_scal_l).
  rewrite (isum_ext sh (fun y => kconj (isum sh (fun x => M y x * psi x)) * psi y)
                       (fun y => isum sh (fun x => - (kconj (psi x) * (M x y * psi y))))).
  2:{ intros y _. rewrite isum_conj, <- isum_scal_r. apply isum_ext. intros x _.
      rewrite kconj_mul. rewrite (H x y). ring. }
  rewrite (isum_swap sh sh (fun y x => - (kconj (psi x) * (M x y * psi y)))).
  rewrite <- isum_add. apply isum_zero. intros y _. rewrite <- isum_add. apply isum_zero. intros x _. ring.
Qed.

Lemma minusHC_norm keq (t m : tri K T) psi : wf t -> minusHC keq t = Ok m ->
  dot (dims t) psi (apply m psi (fun _ => 0)) + dot (dims t) (apply m psi (fun _ => 0)) psi = 0.
Proof.
  intros W E.
  assert (Wm : wf m /\ dims m = dims t).
  { unfold minusHC, sub in E. destruct (add_matrix keq t (neg (dagger t)) m) as (A & B & _); auto using wf_neg, wf_dagger. }
  destruct Wm as [Wm Ed].
  unfold dot. 
  rewrite (isum_ext (dims t) (fun y => kconj (psi y) * apply m psi (fun _ => 0) y)
     (fun y => kconj (psi y) * isum (dims t) (fun x => tmat m y x * psi x))).
  2:{ intros y Hy. rewrite apply_matrix; [|apply Wm|now rewrite Ed]. rewrite Ed. f_equal. ring. }
  rewrite (isum_ext (dims t) (fun y => kconj (apply m psi (fun _ => 0) y) * psi y)
     (fun y => kconj (isum (dims t) (fun x => tmat m y x * psi x)) * psi y)).
  2:{ intros y Hy. rewrite apply_matrix; [|apply Wm|now rewrite Ed]. rewrite Ed. f_equal. f_equal. ring. }
  apply antiherm_norm. intros y x. rewrite !(minusHC_matrix keq t m) by auto.
  rewrite kconj_sub, kconj_invol. ring.
Qed.

(** (T+T^dagger) multiplied by a number with conj(c)=-c, such as 1/i *)
Lemma plusHC_norm keq (t m : tri K T) c psi : wf t -> kconj c = - c -> plusHC keq t = Ok m ->
  dot (dims t) psi (apply (scale c m) psi (fun _ => 0)) + dot (dims t) (apply (scale c m) psi (fun _ => 0)) psi = 0.
Proof.
  intros W Hc E.
  assert (Wm : wf m /\ dims m = dims t).
  { unfold plusHC in E. destruct (add_matrix keq t (dagger t) m) as (A & B & _); auto using wf_dagger. }
  destruct Wm as [Wm Ed].
  unfold dot.
  rewrite (isum_ext (dims t) (fun y => kconj (psi y) * apply (scale c m) psi (fun _ => 0) y)
     (fun y => kconj (psi y) * isum (dims t) (fun x => tmat (scale c m) y x * psi x))).
  2:{ intros y Hy. rewrite apply_matrix; [|apply Wm|cbn [scale dims]; now rewrite Ed]. cbn [scale dims]. rewrite Ed. f_equal. ring. }
  rewrite (isum_ext (dims t) (fun y => kconj (apply (scale c m) psi (fun _ => 0) y) * psi y)
     (fun y => kconj (isum (dims t) (fun x => tmat (scale c m) y x * psi x)) * psi y)).
  2:{ intros y Hy. rewrite apply_matrix; [|apply Wm|cbn [scale dims]; now rewrite Ed]. cbn [scale dims]. rewrite Ed. f_equal. f_equal. ring. }
  apply antiherm_norm. intros y x. rewrite !scale_matrix. rewrite !(plusHC_matrix keq t m) by auto.
  rewrite kconj_mul, kconj_add, kconj_invol, Hc. ring.
Qed.
End Direct.

(** ** concrete operators over the Gaussian integers *)
Definition Zeq (a b : GaussZ) : bool := Z.eqb (fst a) (fst b) && Z.eqb (snd a) (snd b).
Lemma Zeq_spec a b : Zeq a b = true <-> a = b.
Proof.
  unfold Zeq. rewrite andb_true_iff, !Z.eqb_eq. destruct a, b; cbn. split; [intros [-> ->]; reflexivity|].
  intros E; injection E; auto.
Qed.
Definition gv (l : list Z) : arr GaussZ := vec (K := GaussZ) (map (fun z => (z, 0)%Z) l).
Definition gc (l : list (Z * Z)) : arr GaussZ := vec (K := GaussZ) l.
Definition gn := emptyArr (K := GaussZ) 1.

(** number-like operators of dimension 4 and 3 *)
Definition exA : outcome (tri GaussZ nat) := unary 0 (gv [1;2;3;4]%Z) 1 (gv [5;6;7]%Z) (gc [(0,1);(0,2);(3,0)]%Z) false.
Definition exB : outcome (tri GaussZ nat) := unary 0 gn 2 (gv [5]%Z) (gv [0;7]%Z) false.
Definition exB' : outcome (tri GaussZ nat) := unary 0 gn 2 (gv [5]%Z) (gv [7]%Z) false.
Definition get {A} (d : A) (o : outcome A) : A := match o with Ok a => a | _ => d end.
Definition dflt : tri GaussZ nat := mkTri [1] [0] (fun _ => gn) 0 (fun _ => gn).

Definition isOk {A} (o : outcome A) : bool := match o with Ok _ => true | _ => false end.
Lemma isOk_ex {A} (o : outcome A) : isOk o = true -> exists a, o = Ok a.
Proof. destruct o; cbn; try discriminate. intros _. eexists; reflexivity. Qed.
Lemma exA_ok : exists t, exA = Ok t /\ wf t.
Proof.
  destruct (isOk_ex exA) as [t E]; [vm_compute; reflexivity|]. exists t. split; [exact E|].
  eapply (@unary_wf GaussZ nat 0 (gv [1;2;3;4]%Z) 1 (gv [5;6;7]%Z) (gc [(0,1);(0,2);(3,0)]%Z) 4 3 3); try reflexivity; try lia.
  exact E.
Qed.
Lemma exB_ok : exists t, exB' = Ok t /\ wf t.
Proof.
  destruct (isOk_ex exB') as [t E]; [vm_compute; reflexivity|]. exists t. split; [exact E|].
  eapply (@unary_wf GaussZ nat 0 gn 2 (gv [5]%Z) (gv [7]%Z) 0 1 1); try reflexivity; try lia.
  exact E.
Qed.

(** two operators of dimension 3 whose frequencies differ in one place only *)
Definition exF1 : outcome (tri GaussZ nat) := match unary 0 gn 1 (gv [1;1]%Z) gn false with Ok t => furnish t (gv [0;1;2]%Z) | o => o end.
Definition exF2 : outcome (tri GaussZ nat) := match unary 0 gn 1 (gv [1;1]%Z) gn false with Ok t => furnish t (gv [0;1;3]%Z) | o => o end.

Definition addF : bool := match exF1, exF2 with Ok a, Ok b => match add Zeq a b with Ok _ => true | _ => false end | _, _ => false end.
Lemma addF_ok : addF = true.
Proof. vm_compute. reflexivity. Qed.

Lemma freq_mismatch_accepted :
  exists a b c : tri GaussZ nat, exF1 = Ok a /\ exF2 = Ok b /\ wf a /\ wf b /\ dims b = dims a /\
    nonempty (freqs a 1) = true /\ nonempty (freqs b 1) = true /\
    av (freqs a 1) [1] <> av (freqs b 1) [1] /\ add Zeq a b = Ok c.
Proof.
  destruct (isOk_ex exF1) as [a E1]; [vm_compute; reflexivity|]. pose proof E1 as E1'.
  destruct (isOk_ex exF2) as [b E2]; [vm_compute; reflexivity|]. pose proof E2 as E2'.
  destruct (isOk_ex (@unary GaussZ nat 0 gn 1 (gv [1;1]%Z) gn false)) as [t E]; [vm_compute; reflexivity|].
  assert (W : wf t /\ wf_freqs t /\ time t = 0 /\ diffs t = [1] /\ dims t = [3] /\
     (forall y x, tmat t [y] [x] = _)) by (eapply (@unary_wf GaussZ nat 0 gn 1 (gv [1;1]%Z) gn 0 2 0); try reflexivity; try lia; exact E).
  destruct W as (W & Wf & _ & Ek & Ed & _).
  unfold exF1 in E1. rewrite E in E1. unfold exF2 in E2. rewrite E in E2.
  destruct (furnish_spec t a 3 1 _ Ed Ek Wf E1) as (A1 & A2 & A3 & A4 & A5 & A6).
  destruct (furnish_spec t b 3 1 _ Ed Ek Wf E2) as (B1 & B2 & B3 & B4 & B5 & B6).
  assert (Wa : wf a). { destruct W as (X & Y & Z). unfold wf, rankOf. rewrite A1, A2, A3. auto. }
  assert (Wb : wf b). { destruct W as (X & Y & Z). unfold wf, rankOf. rewrite B1, B2, B3. auto. }
  destruct A6 as (F1 & F2 & F3 & F4); [lia|]. destruct B6 as (G1 & G2 & G3 & G4); [lia|].
  destruct (add Zeq a b) as [c| | | | |] eqn:Eadd.
  { exists a, b, c. split; [exact E1'|]. split; [exact E2'|]. split; [exact Wa|]. split; [exact Wb|].
    split; [congruence|]. split; [exact F1|]. split; [exact G1|]. split; [|exact Eadd].
    rewrite F3, G3. vm_compute. discriminate. }
  all: exfalso; pose proof addF_ok as H; unfold addF, exF1, exF2 in H; rewrite E, E1, E2, Eadd in H; discriminate.
Qed.

(** ** direct product loses frequencies *)
Definition cv (l : list CR) : arr CR := vec (K := CR) l.
Definition cn := emptyArr (K := CR) 1.
Local Open Scope R_scope.
(** lowering-type operator of a two-level system with frequency pi *)
Definition exL : tri CR R := mkTri [2%nat] [1%nat] (fun i => match i with 1%nat => cv [RC 1] | _ => cn end) 0
   (fun i => match i with 1%nat => cv [(0, PI)] | 2%nat => cv [(0, - PI)] | _ => cn end).
Definition exI : tri CR R := mkTri [2%nat] [0%nat] (fun i => match i with 0%nat => cv [RC 1; RC 1] | _ => cn end) 0 (fun _ => cn).

Lemma exL_wf : wf exL.
Proof.
  split; [discriminate|]. split; [reflexivity|]. intros dg Hdg. destruct (digits1 dg Hdg) as [->|[->| ->]]; cbn; try discriminate.
  intros _. split; [reflexivity|]. split; [intros; lia|auto].
Qed.
Lemma exI_wf : wf exI.
Proof.
  split; [discriminate|]. split; [reflexivity|]. intros dg Hdg. destruct (digits1 dg Hdg) as [->|[->| ->]]; cbn; try discriminate.
  intros _. split; [reflexivity|]. split; [intros; lia|auto].
Qed.
Lemma exL_wff : wf_freqs exL.
Proof.
  split; [reflexivity|]. intros dg Hdg. destruct (digits1 dg Hdg) as [->|[->| ->]]; cbn; try discriminate; reflexivity.
Qed.
Lemma exI_wff : wf_freqs exI.
Proof. split; [reflexivity|]. intros dg _. cbn. discriminate. Qed.

Lemma propagate_exL_el : tmat (propagate 1 exL) [1%nat] [0%nat] = RC (-1).
Proof.
  rewrite (unary_tmat _ 1) by reflexivity. cbn [Nat.eqb Nat.add].
  unfold elem. destruct (propagate_diag 1 exL 1) as (_ & Hn & Hv). rewrite Hn, Hv.
  cbn [exL diags nonempty asize cv vec ash fold_right length Nat.mul Nat.eqb negb av nth pfac freqs time andb cn emptyArr repeat Nat.add].
  unfold cexp. cbn. unfold cr_mul, cr_add, RC. cbn [fst snd].
  rewrite Rminus_0_r. replace (1 * PI + 0 * 0) with PI by ring. replace (1 * 0 - 0 * PI) with 0 by ring.
  rewrite exp_0, cos_PI, sin_PI. apply injective_projections; cbn [fst snd]; ring.
Qed.

Lemma tmat_exI y : (y < 2)%nat -> tmat exI [y] [y] = RC 1.
Proof.
  intros Hy. rewrite (unary_tmat _ 0) by reflexivity.
  destruct y as [|[|y]]; [| |lia]; cbn; unfold cr_add, RC; cbn; apply injective_projections; cbn [fst snd]; ring.
Qed.
Lemma tmat_exL : tmat exL [1%nat] [0%nat] = RC 1.
Proof.
  rewrite (unary_tmat _ 1) by reflexivity. cbn; unfold cr_add, RC; cbn; apply injective_projections; cbn [fst snd]; ring.
Qed.

Lemma freq_lost :
  exists (a b c c' : tri CR R) (t : R) y x,
    wf a /\ wf b /\ wf_freqs a /\ wf_freqs b /\ direct Reqb a b = Ok c /\
    direct Reqb (propagate t a) (propagate t b) = Ok c' /\
    inr (dims c) y /\ inr (dims c) x /\ tmat (propagate t c) y x <> tmat c' y x.
Proof.
  destruct (direct Reqb exL exI) as [c| | | | |] eqn:Ec;
    unfold direct, Reqb in Ec; cbn [time exL exI] in Ec; destruct (Req_EM_T 0 0) as [_|n]; try discriminate; try congruence.
  destruct (direct Reqb (propagate 1 exL) (propagate 1 exI)) as [c'| | | | |] eqn:Ec';
    unfold direct, Reqb in Ec'; cbn [time propagate] in Ec'; destruct (Req_EM_T 1 1) as [_|n]; try discriminate; try congruence.
  exists exL, exI, c, c', 1, [1%nat; 0%nat], [0%nat; 0%nat].
  assert (D : direct Reqb exL exI = Ok c). { unfold direct, Reqb. cbn [time exL exI]. destruct (Req_EM_T 0 0); [exact Ec|congruence]. }
  assert (D' : direct Reqb (propagate 1 exL) (propagate 1 exI) = Ok c').
  { unfold direct, Reqb. cbn [time propagate]. destruct (Req_EM_T 1 1); [exact Ec'|congruence]. }
  split; [apply exL_wf|]. split; [apply exI_wf|]. split; [apply exL_wff|]. split; [apply exI_wff|].
  split; [exact D|]. split; [exact D'|].
  assert (Hin : inr (dims c) [1%nat; 0%nat] /\ inr (dims c) [0%nat; 0%nat]).
  { apply Ok_inj in Ec. subst c. cbn. split; repeat constructor. }
  split; [apply Hin|]. split; [apply Hin|].
  pose proof (direct_matrix Reqb _ _ c' [1%nat] [0%nat] [0%nat] [0%nat] (wf_propagate 1 _ exL_wf) (wf_propagate 1 _ exI_wf) D' eq_refl eq_refl) as Hm'.
  cbn [app] in Hm'. rewrite Hm'.
  rewrite propagate_exL_el.
  replace (tmat (propagate 1 exI) [0%nat] [0%nat]) with (RC 1).
  2:{ rewrite <- (tmat_exI 0) by lia. symmetry. apply tmat_ext; try reflexivity.
      - intros i. apply (propagate_diag 1 exI i).
      - intros i n. destruct (propagate_diag 1 exI i) as (_ & _ & ->).
        replace (pfac exI 1 i n) with (k1 : CR); [ring|]. unfold pfac. destruct i; auto; rewrite andb_false_r; reflexivity. }
  (* in the product no diagonal has frequencies *)
  replace (tmat (propagate 1 c) [1%nat; 0%nat] [0%nat; 0%nat]) with (tmat c [1%nat; 0%nat] [0%nat; 0%nat]).
  2:{ apply tmat_ext; try reflexivity.
      - intros i. symmetry. apply (propagate_diag 1 c i).
      - intros i n. destruct (propagate_diag 1 c i) as (_ & _ & ->).
        replace (pfac c 1 i n) with (k1 : CR); [ring|]. unfold pfac. destruct i; auto.
        replace (nonempty (freqs c (S i))) with false; [rewrite andb_false_r; reflexivity|].
        apply Ok_inj in Ec. subst c. cbn [freqs]. unfold directDiagonals. rewrite nonempty_direct. cbn [exI freqs]. rewrite andb_false_r. reflexivity. }
  pose proof (direct_matrix Reqb _ _ c [1%nat] [0%nat] [0%nat] [0%nat] exL_wf exI_wf D eq_refl eq_refl) as Hm.
  cbn [app] in Hm. rewrite Hm.
  rewrite (tmat_exI 0) by lia. rewrite tmat_exL. rewrite !RC_mul. intros H. apply RC_inj in H. lra.
Qed.

(** an operator without frequencies added to one with frequencies rotates after the addition *)
Definition exL0 : tri CR R := mkTri [2%nat] [1%nat] (fun i => match i with 1%nat => cv [RC 1] | _ => cn end) 0 (fun _ => cn).
Lemma exL0_wf : wf exL0.
Proof.
  split; [discriminate|]. split; [reflexivity|]. intros dg Hdg. destruct (digits1 dg Hdg) as [->|[->| ->]]; cbn; try discriminate.
  intros _. split; [reflexivity|]. split; [intros; lia|auto].
Qed.
Lemma propagate_exL0 t y x : tmat (propagate t exL0) y x = tmat exL0 y x.
Proof.
  apply tmat_ext; try reflexivity.
  - intros i. apply (propagate_diag t exL0 i).
  - intros i n. destruct (propagate_diag t exL0 i) as (_ & _ & ->).
    replace (pfac exL0 t i n) with (k1 : CR); [ring|]. unfold pfac. destruct i; auto; rewrite andb_false_r; reflexivity.
Qed.

Lemma sum_rotates :
  exists (a b c : tri CR R) (t : R) y x,
    wf a /\ wf b /\ dims b = dims a /\ time b = time a /\ add CReqb a b = Ok c /\ inr (dims a) y /\ inr (dims a) x /\
    tmat (propagate t c) y x <> kadd (tmat (propagate t a) y x) (tmat (propagate t b) y x).
Proof.
  destruct (add CReqb exL0 exL) as [c| | | | |] eqn:E; try (cbn in E; discriminate).
  exists exL0, exL, c, 1, [1%nat], [0%nat].
  split; [apply exL0_wf|]. split; [apply exL_wf|]. split; [reflexivity|]. split; [reflexivity|]. split; [exact E|].
  split; [repeat constructor|]. split; [repeat constructor|].
  rewrite propagate_exL0, propagate_exL_el.
  replace (tmat exL0 [1%nat] [0%nat]) with (RC 1).
  2:{ rewrite (unary_tmat _ 1) by reflexivity. cbn; unfold cr_add, RC; cbn; apply injective_projections; cbn [fst snd]; ring. }
  assert (Hc : tmat (propagate 1 c) [1%nat] [0%nat] = RC (-2)).
  { unfold add in E. cbn [mergeDiffs exL exL0 diffs Nat.eqb negb andb option_map] in E.
    destruct (existsb _ _) in E; [discriminate|]. apply Ok_inj in E. subst c.
    rewrite (unary_tmat _ 1) by reflexivity. cbn [Nat.eqb Nat.add]. unfold elem.
    match goal with |- context [propagate 1 ?z] => destruct (propagate_diag 1 z 1) as (_ & Hn & Hv) end. rewrite Hn, Hv. clear Hn Hv.
    cbn [exL exL0 diags nonempty asize cv vec ash fold_right length Nat.mul Nat.eqb negb av nth pfac freqs time andb cn emptyArr repeat Nat.add addDiag addFreq].
    unfold cexp. cbn. unfold cr_mul, cr_add, RC. cbn [fst snd].
    rewrite Rminus_0_r. replace (1 * PI + 0 * 0) with PI by ring. replace (1 * 0 - 0 * PI) with 0 by ring.
    rewrite exp_0, cos_PI, sin_PI. apply injective_projections; cbn [fst snd]; ring. }
  rewrite Hc, RC_add. intros H. apply RC_inj in H. lra.
Qed.

(** a purely diagonal operator with offset beyond its dimension gets the wrong dimension *)
Lemma unary_wrong_dim : exists (t : tri GaussZ nat), unary 0%nat (gv [1;2]%Z) 5 gn gn false = Ok t /\ dims t = [5%nat].
Proof. eexists. split; [cbn; reflexivity|reflexivity]. Qed.

Lemma direct_dims {K : StarRing} {T : Type} teq (t1 t2 t : tri K T) : direct teq t1 t2 = Ok t -> dims t = dims t1 ++ dims t2.
Proof. unfold direct. destruct (teq _ _); [|discriminate]. intros E; injection E as <-. reflexivity. Qed.

Lemma furnish_interaction_picture (x x' : tri CR R) (d k : nat) (D : arr CR) (t : R) (i j : nat) :
     dims x = [d] -> diffs x = [k] -> wf x -> wf_freqs x -> furnish x D = Ok x' -> (i < d)%nat -> (j < d)%nat ->
     tmat (propagate t x') [i] [j] =
     kmul (kmul (cexp (kmul (RC (t - time x)) (av D [i]))) (tmat x [i] [j])) (cexp (kopp (kmul (RC (t - time x)) (av D [j])))).
Proof.
  intros E1 E2 W Wf E Hi Hj. pose proof (furnish_generated x x' d k D E1 E2 W Wf E) as G.
  destruct (furnish_spec x x' d k D E1 E2 Wf E) as (A1 & A2 & A3 & A4 & _).
  rewrite (propagate_generated x' _ t [i] [j] G); [|rewrite A1, E1; repeat constructor; auto ..].
  rewrite A4. f_equal. f_equal. apply tmat_ext; auto; intros; now rewrite A3.
Qed.

Lemma direct_propagate_tmat (a b c : tri CR R) (t : R) :
  wf a -> wf b -> wf_freqs a -> wf_freqs b -> freqs_match a b -> direct Reqb a b = Ok c ->
  exists c', direct Reqb (propagate t a) (propagate t b) = Ok c' /\
    forall y x, inr (dims c) y -> inr (dims c) x -> tmat (propagate t c) y x = tmat c' y x.
Proof.
  intros Wa Wb Fa Fb M E. destruct (direct_propagate a b c t Wa Wb Fa Fb M E) as [c' [E' H]].
  exists c'. split; auto. intros y x Hy Hx. apply eqm_tmat; auto. exact (wf_propagate _ _ (wf_direct Reqb a b c Wa Wb E)).
Qed.

Lemma interactions_hermitian {K : StarRing} {T : Type} (keq : K -> K -> bool) (t : tri K T) : (forall z, keq z z = true) -> wf t ->
  (exists m, minusHC keq t = Ok m /\
     forall psi, kadd (dot (dims t) psi (apply m psi (fun _ => k0))) (dot (dims t) (apply m psi (fun _ => k0)) psi) = k0) /\
  (exists p, plusHC keq t = Ok p /\
     forall psi overI, kconj overI = kopp overI ->
       kadd (dot (dims t) psi (apply (scale overI p) psi (fun _ => k0)))
            (dot (dims t) (apply (scale overI p) psi (fun _ => k0)) psi) = k0).
Proof.
  intros Hk W. destruct (HC_ok keq t Hk W) as [[m Em] [p Ep]]. split.
  - exists m. split; auto. intros psi. eapply minusHC_norm; eauto.
  - exists p. split; auto. intros psi c Hc. eapply plusHC_norm; eauto.
Qed.

Lemma exAB_wf : match direct Nat.eqb (get dflt exA) (get dflt exB') with Ok t => wf t | _ => False end.
Proof.
  destruct (isOk_ex (direct Nat.eqb (get dflt exA) (get dflt exB'))) as [t E]; [vm_compute; reflexivity|]. rewrite E.
  destruct exA_ok as [a [Ea Wa]]. destruct exB_ok as [b [Eb Wb]]. rewrite Ea, Eb in E. cbn [get] in E.
  exact (wf_direct _ _ _ _ Wa Wb E).
Qed.
