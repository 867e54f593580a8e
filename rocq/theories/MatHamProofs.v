From Coq Require Import List Arith Bool Lia Reals Lra.
From Verif Require Import Star CReal Arr PureModel TriModel FreeExactModel FreeExactSpec ElementModel ElementSpec ElementProofs ElementLemmas ModeModel ModeSpec ModeProofs ModeFacts
  CompositeModel ParticleModel InteractionModel InteractionSpec InteractionLaws MatHamModel MatHamSpec.
Import ListNotations.
Add Ring CRMh : (k_ring CR).
Local Open Scope nat_scope.

Lemma at1D_in dims k : k < total dims -> inr dims (at1D dims k).
Proof. intros H. apply in_indices. apply nth_In. now rewrite indices_length. Qed.
Lemma sum_at1D dims (f : list nat -> CR) : ksum (fun l => f (at1D dims l)) (seq 0 (total dims)) = isum dims f.
Proof.
  unfold isum, at1D, total. rewrite <- indices_length. generalize (indices dims). intros l. rewrite <- (ksum_map (fun k => nth k l []) f). f_equal.
  induction l as [|a l IH]; cbn; auto. f_equal. rewrite <- seq_shift, map_map. exact IH.
Qed.

Section C.
Context {St : Type}.
Variable act : St -> array -> array -> St * array.
Variable dims : list nat.
Notation tot := (total dims).
Lemma called_trans (s s1 s2 : St) : called act s s1 -> called act s1 s2 -> called act s s2.
Proof. intros A B. induction B; auto. now apply called_once. Qed.

Section F.
Variables (s0 : St) (f : array -> array).
Hypothesis Hc : contributes act dims s0 f.
Hypothesis Hl : linear dims f.

Lemma column row : row < tot -> forall cols c, (forall k, In k cols -> k < tot) -> called act s0 (cSt c) -> (forall y, inr dims y -> cPsi c y = unit_state (at1D dims row) y) -> cDpsi c = (fun _ => k0) ->
  let c' := fold_left (calcElement act dims row) cols c in
  called act s0 (cSt c') /\ cPsi c' = cPsi c /\ cDpsi c' = (fun _ => k0) /\
  forall k l, cRes c' k l = if (l =? row) && existsb (Nat.eqb k) cols then kmul CI (f (unit_state (at1D dims row)) (at1D dims k)) else cRes c k l.
Proof.
  intros Hr. induction cols as [|col cols IH]; intros c Hk Hs Hp Hd c'; subst c'.
  - cbn. repeat split; auto. intros. now rewrite andb_false_r.
  - cbn [fold_left]. destruct (act (cSt c) (cPsi c) (cDpsi c)) as [s d] eqn:E.
    assert (E1 : fst (act (cSt c) (cPsi c) (cDpsi c)) = s) by now rewrite E. assert (E2 : snd (act (cSt c) (cPsi c) (cDpsi c)) = d) by now rewrite E.
    assert (V : calcElement act dims row c col = mkCalc s (cPsi c) (fun _ => k0) (upd2 (cRes c) col row (kmul CI (d (at1D dims col))))).
    { unfold calcElement. now rewrite E. }
    assert (D : d (at1D dims col) = f (unit_state (at1D dims row)) (at1D dims col)).
    { rewrite <- E2, Hd. assert (Hcol : inr dims (at1D dims col)) by (apply at1D_in; apply Hk; now left).
      rewrite (Hc (cSt c) (cPsi c) _ Hs Hcol). apply (proj2 Hl); auto. }
    rewrite V. destruct (IH (mkCalc s (cPsi c) (fun _ => k0) (upd2 (cRes c) col row (kmul CI (d (at1D dims col)))))) as (A1 & A2 & A3 & A4); cbn [cSt cPsi cDpsi]; auto.
    { intros k Ik. apply Hk. now right. }
    { rewrite <- E1. now apply called_once. }
    split; [exact A1|]. split; [exact A2|]. split; [exact A3|]. intros k l. rewrite A4. cbn [cRes existsb]. unfold upd2. rewrite D.
    destruct (Nat.eqb_spec l row) as [->|N]; cbn [andb]; [|now rewrite andb_false_r].
    destruct (Nat.eqb_spec k col) as [->|N]; cbn [andb orb]; [|reflexivity]. destruct (existsb (Nat.eqb col) cols); reflexivity.
Qed.
Lemma columns rows : forall c, (forall k, In k rows -> k < tot) -> called act s0 (cSt c) -> (forall y, inr dims y -> cPsi c y = k0) -> cDpsi c = (fun _ => k0) ->
  let c' := fold_left (calcColumn act dims tot) rows c in
  forall k l, k < tot -> cRes c' k l = if existsb (Nat.eqb l) rows then kmul CI (f (unit_state (at1D dims l)) (at1D dims k)) else cRes c k l.
Proof.
  induction rows as [|row rows IH]; intros c Hk Hs Hp Hd c' k l Hkk; subst c'; [reflexivity|].
  cbn [fold_left existsb]. pose (c1 := mkCalc (cSt c) (updA (cPsi c) (at1D dims row) k1) (cDpsi c) (cRes c)).
  assert (Hr : row < tot) by (apply Hk; now left).
  destruct (column row Hr (seq 0 tot) c1) as (A1 & A2 & A3 & A4); subst c1; cbn [cSt cPsi cDpsi]; auto.
  { intros j Hj. apply in_seq in Hj. lia. }
  { intros y Hy. unfold updA, unit_state. rewrite Hp by exact Hy. reflexivity. }
  rewrite IH; auto.
  - unfold calcColumn. cbn [cRes]. rewrite A4. cbn [cRes].
    assert (X : existsb (Nat.eqb k) (seq 0 tot) = true). { apply existsb_exists. exists k. split; [apply in_seq; lia|apply Nat.eqb_refl]. }
    rewrite X, andb_true_r. destruct (Nat.eqb_spec l row) as [->|N]; cbn [orb]; [|reflexivity]. destruct (existsb (Nat.eqb row) rows); reflexivity.
  - intros j Hj. apply Hk. now right.
  - intros y Hy. unfold calcColumn. cbn [cPsi]. rewrite A2. cbn [cPsi]. unfold updA. destruct (listnat_eqb y (at1D dims row)); [reflexivity|]. now apply Hp.
Qed.
Lemma matrix_element res0 k l : k < tot -> l < tot -> calculateMatrix act dims s0 res0 k l = kmul CI (f (unit_state (at1D dims l)) (at1D dims k)).
Proof.
  intros Hk Hl'. unfold calculateMatrix. rewrite (columns (seq 0 (fold_right Nat.mul 1 dims))); cbn [cSt cPsi cDpsi]; auto.
  - assert (X : existsb (Nat.eqb l) (seq 0 (fold_right Nat.mul 1 dims)) = true). { apply existsb_exists. exists l. split; [apply in_seq; unfold total in *; lia|apply Nat.eqb_refl]. }
    now rewrite X.
  - intros j Hj. apply in_seq in Hj. unfold total. lia.
  - constructor.
Qed.
Lemma lin_zero y : inr dims y -> f (fun _ => k0) y = k0.
Proof.
  intros Hy. pose proof (proj1 Hl (kopp k1) (fun _ => k0) (fun _ => k0) y Hy) as H. cbn beta in H.
  rewrite (proj2 Hl _ (fun _ => k0) y) in H; [rewrite H; ring| |exact Hy]. intros. ring.
Qed.
Lemma lin_sum (psi : array) xs y : inr dims y -> f (fun z => ksum (fun x => kmul (psi x) (unit_state x z)) xs) y = ksum (fun x => kmul (psi x) (f (unit_state x) y)) xs.
Proof.
  intros Hy. induction xs as [|x xs IH].
  - exact (lin_zero y Hy).
  - transitivity (f (fun z => kadd (kmul (psi x) (unit_state x z)) (ksum (fun x => kmul (psi x) (unit_state x z)) xs)) y); [apply (proj2 Hl); auto|].
    rewrite (proj1 Hl) by exact Hy. rewrite IH. reflexivity.
Qed.
Lemma lin_decompose psi y : inr dims y -> f psi y = isum dims (fun x => kmul (psi x) (f (unit_state x) y)).
Proof.
  intros Hy. unfold isum. rewrite <- lin_sum by exact Hy. apply (proj2 Hl); auto. intros x Hx. change (psi x = isum dims (fun x0 => kmul (psi x0) (unit_state x0 x))).
  rewrite (isum_single dims _ x Hx).
  - unfold unit_state. rewrite listnat_eqb_refl. ring.
  - intros b _ Hb. unfold unit_state. destruct (listnat_eqb_spec x b) as [->|_]; [congruence|ring].
Qed.
Lemma matrix_acts res0 psi k : k < tot -> ksum (fun l => kmul (calculateMatrix act dims s0 res0 k l) (psi (at1D dims l))) (seq 0 tot) = kmul CI (f psi (at1D dims k)).
Proof.
  intros Hk. rewrite (lin_decompose psi) by now apply at1D_in. rewrite <- isum_scal_l, <- sum_at1D. apply ksum_ext. intros l Hl'. apply in_seq in Hl'.
  rewrite matrix_element by (auto; lia). ring.
Qed.
Lemma matrix_round res0 psi d k : k < tot ->
  matrixContribution (mkMatrixH tot (fun k l => kmul (kopp CI) (calculateMatrix act dims s0 res0 k l))) (fun l => psi (at1D dims l)) d k = kadd (d k) (f psi (at1D dims k)).
Proof.
  intros Hk. unfold matrixContribution, matApply. cbn [mhDim mhMatrix]. f_equal. rewrite (ksum_ext _ (fun j => kmul (kopp CI) (kmul (calculateMatrix act dims s0 res0 k j) (psi (at1D dims j))))) by (intros; ring).
  rewrite ksum_scal_l, matrix_acts by exact Hk. generalize (f psi (at1D dims k)). intros z. apply cr_eq; cbn; ring.
Qed.
Lemma matrix_round_made res0 h psi d k : makeMatrixH tot tot (fun k l => kmul (kopp CI) (calculateMatrix act dims s0 res0 k l)) = Some h -> k < tot ->
  matrixContribution h (fun l => psi (at1D dims l)) d k = kadd (d k) (f psi (at1D dims k)).
Proof. intros E H. unfold makeMatrixH in E. rewrite Nat.eqb_refl in E. injection E as <-. exact (matrix_round res0 psi d k H). Qed.
End F.
End C.

(** a generator G *)
Definition genF (dims : list nat) (G : list nat -> list nat -> CR) (psi : array) : array := fun y => isum dims (fun x => kmul (G y x) (psi x)).
Lemma genF_linear dims G : linear dims (genF dims G).
Proof.
  split.
  - intros c psi phi y _. unfold genF. rewrite <- isum_scal_l, <- isum_add. apply isum_ext. intros. ring.
  - intros psi phi y H _. unfold genF. apply isum_ext. intros x Hx. now rewrite H.
Qed.
Lemma genF_unit dims G x y : inr dims x -> genF dims G (unit_state x) y = G y x.
Proof. intros Hx. unfold genF. now apply isum_unit. Qed.
Lemma at1D_1 dim k : k < dim -> at1D [dim] k = [k].
Proof.
  intros H. unfold at1D. cbn [indices]. assert (E : flat_map (fun i : nat => map (cons i) [[]]) (seq 0 dim) = map (fun i => [i]) (seq 0 dim)).
  { generalize (seq 0 dim). induction l as [|a l IH]; cbn; f_equal; auto. }
  rewrite E. rewrite (nth_indep _ [] [0]) by (rewrite map_length, seq_length; exact H). change [0] with ((fun i => [i]) 0). rewrite map_nth, seq_nth by exact H. reflexivity.
Qed.
Lemma total_1 dim : total [dim] = dim. Proof. unfold total. cbn. lia. Qed.

Lemma matrix_of_matrix dim m res0 k l : k < dim -> l < dim -> calculateMatrix (matrixAct tt) [dim] (mkMatrixH dim m) res0 k l = kmul CI (m k l).
Proof.
  intros Hk Hl. assert (C : contributes (matrixAct tt) [dim] (mkMatrixH dim m) (genF [dim] (fun y x => m (nth 0 y 0) (nth 0 x 0)))).
  { intros s psi y Hs Hy. assert (E : s = mkMatrixH dim m). { induction Hs; auto. }
    subst s. cbn [snd matrixAct]. unfold matrixContribution, matApply, genF. cbn [mhDim mhMatrix]. rewrite isum1. unfold lsum. cbn [nth]. ring. }
  rewrite (matrix_element _ _ _ _ C (genF_linear _ _)) by (rewrite total_1; assumption). rewrite !at1D_1 by assumption. rewrite genF_unit by now apply inr1. reflexivity.
Qed.

(** modes, qbits, spins in the Schroedinger picture *)
Lemma called_free td t hs s : called (freeAct td t) hs s -> exists ts, s = afterCalls td ts hs.
Proof.
  induction 1 as [|s psi d _ [ts ->]]; [now exists []|]. exists (ts ++ [t]). unfold afterCalls at 2. rewrite fold_left_app. reflexivity.
Qed.
Lemma free_contributes sys td hs t G : msExact sys = None -> msH sys = Some (td, hs) -> no_jump_generator sys G ->
  contributes (freeAct td t) [msDim sys] hs (genF [msDim sys] (fun y x => G (nth 0 y 0) (nth 0 x 0))).
Proof.
  intros E1 E2 H s psi y Hs Hy. destruct (called_free _ _ _ _ Hs) as [ts ->]. specialize (H ts t). unfold generator_at in H. rewrite E1, E2 in H.
  unfold genF. rewrite isum1. cbn [nth]. inversion Hy as [|m ? y' ? Hm Hy']; subst. inversion Hy'; subst. cbn [nth].
  specialize (H (fun n => psi [n]) m Hm). unfold hAction in H. unfold freeAct. exact H.
Qed.
Lemma matrix_of_free sys td hs t G res0 k l : msExact sys = None -> msH sys = Some (td, hs) -> no_jump_generator sys G -> k < msDim sys -> l < msDim sys ->
  calculateMatrix (freeAct td t) [msDim sys] hs res0 k l = kmul CI (G k l).
Proof.
  intros E1 E2 H Hk Hl. rewrite (matrix_element _ _ _ _ (free_contributes sys td hs t G E1 E2 H) (genF_linear _ _)) by (rewrite total_1; assumption).
  rewrite !at1D_1 by assumption. rewrite genF_unit by now apply inr1. reflexivity.
Qed.
Lemma matrix_of_mode p res0 t : (0 < pCutoff p)%nat -> (0 <= pNTh p)%R -> kerr_honoured p SCH ->
  exists sys td hs, make p SCH = Ok sys /\ msH sys = Some (td, hs) /\ forall k l, k < pCutoff p -> l < pCutoff p ->
    calculateMatrix (freeAct td t) [pCutoff p] hs res0 k l = kmul CI (modeGenerator p k l).
Proof.
  intros A B C. destruct (make_generator p SCH A B C) as (sys & E & D & _ & G).
  assert (X : msExact sys = None /\ exists td hs, msH sys = Some (td, hs)).
  { revert E. unfold make, makePumped, makeLossy, makePlain, switch.
    assert (W : forall z eta ls s, withSch z eta p ls = Ok s -> msExact s = None /\ exists td hs, msH s = Some (td, hs)).
    { intros z eta ls s. unfold withSch. destruct (hamiltonianSch z eta (pKerr p) (pKerrAlter p) (pCutoff p)); cbn [bind]; try discriminate. intros E. injection E as <-. cbn. eauto. }
    destruct (Reqb (pKappa p) 0), (negb (isNonZero (pEta p))); try apply W. }
  destruct X as (X & td & hs & Y). exists sys, td, hs. split; [exact E|]. split; [exact Y|]. intros k l Hk Hl. rewrite <- D in *. now apply (matrix_of_free sys).
Qed.

(** interactions *)
Lemma int_state dt h psi d : fst (intContribution dt h psi d) = fst (intContribution dt h (fun _ => k0) (fun _ => k0)).
Proof. unfold intContribution. destruct (addContribution true dt (ihList h) psi d) as [a b] eqn:E1. destruct (addContribution true dt (ihList h) (fun _ => k0) (fun _ => k0)) as [a' b'] eqn:E2.
  assert (a = a') by (unfold addContribution in *; congruence). subst a'. destruct (ihGen h); reflexivity. Qed.
Lemma called_int dt h s : called (intAct dt) h s -> exists dts, s = intAfter dts h.
Proof.
  induction 1 as [|s psi d _ [dts ->]]; [now exists []|]. exists (dts ++ [dt]). unfold intAfter at 2. rewrite fold_left_app. cbn [fold_left].
  unfold intAct. destruct (intContribution dt (intAfter dts h) psi d) as [h' r] eqn:E. cbn [fst]. rewrite <- (int_state dt _ psi d). unfold intAfter in E. now rewrite E.
Qed.
Lemma cexp_minus (z : CR) : kmul (cexp (kopp z)) (cexp z) = k1.
Proof. rewrite <- (cexp_inv z). ring. Qed.
Lemma int_contributes h es dt G : has_generator h es any_state G ->
  contributes (intAct dt) (ihDims h) h (genF (ihDims h) (fun y x => kmul (cexp (kmul (RC dt) (ksub (together es x) (together es y)))) (G y x))).
Proof.
  intros H s psi y Hs Hy. destruct (called_int _ _ _ Hs) as [dts ->]. destruct (H dts dt psi (fun _ => k0) I) as (d' & E & D). unfold intAct.
  destruct (intContribution dt (intAfter dts h) psi (fun _ => k0)) as [h' r] eqn:E2. cbn [snd] in *. subst r. specialize (D y Hy). unfold genF.
  transitivity (kmul (cexp (kopp (kmul (RC dt) (together es y)))) (isum (ihDims h) (fun x => kmul (G y x) (carried es dt psi x)))).
  - rewrite <- D. unfold carried. transitivity (kmul (kmul (cexp (kopp (kmul (RC dt) (together es y)))) (cexp (kmul (RC dt) (together es y)))) (d' y)); [rewrite cexp_minus|]; ring.
  - rewrite <- isum_scal_l. apply isum_ext. intros x _. unfold carried.
    replace (kmul (RC dt) (ksub (together es x) (together es y))) with (kadd (kopp (kmul (RC dt) (together es y))) (kmul (RC dt) (together es x))) by ring. rewrite cexp_add. ring.
Qed.
Lemma matrix_of_int h es dt G res0 k l : has_generator h es any_state G -> k < total (ihDims h) -> l < total (ihDims h) ->
  calculateMatrix (intAct dt) (ihDims h) h res0 k l =
  kmul CI (kmul (cexp (kmul (RC dt) (ksub (together es (at1D (ihDims h) l)) (together es (at1D (ihDims h) k))))) (G (at1D (ihDims h) k) (at1D (ihDims h) l))).
Proof.
  intros H Hk Hl. rewrite (matrix_element _ _ _ _ (int_contributes h es dt G H) (genF_linear _ _)) by assumption. rewrite genF_unit by now apply at1D_in. reflexivity.
Qed.
Lemma matrix_of_int0 h es G res0 k l : has_generator h es any_state G -> k < total (ihDims h) -> l < total (ihDims h) ->
  calculateMatrix (intAct 0) (ihDims h) h res0 k l = kmul CI (G (at1D (ihDims h) k) (at1D (ihDims h) l)).
Proof.
  intros H Hk Hl. rewrite (matrix_of_int h es 0 G) by assumption. f_equal. replace (kmul (RC 0) (ksub (together es (at1D (ihDims h) l)) (together es (at1D (ihDims h) k)))) with (k0 : CR) by (apply cr_eq; cbn; ring).
  replace (cexp k0) with (k1 : CR) by (unfold cexp; apply cr_eq; cbn; rewrite exp_0, ?cos_0, ?sin_0; ring). ring.
Qed.

(** ** the two-level atoms *)
Lemma gen_sch_any p z eta : pKerr p = 0%R -> forall m n, hOverIM z eta (if isNonZero z then pKerr p else 0%R) m n = kadd (if m =? n then mainM (kopp z) 0 m else k0) (pumpM eta m n).
Proof. intros -> m n. unfold hOverIM. destruct (isNonZero z); reflexivity. Qed.
Lemma two_lt m : m < 2 -> m = 0 \/ m = 1. Proof. lia. Qed.
Lemma two_level_h delta gamma eta : exists sys td hs, cPumpedLossyModeSch false (qbitPars delta gamma eta) = Ok sys /\ msH sys = Some (td, hs) /\ msExact sys = None /\
  msLindblads sys = modeLoss false 2 gamma /\
  forall ts t psi m, m < 2 ->
    hAction td (afterCalls td ts hs) t psi m = twoLevelContribution gamma delta eta psi (fun _ => k0) m /\
    hAction td (afterCalls td ts hs) t psi m = multiLevelH 2 (multiLevelZ (fun n => if n =? 1 then delta else 0%R) [mkDecay 0 1 gamma]) [mkPump 0 1 eta] psi (fun _ => k0) m.
Proof.
  assert (C : (0 < pCutoff (qbitPars delta gamma eta))%nat) by (cbn; lia).
  destruct (withSch_generator (gamma, - delta)%R (kopp eta) (qbitPars delta gamma eta) (modeLindblads false false (qbitPars delta gamma eta)) C) as (sys & E & D & L & G).
  assert (X : msExact sys = None /\ exists td hs, msH sys = Some (td, hs)).
  { revert E. unfold withSch. destruct (hamiltonianSch (gamma, - delta)%R (kopp eta) (pKerr (qbitPars delta gamma eta)) (pKerrAlter (qbitPars delta gamma eta)) (pCutoff (qbitPars delta gamma eta))); cbn [bind]; try discriminate.
    intros E. injection E as <-. cbn. eauto. }
  destruct X as (X & td & hs & Y). exists sys, td, hs. split; [exact E|]. split; [exact Y|]. split; [exact X|].
  split; [exact L|]. intros ts t psi m Hm.
  specialize (G ts t). unfold generator_at in G. rewrite X, Y, D in G.
  specialize (G psi m Hm). rewrite G. clear G E. unfold lsum. cbn [qbitPars pCutoff seq ksum fold_right].
  unfold twoLevelContribution, matApply, multiLevelH, multiLevelZ. cbn [seq fold_left map ksum fold_right dcSecond dcGamma pmFirst pmSecond pmEta].
  assert (M : forall i j, i < 2 -> j < 2 -> schM (gamma, - delta)%R (kopp eta) (qbitPars delta gamma eta) i j = twoLevelH (twoLevelZa gamma delta) eta i j).
  { intros i j Hi Hj. unfold schM. rewrite (gen_sch_any (qbitPars delta gamma eta)) by reflexivity. unfold pumpM, creation, annihilation, kerrM, kerrElem, mainM.
    destruct (two_lt i Hi) as [-> | ->], (two_lt j Hj) as [-> | ->]; cbn [twoLevelH Nat.eqb Nat.add qbitPars pKerrAlter pKerr]; unfold twoLevelZa; destruct eta; apply cr_eq; cbn; try rewrite sqrt_1; ring. }
  destruct (two_lt m Hm) as [-> | ->]; rewrite !M by lia; cbn [twoLevelH]; unfold twoLevelZa; split; destruct eta; unfold upd; cbn [Nat.eqb]; apply cr_eq; cbn; ring.
Qed.
Lemma two_level_jump gamma delta psi m : m < 2 -> forall l1 l2 l3, modeLoss false 2 gamma = [l1] -> twoLevelLoss (twoLevelZa gamma delta) = [l2] -> multiLevelLoss 2 [mkDecay 0 1 gamma] None = [l3] ->
  lbJump l1 psi m = lbJump l2 psi m /\ lbJump l1 psi m = lbJump l3 psi m /\
  exists r1 r2 r3, lbRate l1 = Some r1 /\ lbRate l2 = Some r2 /\ lbRate l3 = Some r3 /\ forall M, r1 M = r2 M /\ r1 M = r3 M.
Proof.
  intros Hm l1 l2 l3 E1 E2 E3. injection E1 as <-. injection E2 as <-. injection E3 as <-. cbn [lbJump lbRate].
  assert (S2 : sqrt (- 2 * cre (twoLevelZa gamma delta)) = sqrt (2 * gamma)) by (f_equal; cbn; ring).
  assert (S1 : sqrt (INR 1) = 1%R) by exact sqrt_1.
  split; [|split].
  - change (aJump 2 gamma psi m = upd (upd psi 0 (kmul (RC (sqrt (- 2 * cre (twoLevelZa gamma delta)))) (psi 1))) 1 k0 m). rewrite S2. unfold aJump. cbn [Nat.sub seq fold_left Nat.add]. rewrite S1. destruct (two_lt m Hm) as [-> | ->]; unfold upd; cbn [Nat.eqb]; rewrite ?Rmult_1_r; reflexivity.
  - unfold aJump. cbn [Nat.sub seq fold_left Nat.add dcFirst dcSecond dcGamma]. rewrite S1. destruct (two_lt m Hm) as [-> | ->]; unfold upd; cbn [Nat.eqb]; rewrite ?Rmult_1_r; reflexivity.
  - do 3 eexists. split; [reflexivity|]. split; [reflexivity|]. split; [reflexivity|]. intros M. cbn [dcGamma dcSecond]. unfold photonNumber. cbn [Nat.sub seq fold_left]. split; cbn; ring.
Qed.
