(** Proofs for RamanProperties.v *)
From Coq Require Import List Arith Bool Lia Reals Lra.
From Verif Require Import Star CReal Arr TriModel FreeExactModel FreeExactSpec ElementModel ElementSpec ElementProofs ElementFacts ModeModel ModeSpec ModeProofs ModeFacts DampSpec DampProofs CompositeModel ParticleModel InteractionModel InteractionSpec AverageSpec InteractionProofs
  ScriptSpec CavScriptModel CavScriptSpec CavRing CavRingCases SigmaModel SigmaSpec SigmaProofs MatHamModel MatHamProofs ScriptProofs ScriptFacts InteractionFacts CavScriptProofs RamanModel RamanSpec.
Import ListNotations.
Add Ring CRraman : (k_ring CR).
Local Open Scope nat_scope.
Local Open Scope K_scope.

Lemma lsum3 (f : nat -> CR) : lsum 3 f = f 0%nat + f 1%nat + f 2%nat.
Proof. unfold lsum. cbn [seq ksum]. ring. Qed.
Lemma zs g0 g1 deltas : multiLevelZ deltas (lambdaDecays g0 g1) 0%nat = RC (deltas 0%nat) * (- CI) /\ multiLevelZ deltas (lambdaDecays g0 g1) 1%nat = RC (deltas 1%nat) * (- CI) /\
  multiLevelZ deltas (lambdaDecays g0 g1) 2%nat = RC (deltas 2%nat) * (- CI) + RC g0 + RC g1.
Proof. repeat split. Qed.
Definition three (a b c : CR) : nat -> CR := fun m => match m with 0 => a | 1 => b | _ => c end%nat.
Lemma act3 z : forall psi m, (m < 3)%nat ->
  fold_left (fun (d : ket) i => upd d i (d i + (- z i) * psi i)) (seq 0 3) (fun _ => k0) m = (- z m) * psi m.
Proof. intros psi m H. cbn [seq fold_left]. unfold upd. destruct m as [|[|[|m]]]; try lia; cbn [Nat.eqb]; ring. Qed.
Lemma raman_h e0 e1 g0 g1 deltas diff : is_operator 3 (fun psi => laH (ramanScript e0 e1 g0 g1 deltas diff) psi (fun _ => k0)) (lambdaGenerator e0 e1 g0 g1 deltas).
Proof.
  intros psi m H. destruct (zs g0 g1 deltas) as (Z0 & Z1 & Z2). unfold ramanScript. cbn [laH]. unfold multiLevelH. cbv zeta.
  set (d1 := fold_left _ (seq 0 3) _). assert (D : forall m, (m < 3)%nat -> d1 m = (- multiLevelZ deltas (lambdaDecays g0 g1) m) * psi m) by (intros; now apply act3).
  rewrite lsum3. cbn [ramanPumps fold_left pmFirst pmSecond pmEta]. unfold upd. destruct m as [|[|[|m]]]; [| | |lia]; cbn [Nat.eqb lambdaGenerator]; rewrite !D by lia; rewrite ?Z0, ?Z1, ?Z2, <- ?RC_add; ring.
Qed.
Lemma raman_jumps e0 e1 g0 g1 deltas : (0 <= g0)%R -> (0 <= g1)%R ->
  Forall2 (fun l J => describes 3 l J /\ rate_of_jump 3 l J) (laLoss (ramanScript e0 e1 g0 g1 deltas None)) (radiativeOps (lambdaDecays g0 g1)).
Proof. intros A B. apply multilevel_ok. constructor; [cbn; repeat split; [assumption|lia|lia]|]. constructor; [cbn; repeat split; [assumption|lia|lia]|constructor]. Qed.

Lemma zero_product (z w : CR) : z * w = k0 -> z = k0 \/ w = k0.
Proof.
  intros H. apply (f_equal csq) in H. rewrite csq_mul in H. assert (E : csq k0 = 0%R) by (cbv; ring). rewrite E in H. apply Rmult_integral in H.
  destruct H as [H|H]; [left|right]; [destruct z as [a b]|destruct w as [a b]]; unfold csq in H; cbn [fst snd] in H; apply cr_eq; cbn; nra.
Qed.
Lemma cr_dec (z : CR) : z = k0 \/ z <> k0.
Proof. destruct z as [a b]. destruct (Req_dec a 0) as [->|N]; [destruct (Req_dec b 0) as [->|N]|]; [left; reflexivity|right; intros [= E]; contradiction|right; intros [= E F]; contradiction]. Qed.
Lemma jump_value f s g (psi : ket) m : lbJump (radiative (mkDecay f s g)) psi m = if (m =? f)%nat then RC (sqrt (2 * g)) * psi s else k0.
Proof. unfold radiative. cbn [lbJump dcFirst dcSecond dcGamma]. unfold upd. reflexivity. Qed.
Lemma root_zero g (z : CR) : (0 < g)%R -> RC (sqrt (2 * g)) * z = k0 -> z = k0.
Proof. intros Hg H. apply zero_product in H as [H|H]; [|exact H]. apply (RC_inj _ 0) in H. apply sqrt_eq_0 in H; lra. Qed.
Lemma CI_RC_inj (x y : R) : CI * RC x = CI * RC y -> x = y.
Proof. intros H. apply RC_inj. apply (f_equal (fun z => - CI * z)) in H. assert (I : forall z : CR, - CI * (CI * z) = z) by (intros z; apply cr_eq; cbn; ring). rewrite !I in H. exact H. Qed.
Lemma scaled_eq (l c z : CR) : z <> k0 -> c * z = l * z -> l = c.
Proof.
  intros Hz H. assert (E : (l - c) * z = k0). { transitivity (l * z - c * z); [ring|]. rewrite H. ring. }
  apply zero_product in E as [E|E]; [|contradiction]. transitivity (l - c + c); [ring|]. rewrite E. ring.
Qed.
Lemma rows e0 e1 g0 g1 deltas diff psi : let d := laH (ramanScript e0 e1 g0 g1 deltas diff) psi (fun _ => k0) in
  d 0%nat = CI * RC (deltas 0%nat) * psi 0%nat + kconj e0 * psi 2%nat /\ d 1%nat = CI * RC (deltas 1%nat) * psi 1%nat + kconj e1 * psi 2%nat /\
  d 2%nat = - e0 * psi 0%nat - e1 * psi 1%nat + (CI * RC (deltas 2%nat) - RC (g0 + g1)) * psi 2%nat.
Proof.
  cbv zeta. pose proof (raman_h e0 e1 g0 g1 deltas diff psi) as H.
  repeat split; [rewrite (H 0%nat) by lia|rewrite (H 1%nat) by lia|rewrite (H 2%nat) by lia]; rewrite lsum3; cbn [lambdaGenerator]; ring.
Qed.
Lemma trapped_dark e0 e1 g0 g1 deltas psi : (0 <= g0)%R -> (0 <= g1)%R -> (0 < g0 + g1)%R ->
  trapped (ramanScript e0 e1 g0 g1 deltas None) psi <-> dark e0 e1 psi /\ (deltas 0%nat = deltas 1%nat \/ psi 0%nat = k0 \/ psi 1%nat = k0).
Proof.
  intros A B C. destruct (rows e0 e1 g0 g1 deltas None psi) as (R0 & R1 & R2). split.
  - intros [[l H] J]. inversion J as [|? ? J0 J']; subst. inversion J' as [|? ? J1 _]; subst. specialize (J0 0%nat ltac:(lia)). specialize (J1 1%nat ltac:(lia)).
    rewrite jump_value in J0, J1. cbn [Nat.eqb] in J0, J1.
    assert (P2 : psi 2%nat = k0). { destruct (Rle_lt_or_eq_dec _ _ A) as [P|P]; [now apply (root_zero g0)|apply (root_zero g1); [lra|exact J1]]. }
    pose proof (H 0%nat ltac:(lia)) as H0. pose proof (H 1%nat ltac:(lia)) as H1. pose proof (H 2%nat ltac:(lia)) as H2. rewrite R0, P2 in H0. rewrite R1, P2 in H1. rewrite R2, P2 in H2. split; [split; [exact P2|]|].
    + transitivity (- (- e0 * psi 0%nat - e1 * psi 1%nat + (CI * RC (deltas 2%nat) - RC (g0 + g1)) * k0)); [ring|]. rewrite H2. ring.
    + destruct (cr_dec (psi 0%nat)) as [Z|N0]; [now right; left|]. destruct (cr_dec (psi 1%nat)) as [Z|N1]; [now right; right|]. left.
      apply CI_RC_inj. transitivity l; [symmetry; apply (scaled_eq _ _ _ N0)|apply (scaled_eq _ _ _ N1)]; [rewrite <- H0|rewrite <- H1]; ring.
  - intros [[P2 D] E]. split.
    + exists (if Req_EM_T (deltas 0%nat) (deltas 1%nat) then CI * RC (deltas 0%nat) else match total_order_T (csq (psi 0%nat)) 0 with inleft (right _) => CI * RC (deltas 1%nat) | _ => CI * RC (deltas 0%nat) end).
      assert (Q : - e0 * psi 0%nat - e1 * psi 1%nat = k0) by (transitivity (- (e0 * psi 0%nat + e1 * psi 1%nat)); [ring|rewrite D; ring]).
      assert (N : psi 0%nat = k0 <-> csq (psi 0%nat) = 0%R). { split; [intros ->; cbv; ring|]. destruct (psi 0%nat) as [a b]. unfold csq. cbn [fst snd]. intros Z. apply cr_eq; cbn; nra. }
      intros m Hm. destruct m as [|[|[|m]]]; [rewrite R0|rewrite R1|rewrite R2|lia]; rewrite P2; [| |rewrite Q; ring].
      * destruct (Req_EM_T _ _) as [Ed|Nd]; [ring|]. destruct (total_order_T _ _) as [[L|Z]|G]; [ring| |ring]. apply N in Z. rewrite Z. ring.
      * destruct (Req_EM_T _ _) as [Ed|Nd]; [rewrite Ed; ring|]. destruct E as [E|[E|E]]; [contradiction| |rewrite E; ring]. apply N in E. destruct (total_order_T _ _) as [[L|Z]|G]; [lra|ring|lra].
    + unfold ramanScript, multiLevelLoss, lambdaDecays. cbn [laLoss map app]. repeat constructor; intros m Hm; rewrite jump_value, P2; destruct (_ =? _)%nat; ring.
Qed.

Lemma ketbra_sandwich g a (rho : mat) m n : (0 <= g)%R -> (a < 3)%nat -> (m < 3)%nat -> (n < 3)%nat ->
  sandwich 3 (mscale (sqrt (2 * g)) (ketbra a 2)) rho m n = if andb (m =? a)%nat (n =? a)%nat then RC (2 * g) * rho 2%nat 2%nat else k0.
Proof.
  intros Hg Ha Hm Hn. unfold sandwich. rewrite !lsum3. unfold mscale, ketbra. rewrite !andb_false_r || idtac.
  assert (Q : RC (sqrt (2 * g)) * RC (sqrt (2 * g)) = RC (2 * g)) by (rewrite RC_mul, sqrt_sqrt by lra; reflexivity). rewrite <- Q. clear Q.
  destruct (m =? a)%nat; destruct (n =? a)%nat; cbn [andb Nat.eqb]; rewrite ?kconj_mul, ?RC_conj, ?kconj_0, ?kconj_1; ring.
Qed.
Lemma pumping e0 e1 g0 g1 deltas psi (rho : mat) : (0 <= g0)%R -> (0 <= g1)%R -> dark e0 e1 psi -> deltas 0%nat = deltas 1%nat ->
  populationOf psi (masterOf 3 (lambdaGenerator e0 e1 g0 g1 deltas) (radiativeOps (lambdaDecays g0 g1)) rho) = RC (2 * (g0 * csq (psi 0%nat) + g1 * csq (psi 1%nat))) * rho 2%nat 2%nat.
Proof.
  intros A B [P D] E. unfold populationOf. rewrite !lsum3. rewrite P, kconj_0.
  assert (D' : kconj e0 * kconj (psi 0%nat) + kconj e1 * kconj (psi 1%nat) = k0) by (rewrite <- !kconj_mul, <- kconj_add, D; apply kconj_0).
  assert (X : forall m n, (m < 2)%nat -> (n < 2)%nat -> masterOf 3 (lambdaGenerator e0 e1 g0 g1 deltas) (radiativeOps (lambdaDecays g0 g1)) rho m n =
    nth m [kconj e0; kconj e1] k0 * rho 2%nat n + rho m 2%nat * nth n [e0; e1] k0 + (if (m =? n)%nat then RC (2 * nth m [g0; g1] 0%R) * rho 2%nat 2%nat else k0)).
  { intros m n Hm Hn. unfold masterOf. rewrite !lsum3. unfold radiativeOps, lambdaDecays. cbn [map ksum dcGamma dcFirst dcSecond]. rewrite !ketbra_sandwich by lia || lra.
    assert (I : kconj CI = - CI) by (apply cr_eq; cbn; ring).
    destruct m as [|[|m]]; [| |lia]; (destruct n as [|[|n]]; [| |lia]); cbn [lambdaGenerator Nat.eqb andb nth]; rewrite ?kconj_mul, ?RC_conj, ?kconj_0, ?I, ?kconj_invol, ?E; ring. }
  rewrite (X 0%nat 0%nat), (X 0%nat 1%nat), (X 1%nat 0%nat), (X 1%nat 1%nat) by lia. cbn [nth Nat.eqb].
  assert (S : RC (2 * (g0 * csq (psi 0%nat) + g1 * csq (psi 1%nat))) = RC (2 * g0) * (kconj (psi 0%nat) * psi 0%nat) + RC (2 * g1) * (kconj (psi 1%nat) * psi 1%nat)).
  { assert (C : forall z : CR, kconj z * z = RC (csq z)) by (intros z; apply cr_eq; unfold csq; cbn; ring). rewrite !C, !RC_mul, RC_add. f_equal. ring. }
  rewrite S. set (p := psi 0%nat) in *. set (q := psi 1%nat) in *.
  transitivity ((kconj e0 * kconj p + kconj e1 * kconj q) * (rho 2%nat 0%nat * p + rho 2%nat 1%nat * q) + (kconj p * rho 0%nat 2%nat + kconj q * rho 1%nat 2%nat) * (e0 * p + e1 * q) +
    (RC (2 * g0) * (kconj p * p) + RC (2 * g1) * (kconj q * q)) * rho 2%nat 2%nat); [ring|]. rewrite D, D'. ring.
Qed.

Lemma cavity_atom_h e g0 g1 deltas : is_operator 3 (fun psi => multiLevelH 3 (multiLevelZ deltas (lambdaDecays g0 g1)) (cavityPumps e) psi (fun _ => k0)) (lambdaGenerator e k0 g0 g1 deltas).
Proof.
  intros psi m H. destruct (zs g0 g1 deltas) as (Z0 & Z1 & Z2). unfold multiLevelH. cbv zeta.
  set (d1 := fold_left _ (seq 0 3) _). assert (D : forall m, (m < 3)%nat -> d1 m = (- multiLevelZ deltas (lambdaDecays g0 g1) m) * psi m) by (intros; now apply act3).
  rewrite lsum3. cbn [cavityPumps fold_left pmFirst pmSecond pmEta]. unfold upd. destruct m as [|[|[|m]]]; [| | |lia]; cbn [Nat.eqb lambdaGenerator]; rewrite !D by lia; rewrite ?Z0, ?Z1, ?Z2, <- ?RC_add, ?kconj_0; ring.
Qed.
Lemma cavity_made e g g0 g1 deltas q : (0 <= g0)%R -> (0 <= g1)%R -> (0 < pCutoff q)%nat -> (0 <= pKappa q)%R -> (0 <= pNTh q)%R -> pKerr q = 0%R -> pKerrAlter q = 0%R ->
  exists s d, cavityRaman e g g0 g1 deltas None q = Ok s /\ clInt s = MMade (Ok d) /\ msDim (clMode s) = pCutoff q /\
    is_operator 3 (fun psi => laH (clAtom s) psi (fun _ => k0)) (lambdaGenerator e k0 g0 g1 deltas) /\
    Forall2 (describes 3) (laLoss (clAtom s)) (radiativeOps (lambdaDecays g0 g1)) /\
    no_jump_generator (clMode s) (modeGenerator q) /\ Forall2 (describes (pCutoff q)) (msLindblads (clMode s)) (modeJumps q) /\
    mljc_generator [3; pCutoff q]%nat [no_rate; modeRate (clMode s)] d (overI (hMLJC (cavityGs g))).
Proof.
  intros A B C K T H1 H2. destruct (make_generator q IP C T (conj (or_introl H1) (or_introl H2))) as (sc & M & D & L & G). destruct (make_ip _ _ M) as [z E].
  destruct (mljc_fact 3 true (cavityOf q sc) (cavityGs g)) as (dc & C1 & C2); [unfold cavIs, cavityOf; rewrite E, ?H1; split; reflexivity|exact C|intros c [<-|[]]; cbn; lia|].
  eexists _, dc. split; [unfold cavityRaman; rewrite M; reflexivity|]. cbn [clInt clMode clAtom laH laLoss]. split; [exact C1|]. split; [exact D|]. split; [apply cavity_atom_h|]. split.
  { pose proof (raman_jumps e k0 g0 g1 deltas A B) as X. cbn [laLoss ramanScript] in X. revert X. generalize (multiLevelLoss 3 (lambdaDecays g0 g1) None) (radiativeOps (lambdaDecays g0 g1)). intros l l' X. induction X as [|x y l l' [X1 X2] X3 IH]; constructor; auto. }
  split; [exact G|]. split; [rewrite L; now apply modeJumps_describe|].
  intros dts dt psi d y Hy. specialize (C2 dts dt psi d y Hy). cbn [cvDim cavityOf] in C2. unfold carried in *.
  assert (T' : forall y, together [no_rate; cavRate (cavityOf q sc)] y = together [no_rate; modeRate sc] y) by (intros [|a [|b l]]; cbn [together]; rewrite ?cav_rate; reflexivity).
  rewrite T' in C2. rewrite C2. apply isum_ext. intros x _. now rewrite T'.
Qed.
Lemma pair_column e g0 g1 deltas q g a b c n : cavityGenerator e g g0 g1 deltas q [a; b] [c; n] =
  lambdaGenerator e k0 g0 g1 deltas a c * one b n + one a c * modeGenerator q b n + (kconj g * (ketbra 1 2 a c * creation b n) - g * (ketbra 1 2 c a * creation n b)).
Proof.
  unfold cavityGenerator, plusO, overI, timesO, hMLJC, cavityGs, hJaynesCummings, plusO, hc, timesO. cbn [ksum cG cI cJ]. rewrite !kron2, !kconj_mul, kconj_invol.
  assert (I : kconj CI = - CI) by (apply cr_eq; cbn; ring). rewrite I.
  assert (K1 : kconj (ketbra 1 2 c a) = ketbra 1 2 c a) by (unfold ketbra; destruct (andb _ _); [apply kconj_1|apply kconj_0]). rewrite K1.
  assert (K2 : kconj (creation n b) = creation n b) by (unfold creation; destruct (_ =? _)%nat; [apply RC_conj|apply kconj_0]). rewrite K2.
  assert (J : - CI * CI = k1) by (apply cr_eq; cbn; ring).
  transitivity (lambdaGenerator e k0 g0 g1 deltas a c * one b n + one a c * modeGenerator q b n + (- CI * CI) * (kconj g * (ketbra 1 2 a c * creation b n) - g * (ketbra 1 2 c a * creation n b))); [ring|]. rewrite J. ring.
Qed.
Lemma quiet_mode q b n : pKappa q = 0%R -> pEta q = k0 -> pKerr q = 0%R -> pKerrAlter q = 0%R -> modeGenerator q b n = if (b =? n)%nat then CI * RC (INR n * pDelta q) else k0.
Proof.
  intros K E K1 K2. unfold modeGenerator. rewrite K, E, K1, K2, kconj_0. destruct (Nat.eqb_spec b n) as [->|N]; [|ring].
  match goal with |- ?x - ?y + _ = _ => transitivity (x - y); [ring|] end. apply cr_eq; cbn; ring.
Qed.
Lemma sum_unit dims (G : op) x y : inr dims x -> isum dims (fun z => G y z * unit_state x z) = G y x.
Proof. intros H. exact (genF_unit dims G x y H). Qed.
Lemma sum_pair dims (G : op) c1 c2 x1 x2 y : inr dims x1 -> inr dims x2 ->
  isum dims (fun x => G y x * (c1 * unit_state x1 x - c2 * unit_state x2 x)) = c1 * G y x1 - c2 * G y x2.
Proof.
  intros H1 H2. rewrite (isum_ext _ _ (fun x => c1 * (G y x * unit_state x1 x) + (- c2) * (G y x * unit_state x2 x))) by (intros; ring).
  rewrite isum_add, !isum_scal_l. rewrite !sum_unit by assumption. ring.
Qed.
Lemma cavity_dark e g g0 g1 deltas q n y : pKappa q = 0%R -> pEta q = k0 -> pKerr q = 0%R -> pKerrAlter q = 0%R -> deltas 0%nat = (deltas 1%nat + pDelta q)%R -> (n + 1 < pCutoff q)%nat ->
  inr [3; pCutoff q]%nat y ->
  isum [3; pCutoff q]%nat (fun x => cavityGenerator e g g0 g1 deltas q y x * darkPair e g n x) = CI * RC (deltas 0%nat + INR n * pDelta q) * darkPair e g n y.
Proof.
  intros K E K1 K2 Hd Hn Hy. apply inr2 in Hy as (a & b & -> & Ha & Hb). unfold darkPair.
  rewrite (sum_pair [3; pCutoff q]%nat) by (apply inr2'; lia). rewrite !pair_column, !quiet_mode by assumption.
  replace (n + 1)%nat with (Datatypes.S n) by lia. rewrite S_INR. unfold unit_state, one, identity, ketbra, creation. cbn [listnat_eqb].
  set (r := RC (sqrt (INR n + 1))).
  destruct (Nat.eqb_spec b n) as [Eb|N1]; [subst b|].
  - rewrite ?Nat.eqb_refl, (proj2 (Nat.eqb_neq n (Datatypes.S n))) by lia. rewrite (Nat.add_1_r n), (Nat.eqb_refl (Datatypes.S n)).
    destruct a as [|[|[|a]]]; [| | |lia]; cbn [Nat.eqb andb lambdaGenerator]; rewrite ?(proj2 (Nat.eqb_neq n (Datatypes.S n))) by lia; rewrite ?S_INR; fold r; rewrite <- ?RC_add, <- ?RC_mul; ring.
  - assert (NB : (Datatypes.S n =? b + 1)%nat = false) by (apply Nat.eqb_neq; lia). rewrite !NB. destruct (Nat.eqb_spec b (Datatypes.S n)) as [E2|N2]; [subst b|].
    + destruct a as [|[|[|a]]]; [| | |lia]; cbn [Nat.eqb andb lambdaGenerator]; rewrite ?Hd; rewrite <- ?RC_add, <- ?RC_mul, <- ?RC_add; change (RC 1) with (k1 : CR); ring.
    + destruct a as [|[|[|a]]]; [| | |lia]; cbn [Nat.eqb andb lambdaGenerator]; ring.
Qed.
Definition eta0 : CR := (30, 40)%R.
Definition eta1 : CR := (-60, 40)%R.
Definition defaultDeltas (i : nat) : R := match i with 2%nat => (-100000)%R | _ => 0%R end.
Lemma raman_case : dark eta0 eta1 (three eta1 (- eta0) k0) /\ trapped (ramanScript eta0 eta1 10 5 defaultDeltas None) (three eta1 (- eta0) k0) /\
  ~ trapped (ramanScript eta0 eta1 10 5 defaultDeltas None) ramanInitial.
Proof.
  assert (D : dark eta0 eta1 (three eta1 (- eta0) k0)) by (split; [reflexivity|cbn [three]; ring]). split; [exact D|]. split.
  - apply trapped_dark; try lra. split; [exact D|left; reflexivity].
  - intros T. apply trapped_dark in T; try lra. destruct T as [[_ T] _]. cbn [ramanInitial] in T. apply (f_equal (fun z : CR => snd z)) in T. cbn in T.
    assert (0 < / sqrt 2)%R by (apply Rinv_0_lt_compat, sqrt_lt_R0; lra). lra.
Qed.

Lemma initial_state e0 e1 g0 g1 deltas : (0 <= g0)%R -> (0 <= g1)%R -> (0 < g0 + g1)%R ->
  lsum 3 (fun m => RC (csq (ramanInitial m))) = k1 /\ ramanInitial 0%nat = ramanInitial 1%nat /\
  (trapped (ramanScript e0 e1 g0 g1 deltas None) ramanInitial <-> e0 + e1 = k0 /\ deltas 0%nat = deltas 1%nat).
Proof.
  intros A B C. assert (P : (0 < / sqrt 2)%R) by (apply Rinv_0_lt_compat, sqrt_lt_R0; lra).
  assert (N : RC (/ sqrt 2) <> k0) by (intros E; apply (RC_inj _ 0) in E; lra).
  split; [|split; [reflexivity|]].
  - rewrite lsum3. cbn [ramanInitial]. assert (Q : csq (RC (/ sqrt 2)) = (1 / 2)%R).
    { unfold csq, RC. cbn [fst snd]. rewrite Rmult_0_l, Rplus_0_r, <- Rinv_mult, sqrt_sqrt by lra. lra. }
    rewrite Q. change (RC (csq k0)) with (RC (0 * 0 + 0 * 0)). rewrite !RC_add. change (k1 : CR) with (RC 1). f_equal. lra.
  - rewrite trapped_dark by assumption. unfold dark. cbn [ramanInitial]. split.
    + intros [[_ D] E]. split; [|destruct E as [E|[E|E]]; [exact E| |]; contradiction].
      assert (X : (e0 + e1) * RC (/ sqrt 2) = k0) by (rewrite <- D; ring). apply zero_product in X as [X|X]; [exact X|contradiction].
    + intros [D E]. split; [split; [reflexivity|]|now left]. transitivity ((e0 + e1) * RC (/ sqrt 2)); [ring|]. rewrite D. ring.
Qed.
Lemma pumping_rate e0 e1 g0 g1 deltas psi (rho : mat) : (0 <= g0)%R -> (0 <= g1)%R -> dark e0 e1 psi -> deltas 0%nat = deltas 1%nat ->
  let rate := populationOf psi (masterOf 3 (lambdaGenerator e0 e1 g0 g1 deltas) (radiativeOps (lambdaDecays g0 g1)) rho) in
  rate = RC (2 * (g0 * csq (psi 0%nat) + g1 * csq (psi 1%nat))) * rho 2%nat 2%nat /\ ((0 <= cre (rho 2%nat 2%nat))%R -> (0 <= cre rate)%R).
Proof.
  intros A B D E rate. assert (P := pumping e0 e1 g0 g1 deltas psi rho A B D E). split; [exact P|]. intros H. unfold rate. rewrite P.
  assert (C : forall z : CR, (0 <= csq z)%R) by (intros [a b]; unfold csq; cbn [fst snd]; nra). pose proof (C (psi 0%nat)). pose proof (C (psi 1%nat)).
  set (r := (2 * (g0 * csq (psi 0%nat) + g1 * csq (psi 1%nat)))%R). assert (0 <= r)%R by (unfold r; nra). generalize dependent (rho 2%nat 2%nat). intros w P Hw. assert (Q : cre (kmul (RC r) w) = (r * cre w)%R) by (unfold cre; cbn; ring). rewrite Q. now apply Rmult_le_pos.
Qed.
