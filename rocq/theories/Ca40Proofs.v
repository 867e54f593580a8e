(** Proofs for Ca40Properties.v *)
From Coq Require Import List Arith Bool Lia Reals Lra.
From Verif Require Import Star CReal Arr TriModel FreeExactModel FreeExactSpec ElementModel ElementSpec ElementProofs ModeModel ModeSpec ModeProofs ModeFacts DampSpec DampProofs CompositeModel ParticleModel InteractionModel InteractionSpec MatHamModel ScriptSpec CavScriptModel CavScriptSpec CavScriptProofs CavRingCases
  SigmaModel SigmaSpec SigmaProofs Ca40Model Ca40Spec.
Import ListNotations.
Add Ring CRca : (k_ring CR).
Local Open Scope nat_scope.

Lemma root_above x : (0 < x < 1)%R -> (x < sqrt x)%R.
Proof. intros [A B]. pose proof (sqrt_lt_R0 x A). pose proof (sqrt_sqrt x (Rlt_le _ _ A)) as S. assert (sqrt x < 1)%R by (rewrite <- sqrt_1; apply sqrt_lt_1; lra). nra. Qed.
Lemma s13 : (1 / 3 < sqrt13)%R. Proof. apply root_above; lra. Qed.
Lemma s23 : (2 / 3 < sqrt23)%R. Proof. apply root_above; lra. Qed.
Lemma s12 : (1 / 2 < sqrt12)%R. Proof. apply root_above; lra. Qed.
Lemma s16 : (1 / 6 < sqrt16)%R. Proof. apply root_above; lra. Qed.
Lemma q13 : (sqrt13 * sqrt13 = 1 / 3)%R. Proof. apply sqrt_sqrt; lra. Qed.
Lemma q23 : (sqrt23 * sqrt23 = 2 / 3)%R. Proof. apply sqrt_sqrt; lra. Qed.
Lemma q12 : (sqrt12 * sqrt12 = 1 / 2)%R. Proof. apply sqrt_sqrt; lra. Qed.
Lemma q16 : (sqrt16 * sqrt16 = 1 / 6)%R. Proof. apply sqrt_sqrt; lra. Qed.

Lemma decay_wrong : forall j, In j levelsP ->
  (decayInto caDecays levelsS j > rateS)%R /\ (decayInto caDecays levelsD j > rateD)%R /\
  (decayTo caDecays 1 j * decayTo caDecays 1 j = decayTo caDecays 0 j * decayTo caDecays 0 j * (if j =? 2 then 2 else / 2))%R.
Proof.
  pose proof s13. pose proof s23. pose proof s12. pose proof s16. pose proof q13 as Q1. pose proof q23 as Q2.
  intros j [<-|[<-|[]]]; unfold decayInto, decayTo, levelsS, levelsD, caDecays; cbn [filter map fold_right dcFirst dcSecond dcGamma Nat.eqb andb]; rewrite ?Rplus_0_r, ?Rplus_0_l; unfold gammaPS, gammaPD, rateS, rateD; repeat split; try lra.
Qed.
Lemma decay_rates : forall j, In j levelsP ->
  decayInto caDecays levelsS j = ((sqrt (1 / 3) + sqrt (2 / 3)) * rateS)%R /\ decayInto caDecays levelsD j = ((sqrt (1 / 2) + sqrt (1 / 3) + sqrt (1 / 6)) * rateD)%R.
Proof.

  intros j [<-|[<-|[]]]; unfold decayInto, decayTo, levelsS, levelsD, caDecays; cbn [filter map fold_right dcFirst dcSecond dcGamma Nat.eqb andb]; unfold gammaPS, gammaPD, rateS, rateD, sqrt13, sqrt23, sqrt12, sqrt16; split; field.
Qed.
Lemma decays_not_right : ~ decays_right caDecays.
Proof. intros H. destruct (H 2 (or_introl eq_refl)) as [E _]. destruct (decay_wrong 2 (or_introl eq_refl)) as [G _]. rewrite E in G. lra. Qed.
Lemma strengths p : forall j, In j levelsP -> strengthOf (caGs p) j = (aG p * aG p)%R.
Proof.
  pose proof q13 as Q1. pose proof q12 as Q2. pose proof q16 as Q3.
  intros j [<-|[<-|[]]]; unfold strengthOf, caGs; cbn [filter map fold_right cJ cG Nat.eqb]; unfold csq; cbn [fst snd RC]; set (g := aG p);
  [transitivity ((sqrt12 * sqrt12 + sqrt13 * sqrt13 + sqrt16 * sqrt16) * (g * g))%R|transitivity ((sqrt16 * sqrt16 + sqrt13 * sqrt13 + sqrt12 * sqrt12) * (g * g))%R]; [|rewrite Q1, Q2, Q3; field| |rewrite Q1, Q2, Q3; field]; cbn; ring.
Qed.
Lemma caGs_in p c : In c (caGs p) -> cI c < 8 /\ cJ c < 8.
Proof. unfold caGs. intros H. repeat (destruct H as [<-|H]; [cbn; lia|]). destruct H. Qed.
Lemma caPhononGs_in p c : In c (caPhononGs p) -> cI c < 8 /\ cJ c < 8.
Proof. unfold caPhononGs. intros H. repeat (destruct H as [<-|H]; [cbn; lia|]). destruct H. Qed.
Lemma ca_made p : 0 < aPhononCutoff p -> 0 < aCavityCutoff p ->
  exists s dp dc, caScript p = Ok s /\ csPhononInt s = MMade (Ok dp) /\ csCavityInt s = MMade (Ok dc) /\
    no_jump_generator (csCavity s) (modeGenerator (caCavity p)) /\ Forall2 (describes (aCavityCutoff p)) (msLindblads (csCavity s)) (modeJumps (caCavity p)) /\
    mljc_generator [8; aPhononCutoff p] [no_rate; modeRate (csPhonon s)] dp (overI (hMLJC (caPhononGs p))) /\
    mljc_generator [8; aCavityCutoff p] [no_rate; modeRate (csCavity s)] dc (overI (hMLJC (caGs p))) /\
    forall j, In j levelsP -> strengthOf (caGs p) j = (aG p * aG p)%R.
Proof.
  intros HP HC. destruct (make_generator (caCavity p) IP) as (sc & M & D & L & G); [exact HC|cbn; lra|split; left; reflexivity|]. destruct (make_ip _ _ M) as [z E].
  set (sp := mkMode (aPhononCutoff p) (Some ((0, - pDelta (caPhonon p))%R : CR)) None []).
  destruct (mljc_fact 8 true (cavityOf (caPhonon p) sp) (caPhononGs p)) as (dp & D1 & D2); [split; reflexivity|exact HP|apply caPhononGs_in|].
  destruct (mljc_fact 8 true (cavityOf (caCavity p) sc) (caGs p)) as (dc & C1 & C2); [unfold cavIs, cavityOf; rewrite E; split; reflexivity|exact HC|apply caGs_in|].
  eexists _, dp, dc. split; [unfold caScript, cMode; cbn [bind]; rewrite M; reflexivity|]. cbn [csPhononInt csCavityInt csPhonon csCavity]. split; [exact D1|]. split; [exact C1|]. split; [exact G|]. split.
  - rewrite L. apply (modeJumps_describe (caCavity p)); cbn; lra.
  - split; [|split; [|apply strengths]].
    + exact D2.
    + intros dts dt psi d y Hy. specialize (C2 dts dt psi d y Hy). cbn [cvDim cavityOf caCavity pCutoff] in C2.
      unfold carried in *. assert (T : forall y, together [no_rate; cavRate (cavityOf (caCavity p) sc)] y = together [no_rate; modeRate sc] y).
      { intros [|a [|b l]]; cbn [together]; rewrite ?cav_rate; reflexivity. }
      rewrite T in C2. rewrite C2. apply isum_ext. intros x _. now rewrite T.
Qed.
Lemma decays_keep_energy ds : forall z j, cim (fold_left (fun (z : nat -> CR) dc => upd z (dcSecond dc) (kadd (z (dcSecond dc)) (RC (dcGamma dc)))) ds z j) = cim (z j).
Proof.
  induction ds as [|d ds IH]; intros z j; [reflexivity|]. cbn [fold_left]. rewrite IH. unfold upd. destruct (Nat.eqb_spec j (dcSecond d)) as [->|]; [|reflexivity]. unfold cim. cbn. ring.
Qed.
Lemma z_energy p j : cim (multiLevelZ (caDeltas p) caDecays j) = 0%R.
Proof. unfold multiLevelZ. rewrite decays_keep_energy. unfold caDeltas, cim. cbn. ring. Qed.
Lemma energies p Z : (forall j, cim (Z j) = 0%R) -> energy (multiLevelH 8 Z (caPumps p)) 2 = 0%R /\ energy (multiLevelH 8 Z (caPumps p)) 0 = 0%R.
Proof.
  intros HZ. pose proof (HZ 2) as H2. pose proof (HZ 0) as H0. destruct (Z 2) as [a2 b2] eqn:E2. destruct (Z 0) as [a0 b0] eqn:E0. unfold cim in H2, H0. cbn [snd] in H2, H0. subst b2 b0.
  destruct (aEta p) as [e1 e2] eqn:Ee.
  unfold energy, multiLevelH, caPumps. cbn [fold_left seq pmFirst pmSecond pmEta]. unfold upd. cbn [Nat.eqb]. rewrite E2, E0, Ee. unfold cim. split; cbn; ring.
Qed.
Lemma detuning_ignored p s : caScript p = Ok s -> aDeltaEta p <> 0%R -> ~ laser_detuned (aDeltaEta p) (csH s).
Proof.
  intros E Hd H. apply Hd. specialize (H 0 2 (or_introl eq_refl) (or_introl eq_refl)).
  assert (HH : csH s = multiLevelH 8 (multiLevelZ (caDeltas p) caDecays) (caPumps p)).
  { revert E. unfold caScript, cMode. cbn [bind]. destruct (make (caCavity p) IP); cbn [bind]; intros E; try discriminate E. injection E as <-. reflexivity. }
  rewrite HH in H. destruct (energies p _ (z_energy p)) as [A B]. rewrite A, B in H. lra.
Qed.
Lemma decays_add_width ds : forall z j, cre (fold_left (fun (z : nat -> CR) dc => upd z (dcSecond dc) (kadd (z (dcSecond dc)) (RC (dcGamma dc)))) ds z j) =
  (cre (z j) + fold_right Rplus 0 (map dcGamma (filter (fun d => dcSecond d =? j) ds)))%R.
Proof.
  induction ds as [|d ds IH]; intros z j; [cbn; ring|]. cbn [fold_left filter]. rewrite IH. unfold upd. rewrite (Nat.eqb_sym (dcSecond d) j). destruct (Nat.eqb_spec j (dcSecond d)) as [->|]; [|reflexivity]. cbn [map fold_right]. unfold cre. cbn. ring.
Qed.
Lemma widths p Z : width (multiLevelH 8 Z (caPumps p)) 2 = cre (Z 2) /\ width (multiLevelH 8 Z (caPumps p)) 3 = cre (Z 3).
Proof.
  destruct (Z 2) as [a2 b2] eqn:E2. destruct (Z 3) as [a3 b3] eqn:E3. destruct (aEta p) as [e1 e2] eqn:Ee.
  unfold width, multiLevelH, caPumps. cbn [fold_left seq pmFirst pmSecond pmEta]. unfold upd. cbn [Nat.eqb]. rewrite E2, E3, Ee. unfold cre. split; cbn; ring.
Qed.
Lemma too_wide p s : caScript p = Ok s -> forall j, In j levelsP -> width (csH s) j = (decayInto caDecays levelsS j + decayInto caDecays levelsD j)%R /\ (width (csH s) j > rateS + rateD)%R.
Proof.
  intros E j Hj. assert (HH : csH s = multiLevelH 8 (multiLevelZ (caDeltas p) caDecays) (caPumps p)).
  { revert E. unfold caScript, cMode. cbn [bind]. destruct (make (caCavity p) IP); cbn [bind]; intros E; try discriminate E. injection E as <-. reflexivity. }
  assert (W : width (csH s) j = (decayInto caDecays levelsS j + decayInto caDecays levelsD j)%R).
  { rewrite HH. destruct (widths p (multiLevelZ (caDeltas p) caDecays)) as [A B]. destruct Hj as [<-|[<-|[]]]; [rewrite A|rewrite B]; unfold multiLevelZ; rewrite decays_add_width; unfold decayInto, decayTo, levelsS, levelsD, caDecays, caDeltas;
    cbn [filter map fold_right dcFirst dcSecond dcGamma Nat.eqb andb]; unfold cre; cbn [fst snd]; cbn -[sqrt12 sqrt13 sqrt16 sqrt23 gammaPS gammaPD]; ring. }
  split; [exact W|]. rewrite W. destruct (decay_wrong j Hj) as (A & B & _). lra.
Qed.
(** the default values, with the cutoffs and the coupling of the script *)
Definition caExample : caPars := mkCa ((30, 0)%R : CR) k0 (12 / 100) (14 / 10) (- 318803 / 1000) (- 31512 / 100) 1 20 3.
Lemma ca_example : 0 < aPhononCutoff caExample /\ 0 < aCavityCutoff caExample /\ aDeltaEta caExample <> 0%R /\ (0 < strengthOf (caGs caExample) 2)%R.
Proof. split; [cbn; lia|]. split; [cbn; lia|]. split; [cbn; lra|]. rewrite (strengths caExample 2 (or_introl eq_refl)). cbn. lra. Qed.

Lemma single_rates i j : In j levelsP -> (In i levelsS -> decayTo caDecays i j = (sqrt (weightS i j) * rateS)%R) /\ (In i levelsD -> decayTo caDecays i j = (sqrt (weightD i j) * rateD)%R).
Proof.
  assert (S0 : sqrt 0 = 0%R) by apply sqrt_0.
  intros Hj. split; intros Hi; cbn [levelsS levelsD levelsP In] in Hi, Hj; repeat destruct Hi as [<-|Hi]; try destruct Hi; repeat destruct Hj as [<-|Hj]; try destruct Hj;
    cbn -[sqrt gammaPS gammaPD rateS rateD Rdiv Rmult Rplus sqrt12 sqrt13 sqrt16 sqrt23]; unfold sqrt12, sqrt13, sqrt16, sqrt23, gammaPS, gammaPD, rateS, rateD; rewrite ?S0; lra.
Qed.
Lemma motion_made p : caPhonon p = motion (aOmega p) (aPhononCutoff p). Proof. reflexivity. Qed.
Lemma resonator_made p : caCavity p = resonator (aDeltaEta p) (aDeltaG p) (aEtaC p) (aCavityCutoff p). Proof. reflexivity. Qed.
Lemma phonon_coupling p y x : hMLJC (caPhononGs p) y x = phononCoupling (aPhononFactor p) (aEta p) y x.
Proof.
  unfold hMLJC, caPhononGs, phononCoupling, allPairs, levelsS, levelsP. cbn [flat_map map app ksum fst snd]. cbn [ksum cG cI cJ]. 
  change (driven 0 2) with false. change (driven 1 2) with true. change (driven 0 3) with true. change (driven 1 3) with false. cbv iota.
  assert (A : kmul (kopp CI) (kmul (RC (aPhononFactor p)) (aEta p)) = kmul (kmul (kopp CI) (RC (aPhononFactor p))) (aEta p)) by ring. rewrite A. ring.
Qed.
Lemma no_coupling sigma y x : hJaynesCummings (RC 0) sigma y x = k0.
Proof. unfold hJaynesCummings, plusO, hc, timesO. assert (E : kconj (RC 0) = (k0 : CR)) by (apply cr_eq; cbn; ring). rewrite E, !kconj_mul, kconj_0. ring. Qed.
Lemma cavity_coupling p y x : hMLJC (caGs p) y x = cavityCoupling (aG p) y x.
Proof.
  unfold hMLJC, caGs, cavityCoupling, allPairs, levelsD, levelsP. cbn [flat_map map app ksum fst snd]. cbn [ksum cG cI cJ].
  change (weightD 4 2) with (1 / 2)%R. change (weightD 5 2) with (1 / 3)%R. change (weightD 6 2) with (1 / 6)%R. change (weightD 7 2) with 0%R.
  change (weightD 4 3) with 0%R. change (weightD 5 3) with (1 / 6)%R. change (weightD 6 3) with (1 / 3)%R. change (weightD 7 3) with (1 / 2)%R.
  rewrite sqrt_0, Rmult_0_l, !no_coupling. unfold sqrt12, sqrt13, sqrt16. ring.
Qed.
Lemma lsum8 (f : nat -> CR) : lsum 8 f = kadd (f 0) (kadd (f 1) (kadd (f 2) (kadd (f 3) (kadd (f 4) (kadd (f 5) (kadd (f 6) (f 7))))))).
Proof. unfold lsum. cbn [seq ksum]. ring. Qed.
Lemma ca_z p : let z := multiLevelZ (caDeltas p) caDecays in
  z 0 = k0 /\ z 1 = k0 /\ z 4 = k0 /\ z 5 = k0 /\ z 6 = k0 /\ z 7 = k0 /\
  z 2 = RC ((sqrt (1 / 3) + sqrt (2 / 3)) * rateS + (sqrt (1 / 2) + sqrt (1 / 3) + sqrt (1 / 6)) * rateD) /\
  z 3 = RC ((sqrt (1 / 3) + sqrt (2 / 3)) * rateS + (sqrt (1 / 2) + sqrt (1 / 3) + sqrt (1 / 6)) * rateD).
Proof.
  cbv zeta. unfold multiLevelZ, caDecays, caDeltas. cbn [fold_left dcSecond dcGamma]. unfold upd. cbn [Nat.eqb].
  assert (Z : kmul (RC 0) (kopp CI) = (k0 : CR)) by (apply cr_eq; cbn; ring). rewrite Z.
  repeat split; rewrite <- ?RC_add, <- ?RC_mul; unfold rateS, rateD, gammaPS, gammaPD, sqrt12, sqrt13, sqrt16, sqrt23; rewrite <- ?RC_add; ring.
Qed.
Lemma ion_made p : is_operator 8 (fun psi => multiLevelH 8 (multiLevelZ (caDeltas p) caDecays) (caPumps p) psi (fun _ => k0)) (ionGenerator (aEta p)).
Proof.
  intros psi m Hm. destruct (ca_z p) as (Z0 & Z1 & Z4 & Z5 & Z6 & Z7 & Z2 & Z3). unfold multiLevelH. cbv zeta. rewrite lsum8.
  set (w := ((sqrt (1 / 3) + sqrt (2 / 3)) * rateS + (sqrt (1 / 2) + sqrt (1 / 3) + sqrt (1 / 6)) * rateD)%R) in *.
  assert (N : RC (- w) = kopp (RC w)) by (apply cr_eq; cbn; ring).
  cbn [seq fold_left caPumps pmFirst pmSecond pmEta]. unfold upd.
  destruct m as [|[|[|[|[|[|[|[|m]]]]]]]]; try lia; cbn [Nat.eqb]; rewrite ?Z0, ?Z1, ?Z2, ?Z3, ?Z4, ?Z5, ?Z6, ?Z7; unfold ionGenerator; cbn [Nat.eqb andb among existsb levelsS levelsP orb driven twiceM Z.eqb Pos.eqb negb]; fold w; rewrite ?N; ring.
Qed.
Lemma phonon_make p : make (caPhonon p) IP = cMode (caPhonon p).
Proof. unfold make, makePumped, makePlain, switch. cbn [caPhonon pKappa pEta]. rewrite isNonZero_0. unfold Reqb. destruct (Req_EM_T 0 0) as [_|N]; [reflexivity|congruence]. Qed.
Lemma ca_parts p : 0 < aPhononCutoff p -> 0 < aCavityCutoff p ->
  exists s dp dc, caScript p = Ok s /\ csPhononInt s = MMade (Ok dp) /\ csCavityInt s = MMade (Ok dc) /\
    is_operator 8 (fun psi => csH s psi (fun _ => k0)) (ionGenerator (aEta p)) /\
    no_jump_generator (csPhonon s) (modeGenerator (motion (aOmega p) (aPhononCutoff p))) /\ msLindblads (csPhonon s) = [] /\
    no_jump_generator (csCavity s) (modeGenerator (resonator (aDeltaEta p) (aDeltaG p) (aEtaC p) (aCavityCutoff p))) /\
    Forall2 (describes (aCavityCutoff p)) (msLindblads (csCavity s)) (modeJumps (resonator (aDeltaEta p) (aDeltaG p) (aEtaC p) (aCavityCutoff p))) /\
    mljc_generator [8; aPhononCutoff p] [no_rate; modeRate (csPhonon s)] dp (overI (phononCoupling (aPhononFactor p) (aEta p))) /\
    mljc_generator [8; aCavityCutoff p] [no_rate; modeRate (csCavity s)] dc (overI (cavityCoupling (aG p))) /\
    forall j, In j levelsP -> (fold_right Rplus 0%R (map (fun i => weightD i j) levelsD) = 1 /\ fold_right Rplus 0%R (map (fun i => weightS i j) levelsS) = 1)%R.
Proof.
  intros HP HC. destruct (ca_made p HP HC) as (s & dp & dc & E & P & C & G & J & MP & MC & _).
  assert (B : csH s = multiLevelH 8 (multiLevelZ (caDeltas p) caDecays) (caPumps p) /\ cMode (caPhonon p) = Ok (csPhonon s)).
  { revert E. unfold caScript, cMode. cbn [bind]. destruct (make (caCavity p) IP); cbn [bind]; intros E; try discriminate E. injection E as <-. split; reflexivity. }
  destruct B as [B1 B2]. exists s, dp, dc. do 3 (split; [assumption|]). split; [rewrite B1; apply ion_made|].
  destruct (make_generator (caPhonon p) IP) as (sp & M & _ & _ & Gp); [exact HP|cbn; lra|split; left; reflexivity|]. rewrite phonon_make, B2 in M. injection M as <-.
  split; [rewrite <- motion_made; exact Gp|]. split; [unfold cMode in B2; injection B2 as <-; reflexivity|]. split; [rewrite <- resonator_made; exact G|]. split; [rewrite <- resonator_made; exact J|].
  split; [|split].
  - intros dts dt psi d y Hy. rewrite (MP dts dt psi d y Hy). apply isum_ext. intros x _. unfold overI, timesO. now rewrite phonon_coupling.
  - intros dts dt psi d y Hy. rewrite (MC dts dt psi d y Hy). apply isum_ext. intros x _. unfold overI, timesO. now rewrite cavity_coupling.
  - intros j [<-|[<-|[]]]; split; cbn -[Rdiv]; lra.
Qed.
