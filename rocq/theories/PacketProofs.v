From Coq Require Import List Arith ZArith Reals Lra Lia Bool.
From Coquelicot Require Import Coquelicot.
From Verif Require Import Star CReal PureModel DdhoModel DdhoProofs FourierModel FourierSpec FourierProofs FourierFacts.
Import ListNotations.
Local Open Scope nat_scope.
Add Ring CRPacket : (k_ring CR).

Lemma overlap_real N psi : overlap N psi psi = RC (rsum (fun j => csq (psi j)) (seq 0 N)).
Proof.
  unfold overlap. generalize (seq 0 N). intros l. unfold rsum. induction l as [|a l IH]; [reflexivity|]. cbn [ksum fold_right]. rewrite IH, csq_conj, RC_add. reflexivity.
Qed.
Lemma rsum_csq_pos N psi j : j < N -> psi j <> k0 -> (0 < rsum (fun j => csq (psi j)) (seq 0 N))%R.
Proof.
  intros J H. assert (G : forall l, (0 <= rsum (fun j => csq (psi j)) l)%R /\ (In j l -> 0 < rsum (fun j => csq (psi j)) l)%R).
  { induction l as [|a l [IH1 IH2]]; [split; [cbn; lra|intros []]|]. unfold rsum in *. cbn [fold_right]. pose proof (csq_nonneg (psi a)). split; [lra|]. intros [->|I]; [|specialize (IH2 I); lra].
    assert (csq (psi j) <> 0%R) by (intros E; apply H, csq_zero, E). lra. }
  apply G. apply in_seq. lia.
Qed.
Lemma renormed_normalised N psi : (0 < rsum (fun j => csq (psi j)) (seq 0 N))%R -> normalised N (renormed N psi).
Proof.
  intros P. unfold normalised, renormed. cbv zeta. set (n := sqrt _). rewrite (overlap_ext N _ (fun j => kmul (RC (/ n)) (psi j)) _ (fun j => kmul (RC (/ n)) (psi j))) by (intros; ring).
  rewrite overlap_scal, overlap_real, RC_conj, !RC_mul. assert (E : (n * n = rsum (fun j => csq (psi j)) (seq 0 N))%R) by (apply sqrt_sqrt; lra). rewrite <- E. assert (0 < n)%R by (apply sqrt_lt_R0; lra).
  replace (/ n * / n * (n * n))%R with 1%R by (field; lra). reflexivity.
Qed.
Lemma rsum_inj N psi phi : overlap N psi psi = overlap N phi phi -> rsum (fun j => csq (psi j)) (seq 0 N) = rsum (fun j => csq (phi j)) (seq 0 N).
Proof. rewrite !overlap_real. apply RC_inj. Qed.
Lemma renormed_transform fin psi k : k < 2 ^ fin -> renormed (2 ^ fin) (ffLine (2 ^ fin) psi DIR_XK) k = ffLine (2 ^ fin) (renormed (2 ^ fin) psi) DIR_XK k.
Proof.
  intros K. unfold renormed. cbv zeta. rewrite (rsum_inj (2 ^ fin) _ psi (ffLine_overlap fin psi psi DIR_XK)). set (c := RC _).
  rewrite !(proj1 (fin_wave fin 1 _ k one_nz K)). rewrite (to_momentum_ext _ _ (fun j => kmul (psi j) c) (fun j => kmul c (psi j))) by (intros; ring). rewrite to_momentum_scal. ring.
Qed.
Lemma ff_pos fin psi dir : (0 < rsum (fun j => csq (psi j)) (seq 0 (2 ^ fin)))%R -> (0 < rsum (fun j => csq (ffLine (2 ^ fin) psi dir j)) (seq 0 (2 ^ fin)))%R.
Proof. intros P. rewrite (rsum_inj (2 ^ fin) _ psi (ffLine_overlap fin psi psi dir)). exact P. Qed.
Lemma momentum_form fin dk psi k : dk <> 0%R -> k < 2 ^ fin -> renormed (2 ^ fin) (ffLine (2 ^ fin) psi DIR_XK) k = kmul (common fin) (to_momentum (2 ^ fin) dk (renormed (2 ^ fin) psi) k).
Proof. intros H K. rewrite renormed_transform by exact K. exact (proj1 (fin_wave fin dk _ k H K)). Qed.
Lemma common_one fin : 2 <= fin -> common fin = k1.
Proof. intros L. destruct fin as [|[|fin]]; [lia|lia|reflexivity]. Qed.

(** wave packets *)
Definition packetRaw (init : initialCondition) (fin : nat) (deltaK : R) : line :=
  let offset1 := if iInK init then iK0 init else (PI * iX0 init)%R in
  let offset2 := if iInK init then (- (PI * iX0 init))%R else iK0 init in
  let array := if iInK init then spaceK fin deltaK else spaceX fin deltaK in
  fun i => cexp (((- ((array i - offset1) * (array i - offset1)) / (4 * (iSig init * iSig init)))%R, (array i * offset2)%R) : CR).
Lemma packet_unfold init fin dk kFlag : wavePacket init fin dk kFlag =
  renormed (2 ^ fin) (if kFlag && negb (iInK init) then ffLine (2 ^ fin) (packetRaw init fin dk) DIR_XK else if negb kFlag && iInK init then ffLine (2 ^ fin) (packetRaw init fin dk) DIR_KX else packetRaw init fin dk).
Proof. reflexivity. Qed.
Lemma packet_pos init fin dk : (0 < rsum (fun j => csq (packetRaw init fin dk j)) (seq 0 (2 ^ fin)))%R.
Proof. apply (rsum_csq_pos _ _ 0 (pow2_pos fin)). apply cexp_nz. Qed.
Lemma cexp_split a b : cexp ((a, b) : CR) = kmul (RC (exp a)) (cexp ((0%R, b) : CR)).
Proof. unfold cexp. cbn [fst snd]. rewrite exp_0. apply cr_eq; cbn; ring. Qed.
Lemma samples_renormed N grid f psi : (0 < rsum (fun j => csq (psi j)) (seq 0 N))%R -> (forall j, j < N -> psi j = f (grid j)) -> samples N grid f (renormed N psi).
Proof.
  intros P H. unfold renormed. cbv zeta. set (n := sqrt _). assert (0 < n)%R by (apply sqrt_lt_R0; exact P). exists (/ n)%R. split; [now apply Rinv_0_lt_compat|]. intros j J. rewrite H by exact J. ring.
Qed.
Lemma packet_facts init fin dk : dk <> 0%R -> iSig init <> 0%R ->
  (forall kFlag, normalised (2 ^ fin) (wavePacket init fin dk kFlag)) /\
  (iInK init = false -> samples (2 ^ fin) (gridX (2 ^ fin) dk) (gaussian (PI * iX0 init) (iSig init) (iK0 init)) (wavePacket init fin dk false)) /\
  (iInK init = true -> samples (2 ^ fin) (gridK (2 ^ fin) dk) (gaussian (iK0 init) (iSig init) (- (PI * iX0 init))) (wavePacket init fin dk true)) /\
  exists c, csq c = 1%R /\ (2 <= fin -> c = k1) /\ forall k, k < 2 ^ fin -> wavePacket init fin dk true k = kmul c (to_momentum (2 ^ fin) dk (wavePacket init fin dk false) k).
Proof.
  intros H _. pose proof (packet_pos init fin dk) as P. split; [|split; [|split]].
  - intros kFlag. rewrite packet_unfold. apply renormed_normalised. destruct (kFlag && negb (iInK init)); [now apply ff_pos|]. destruct (negb kFlag && iInK init); [now apply ff_pos|exact P].
  - intros E. rewrite packet_unfold, E. cbn [negb andb]. apply samples_renormed; [exact P|]. intros j _. unfold packetRaw. rewrite E. rewrite cexp_split, (proj2 (space_grid fin dk j H)). unfold gaussian. do 2 f_equal. f_equal. ring.
  - intros E. rewrite packet_unfold, E. cbn [negb andb]. apply samples_renormed; [exact P|]. intros j _. unfold packetRaw. rewrite E. rewrite cexp_split, (proj1 (space_grid fin dk j H)). unfold gaussian. do 2 f_equal. f_equal. ring.
  - exists (common fin). split; [apply common_csq|]. split; [apply common_one|]. intros k K. rewrite !packet_unfold. destruct (iInK init) eqn:E; cbn [negb andb].
    + set (raw := packetRaw init fin dk) in *. rewrite <- momentum_form by auto. unfold renormed. cbv zeta. rewrite ffLine_inverse by exact K. f_equal. do 3 f_equal.
      symmetry. apply rsum_ext_range. intros j J. f_equal. exact (ffLine_inverse fin raw DIR_KX j J).
    + now apply momentum_form.
Qed.

(** Hermite polynomials *)
Lemma pair_step n x : hermitePair n x = (hermite n x, hermite (Datatypes.S n) x).
Proof. unfold hermite. cbn [hermitePair]. destruct (hermitePair n x). reflexivity. Qed.
Lemma hermite_0 x : hermite 0 x = 1%R. Proof. reflexivity. Qed.
Lemma hermite_1 x : hermite 1 x = (2 * x)%R. Proof. reflexivity. Qed.
Lemma hermite_SS n x : hermite (Datatypes.S (Datatypes.S n)) x = (2 * (x * hermite (Datatypes.S n) x - INR (n + 1) * hermite n x))%R.
Proof.
  unfold hermite at 1. change (hermitePair (Datatypes.S (Datatypes.S n)) x) with (let (a, b) := hermitePair (Datatypes.S n) x in (b, (2 * (x * b - INR (Datatypes.S n + 1) * a))%R)). rewrite pair_step. cbn [fst].
  unfold hermite at 1. change (hermitePair (Datatypes.S (Datatypes.S n)) x) with (let (a, b) := hermitePair (Datatypes.S n) x in (b, (2 * (x * b - INR (Datatypes.S n + 1) * a))%R)).
  change (hermitePair (Datatypes.S n) x) with (let (a, b) := hermitePair n x in (b, (2 * (x * b - INR (n + 1) * a))%R)). rewrite pair_step. reflexivity.
Qed.
Lemma hermite_deriv n : forall x, derivable_pt_lim (hermite n) x (2 * INR n * hermite (pred n) x)%R /\ derivable_pt_lim (hermite (Datatypes.S n)) x (2 * INR (Datatypes.S n) * hermite n x)%R.
Proof.
  induction n as [|n IH]; intros x.
  - split.
    + replace (2 * INR 0 * hermite (pred 0) x)%R with 0%R by (cbn [INR]; ring). apply (derivable_pt_lim_ext (fun _ => 1%R)); [reflexivity|]. apply derivable_pt_lim_const.
    + replace (2 * INR 1 * hermite 0 x)%R with (2 * 1)%R by (cbn [INR]; rewrite hermite_0; ring). apply (derivable_pt_lim_ext (fun x => 2 * x)%R); [reflexivity|]. apply derivable_pt_lim_scal. apply derivable_pt_lim_id.
  - split; [apply IH|]. apply (derivable_pt_lim_ext (fun x => 2 * (x * hermite (Datatypes.S n) x - INR (n + 1) * hermite n x))%R); [intros; symmetry; apply hermite_SS|].
    destruct (IH x) as [A B].
    replace (2 * INR (Datatypes.S (Datatypes.S n)) * hermite (Datatypes.S n) x)%R with (2 * (1 * hermite (Datatypes.S n) x + x * (2 * INR (Datatypes.S n) * hermite n x) - INR (n + 1) * (2 * INR n * hermite (pred n) x)))%R.
    + apply derivable_pt_lim_scal. apply derivable_pt_lim_minus; [|now apply derivable_pt_lim_scal]. apply (derivable_pt_lim_mult (fun x => x) (hermite (Datatypes.S n))); [apply derivable_pt_lim_id|exact B].
    + replace (n + 1) with (Datatypes.S n) by lia. rewrite !S_INR. destruct n as [|n]; [rewrite hermite_1, hermite_0; cbn [INR]; ring|]. cbn [pred]. rewrite (hermite_SS n). replace (n + 1) with (Datatypes.S n) by lia. rewrite !S_INR. ring.
Qed.
Lemma hermite_relation n x : hermite (Datatypes.S n) x = (2 * x * hermite n x - 2 * INR n * hermite (pred n) x)%R.
Proof. destruct n as [|n]; [rewrite hermite_1, hermite_0; cbn [INR]; ring|]. rewrite hermite_SS. cbn [pred]. replace (n + 1) with (Datatypes.S n) by lia. ring. Qed.
Definition padd := fix padd (p q : list R) : list R := match p, q with [], _ => q | _, [] => p | a :: p', b :: q' => (a + b)%R :: padd p' q' end.
Lemma padd_eval p : forall q t, polynomial (padd p q) t = (polynomial p t + polynomial q t)%R.
Proof. induction p as [|a p IH]; intros [|b q] t; cbn [padd polynomial]; try ring. rewrite IH. ring. Qed.
Lemma pscal_eval c p t : polynomial (map (Rmult c) p) t = (c * polynomial p t)%R.
Proof. induction p as [|a p IH]; cbn [map polynomial]; [ring|]. rewrite IH. ring. Qed.
Lemma hermite_poly n : (exists p, forall t, hermite n t = polynomial p t) /\ (exists p, forall t, hermite (Datatypes.S n) t = polynomial p t).
Proof.
  induction n as [|n [[p Hp] [q Hq]]].
  - split; [exists [1%R]|exists [0%R; 2%R]]; intros t; rewrite ?hermite_0, ?hermite_1; cbn [polynomial]; ring.
  - split; [exists q; exact Hq|]. exists (map (Rmult 2) (padd (0%R :: q) (map (Rmult (- INR (n + 1))) p))). intros t. rewrite hermite_SS, Hp, Hq, pscal_eval, padd_eval, pscal_eval. cbn [polynomial]. ring.
Qed.
(** some value at 0 or slope is not zero: H_n(0) and H_{n+1}(0) do not both vanish, one of them not by parity *)
Lemma hermite_nonzero n : exists t, hermite n t <> 0%R.
Proof.
  (* if H_n vanished everywhere so would its derivative, hence H_{n-1}, ..., H_0=1 *)
  induction n as [|n [t IH]].
  - exists 0%R. rewrite hermite_0. lra.
  - destruct (Req_dec (hermite (Datatypes.S n) t) 0) as [Z|Z]; [|now exists t].
    (* the derivative at t is not 0 *)
    destruct (hermite_deriv n t) as [_ D]. set (d := (2 * INR (Datatypes.S n) * hermite n t)%R) in *.
    assert (Dn : d <> 0%R). { unfold d. apply Rmult_integral_contrapositive_currified; [|exact IH]. assert (0 < INR (Datatypes.S n))%R by (apply lt_0_INR; lia). lra. }
    assert (E : (0 < Rabs d)%R) by now apply Rabs_pos_lt. destruct (D (Rabs d) E) as [del Hd]. exists (t + del / 2)%R. intros Z2.
    assert (Q := cond_pos del). specialize (Hd (del / 2)%R). assert (X : (Rabs ((hermite (Datatypes.S n) (t + del / 2) - hermite (Datatypes.S n) t) / (del / 2) - d) < Rabs d)%R).
    { apply Hd; [lra|]. rewrite Rabs_right; lra. }
    rewrite Z, Z2 in X. replace ((0 - 0) / (del / 2) - d)%R with (- d)%R in X by (field; lra). rewrite Rabs_Ropp in X. lra.
Qed.
Definition hoFunction (n : nat) (t : R) : R := (exp (- (t * t) / 2) * hermite n t)%R.
Lemma ho_function n : ho_eigenstate n (hoFunction n).
Proof.
  unfold hoFunction. split; [|split].
  - destruct (hermite_poly n) as [[p H] _]. exists p. intros t. now rewrite H.
  - destruct (hermite_nonzero n) as [t H]. exists t. apply Rmult_integral_contrapositive_currified; [|exact H]. apply Rgt_not_eq, exp_pos.
  - set (e := fun t => exp (- (t * t) / 2)). assert (De : forall t, derivable_pt_lim e t (- t * e t)%R). { intros t. unfold e. apply is_derive_Reals. auto_derive; auto. unfold Rdiv. field. }
    (* u = e H_n, u' = e (t H_n - H_{n+1}) *)
    exists (fun t => e t * (t * hermite n t - hermite (Datatypes.S n) t))%R, (fun t => - t * e t * (t * hermite n t - hermite (Datatypes.S n) t) + e t * (1 * hermite n t + t * (2 * INR n * hermite (pred n) t) - 2 * INR (Datatypes.S n) * hermite n t))%R.
    split; [|split].
    + intros t. replace (e t * (t * hermite n t - hermite (Datatypes.S n) t))%R with (- t * e t * hermite n t + e t * (2 * INR n * hermite (pred n) t))%R by (rewrite hermite_relation; ring).
      apply (derivable_pt_lim_mult e (hermite n)); [apply De|apply hermite_deriv].
    + intros t. apply (derivable_pt_lim_mult e (fun t => t * hermite n t - hermite (Datatypes.S n) t)%R); [apply De|]. apply derivable_pt_lim_minus; [|apply hermite_deriv].
      apply (derivable_pt_lim_mult (fun t => t) (hermite n)); [apply derivable_pt_lim_id|apply hermite_deriv].
    + intros t. fold (e t). rewrite hermite_relation, S_INR. ring.
Qed.
Lemma ho_facts n : exists u, ho_eigenstate (Z.to_nat n) u /\ forall init fin dk, dk <> 0%R -> iSig init <> 0%R ->
  let shifted x := RC (u ((x - PI * iX0 init) / iSig init)%R) in
  (exists j, j < 2 ^ fin /\ shifted (gridX (2 ^ fin) dk j) <> k0) ->
  (forall kFlag, normalised (2 ^ fin) (hoState n init fin dk kFlag)) /\
  samples (2 ^ fin) (gridX (2 ^ fin) dk) shifted (hoState n init fin dk false) /\
  exists c, csq c = 1%R /\ (2 <= fin -> c = k1) /\ forall k, k < 2 ^ fin -> hoState n init fin dk true k = kmul c (to_momentum (2 ^ fin) dk (hoState n init fin dk false) k).
Proof.
  exists (hoFunction (Z.to_nat n)). split; [apply ho_function|]. intros init fin dk H _ shifted [j [J NZ]].
  assert (EZ : Z.to_nat (if (n <? 0)%Z then 0%Z else n) = Z.to_nat n) by (destruct (Z.ltb_spec n 0); lia).
  unfold hoState. cbv zeta. rewrite EZ. set (raw := fun j => RC _).
  assert (E : forall j, j < 2 ^ fin -> raw j = shifted (gridX (2 ^ fin) dk j)). { intros i _. unfold raw, shifted, hoFunction. now rewrite (proj2 (space_grid fin dk i H)). }
  assert (P : (0 < rsum (fun j => csq (raw j)) (seq 0 (2 ^ fin)))%R). { apply (rsum_csq_pos _ raw j J). now rewrite E. }
  split; [|split].
  - intros kFlag. apply renormed_normalised. destruct kFlag; [now apply ff_pos|exact P].
  - apply samples_renormed; [exact P|exact E].
  - exists (common fin). split; [apply common_csq|]. split; [apply common_one|]. intros k K. now apply momentum_form.
Qed.

(** the default width *)
Lemma ground_state omrec V x0 : (0 < omrec)%R -> (0 < V)%R -> exists g1 g2 E,
  (forall x, 0 < ground omrec V x0 x)%R /\ (forall x, derivable_pt_lim (ground omrec V x0) x (g1 x)) /\ (forall x, derivable_pt_lim g1 x (g2 x)) /\
  forall x, (- omrec * g2 x + V * ((x - x0) * (x - x0)) * ground omrec V x0 x = E * ground omrec V x0 x)%R.
Proof.
  intros Ho HV. set (s := sqrt (V / omrec)). assert (S : (s * s = V / omrec)%R) by (apply sqrt_sqrt; apply Rlt_le, Rdiv_lt_0_compat; auto).
  exists (fun x => - (s * (x - x0)) * ground omrec V x0 x)%R, (fun x => (s * s * ((x - x0) * (x - x0)) - s) * ground omrec V x0 x)%R, (omrec * s)%R.
  assert (D : forall x, derivable_pt_lim (ground omrec V x0) x (- (s * (x - x0)) * ground omrec V x0 x)%R). { intros x. unfold ground. fold s. apply is_derive_Reals. auto_derive; auto. match goal with |- (_ * exp ?a)%R = (_ * exp ?b)%R => replace a with b by (unfold Rdiv; ring); field end. }
  split; [intros; apply exp_pos|]. split; [exact D|]. split.
  - intros x. replace ((s * s * ((x - x0) * (x - x0)) - s) * ground omrec V x0 x)%R with (- s * ground omrec V x0 x + - (s * (x - x0)) * (- (s * (x - x0)) * ground omrec V x0 x))%R by ring.
    apply (derivable_pt_lim_mult (fun x => - (s * (x - x0)))%R (ground omrec V x0)); [|apply D]. apply is_derive_Reals. auto_derive; auto. ring.
  - intros x. assert (SV : V = (omrec * (s * s))%R) by (rewrite S; field; lra). set (g := ground omrec V x0 x). rewrite SV at 1. ring.
Qed.
Lemma default_sigma q : (0 < q)%R -> (4 * (Rpower q (1 / 4) / sqrt 2 * (Rpower q (1 / 4) / sqrt 2)) = 2 * sqrt q)%R.
Proof.
  intros H. assert (S2 : (sqrt 2 * sqrt 2 = 2)%R) by (apply sqrt_sqrt; lra). assert (0 < sqrt 2)%R by (apply sqrt_lt_R0; lra).
  assert (Q : (Rpower q (1 / 4) * Rpower q (1 / 4) = sqrt q)%R). { rewrite <- Rpower_plus, <- Rpower_sqrt by exact H. f_equal. field. }
  replace (Rpower q (1 / 4) / sqrt 2 * (Rpower q (1 / 4) / sqrt 2))%R with (Rpower q (1 / 4) * Rpower q (1 / 4) / (sqrt 2 * sqrt 2))%R by (field; lra). rewrite Q, S2. field.
Qed.
Lemma default_packet p : (0 < pOmrec p)%R -> pVClass p <> 0%R -> iSig (pInit p) = 0%R -> iK0 (pInit p) = 0%R -> (pHoInitn p < 0)%Z ->
  samples (2 ^ pFin p) (gridX (2 ^ pFin p) 1) (fun x => RC (ground (pOmrec p) (Rabs (pVClass p)) (PI * iX0 (pInit p)) x)) (pumpedInit p false).
Proof.
  intros Ho HV Hs Hk Hn. unfold pumpedInit. destruct (Z.ltb_spec (pHoInitn p) 0); [|lia]. unfold conditionOf. destruct (Req_EM_T (iSig (pInit p)) 0) as [_|N]; [|now destruct N].
  rewrite packet_unfold. cbn [coherentCondition iInK negb andb]. apply samples_renormed; [apply packet_pos|]. intros j _. unfold packetRaw. cbn [coherentCondition iInK iX0 iK0 iSig].
  assert (V0 : (0 < Rabs (pVClass p))%R) by now apply Rabs_pos_lt. rewrite default_sigma by (now apply Rdiv_lt_0_compat). rewrite Hk, Rmult_0_r, cexp_split, (proj2 (space_grid (pFin p) 1 j one_nz)).
  assert (E : cexp ((0%R, 0%R) : CR) = k1) by exact cexp_0. rewrite E. unfold ground. rewrite (sqrt_div_alt _ _ Ho).
  assert (P1 : (0 < sqrt (pOmrec p))%R) by (apply sqrt_lt_R0; exact Ho). assert (P2 : (0 < sqrt (Rabs (pVClass p)))%R) by (apply sqrt_lt_R0; exact V0).
  rewrite (sqrt_div_alt _ _ V0). match goal with |- kmul (RC (exp ?a)) k1 = RC (exp ?b) => replace a with b by (field; lra) end. ring.
Qed.
Definition badPars : parsPumped := mkParsPumped 1 2 (mkInit 0 0 0 false) 0 (-1).
Lemma default_bad : ~ samples (2 ^ pFin badPars) (gridX (2 ^ pFin badPars) 1) (fun x => RC (ground (pOmrec badPars) (Rabs (pVClass badPars)) (PI * iX0 (pInit badPars)) x)) (pumpedInit badPars false).
Proof.
  intros [c [Hc H]]. unfold pumpedInit, conditionOf in H. cbn [pHoInitn badPars Z.ltb Z.compare pInit iSig pFin] in H. destruct (Req_EM_T 0 0) as [_|N] in H; [|lra].
  unfold hoState in H. cbv zeta in H. cbn [coherentCondition iX0 iSig pInit badPars pOmrec pVClass Z.ltb Z.compare Z.to_nat] in H.
  assert (A : Rabs (-1) = 1%R) by (rewrite Rabs_left; lra). rewrite A in H. assert (R1 : Rpower (1 / 1) (1 / 4) = 1%R). { replace (1 / 1)%R with 1%R by field. unfold Rpower. rewrite ln_1, Rmult_0_r. apply exp_0. } rewrite R1 in H.
  unfold renormed in H. cbv zeta in H. set (n := sqrt (rsum _ _)) in H. assert (G : forall j, gridX (2 ^ 2) 1 j = (PI / 2 * (INR j - 2))%R). { intros j. unfold gridX. change (2 ^ 2) with 4. cbn [INR]. field. }
  assert (H2 := H 2 ltac:(cbn; lia)). assert (H0 := H 0 ltac:(cbn; lia)). clear H. rewrite !hermite_0 in *. rewrite !(proj2 (space_grid 2 1 _ one_nz)), !G in *. cbn [INR] in *. unfold ground in *.
  apply (f_equal fst) in H2, H0. cbn [kmul CR cr_mul RC fst snd] in H0, H2.
  assert (S2 : (sqrt 2 * sqrt 2 = 2)%R) by (apply sqrt_sqrt; lra). assert (P2 : (0 < sqrt 2)%R) by (apply sqrt_lt_R0; lra).
  replace (1 / 1)%R with 1%R in * by field. rewrite sqrt_1 in *.
  assert (E2 : (c = / n)%R).
  { match type of H2 with context [exp (- (?a * ?a) / 2)] => replace (- (a * a) / 2)%R with 0%R in H2 by (field; lra) end. match type of H2 with context [exp (- (1 * ?b / 2))] => replace (- (1 * b / 2))%R with 0%R in H2 by field end. rewrite exp_0 in H2. lra. }
  match type of H0 with context [exp (- (?a * ?a) / 2)] => replace (- (a * a) / 2)%R with (- (PI * PI / 2 * (sqrt 2 * sqrt 2)))%R in H0 by (field; lra) end. rewrite S2 in H0.
  match type of H0 with context [exp (- (1 * ?b / 2))] => replace (- (1 * b / 2))%R with (- (PI * PI / 2))%R in H0 by field end. rewrite <- E2 in H0.
  assert (X : exp (- (PI * PI / 2 * 2)) = exp (- (PI * PI / 2))). { apply (Rmult_eq_reg_l c); [|lra]. lra. } apply exp_inv in X. assert (P := PI_RGT_0). nra.
Qed.
