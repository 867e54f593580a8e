(** initialconditions.py *)
From Coq Require Import List Arith ZArith Reals Lra Lia Bool.
From Verif Require Import Star Arr CReal PureModel FourierModel FourierSpec FourierProofs FourierFacts PacketProofs PyModel PySpec PyLists PyExpect PyAct PyFourier.
Import ListNotations.
Local Open Scope nat_scope.
Add Ring KPI : (k_ring CR).

Lemma isum_one N (f : list nat -> CR) : isum [N] f = ksum (fun j => f [j]) (seq 0 N).
Proof. rewrite isum_cons. apply ksum_ext. intros j _. apply isum_nil. Qed.
Lemma cre_ksum {A} (f : A -> CR) l : cre (ksum f l) = rsum (fun a => cre (f a)) l.
Proof. induction l as [|a l IH]; [reflexivity|]. change (rsum (fun a => cre (f a)) (a :: l)) with (cre (f a) + rsum (fun a => cre (f a)) l)%R. rewrite <- IH. reflexivity. Qed.
Lemma one_inr N j : j < N -> inr [N] [j]. Proof. intros H. constructor; [exact H|constructor]. Qed.
Lemma normalize_renormed a N c (f : line) : shape a = [N] -> (0 < c)%R -> (0 < rsum (fun j => csq (f j)) (seq 0 N))%R -> (forall j, j < N -> elem a [j] = kmul (RC c) (f j)) -> forall j, j < N -> elem (normalize a) [j] = renormed N f j.
Proof.
  intros S Hc Hp E j Hj. unfold normalize, scale, renormed. cbn [elem]. rewrite E by auto. unfold norm. rewrite S, isum_one, cre_ksum.
  assert (Q : rsum (fun j => cre (kmul (elem a [j]) (kconj (elem a [j])))) (seq 0 N) = (c * c * rsum (fun j => csq (f j)) (seq 0 N))%R).
  { transitivity (rsum (fun j => (c * c * csq (f j))%R) (seq 0 N)).
    - apply rsum_ext_range. intros i Hi. rewrite E by auto. unfold csq. cbn. ring.
    - clear Hp. unfold rsum. induction (seq 0 N) as [|x l IH]; cbn [fold_right]; [ring|]. rewrite IH. ring. }
  rewrite Q, sqrt_mult_alt by nra. rewrite sqrt_square by lra. set (w := rsum (fun j => csq (f j)) (seq 0 N)) in *. assert (0 < sqrt w)%R by now apply sqrt_lt_R0.
  transitivity (kmul (kmul (RC (/ (c * sqrt w))) (RC c)) (f j)); [ring|]. rewrite RC_mul. replace (/ (c * sqrt w) * c)%R with (/ sqrt w)%R by (field; lra). ring.
Qed.

Lemma Rpower_pos x y : (0 < Rpower x y)%R. Proof. apply exp_pos. Qed.
Lemma gaussian_packet x0 k0 sigma fin inK : (0 < sigma)%R -> 2 <= fin -> forall j, j < 2 ^ fin ->
  elem (pyGaussian x0 k0 sigma fin inK true) [j] = wavePacket (mkInit x0 k0 sigma inK) fin 1 true j.
Proof.
  intros Hs Hf j Hj. set (N := 2 ^ fin) in *. assert (NP : (0 < INR N)%R) by (apply lt_0_INR; apply pow2_pos).
  set (init := mkInit x0 k0 sigma inK). unfold pyGaussian. fold N. cbv zeta. set (L := if inK then INR N else (2 * PI)%R).
  assert (LP : (0 < L)%R) by (unfold L; destruct inK; auto; pose proof PI_RGT_0; lra).
  set (c := (sqrt (L / INR N) / Rpower (2 * PI) (1 / 4) / sqrt sigma)%R).
  assert (cP : (0 < c)%R).
  { unfold c. repeat apply Rdiv_lt_0_compat; auto using Rpower_pos, sqrt_lt_R0. apply sqrt_lt_R0. now apply Rdiv_lt_0_compat. }
  set (psi := mkArr [N] _). assert (Ep : forall i, i < N -> elem psi [i] = kmul (RC c) (packetRaw init fin 1 i)).
  { intros i Hi. unfold psi. cbn [elem nth]. unfold packetRaw. cbn [iInK iX0 iK0 iSig init]. symmetry. rewrite cexp_split. destruct (space_grid fin 1 i one_nz) as [G1 G2]. rewrite <- RC_mul.
    assert (Y : (- L / 2 + INR i * (L / INR N))%R = if inK then spaceK fin 1 i else spaceX fin 1 i).
    { rewrite G1, G2. unfold gridK, gridX, L. fold N. destruct inK; field; lra. }
    destruct inK; rewrite Y; rewrite (Rmult_comm x0 PI); ring. }
  rewrite packet_unfold. cbn [iInK init andb negb]. fold N. destruct inK; cbn [andb negb].
  - apply (normalize_renormed psi N c); auto. apply packet_pos.
  - apply (normalize_renormed _ N c); auto.
    + apply ff_pos. apply packet_pos.
    + intros i Hi. destruct (fft_value psi [0]) as (_ & _ & V).
      * constructor; [auto|constructor].
      * intros p [<-|[]]. unfold ndim. cbn. lia.
      * intros p [<-|[]]. cbn [psi shape nth]. apply power_even. lia.
      * destruct (V [i]) as [V1 _]; [now apply one_inr|]. rewrite V1. cbn [fold_left]. unfold momentum_in. cbn [psi shape nth]. change (fun v => elem psi (replaced 0 v [i])) with (fun v => elem psi [v]).
        unfold N. destruct (ffLine_momentum fin (packetRaw init fin 1) i Hf Hi) as [E _]. rewrite E, <- to_momentum_scal. apply to_momentum_ext. intros v Hv. now apply Ep.
Qed.
Lemma gaussian_both x0 k0 sigma fin inK : (0 < sigma)%R -> 2 <= fin -> forall j, j < 2 ^ fin ->
  elem (pyGaussian x0 k0 sigma fin inK true) [j] = wavePacket (mkInit x0 k0 sigma inK) fin 1 true j /\
  elem (pyGaussian (x0 * PI) k0 sigma fin inK false) [j] = wavePacket (mkInit x0 k0 sigma inK) fin 1 true j.
Proof.
  intros Hs Hf j Hj. split; [now apply gaussian_packet|]. change (pyGaussian (x0 * PI) k0 sigma fin inK false) with (pyGaussian x0 k0 sigma fin inK true). now apply gaussian_packet.
Qed.
Lemma gaussian_case : (0 < 1 / 10)%R /\ 2 <= 6 /\ 33 < 2 ^ 6.
Proof. split; [lra|]. split; [lia|]. apply Nat.ltb_lt. reflexivity. Qed.

(** coherent states *)
Lemma coherentElement_closed alpha n : coherentElement alpha n = (cre alpha ^ n / sqrt (INR (fact n)))%R.
Proof.
  induction n as [|n IH]; [cbn [coherentElement pow fact]; change (INR 1) with 1%R; rewrite sqrt_1; field|]. cbn [coherentElement]. rewrite IH.
  change (fact (S n)) with (S n * fact n). rewrite mult_INR, sqrt_mult_alt by apply pos_INR.
  assert (0 < sqrt (INR (fact n)))%R by (apply sqrt_lt_R0, INR_fact_lt_0). assert (0 < sqrt (INR (S n)))%R by (apply sqrt_lt_R0, lt_0_INR; lia).
  unfold cre, RC. cbn [kmul CR]. cbn [cr_mul fst snd]. cbn [pow]. field. lra.
Qed.
Lemma kpow_real (a : R) n : kpow (RC a) n = RC (a ^ n).
Proof. induction n as [|n IH]; [reflexivity|]. change (kpow (RC a) (S n)) with (kmul (RC a) (kpow (RC a) n)). rewrite IH, RC_mul. reflexivity. Qed.
Lemma coherent_spec alpha N : 0 < N -> exists sv, pyCoherent alpha N = Some sv /\ shape sv = [N] /\
  forall n, n < N -> elem sv [n] = kmul (RC (exp (- (cim alpha * cim alpha) / 2))) (coherent_amplitude (RC (cre alpha)) n).
Proof.
  intros HN. unfold pyCoherent. destruct (Nat.eqb_spec N 0) as [|_]; [lia|]. eexists. split; [reflexivity|]. split; [reflexivity|]. intros n Hn. cbn [elem nth].
  rewrite coherentElement_closed. unfold coherent_amplitude. rewrite kpow_real, !RC_mul. f_equal. rewrite csq_RC. unfold csq, cre, cim.
  replace (- (fst alpha * fst alpha + snd alpha * snd alpha) / 2)%R with (- (snd alpha * snd alpha) / 2 + - (fst alpha * fst alpha) / 2)%R by field. rewrite exp_plus. unfold Rdiv. ring.
Qed.
Lemma coherent_real a N : 0 < N -> exists sv, pyCoherent (RC a) N = Some sv /\ shape sv = [N] /\ forall n, n < N -> elem sv [n] = coherent_amplitude (RC a) n.
Proof.
  intros HN. destruct (coherent_spec (RC a) N HN) as (sv & E & S & V). exists sv. split; auto. split; auto. intros n Hn. rewrite V by auto. cbn [cre cim RC fst snd].
  replace (- (0 * 0) / 2)%R with 0%R by field. rewrite exp_0. apply cr_eq; cbn; ring.
Qed.
Lemma coherent_wrong alpha N : cim alpha <> 0%R -> 2 <= N -> exists sv, pyCoherent alpha N = Some sv /\ elem sv [1] <> coherent_amplitude alpha 1.
Proof.
  intros Hi HN. unfold pyCoherent. destruct (Nat.eqb_spec N 0) as [|_]; [lia|]. eexists. split; [reflexivity|]. cbn [elem nth]. intros E. apply (f_equal snd) in E.
  unfold coherent_amplitude, kpow in E. cbn [Nat.iter nat_rect fact] in E. change (INR (1 * 1)) with 1%R in E. rewrite sqrt_1 in E. cbn in E. pose proof (exp_pos (- csq alpha / 2)). apply Hi. unfold cim. 
  match type of E with (0 = ?x)%R => replace x with (exp (- csq alpha / 2) * snd alpha)%R in E by (field) end. nra.
Qed.

(** basis states *)
Lemma fock_spec dim i : ((0 <= i < Z.of_nat dim)%Z -> exists sv, fock dim i = Some sv /\ shape sv = [dim] /\ forall x, elem sv x = basis_state (Z.to_nat i) x) /\
  ((Z.of_nat dim <= i)%Z -> fock dim i = None) /\ ((i < - Z.of_nat dim)%Z -> fock dim i = None) /\
  ((- Z.of_nat dim <= i < 0)%Z -> exists sv, fock dim i = Some sv /\ shape sv = [dim] /\ forall x, elem sv x = basis_state (Z.to_nat (i + Z.of_nat dim)) x).
Proof.
  unfold fock. repeat split.
  - intros H. destruct (Z.ltb_spec i 0); [lia|]. replace ((0 <=? i) && (i <? Z.of_nat dim))%Z with true by (symmetry; apply andb_true_intro; split; [apply Z.leb_le|apply Z.ltb_lt]; lia).
    eexists. split; [reflexivity|]. split; [reflexivity|]. intros x. cbn [elem]. unfold basis_state. destruct (Z.eqb_spec (Z.of_nat (nth 0 x 0)) i), (Nat.eqb_spec (nth 0 x 0) (Z.to_nat i)); auto; lia.
  - intros H. destruct (Z.ltb_spec i 0); [lia|]. destruct (Z.ltb_spec i (Z.of_nat dim)); [lia|]. now rewrite andb_false_r.
  - intros H. destruct (Z.ltb_spec i 0); [|lia]. destruct (Z.leb_spec 0 (i + Z.of_nat dim)); [lia|]. reflexivity.
  - intros H. destruct (Z.ltb_spec i 0); [|lia]. replace ((0 <=? i + Z.of_nat dim) && (i + Z.of_nat dim <? Z.of_nat dim))%Z with true by (symmetry; apply andb_true_intro; split; [apply Z.leb_le|apply Z.ltb_lt]; lia).
    eexists. split; [reflexivity|]. split; [reflexivity|]. intros x. cbn [elem]. unfold basis_state. destruct (Z.eqb_spec (Z.of_nat (nth 0 x 0)) (i + Z.of_nat dim)), (Nat.eqb_spec (nth 0 x 0) (Z.to_nat (i + Z.of_nat dim))); auto; lia.
Qed.
Lemma half_Z fin : 1 <= fin -> Z.of_nat (2 ^ fin) = (2 * Z.of_nat (2 ^ fin / 2))%Z.
Proof. intros H. destruct fin as [|f]; [lia|]. cbn [Nat.pow]. rewrite (Nat.mul_comm 2 (2 ^ f)), Nat.div_mul by lia. lia. Qed.
Lemma grid_of fin i : 1 <= fin -> (0 <= i)%Z -> gridK (2 ^ fin) 1 (Z.to_nat i) = IZR (i - Z.of_nat (2 ^ fin / 2)).
Proof.
  intros Hf Hi. unfold gridK. destruct (power_even fin Hf) as [_ He]. rewrite even_half by auto. rewrite !INR_IZR_INZ, Z2Nat.id by auto. rewrite minus_IZR. ring.
Qed.
Lemma momentum_spec k fin : 1 <= fin -> let half := Z.of_nat (2 ^ fin / 2) in
  ((- half <= k < half)%Z -> exists sv m, momentumEigen k fin = Some sv /\ shape sv = [2 ^ fin] /\ (forall x, elem sv x = basis_state m x) /\ m < 2 ^ fin /\ gridK (2 ^ fin) 1 m = IZR k) /\
  ((half <= k)%Z -> momentumEigen k fin = None) /\
  ((- 3 * half <= k < - half)%Z -> exists sv m, momentumEigen k fin = Some sv /\ (forall x, elem sv x = basis_state m x) /\ m < 2 ^ fin /\ gridK (2 ^ fin) 1 m = IZR (k + 2 * half)).
Proof.
  intros Hf half. pose proof (half_Z fin Hf) as E. fold half in E. unfold momentumEigen. fold half. destruct (fock_spec (2 ^ fin) (k + half)) as (F1 & F2 & F3 & F4). rewrite E in *. repeat split.
  - intros H. destruct F1 as (sv & G1 & G2 & G3); [lia|]. exists sv, (Z.to_nat (k + half)). split; auto. split; auto. split; auto. split; [lia|]. rewrite grid_of by (auto; lia). fold half. f_equal. lia.
  - intros H. apply F2. lia.
  - intros H. destruct F4 as (sv & G1 & G2 & G3); [lia|]. exists sv, (Z.to_nat (k + half + 2 * half)). split; auto. split; auto. split; [lia|]. rewrite grid_of by (auto; lia). fold half. f_equal. lia.
Qed.
