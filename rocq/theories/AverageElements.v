From Coq Require Import List Arith Lia Reals Lra Bool String.
From Verif Require Import Star CReal Arr PureModel HermSpec MasterSpec ElementModel ElementSpec ElementProofs CompositeModel CompositeSpec InteractionSpec AverageModel AverageSpec AverageProofs AverageFacts.
Import ListNotations.
Local Open Scope nat_scope.
Add Ring CRAverageE : (k_ring CR).

Lemma mean_kron1 d A B rho : (forall m n, A m n = B m n) -> mean [d] (kron [A]) rho = mean [d] (kron [B]) rho.
Proof. intros H. apply mean_ext. intros i k Hi Hk. in1 Hi. in1 Hk. cbn [kron]. now rewrite H. Qed.

(** * mode *)
Lemma mode_averages dim t N2 : is_product number number N2 ->
  averages_are [dim] (only (modeAveraged dim [] [])) t [kron [number]; kron [N2]; kron [annihilation]; timesO (kopp CI) (kron [annihilation])].
Proof.
  intros H. cbn [averages_are only pAv]. split; [reflexivity|]. intros rho. cbn [avAverage modeAveraged element]. change (List.length (modeLabels [] [])) with 4. rewrite mode_list.
  unfold modeOps. cbn [map]. rewrite !expectation_mean. rewrite (mean_kron1 dim N2 numberSq) by apply (product_is _ _ _ _ H prod_NN). reflexivity.
Qed.
Lemma mode_shown dim t rho N2 : is_product number number N2 -> let E A := mean [dim] (kron [A]) rho in
  shown (modeAveraged dim [] []) t rho =
  [("<number operator>"%string, cre (E number)); ("VAR(number operator)"%string, (cre (E N2) - cre (E number) * cre (E number))%R);
   ("real(<ladder operator>)"%string, cre (E annihilation)); (imagLabel, cim (E annihilation))].
Proof.
  intros H E. destruct (mode_averages dim t N2 H) as [_ A]. unfold shown. rewrite A. cbn [map]. rewrite expectation_im. reflexivity.
Qed.

(** * quadratures *)
Lemma quad_vals dim t rho : avAverage (quadAveraged dim [] []) t rho = let L A := mean [dim] (kron [A]) rho in
  [cre (L number); cre (L numberSq); cre (L annihilation); cim (L annihilation); cre (L annSq); cim (L annSq); 0%R].
Proof.
  cbn [avAverage quadAveraged element]. change (List.length (modeLabels _ _)) with 7. rewrite quad_list. unfold quadOps, modeOps. cbn [map app]. rewrite !expectation_im, expectation_zero. reflexivity.
Qed.
Lemma quad_shown dim t rho N2 X2 Y2 XY YX : state [dim] rho ->
  is_product number number N2 -> is_product quadX quadX X2 -> is_product quadY quadY Y2 -> is_product quadX quadY XY -> is_product quadY quadX YX ->
  shown (quadAveraged dim [] []) t rho = quadColumns dim rho N2 X2 Y2 XY YX.
Proof.
  intros Hs H0 H1 H2 H3 H4. unfold shown. rewrite quad_vals. cbv zeta. cbn [avProcess quadAveraged element].
  rewrite (quad_processed _ (functional1 dim rho Hs) N2 X2 Y2 XY YX H0 H1 H2 H3 H4). reflexivity.
Qed.

(** * the population of the highest level *)
Lemma population dim k rho : k < dim -> cre (mean [dim] (kron [ketbra k k]) rho) = diagonal rho [k].
Proof.
  intros H. rewrite mean1. unfold diagonal. rewrite (bmean_ext dim _ (fun m n => if m =? n then RC (if m =? k then 1 else 0) else k0) _ (fun k i => rho [k] [i])).
  - rewrite diag_mean. rewrite (rsum_ext _ (fun n => if k =? n then cre (rho [k] [k]) else 0%R)).
    + destruct (in_dec Nat.eq_dec k (seq 0 dim)) as [I|I]; [|exfalso; apply I; apply in_seq; lia]. clear H.
      pose proof (seq_NoDup dim 0) as ND. induction (seq 0 dim) as [|a l IH]; [destruct I|]. unfold rsum in *. cbn [fold_right]. inversion ND; subst. destruct (Nat.eqb_spec k a) as [->|N].
      * transitivity (cre (rho [a] [a]) + 0)%R; [|ring]. f_equal. clear IH I ND. induction l as [|b l IH]; [reflexivity|]. cbn [fold_right]. destruct (Nat.eqb_spec a b) as [->|]; [exfalso; apply H1; now left|].
        rewrite IH; [ring|intros C; apply H1; now right|now inversion H2].
      * destruct I as [I|I]; [congruence|]. rewrite IH by auto. ring.
    + intros n _. rewrite (Nat.eqb_sym k n). destruct (Nat.eqb_spec n k) as [->|]; ring.
  - intros m n _ _. unfold ketbra. destruct (Nat.eqb_spec m n) as [E|N], (Nat.eqb_spec m k), (Nat.eqb_spec n k); try congruence; cbn [andb]; reflexivity.
  - auto.
Qed.
Lemma list8 (l : list R) : List.length l = 8 -> l = [get 0 l; get 1 l; get 2 l; get 3 l; get 4 l; get 5 l; get 6 l; get 7 l].
Proof. intros H. repeat (destruct l as [|? l]; cbn in H; try lia). reflexivity. Qed.
Lemma list5 (l : list R) : List.length l = 5 -> l = [get 0 l; get 1 l; get 2 l; get 3 l; get 4 l].
Proof. intros H. repeat (destruct l as [|? l]; cbn in H; try lia). reflexivity. Qed.
Lemma cutoff_mode dim t rho : 0 < dim -> shown (cutoffAveraged dim modeAveraged) t rho = (shown (modeAveraged dim [] []) t rho ++ [cutoffColumn dim rho])%list.
Proof.
  intros H. unfold shown, cutoffColumn. cbn [avLabels avProcess avAverage cutoffAveraged modeAveraged element]. rewrite population by lia.
  change (List.length (modeLabels ["|Psi(cutoff-1)|^2"%string] [])) with 5. change (List.length (modeLabels [] [])) with 4.
  destruct (mode_raw dim 5 t rho) as [E G]; [lia|]. rewrite mode_list. rewrite (list5 _ E), !G. reflexivity.
Qed.
Lemma cutoff_quad dim t rho : 0 < dim -> shown (cutoffAveraged dim quadAveraged) t rho = (shown (quadAveraged dim [] []) t rho ++ [cutoffColumn dim rho])%list.
Proof.
  intros H. unfold shown, cutoffColumn. cbn [avLabels avProcess avAverage cutoffAveraged quadAveraged element]. rewrite population by lia.
  change (List.length (modeLabels (["VAR(X)"%string; "VAR(Y)"%string; "COV(X,Y)"%string] ++ ["|Psi(cutoff-1)|^2"%string])%list [])) with 8. change (List.length (modeLabels (["VAR(X)"%string; "VAR(Y)"%string; "COV(X,Y)"%string] ++ [])%list [])) with 7.
  destruct (quad_raw dim 8 t rho) as [E G]; [lia|]. rewrite quad_list. rewrite (list8 _ E), !G. reflexivity.
Qed.

(** * interaction picture without exact propagator *)
Lemma csq_cexp z : csq (cexp z) = exp (2 * cre z).
Proof.
  destruct z as [a b]. unfold csq, cexp, cre. cbn [fst snd]. replace (2 * a)%R with (a + a)%R by ring. rewrite exp_plus. pose proof (sin2_cos2 b) as S. unfold Rsqr in S.
  transitivity (exp a * exp a * (sin b * sin b + cos b * cos b))%R; [ring|]. rewrite S. ring.
Qed.
Lemma sch_diag z t rho n : cre (schroedinger z t rho [n] [n]) = (exp (- (2 * cre z * INR n * t)) * diagonal rho [n])%R.
Proof.
  unfold schroedinger. cbn [hd]. set (e := cexp _). transitivity (cre (kmul (kmul (kconj e) e) (rho [n] [n]))); [f_equal; ring|]. rewrite csq_conj, cre_RC. unfold e. rewrite csq_cexp.
  unfold diagonal. f_equal. f_equal. destruct z. cbn. ring.
Qed.
Lemma sch_off z t rho n : 0 < n -> schroedinger z t rho [n] [n - 1] = kmul (rho [n] [n - 1]) (cexp (kmul (kopp (kadd z (RC (2 * INR (n - 1) * cre z)))) (RC t))).
Proof.
  intros H. unfold schroedinger. cbn [hd]. rewrite <- cexp_conj. transitivity (kmul (rho [n] [n - 1]) (kmul (cexp (kmul (kopp z) (RC (INR n * t)))) (cexp (kconj (kmul (kopp z) (RC (INR (n - 1) * t))))))); [ring|].
  rewrite <- cexp_add. f_equal. f_equal. replace (INR n) with (INR (n - 1) + 1)%R by (rewrite minus_INR by lia; cbn; ring). destruct z as [a b]. apply cr_eq; cbn; ring.
Qed.
Lemma noexact_raw z dim t m : noExactAverage z dim 3 t m =
  map (fun O => expectation [dim] O (schroedinger z t m)) [kron [number]; kron [annihilation]; timesO (kopp CI) (kron [annihilation])].
Proof.
  unfold noExactAverage.
  match goal with |- fold_left ?f ?xs ?i = _ => pose (F := fun (n : nat) av => f av n) end.
  set (off := fun x => kmul (kmul (RC (sqrt (INR x))) (m [x] [x - 1])) (cexp (kmul (kopp (kadd z (RC (2 * INR (x - 1) * cre z)))) (RC t)))).
  assert (HF : forall x, In x (seq 1 (dim - 1)) -> adds 3 (F x) (fun j => (((if (j =? 0)%nat then INR x * exp (- (2 * cre z * INR x * t)) * diagonal m [x] else 0)
     + (if (j =? 1)%nat then cre (off x) else 0)) + (if (j =? 2)%nat then cim (off x) else 0))%R)).
  { intros x _. unfold F. cbv zeta. repeat apply adds_comp; apply adds_inc; lia. }
  destruct (adds_fold 3 F _ _ HF (initialized 3) (length_init 3)) as [E Hj].
  change (fold_left _ _ _) with (fold_left (fun a x => F x a) (seq 1 (dim - 1)) (initialized 3)). apply expects_list; [exact E|]. intros j J. rewrite Hj, get_init. clear Hj E HF F. cbn [List.length] in J. unfold expects, get.
  destruct j as [|[|[|j]]]; cbn [map nth Nat.eqb]; [| | |lia].
  - rewrite expectation_mean, mean1. unfold number. rewrite (diag_mean dim INR). rewrite <- rsum_from1 by (cbn; ring).
    rewrite Rplus_0_l. apply rsum_ext. intros n _. rewrite sch_diag. ring.
  - rewrite expectation_mean, mean1, ann_mean, cre_ksum. rewrite Rplus_0_l. apply rsum_ext. intros n Hn. apply in_seq in Hn. rewrite sch_off by lia. unfold off. rewrite Rplus_0_l, Rplus_0_r. f_equal. ring.
  - rewrite expectation_im, mean1, ann_mean, cim_ksum. rewrite Rplus_0_l. apply rsum_ext. intros n Hn. apply in_seq in Hn. rewrite sch_off by lia. unfold off. rewrite !Rplus_0_l. f_equal. ring.
Qed.
Lemma noexact_shown z dim t rho : let E A := mean [dim] (kron [A]) (schroedinger z t rho) in
  shown (noExactAveraged z dim) t rho = [("<number operator>"%string, cre (E number)); ("real(<ladder operator>)"%string, cre (E annihilation)); (imagLabel, cim (E annihilation))].
Proof. intros E. unfold shown. cbn [avAverage avProcess noExactAveraged element List.length]. rewrite noexact_raw. cbn [map]. rewrite expectation_im. reflexivity. Qed.

(** * qbit *)
Lemma qbit_sigma rho : mean [2] (kron [sigmaMinus]) rho = rho [1] [0].
Proof. rewrite mean1. unfold bmean, lsum, sigmaMinus, ketbra. cbn [seq ksum Nat.eqb andb]. ring. Qed.
Lemma qbit_averages t : averages_are [2] (only qbitAveraged) t [kron [ketbra 0 0]; kron [ketbra 1 1]; kron [sigmaMinus]; timesO (kopp CI) (kron [sigmaMinus])].
Proof.
  cbn [averages_are only pAv]. split; [reflexivity|]. intros rho. cbn [map]. rewrite expectation_im, !expectation_mean, qbit_sigma, !population by lia. reflexivity.
Qed.
Lemma qbit_shown t rho : shown qbitAveraged t rho =
  [("rho00"%string, cre (rho [0] [0])); ("rho11"%string, cre (rho [1] [1])); ("real(rho10=<sigma>)"%string, cre (mean [2] (kron [sigmaMinus]) rho)); (imagLabel, cim (mean [2] (kron [sigmaMinus]) rho))] /\
  mean [2] (kron [sigmaMinus]) rho = rho [1] [0].
Proof. rewrite qbit_sigma. split; reflexivity. Qed.

(** * spin *)
Definition spinZSq (twoS : nat) : mat := fun m n => if m =? n then RC ((INR m - INR twoS / 2) * (INR m - INR twoS / 2)) else k0.
Lemma prod_ZZ twoS m n N : m + 2 <= N -> ksum (fun k => kmul (spinZ twoS m k) (spinZ twoS k n)) (seq 0 N) = spinZSq twoS m n.
Proof.
  intros H. transitivity (lsum N (fun k => if k =? m then kmul (RC (INR m - INR twoS / 2)) (spinZ twoS k n) else k0)).
  - apply ksum_ext. intros k _. unfold spinZ at 1. rewrite (Nat.eqb_sym m k). destruct (k =? m); ring.
  - rewrite lsum_if. destruct (Nat.ltb_spec m N); [|lia]. unfold spinZ, spinZSq. destruct (m =? n); [apply RC_mul|ring].
Qed.
Lemma splus_mean twoS d r : bmean d (spinPlus twoS) r = ksum (fun n => kmul (RC (sqrt (INR ((twoS - n) * (n + 1))))) (r n (n + 1))) (seq 0 (d - 1)).
Proof.
  rewrite (bmean_ext d _ (fun i k => if i =? k + 1 then RC (sqrt (INR (i * (twoS - (i - 1))))) else k0) r r).
  - rewrite band_down. rewrite <- seq_shift, ksum_map. apply ksum_ext. intros n _. replace (Datatypes.S n - 1) with n by lia.
    rewrite <- (Nat.add_1_r n), (Nat.mul_comm (n + 1)). reflexivity.
  - intros i k _ _. unfold spinPlus, adj, spinLower. destruct (Nat.eqb_spec i (k + 1)) as [->|]; [|apply kconj_0]. rewrite RC_conj. replace (k + 1 - 1) with k by lia. reflexivity.
  - auto.
Qed.
Lemma rsum_butlast (f : nat -> R) dim : rsum (fun n => if n <? dim - 1 then f n else 0%R) (seq 0 dim) = rsum f (seq 0 (dim - 1)).
Proof.
  destruct dim as [|d]; [reflexivity|]. replace (Datatypes.S d - 1) with d by lia. rewrite seq_S. unfold rsum. rewrite fold_right_app. cbn [fold_right Nat.add]. rewrite Nat.ltb_irrefl.
  replace (0 + 0)%R with 0%R by ring. change (rsum (fun n => if n <? d then f n else 0%R) (seq 0 d) = rsum f (seq 0 d)). apply rsum_ext. intros n Hn. apply in_seq in Hn. destruct (Nat.ltb_spec n d); [reflexivity|lia].
Qed.
Definition spinOps (twoS dim : nat) : list op :=
  [kron [spinZ twoS]; kron [spinZSq twoS]; kron [spinPlus twoS]; timesO (kopp CI) (kron [spinPlus twoS]); kron [ketbra (dim - 1) (dim - 1)]].
Lemma spin_raw twoS dim t m : 0 < dim -> spinAverage twoS dim 5 t m = map (fun O => expectation [dim] O m) (spinOps twoS dim).
Proof.
  intros Hd. unfold spinAverage. cbv zeta. set (s := (INR twoS / 2)%R).
  match goal with |- setAt 4 _ (fold_left ?f ?xs ?i) = _ => pose (F := fun (n : nat) av => f av n) end.
  set (off := fun n => kmul (RC (sqrt (INR ((twoS - n) * (n + 1))))) (m [n] [n + 1])).
  assert (HF : forall n, In n (seq 0 dim) -> adds 5 (F n) (fun j => (((if (j =? 0)%nat then (INR n - s) * diagonal m [n] else 0) + (if (j =? 1)%nat then (INR n - s) * (INR n - s) * diagonal m [n] else 0))
     + (if (n <? dim - 1)%nat then (if (j =? 2)%nat then cre (off n) else 0) + (if (j =? 3)%nat then cim (off n) else 0) else 0))%R)).
  { intros x _. unfold F. destruct (x <? dim - 1).
    - refine (adds_ext _ _ _ _ _ (fun l => eq_refl) _ (adds_comp 5 _ _ _ _ (adds_comp 5 _ _ _ _ (adds_comp 5 _ _ _ _ (adds_inc 5 0 _ _) (adds_inc 5 1 _ _)) (adds_inc 5 2 _ _)) (adds_inc 5 3 _ _))); try lia. intros j. cbn beta. unfold off. ring.
    - refine (adds_ext _ _ _ _ _ (fun l => eq_refl) _ (adds_comp 5 _ _ _ _ (adds_inc 5 0 _ _) (adds_inc 5 1 _ _))); try lia. intros j. cbn beta. ring. }
  destruct (adds_fold 5 F _ _ HF (initialized 5) (length_init 5)) as [E Hj].
  change (fold_left _ _ _) with (fold_left (fun a x => F x a) (seq 0 dim) (initialized 5)). apply expects_list; [rewrite length_setAt; exact E|].
  intros j J. rewrite get_setAt by (rewrite E; lia). destruct (Nat.eqb_spec j 4) as [->|J4].
  { unfold expects, get, spinOps. cbn [map nth]. rewrite expectation_mean, population by lia. reflexivity. }
  rewrite Hj, get_init. clear Hj E HF F. cbn [List.length spinOps] in J. unfold expects, get, spinOps.
  destruct j as [|[|[|[|j]]]]; cbn [map nth Nat.eqb]; [| | | |lia]; rewrite Rplus_0_l.
  - rewrite expectation_mean, mean1. unfold spinZ. rewrite (diag_mean dim (fun n => INR n - INR twoS / 2)%R). apply rsum_ext. intros n _. unfold diagonal, s. destruct (n <? dim - 1); ring.
  - rewrite expectation_mean, mean1. unfold spinZSq. rewrite (diag_mean dim (fun n => (INR n - INR twoS / 2) * (INR n - INR twoS / 2))%R). apply rsum_ext. intros n _. unfold diagonal, s. destruct (n <? dim - 1); ring.
  - rewrite expectation_mean, mean1, splus_mean, cre_ksum. rewrite <- rsum_butlast. apply rsum_ext. intros n _. fold (off n). destruct (n <? dim - 1); ring.
  - rewrite expectation_im, mean1, splus_mean, cim_ksum. rewrite <- rsum_butlast. apply rsum_ext. intros n _. fold (off n). destruct (n <? dim - 1); ring.
Qed.
Lemma spin_shown twoS dim t rho Z2 : 0 < dim -> is_product (spinZ twoS) (spinZ twoS) Z2 -> let E A := mean [dim] (kron [A]) rho in
  shown (spinAveraged twoS dim) t rho =
  [("<sz>"%string, cre (E (spinZ twoS))); ("<sz^2>"%string, (cre (E Z2) - cre (E (spinZ twoS)) * cre (E (spinZ twoS)))%R);
   ("real(<s^+>)"%string, cre (E (spinPlus twoS))); (imagLabel, cim (E (spinPlus twoS))); ("|Psi(dim-1)|^2"%string, cre (E (ketbra (dim - 1) (dim - 1))))].
Proof.
  intros Hd H E. unfold shown. cbn [avAverage avProcess spinAveraged element List.length]. rewrite spin_raw by auto. unfold spinOps. cbn [map]. rewrite expectation_im, !expectation_mean.
  unfold E. rewrite (mean_kron1 dim Z2 (spinZSq twoS)) by apply (product_is _ _ _ _ H (prod_ZZ twoS)). reflexivity.
Qed.
