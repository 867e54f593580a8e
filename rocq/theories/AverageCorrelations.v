From Coq Require Import List Arith Lia Reals Lra Bool String.
From Verif Require Import Star CReal Arr PureModel HermSpec DensitySpec MasterSpec SliceSpec ElementModel ElementSpec ElementProofs CompositeModel CompositeSpec CompositeProofs InteractionSpec AverageModel AverageSpec AverageProofs AverageFacts AverageElements.
Import ListNotations.
Local Open Scope nat_scope.
Add Ring CRAverageC : (k_ring CR).

Lemma cre_mean d r : bmean d creation r = ksum (fun n => kmul (RC (sqrt (INR (n + 1)))) (r n (n + 1))) (seq 0 (d - 1)).
Proof.
  change (bmean d creation r) with (bmean d (fun i k => if i =? k + 1 then RC (sqrt (INR i)) else k0) r). rewrite (band_down d 1 (fun n => RC (sqrt (INR n)))). rewrite <- seq_shift, ksum_map.
  apply ksum_ext. intros n _. replace (Datatypes.S n - 1) with n by lia. rewrite <- (Nat.add_1_r n). reflexivity.
Qed.
Lemma ann_mean0 d r : bmean d annihilation r = ksum (fun n => kmul (RC (sqrt (INR (n + 1)))) (r (n + 1) n)) (seq 0 (d - 1)).
Proof.
  rewrite ann_mean. rewrite <- seq_shift, ksum_map. apply ksum_ext. intros n _. replace (Datatypes.S n - 1) with n by lia. rewrite <- (Nat.add_1_r n). reflexivity.
Qed.
Lemma rsum_append {X} (f : X -> R) l l' : rsum f (l ++ l') = (rsum f l + rsum f l')%R.
Proof. unfold rsum. induction l as [|x l IH]; cbn [app fold_right]; [ring|]. rewrite IH. ring. Qed.
Lemma rsum_mapped {X Y} (g : X -> Y) (f : Y -> R) l : rsum f (map g l) = rsum (fun x => f (g x)) l.
Proof. unfold rsum. induction l as [|x l IH]; cbn [map fold_right]; [reflexivity|]. now rewrite IH. Qed.
Lemma rsum_prod {X Y} (f : X * Y -> R) l l' : rsum f (list_prod l l') = rsum (fun x => rsum (fun y => f (x, y)) l') l.
Proof. induction l as [|x l IH]; [reflexivity|]. cbn [list_prod]. rewrite rsum_append, rsum_mapped, IH. reflexivity. Qed.

(** * Operators of one of the subsystems *)
Lemma embed0 d0 d1 A : mmeq [d0; d1] (embed [0] [d0; d1] (kron [A])) (kron [A; one]).
Proof.
  intros i k Hi Hk. in2 Hi. in2 Hk. unfold embed, coords. cbn [List.length]. change (others 2 [0]) with [1]. change (others 2 [1]) with [0]. cbn [map nth listnat_eqb kron]. unfold one, ElementSpec.identity. rewrite andb_true_r. destruct (b =? b0); ring.
Qed.
Lemma embed1 d0 d1 A : mmeq [d0; d1] (embed [1] [d0; d1] (kron [A])) (kron [one; A]).
Proof.
  intros i k Hi Hk. in2 Hi. in2 Hk. unfold embed, coords. cbn [List.length]. change (others 2 [0]) with [1]. change (others 2 [1]) with [0]. cbn [map nth listnat_eqb kron]. unfold one, ElementSpec.identity. rewrite andb_true_r. destruct (a =? a0); ring.
Qed.
Lemma embed_times V dims c O i k : embed V dims (timesO c O) i k = timesO c (embed V dims O) i k.
Proof. unfold embed, timesO. destruct (listnat_eqb _ _); ring. Qed.
Lemma embed_zero V dims i k : embed V dims zero i k = zero i k.
Proof. unfold embed, zero. destruct (listnat_eqb _ _); reflexivity. Qed.
Lemma expectation_embed V dims A B rho : mmeq dims (embed V dims (kron [A])) B ->
  expectation dims (embed V dims (kron [A])) rho = cre (mean dims B rho) /\ expectation dims (embed V dims (timesO (kopp CI) (kron [A]))) rho = cim (mean dims B rho).
Proof.
  intros H. split; [rewrite expectation_mean; f_equal; now apply mean_ext|].
  transitivity (expectation dims (timesO (kopp CI) B) rho); [|apply expectation_im]. rewrite !expectation_mean. f_equal. apply mean_ext. intros i k Hi Hk. rewrite embed_times. unfold timesO. now rewrite H.
Qed.
Definition seven (L : mat -> CR) : list R := [cre (L number); cre (L numberSq); cre (L annihilation); cim (L annihilation); cre (L annSq); cim (L annSq); 0%R].
Lemma seven_trace d0 d1 V d t (m : ldo) K : 0 < d0 -> 0 < d1 -> good_positions 2 V -> coords V [d0; d1] = [d] ->
  (forall A, mmeq [d0; d1] (embed V [d0; d1] (kron [A])) (kron (K A))) ->
  traceOver [d0; d1] V m (fun r => checked (avN (quadAveraged d [] [])) (avAverage (quadAveraged d [] []) t r)) = Some (seven (fun A => mean [d0; d1] (kron (K A)) (indexOf m))).
Proof.
  intros H0 H1 HV Hc HK. rewrite (traceOver_ok [d0; d1] V) with (Os := quadOps).
  - unfold quadOps, modeOps, seven. cbn [map app].
    assert (Ez : expectation [d0; d1] (embed V [d0; d1] zero) (indexOf m) = 0%R).
    { rewrite <- (expectation_zero [d0; d1] (indexOf m)). rewrite !expectation_mean. f_equal. apply mean_ext. intros i k _ _. apply embed_zero. }
    rewrite Ez. rewrite !(proj1 (expectation_embed V [d0; d1] _ _ (indexOf m) (HK _))), !(proj2 (expectation_embed V [d0; d1] _ _ (indexOf m) (HK _))). reflexivity.
  - exact HV.
  - intros k [<-|[<-|[]]]; auto.
  - intros rho. rewrite Hc. cbn [avN avAverage quadAveraged element]. change (List.length (modeLabels _ _)) with 7. rewrite quad_list. reflexivity.
Qed.

Section Corr.
Variables (d0 d1 : nat) (m : ldo).
Hypothesis (H0 : 0 < d0) (H1 : 0 < d1).
Let rho := indexOf m.
Let E A B := M2 d0 d1 rho A B.
Lemma corr_prod_up : E creation annihilation =
  ksum (fun n => ksum (fun k => kmul (RC (sqrt (INR (k * (n + 1))))) (rho [n; k] [n + 1; k - 1])) (seq 1 (d1 - 1))) (seq 0 (d0 - 1)).
Proof.
  unfold E, M2. rewrite mean2, cre_mean. apply ksum_ext. intros n _. rewrite ann_mean, <- ksum_scal_l. apply ksum_ext. intros k _.
  rewrite mult_INR, sqrt_mult, <- RC_mul by apply sqrtn. ring.
Qed.
Lemma corr_prod_down : E annihilation annihilation =
  ksum (fun n => ksum (fun k => kmul (RC (sqrt (INR (k * n)))) (rho [n; k] [n - 1; k - 1])) (seq 1 (d1 - 1))) (seq 1 (d0 - 1)).
Proof.
  unfold E, M2. rewrite mean2, ann_mean. apply ksum_ext. intros n _. rewrite ann_mean, <- ksum_scal_l. apply ksum_ext. intros k _.
  rewrite mult_INR, sqrt_mult, <- RC_mul by apply sqrtn. ring.
Qed.
Definition eighteen : list R :=
  (seven (fun A => E A one) ++ seven (fun B => E one B) ++
  [cre (E creation annihilation); cim (E creation annihilation); cre (E annihilation annihilation); cim (E annihilation annihilation)])%list.
Lemma good01 : good_positions 2 [0] /\ good_positions 2 [1].
Proof. split; (split; [constructor; [intros []|constructor]|intros v [<-|[]]; lia]). Qed.
Lemma corr_average t : corrAverage d0 d1 t m = Some eighteen.
Proof.
  unfold corrAverage. cbv zeta. destruct good01 as [G0 G1].
  rewrite (seven_trace d0 d1 [0] d0 t m (fun A => [A; one]) H0 H1 G0 eq_refl (embed0 d0 d1)), (seven_trace d0 d1 [1] d1 t m (fun A => [one; A]) H0 H1 G1 eq_refl (embed1 d0 d1)).
  f_equal. change (mean [d0; d1] (kron [?A; ?B]) (indexOf m)) with (E A B).
  change (writeWindow _ _ _) with (seven (fun A => E A one) ++ seven (fun B => E one B) ++ [0; 0; 0; 0]%R)%list.
  match goal with |- fold_left ?f ?xs ?i = _ => pose (F := fun (n : nat * nat) av => f av n) end.
  set (up := fun n k => kmul (RC (sqrt (INR (k * (n + 1))))) (rho [n; k] [n + 1; k - 1])).
  set (dn := fun n k => kmul (RC (sqrt (INR (k * n)))) (rho [n; k] [n - 1; k - 1])).
  assert (HF : forall x, In x (list_prod (seq 0 d0) (seq 1 (d1 - 1))) -> adds 18 (F x) (fun j =>
     ((if (fst x <? d0 - 1)%nat then (if (j =? 14)%nat then cre (up (fst x) (snd x)) else 0) + (if (j =? 15)%nat then cim (up (fst x) (snd x)) else 0) else 0)
     + (if (0 <? fst x)%nat then (if (j =? 16)%nat then cre (dn (fst x) (snd x)) else 0) + (if (j =? 17)%nat then cim (dn (fst x) (snd x)) else 0) else 0))%R)).
  { intros [n k] _. unfold F. cbn [fst snd].
    assert (A1 : forall b : bool, adds 18 (fun av => if b then incAt 15 (cim (up n k)) (incAt 14 (cre (up n k)) av) else av)
      (fun j => if b then ((if (j =? 14)%nat then cre (up n k) else 0) + (if (j =? 15)%nat then cim (up n k) else 0))%R else 0%R)).
    { intros b. apply adds_if; [apply adds_comp; apply adds_inc; lia|apply adds_id]. }
    assert (A2 : forall b : bool, adds 18 (fun av => if b then incAt 17 (cim (dn n k)) (incAt 16 (cre (dn n k)) av) else av)
      (fun j => if b then ((if (j =? 16)%nat then cre (dn n k) else 0) + (if (j =? 17)%nat then cim (dn n k) else 0))%R else 0%R)).
    { intros b. apply adds_if; [apply adds_comp; apply adds_inc; lia|apply adds_id]. }
    exact (adds_comp 18 _ _ _ _ (A1 (n <? d0 - 1)) (A2 (0 <? n))). }
  set (start := (_ ++ _)%list).
  destruct (adds_fold 18 F _ _ HF start eq_refl) as [El Hj].
  change (fold_left _ _ _) with (fold_left (fun a x => F x a) (list_prod (seq 0 d0) (seq 1 (d1 - 1))) start).
  apply list_get; [exact El|]. intros j J. rewrite Hj. clear Hj El HF F. rewrite rsum_prod. cbn [fst snd].
  assert (Zero : forall j, j < 14 -> rsum (fun x => rsum (fun y =>
     ((if (x <? d0 - 1)%nat then (if (j =? 14)%nat then cre (up x y) else 0) + (if (j =? 15)%nat then cim (up x y) else 0) else 0)
     + (if (0 <? x)%nat then (if (j =? 16)%nat then cre (dn x y) else 0) + (if (j =? 17)%nat then cim (dn x y) else 0) else 0))%R) (seq 1 (d1 - 1))) (seq 0 d0) = 0%R).
  { intros j' L. transitivity (rsum (fun _ : nat => 0%R) (seq 0 d0)); [|apply rsum_zero]. apply rsum_ext. intros n _. transitivity (rsum (fun _ : nat => 0%R) (seq 1 (d1 - 1))); [|apply rsum_zero].
    apply rsum_ext. intros k _. assert (j' =? 14 = false /\ j' =? 15 = false /\ j' =? 16 = false /\ j' =? 17 = false) as (-> & -> & -> & ->) by (repeat split; apply Nat.eqb_neq; lia).
    destruct (n <? d0 - 1), (0 <? n); ring. }
  destruct (le_lt_dec 14 j) as [J14|J14].
  - assert (J18 : j < 18) by exact J. clear Zero. assert (j = 14 \/ j = 15 \/ j = 16 \/ j = 17) as [->|[->|[->| ->]]] by lia; cbn [Nat.eqb].
    + change (get 14 start) with 0%R. change (get 14 eighteen) with (cre (E creation annihilation)). rewrite corr_prod_up, cre_ksum, Rplus_0_l. rewrite <- rsum_butlast. apply rsum_ext. intros n _.
      destruct (n <? d0 - 1); [rewrite cre_ksum|etransitivity; [|apply (rsum_zero (seq 1 (d1 - 1)))]]; apply rsum_ext; intros k _; unfold up; destruct (0 <? n); ring.
    + change (get 15 start) with 0%R. change (get 15 eighteen) with (cim (E creation annihilation)). rewrite corr_prod_up, cim_ksum, Rplus_0_l. rewrite <- rsum_butlast. apply rsum_ext. intros n _.
      destruct (n <? d0 - 1); [rewrite cim_ksum|etransitivity; [|apply (rsum_zero (seq 1 (d1 - 1)))]]; apply rsum_ext; intros k _; unfold up; destruct (0 <? n); ring.
    + change (get 16 start) with 0%R. change (get 16 eighteen) with (cre (E annihilation annihilation)). rewrite corr_prod_down, cre_ksum, Rplus_0_l.
      rewrite (rsum_ext (fun n => cre _) (fun n => rsum (fun k => if 0 <? n then cre (dn n k) else 0%R) (seq 1 (d1 - 1))) (seq 1 (d0 - 1))).
      * rewrite rsum_from1 by (cbn; apply rsum_zero). apply rsum_ext. intros n _. apply rsum_ext. intros k _. destruct (n <? d0 - 1), (0 <? n); ring.
      * intros n Hn. apply in_seq in Hn. rewrite cre_ksum. destruct n; [lia|]. reflexivity.
    + change (get 17 start) with 0%R. change (get 17 eighteen) with (cim (E annihilation annihilation)). rewrite corr_prod_down, cim_ksum, Rplus_0_l.
      rewrite (rsum_ext (fun n => cim _) (fun n => rsum (fun k => if 0 <? n then cim (dn n k) else 0%R) (seq 1 (d1 - 1))) (seq 1 (d0 - 1))).
      * rewrite rsum_from1 by (cbn; apply rsum_zero). apply rsum_ext. intros n _. apply rsum_ext. intros k _. destruct (n <? d0 - 1), (0 <? n); ring.
      * intros n Hn. apply in_seq in Hn. rewrite cim_ksum. destruct n; [lia|]. reflexivity.
  - rewrite (Zero j J14), Rplus_0_r. clear Zero. do 14 (destruct j as [|j]; [reflexivity|]). lia.
Qed.

(** * processed *)
Hypothesis Hs : state [d0; d1] rho.
Lemma adj_ann p q : adj annihilation p q = creation p q.
Proof. unfold adj, annihilation, creation. destruct (p =? q + 1); [now rewrite RC_conj|now rewrite kconj_0]. Qed.
Lemma adj_cre p q : adj creation p q = annihilation p q.
Proof. unfold adj, annihilation, creation. destruct (q =? p + 1); [now rewrite RC_conj|now rewrite kconj_0]. Qed.
Lemma E_cc : E creation creation = kconj (E annihilation annihilation).
Proof. unfold E. rewrite <- M2_adj by exact Hs. apply M2_ext; intros; now rewrite adj_ann. Qed.
Lemma E_ac : E annihilation creation = kconj (E creation annihilation).
Proof. unfold E. rewrite <- M2_adj by exact Hs. apply M2_ext; intros; [now rewrite adj_cre|now rewrite adj_ann]. Qed.
Definition Sg (s : CR) : mat := fun p q => kadd (annihilation p q) (kmul s (creation p q)).
Lemma E_two s u : E (Sg s) (Sg u) = kadd (kadd (E annihilation annihilation) (kmul u (E annihilation creation))) (kmul s (kadd (E creation annihilation) (kmul u (E creation creation)))).
Proof.
  unfold E, Sg. rewrite (M2_addl d0 d1 rho annihilation (fun p q => kmul s (creation p q))). rewrite (M2_scalel d0 d1 rho).
  rewrite !(M2_addr d0 d1 rho _ annihilation (fun p q => kmul u (creation p q))), !(M2_scaler d0 d1 rho). reflexivity.
Qed.
Lemma quadX_Sg p q : quadX p q = kmul (RC (/ sqrt 2)) (Sg k1 p q). Proof. unfold quadX, position, Sg. ring. Qed.
Lemma quadY_Sg p q : quadY p q = kmul (kmul (RC (/ sqrt 2)) (kopp CI)) (Sg (kopp k1) p q). Proof. unfold quadY, Sg. ring. Qed.
Lemma E_quad c s c' s' A B : (forall p q, A p q = kmul c (Sg s p q)) -> (forall p q, B p q = kmul c' (Sg s' p q)) -> E A B = kmul (kmul c c') (E (Sg s) (Sg s')).
Proof.
  intros HA HB. unfold E. rewrite (M2_ext d0 d1 rho A B (fun p q => kmul c (Sg s p q)) (fun p q => kmul c' (Sg s' p q))) by auto.
  rewrite (M2_scalel d0 d1 rho), (M2_scaler d0 d1 rho). ring.
Qed.
Lemma E_XQ : cre (E quadX quadX) = (cre (E creation annihilation) + cre (E annihilation annihilation))%R.
Proof.
  rewrite (E_quad _ _ _ _ _ _ quadX_Sg quadX_Sg), half_half, E_two, E_cc, E_ac, cre_RC. destruct (E creation annihilation), (E annihilation annihilation). cbn. field.
Qed.
Lemma E_XP : cre (E quadX quadY) = (cim (E creation annihilation) + cim (E annihilation annihilation))%R.
Proof.
  rewrite (E_quad _ _ _ _ _ _ quadX_Sg quadY_Sg), E_two, E_cc, E_ac.
  transitivity (cre (kmul (kmul (RC (/ sqrt 2)) (RC (/ sqrt 2))) (kmul (kopp CI) (kadd (kadd (E annihilation annihilation) (kmul (kopp k1) (kconj (E creation annihilation)))) (kmul k1 (kadd (E creation annihilation) (kmul (kopp k1) (kconj (E annihilation annihilation))))))))); [f_equal; ring|].
  rewrite half_half, cre_RC. destruct (E creation annihilation), (E annihilation annihilation). cbn. field.
Qed.
Lemma E_YQ : cre (E quadY quadX) = (- cim (E creation annihilation) + cim (E annihilation annihilation))%R.
Proof.
  rewrite (E_quad _ _ _ _ _ _ quadY_Sg quadX_Sg), E_two, E_cc, E_ac.
  transitivity (cre (kmul (kmul (RC (/ sqrt 2)) (RC (/ sqrt 2))) (kmul (kopp CI) (kadd (kadd (E annihilation annihilation) (kmul k1 (kconj (E creation annihilation)))) (kmul (kopp k1) (kadd (E creation annihilation) (kmul k1 (kconj (E annihilation annihilation))))))))); [f_equal; ring|].
  rewrite half_half, cre_RC. destruct (E creation annihilation), (E annihilation annihilation). cbn. field.
Qed.
Lemma E_YP : cre (E quadY quadY) = (cre (E creation annihilation) - cre (E annihilation annihilation))%R.
Proof.
  rewrite (E_quad _ _ _ _ _ _ quadY_Sg quadY_Sg), E_two, E_cc, E_ac.
  transitivity (cre (kmul (kmul (RC (/ sqrt 2)) (RC (/ sqrt 2))) (kmul (kmul (kopp CI) (kopp CI)) (kadd (kadd (E annihilation annihilation) (kmul (kopp k1) (kconj (E creation annihilation)))) (kmul (kopp k1) (kadd (E creation annihilation) (kmul (kopp k1) (kconj (E annihilation annihilation))))))))); [f_equal; ring|].
  rewrite half_half, CI2, cre_RC. destruct (E creation annihilation), (E annihilation annihilation). cbn. field.
Qed.
Lemma corr_processed N2 X2 Y2 XY YX : is_product number number N2 -> is_product quadX quadX X2 -> is_product quadY quadY Y2 -> is_product quadX quadY XY -> is_product quadY quadX YX ->
  let a A := E A one in let b B := E one B in
  corrProcess eighteen =
  [cre (a number); cre (a N2) - cre (a number) * cre (a number); cre (a annihilation); cim (a annihilation);
   cre (a X2) - cre (a quadX) * cre (a quadX); cre (a Y2) - cre (a quadY) * cre (a quadY); cre (a (half_sum XY YX)) - cre (a quadX) * cre (a quadY);
   cre (b number); cre (b N2) - cre (b number) * cre (b number); cre (b annihilation); cim (b annihilation);
   cre (b X2) - cre (b quadX) * cre (b quadX); cre (b Y2) - cre (b quadY) * cre (b quadY); cre (b (half_sum XY YX)) - cre (b quadX) * cre (b quadY);
   cre (E quadX quadX) - cre (a quadX) * cre (b quadX); cre (E quadX quadY) - cre (a quadX) * cre (b quadY);
   cre (E quadY quadX) - cre (a quadY) * cre (b quadX); cre (E quadY quadY) - cre (a quadY) * cre (b quadY)]%R.
Proof.
  intros P0 P1' P2' P3' P4' a b. unfold corrProcess. cbv zeta.
  change (window 0 7 eighteen) with (seven a). unfold seven. rewrite (quad_processed a (functional_left d0 d1 rho Hs) N2 X2 Y2 XY YX P0 P1' P2' P3' P4').
  match goal with |- context [quadProcess (window 7 7 ?l)] => change (window 7 7 l) with (seven b) end. unfold seven.
  rewrite (quad_processed b (functional_right d0 d1 rho Hs) N2 X2 Y2 XY YX P0 P1' P2' P3' P4').
  rewrite E_XQ, E_XP, E_YQ, E_YP. rewrite (L_X a (functional_left d0 d1 rho Hs)), (L_Y a (functional_left d0 d1 rho Hs)), (L_X b (functional_right d0 d1 rho Hs)), (L_Y b (functional_right d0 d1 rho Hs)).
  reflexivity.
Qed.
End Corr.

(** * qbit and mode *)
Lemma sigma2 r : bmean 2 sigmaMinus r = r 1 0.
Proof. unfold bmean, lsum, sigmaMinus, ketbra. cbn [seq ksum Nat.eqb andb]. ring. Qed.
Lemma sigmaZ2 r : bmean 2 sigmaZ r = kmul (RC (/ 2)) (ksub (r 1 1) (r 0 0)).
Proof. unfold bmean, lsum, sigmaZ, ketbra. cbn [seq ksum Nat.eqb andb]. ring. Qed.
Definition qmOps : list op :=
  flat_map (fun O => [O; timesO (kopp CI) O]) [kron [sigmaMinus; creation]; kron [sigmaMinus; annihilation]; kron [sigmaZ; annihilation]].
Lemma loop_pair N k (off : nat -> CR) xs : k + 1 < N -> adds N (fun av => fold_left (fun av n => incAt (k + 1) (cim (off n)) (incAt k (cre (off n)) av)) xs av)
  (fun j => (if (j =? k)%nat then cre (ksum off xs) else 0) + (if (j =? k + 1)%nat then cim (ksum off xs) else 0))%R.
Proof.
  intros H. refine (adds_ext N _ _ _ _ (fun l => eq_refl) _ (adds_fold N (fun n av => incAt (k + 1) (cim (off n)) (incAt k (cre (off n)) av)) (fun n j => (if (j =? k)%nat then cre (off n) else 0) + (if (j =? k + 1)%nat then cim (off n) else 0))%R xs _)).
  - intros j. cbn beta. rewrite rsum_add, cre_ksum, cim_ksum. f_equal; destruct (_ =? _)%nat; auto using rsum_zero.
  - intros n _. apply adds_comp; apply adds_inc; lia.
Qed.
Lemma qbitMode_list d1 t rho : qbitModeAverage d1 6 t rho = map (fun O => expectation [2; d1] O rho) qmOps.
Proof.
  unfold qbitModeAverage. cbv zeta. set (o0 := fun n => kmul (RC (sqrt (INR (n + 1)))) (rho [1; n] [0; n + 1])).
  set (o2 := fun n => kmul (RC (sqrt (INR (n + 1)))) (rho [1; n + 1] [0; n])).
  set (o4 := fun n => kmul (kmul (RC (/ 2)) (RC (sqrt (INR (n + 1))))) (ksub (rho [1; n + 1] [1; n]) (rho [0; n + 1] [0; n]))).
  set (xs := seq 0 (d1 - 1)).
  pose proof (adds_comp 6 _ _ _ _ (adds_comp 6 _ _ _ _ (loop_pair 6 0 o0 xs ltac:(lia)) (loop_pair 6 2 o2 xs ltac:(lia))) (loop_pair 6 4 o4 xs ltac:(lia)) (initialized 6) (length_init 6)) as [El Hj].
  cbn beta in El, Hj. apply expects_list; [exact El|]. intros j J. etransitivity; [apply Hj|]. rewrite get_init. clear Hj El. unfold expects, get, qmOps in *. cbn [flat_map app List.length] in J. cbn [flat_map app map].
  destruct j as [|[|[|[|[|[|j]]]]]]; cbn [nth Nat.eqb Nat.add]; try lia; rewrite ?expectation_im, ?expectation_mean, mean2, ?sigma2, ?sigmaZ2, ?Rplus_0_l, ?Rplus_0_r.
  all: try (first [rewrite cre_mean | rewrite ann_mean0]; reflexivity).
  all: rewrite !ann_mean0; f_equal; rewrite <- ksum_sub, <- ksum_scal_l; apply ksum_ext; intros n _; unfold o0, o2, o4; ring.
Qed.
