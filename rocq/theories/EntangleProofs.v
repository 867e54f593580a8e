(** The measures of entanglement. *)
From Coq Require Import List Arith Reals Lra Lia Bool Permutation.
From Verif Require Import Star CReal Arr MultiIndexModel SliceModel SliceSpec SliceProofs HermModel HermSpec HermProofs DensityModel DensitySpec DensityProofs PTraceProofs EmbedProofs
  PureModel PureProofs ElementProofs EntangleModel EntangleSpec SpectralProofs BipartiteProofs.
Import ListNotations.
Local Open Scope R_scope.
Add Ring CREnt : (k_ring CR).

(** ** numbers *)
Definition L (x : R) : R := if Rlt_dec 0 x then ln x else 0.
Lemma L_pos x : 0 < x -> L x = ln x.
Proof. intros H. unfold L. destruct (Rlt_dec 0 x); [reflexivity|contradiction]. Qed.
Lemma vn_form ev : vonNeumann ev = - rsum (fun e => e * L e) ev.
Proof. unfold vonNeumann. rewrite <- rsum_opp. apply rsum_ext. intros e _. unfold L. destruct (Rlt_dec 0 e); ring. Qed.
Lemma fold_minus {A} (g : A -> R) l : forall acc, fold_left (fun v e => v - g e) l acc = acc - rsum g l.
Proof. induction l as [|a l IH]; intros acc; [cbn; ring|]. cbn [fold_left]. rewrite IH, rsum_cons. ring. Qed.
Lemma fold_plus {A} (g : A -> R) l : forall acc, fold_left (fun v e => v + g e) l acc = acc + rsum g l.
Proof. induction l as [|a l IH]; intros acc; [cbn; ring|]. cbn [fold_left]. rewrite IH, rsum_cons. ring. Qed.
Lemma rsum_one {A} (l : list A) : rsum (fun _ => 1) l = INR (length l).
Proof. induction l as [|a l IH]; [reflexivity|]. rewrite rsum_cons, IH. cbn [length]. rewrite S_INR. ring. Qed.
Lemma ln_le x : 0 < x -> ln x <= x - 1.
Proof. intros H. pose proof (exp_ineq1_le (ln x)) as E. rewrite exp_ln in E by exact H. lra. Qed.
Lemma vn_nonneg ev : (forall e, In e ev -> 0 <= e) -> rsum (fun e => e) ev = 1 -> 0 <= vonNeumann ev.
Proof.
  intros P T. unfold vonNeumann. apply rsum_nonneg. intros e He. destruct (Rlt_dec 0 e) as [H|H]; [|lra].
  assert (e <= 1) by (rewrite <- T; apply (rsum_le_term (fun e => e)); auto).
  assert (ln e <= 0) by (pose proof (ln_le e H); lra). nra.
Qed.
Lemma vn_le ev : (forall e, In e ev -> 0 <= e) -> rsum (fun e => e) ev = 1 -> vonNeumann ev <= ln (INR (length ev)).
Proof.
  intros P T. set (N := INR (length ev)).
  assert (HN : 0 < N).
  { unfold N. destruct ev; [cbn in T; lra|]. apply lt_0_INR. cbn; lia. }
  assert (E : vonNeumann ev - ln N = rsum (fun e => - (e * (L e + ln N))) ev).
  { rewrite vn_form. transitivity (- rsum (fun e => e * L e) ev - rsum (fun e => e) ev * ln N); [rewrite T; ring|].
    rewrite <- rsum_scal_r. unfold Rminus. rewrite <- !rsum_opp, <- rsum_add. apply rsum_ext. intros; ring. }
  assert (B : rsum (fun e => - (e * (L e + ln N))) ev <= rsum (fun e => / N + (-1) * e) ev).
  { apply rsum_mono. intros e He. specialize (P e He). assert (HI : 0 < / N) by now apply Rinv_0_lt_compat.
    destruct (Rle_lt_or_eq_dec _ _ P) as [Hp|<-]; [|lra]. rewrite L_pos by exact Hp.
    assert (HeN : 0 < e * N) by now apply Rmult_lt_0_compat.
    pose proof (ln_le (/ (e * N)) (Rinv_0_lt_compat _ HeN)) as G. rewrite ln_Rinv, ln_mult in G by auto.
    apply (Rmult_le_compat_l e) in G; [|lra]. replace (e * (/ (e * N) - 1)) with (/ N - e) in G by (field; lra). lra. }
  assert (S : rsum (fun e => / N + (-1) * e) ev = 0).
  { rewrite rsum_add, rsum_scal, T. rewrite (rsum_ext (fun _ => / N) (fun _ => / N * 1)) by (intros; ring). rewrite rsum_scal, rsum_one. fold N. field. lra. }
  lra.
Qed.
Lemma rsum2_le {A B} (f : A -> B -> R) la lb a b : (forall x y, In x la -> In y lb -> 0 <= f x y) -> In a la -> In b lb -> f a b <= rsum (fun x => rsum (f x) lb) la.
Proof.
  intros P Ha Hb. apply Rle_trans with (rsum (f a) lb).
  - apply (rsum_le_term (f a)); auto.
  - apply (rsum_le_term (fun x => rsum (f x) lb)); auto. intros x Hx. apply rsum_nonneg. auto.
Qed.
(** the inequality of Klein *)
Lemma klein {A B C} (K : list A) (J : list B) (I : list C) (p : A -> R) (be : B -> R) (al : C -> R) (P : A -> B -> C -> R) :
  (forall k, In k K -> 0 <= p k) -> (forall i, In i I -> 0 <= al i) -> (forall j, In j J -> 0 <= be j) -> (forall k j i, 0 <= P k j i) ->
  rsum p K = 1 -> rsum al I = 1 -> rsum be J = 1 ->
  (forall k, In k K -> rsum (fun j => rsum (fun i => P k j i) I) J = 1) -> (forall j i, In j J -> In i I -> rsum (fun k => P k j i) K = 1) ->
  (forall i, In i I -> rsum (fun k => rsum (fun j => p k * P k j i) J) K = al i) -> (forall j, In j J -> rsum (fun k => rsum (fun i => p k * P k j i) I) K = be j) ->
  0 <= rsum (fun k => p k * L (p k)) K - rsum (fun i => al i * L (al i)) I - rsum (fun j => be j * L (be j)) J.
Proof.
  intros Pp Pa Pb PP Sp Sa Sb HK HJI HI HJ.
  assert (E1 : rsum (fun k => p k * L (p k)) K = rsum (fun k => rsum (fun j => rsum (fun i => p k * P k j i * L (p k)) I) J) K).
  { apply rsum_ext. intros k Hk. transitivity (p k * L (p k) * rsum (fun j => rsum (fun i => P k j i) I) J); [rewrite HK by auto; ring|].
    rewrite <- rsum_scal. apply rsum_ext. intros j _. rewrite <- rsum_scal. apply rsum_ext. intros i _. ring. }
  assert (E2 : rsum (fun i => al i * L (al i)) I = rsum (fun k => rsum (fun j => rsum (fun i => p k * P k j i * L (al i)) I) J) K).
  { transitivity (rsum (fun i => rsum (fun k => rsum (fun j => p k * P k j i * L (al i)) J) K) I).
    - apply rsum_ext. intros i Hi. rewrite <- (HI i Hi) at 1. rewrite <- rsum_scal_r. apply rsum_ext. intros k _. now rewrite <- rsum_scal_r.
    - rewrite rsum_swap. apply rsum_ext. intros k _. now rewrite rsum_swap. }
  assert (E3 : rsum (fun j => be j * L (be j)) J = rsum (fun k => rsum (fun j => rsum (fun i => p k * P k j i * L (be j)) I) J) K).
  { transitivity (rsum (fun j => rsum (fun k => rsum (fun i => p k * P k j i * L (be j)) I) K) J).
    - apply rsum_ext. intros j Hj. rewrite <- (HJ j Hj) at 1. rewrite <- rsum_scal_r. apply rsum_ext. intros k _. now rewrite <- rsum_scal_r.
    - now rewrite rsum_swap. }
  assert (E4 : rsum (fun k => rsum (fun j => rsum (fun i => P k j i * (p k - al i * be j)) I) J) K = 0).
  { transitivity (rsum (fun k => p k * rsum (fun j => rsum (fun i => P k j i) I) J) K - rsum (fun j => rsum (fun i => al i * be j * rsum (fun k => P k j i) K) I) J).
    - transitivity (rsum (fun k => rsum (fun j => rsum (fun i => p k * P k j i) I) J) K - rsum (fun k => rsum (fun j => rsum (fun i => al i * be j * P k j i) I) J) K).
      + unfold Rminus. rewrite <- rsum_opp, <- rsum_add. apply rsum_ext. intros k _. rewrite <- rsum_opp, <- rsum_add. apply rsum_ext. intros j _.
        rewrite <- rsum_opp, <- rsum_add. apply rsum_ext. intros i _. ring.
      + f_equal.
        * apply rsum_ext. intros k _. rewrite <- rsum_scal. apply rsum_ext. intros j _. now rewrite <- rsum_scal.
        * rewrite rsum_swap. apply rsum_ext. intros j _. rewrite rsum_swap. apply rsum_ext. intros i _. now rewrite <- rsum_scal.
    - rewrite (rsum_ext (fun k => p k * rsum (fun j => rsum (fun i => P k j i) I) J) p) by (intros k Hk; rewrite HK by auto; ring).
      rewrite (rsum_ext _ (fun j => rsum al I * be j) J); [rewrite rsum_scal, Sp, Sa, Sb; ring|].
      intros j Hj. rewrite <- rsum_scal_r. apply rsum_ext. intros i Hi. rewrite HJI by auto. ring. }
  rewrite E1, E2, E3. rewrite <- E4 at 1. unfold Rminus. rewrite <- !rsum_opp, <- !rsum_add.
  apply rsum_mono. intros k Hk. rewrite <- !rsum_opp, <- !rsum_add. apply rsum_mono. intros j Hj. rewrite <- !rsum_opp, <- !rsum_add. apply rsum_mono. intros i Hi.
  pose proof (Pp k Hk) as Ppk. pose proof (PP k j i) as PPk.
  pose proof (Rmult_le_pos _ _ (Pa i Hi) (Pb j Hj)) as Pab.
  destruct (Rle_lt_or_eq_dec _ _ PPk) as [H1|<-]; [|lra].
  destruct (Rle_lt_or_eq_dec _ _ Ppk) as [H2|H2].
  2:{ rewrite <- H2. nra. }
  assert (Hpos : 0 < p k * P k j i) by now apply Rmult_lt_0_compat.
  assert (Ha : 0 < al i).
  { apply Rlt_le_trans with (p k * P k j i); [exact Hpos|]. rewrite <- (HI i Hi). apply (rsum2_le (fun k j => p k * P k j i) K J k j); auto.
    intros x y Hx _. apply Rmult_le_pos; [now apply Pp|apply PP]. }
  assert (Hb : 0 < be j).
  { apply Rlt_le_trans with (p k * P k j i); [exact Hpos|]. rewrite <- (HJ j Hj). apply (rsum2_le (fun k i => p k * P k j i) K I k i); auto.
    intros x y Hx _. apply Rmult_le_pos; [now apply Pp|apply PP]. }
  rewrite !L_pos by auto.
  assert (Hab : 0 < al i * be j) by now apply Rmult_lt_0_compat.
  pose proof (ln_le (al i * be j / p k)) as G. assert (0 < al i * be j / p k) by (apply Rdiv_lt_0_compat; auto). specialize (G H).
  unfold Rdiv in G. rewrite ln_mult, ln_mult, ln_Rinv in G by (auto using Rinv_0_lt_compat).
  apply (Rmult_le_compat_l (p k * P k j i)) in G; [|lra].
  replace (p k * P k j i * (al i * be j * / p k - 1)) with (P k j i * (al i * be j) - P k j i * p k) in G by (field; lra). lra.
Qed.

(** ** negativity *)
Lemma cabs_RC e : cabs (RC e) = Rabs e.
Proof. unfold cabs. rewrite csq_RC. apply sqrt_Rsqr_abs. Qed.
Lemma neg_sum ev : rsum (fun e => e) ev = 1 -> (rsum (fun e => Rabs e) ev - 1) / 2 = negativePart ev.
Proof.
  intros T. unfold negativePart. rewrite <- T at 1. unfold Rminus. rewrite <- rsum_opp, <- rsum_add. unfold Rdiv. rewrite <- rsum_scal_r. apply rsum_ext. intros e _.
  unfold Rabs, Rmax. destruct (Rcase_abs e), (Rle_dec 0 (- e)); lra.
Qed.
Lemma negpart_zero ev : (forall e, In e ev -> 0 <= e) -> negativePart ev = 0.
Proof.
  intros P. unfold negativePart. rewrite (rsum_ext _ (fun _ => 0)); [apply rsum_0|]. intros e He. specialize (P e He). unfold Rmax. destruct (Rle_dec 0 (- e)); lra.
Qed.
Lemma negpart_nonneg ev : 0 <= negativePart ev.
Proof. apply rsum_nonneg. intros e _. apply Rmax_l. Qed.
Lemma transp_mmeq dims (M N : op) : mmeq dims M N -> mmeq dims (transp M) (transp N).
Proof. intros E i j Hi Hj. unfold transp. now apply E. Qed.
Lemma ptransp_nil dims (r : op) : mmeq dims (ptransp [] r) r.
Proof.
  intros i j Hi Hj. unfold ptransp. assert (T : forall x y, take_from [] x y = x); [|now rewrite !T]. intros x y. unfold take_from.
  apply (nth_ext _ _ 0%nat 0%nat); [now rewrite map_length, seq_length|]. intros k Hk. rewrite map_length, seq_length in Hk.
  rewrite (nth_indep _ 0%nat ((fun o => if in_dec Nat.eq_dec o [] then nth o y 0%nat else nth o x 0%nat) 0%nat)) by now rewrite map_length, seq_length.
  rewrite (map_nth (fun o => if in_dec Nat.eq_dec o [] then nth o y 0%nat else nth o x 0%nat)). rewrite seq_nth by exact Hk. cbn [Nat.add].
  destruct (in_dec Nat.eq_dec k []) as [F|_]; [destruct F|reflexivity].
Qed.
Lemma negPT_ok solver dims V (o : obj CR) ev : oShape o = dims ++ dims -> density dims (mm o) -> solves solver dims (transp (ptransp V (mm o))) ->
  eigenvalues_of dims (ptransp V (mm o)) ev -> negPT solver (length dims) V o = Some (negativePart ev).
Proof.
  intros Sh [Ht Hp] S He. unfold negPT. destruct V as [|v0 V0].
  - f_equal. symmetry. apply negpart_zero. apply (eigenvalues_pos dims (mm o)); [exact Hp|]. apply (eigenvalues_mmeq dims (ptransp [] (mm o))); [apply ptransp_nil|exact He].
  - set (V := v0 :: V0) in *. destruct (pt_spec dims V o Sh) as (o' & Eo & Sh' & Hm). rewrite Eo. f_equal.
    rewrite Sh', firstn_app, firstn_all, Nat.sub_diag, firstn_O, app_nil_r. change (fun i j => oRead o' (i ++ j)) with (mm o').
    assert (Hm' : mmeq dims (transp (mm o')) (transp (ptransp V (mm o)))) by now apply transp_mmeq.
    destruct (S (transp (mm o')) Hm') as (ev' & He' & Es). rewrite Es, fold_plus.
    assert (He2 : eigenvalues_of dims (transp (ptransp V (mm o))) ev') by now apply (eigenvalues_mmeq dims (transp (mm o'))).
    apply eigenvalues_transp in He2. change (transp (transp (ptransp V (mm o)))) with (ptransp V (mm o)) in He2.
    assert (T : rsum (fun e => e) ev' = 1).
    { pose proof (eigenvalues_trace _ _ _ He2) as E. rewrite ptransp_trace, Ht, <- RC1 in E. apply RC_inj in E. lra. }
    rewrite rsum_map. rewrite (rsum_ext (fun a => cabs (RC a)) (fun a => Rabs a)) by (intros; apply cabs_RC).
    rewrite Rplus_0_l, (neg_sum ev' T). unfold negativePart. apply (eigenvalues_unique dims _ ev' ev (fun e => Rmax 0 (- e)) He2 He).
Qed.
Lemma coords_take_V V i j : (forall v, In v V -> (v < length i)%nat) -> coords V (take_from V i j) = coords V j.
Proof.
  intros H. unfold coords. apply map_ext_in. intros v Hv. rewrite nth_take_from by auto. rewrite contains_in. now destruct (in_dec Nat.eq_dec v V).
Qed.
Lemma coords_take_O V n i j : length i = n -> coords (others n V) (take_from V i j) = coords (others n V) i.
Proof.
  intros E. unfold coords. apply map_ext_in. intros v Hv. unfold others in Hv. apply filter_In in Hv. destruct Hv as [H1 H2]. apply in_seq in H1.
  rewrite nth_take_from by lia. rewrite contains_in. now destruct (in_dec Nat.eq_dec v V).
Qed.
Lemma mean_ext dims phi M M' : mmeq dims M M' -> mean dims phi M = mean dims phi M'.
Proof. intros E. rewrite !mean_form. now apply form_ext. Qed.
Lemma separable_pos dims V rho phi : good_positions (length dims) V -> separable dims V rho -> exists r, 0 <= r /\ mean dims phi (ptransp V rho) = RC r.
Proof.
  intros [_ HV] [l E].
  set (g := fun bc : (list nat -> CR) * (list nat -> CR) => fun y => kmul (kconj (fst bc (coords V y))) (snd bc (coords (others (length dims) V) y))).
  assert (E' : mmeq dims (ptransp V rho) (fun i j => ksum (fun bc => pure (g bc) i j) l)).
  { intros i j Hi Hj. pose proof (inr_length _ _ Hi) as Li. pose proof (inr_length _ _ Hj) as Lj. unfold ptransp. rewrite E by now apply take_from_inr.
    apply ksum_ext. intros [b c] _. unfold product, pure, g. cbn [fst snd]. rewrite !coords_take_V, !coords_take_O by (auto; intros; rewrite ?Li, ?Lj; auto). rewrite kconj_mul, kconj_invol. ring. }
  rewrite (mean_ext dims phi _ _ E'). exists (rsum (fun bc => csq (inner dims phi (g bc))) l). split; [apply rsum_nonneg; intros; apply csq_nonneg|].
  rewrite <- ksum_RC. transitivity (ksum (fun bc => mean dims phi (pure (g bc))) l); [|apply ksum_ext; intros; apply mean_pure].
  unfold mean. rewrite <- isum_ksum. apply isum_ext. intros x _. rewrite <- isum_ksum. apply isum_ext. intros y _. rewrite <- ksum_scal_l, <- ksum_scal_r. reflexivity.
Qed.
Lemma negPT_separable solver dims V (o : obj CR) : good_positions (length dims) V -> oShape o = dims ++ dims -> mtrace dims (mm o) = k1 -> separable dims V (mm o) ->
  solves solver dims (transp (ptransp V (mm o))) -> negPT solver (length dims) V o = Some 0.
Proof.
  intros HV Sh Ht Hs S. destruct V as [|v0 V0]; [reflexivity|]. set (V := v0 :: V0) in *. unfold negPT, V. fold V.
  destruct (pt_spec dims V o Sh) as (o' & Eo & Sh' & Hm). rewrite Eo. f_equal.
  rewrite Sh', firstn_app, firstn_all, Nat.sub_diag, firstn_O, app_nil_r. change (fun i j => oRead o' (i ++ j)) with (mm o').
  destruct (S (transp (mm o')) (transp_mmeq _ _ _ Hm)) as (ev' & He' & Es). rewrite Es, fold_plus.
  apply eigenvalues_transp in He'. change (transp (transp (mm o'))) with (mm o') in He'. apply (eigenvalues_mmeq dims _ _ _ Hm) in He'.
  assert (T : rsum (fun e => e) ev' = 1).
  { pose proof (eigenvalues_trace _ _ _ He') as E. rewrite ptransp_trace, Ht, <- RC1 in E. apply RC_inj in E. lra. }
  rewrite rsum_map. rewrite (rsum_ext (fun a => cabs (RC a)) (fun a => Rabs a)) by (intros; apply cabs_RC).
  rewrite Rplus_0_l, (neg_sum ev' T). apply negpart_zero. apply (eigenvalues_pos dims (ptransp V (mm o))); [|exact He']. intros phi. now apply separable_pos.
Qed.
Lemma negPT_complement solver dims V W (o : obj CR) : oShape o = dims ++ dims -> density dims (mm o) -> (forall k, (k < length dims)%nat -> (In k V <-> ~ In k W)) ->
  solves solver dims (transp (ptransp V (mm o))) -> solves solver dims (transp (ptransp W (mm o))) -> negPT solver (length dims) V o = negPT solver (length dims) W o.
Proof.
  intros Sh D C SV SW. destruct (SV _ (fun _ _ _ _ => eq_refl)) as (ev & He & _). apply eigenvalues_transp in He.
  change (transp (transp (ptransp V (mm o)))) with (ptransp V (mm o)) in He. rewrite (negPT_ok solver dims V o ev Sh D SV He). symmetry. apply (negPT_ok solver dims W o ev Sh D SW).
  apply eigenvalues_transp in He. apply (eigenvalues_mmeq dims (transp (ptransp V (mm o)))); [|exact He].
  intros i j Hi Hj. unfold transp. apply (ptransp_compl dims V W (mm o) C); auto.
Qed.

(** ** entropy *)
Lemma entropy_ok solver dims rho ev : solvesSA solver dims (transp rho) -> eigenvalues_of dims rho ev -> entropy solver dims rho = vonNeumann ev.
Proof.
  intros S He. unfold entropy. specialize (S (transp rho) (fun _ _ _ _ => eq_refl)). apply eigenvalues_transp in S. change (transp (transp rho)) with rho in S.
  rewrite (fold_minus (fun e => e * (if Rlt_dec 0 e then ln e else 0))). rewrite vn_form. unfold Rminus. rewrite Rplus_0_l. f_equal.
  apply (eigenvalues_unique dims rho _ ev (fun e => e * L e) S He).
Qed.
Lemma entropy_ev solver dims rho rho' : mmeq dims rho rho' -> solvesSA solver dims (transp rho') -> exists ev, eigenvalues_of dims rho' ev /\ entropy solver dims rho = vonNeumann ev.
Proof.
  intros E S. pose proof (S _ (transp_mmeq _ _ _ E)) as He. apply eigenvalues_transp in He. change (transp (transp rho)) with rho in He.
  assert (S' : solvesSA solver dims (transp rho)).
  { intros M' HM. apply S. intros i j Hi Hj. rewrite HM by auto. unfold transp. now apply E. }
  exists (solver dims (transp rho)). split; [now apply (eigenvalues_mmeq dims rho)|]. now apply entropy_ok.
Qed.
Lemma density_ev dims rho ev : density dims rho -> eigenvalues_of dims rho ev -> (forall e, In e ev -> 0 <= e) /\ rsum (fun e => e) ev = 1.
Proof.
  intros [Ht Hp] He. split; [now apply (eigenvalues_pos dims rho)|]. pose proof (eigenvalues_trace _ _ _ He) as E. rewrite Ht, <- RC1 in E. apply RC_inj in E. lra.
Qed.
Lemma ev_count dims rho ev : eigenvalues_of dims rho ev -> INR (length ev) = INR (fold_right Nat.mul 1%nat dims).
Proof. intros He. apply eigenvalues_fam in He. destruct He as [v H]. pose proof (fam_count _ _ _ _ _ H) as E. rewrite seq_length, indices_length in E. exact E. Qed.
Lemma entropy_bounds solver dims rho ev : density dims rho -> solvesSA solver dims (transp rho) -> eigenvalues_of dims rho ev ->
  entropy solver dims rho = vonNeumann ev /\ 0 <= vonNeumann ev <= ln (INR (fold_right Nat.mul 1%nat dims)).
Proof.
  intros D S He. split; [now apply entropy_ok|]. destruct (density_ev _ _ _ D He) as [P T]. rewrite <- (ev_count _ _ _ He). split; [now apply vn_nonneg|now apply vn_le].
Qed.
Lemma pure_density dims psi : inner dims psi psi = k1 -> density dims (pure psi).
Proof.
  intros H. split.
  - rewrite <- H. unfold mtrace, inner, pure. apply isum_ext. intros; ring.
  - intros phi. exists (csq (inner dims phi psi)). split; [apply csq_nonneg|apply mean_pure].
Qed.
Lemma pure_ev dims psi rho ev : inner dims psi psi = k1 -> mmeq dims rho (pure psi) -> eigenvalues_of dims rho ev -> forall e, In e ev -> e = 0 \/ e = 1.
Proof.
  intros N E He e Hin. apply (eigenvalues_mmeq _ _ _ _ E) in He. apply eigenvalues_fam in He. destruct He as [v H]. apply (In_nth _ _ 0) in Hin. destruct Hin as (k & Hk & <-).
  assert (Hin : In k (seq 0 (length ev))) by (apply in_seq; lia). set (a := nth k ev 0) in *.
  assert (G : forall x, inr dims x -> kmul (RC a) (v k x) = kmul (psi x) (inner dims psi (v k))).
  { intros x Hx. destruct H as (_ & _ & _ & _ & Hv). unfold a. rewrite <- Hv by auto. unfold pure, inner. rewrite <- isum_scal_l. apply isum_ext. intros; ring. }
  assert (G1 : kmul (RC a) (inner dims psi (v k)) = inner dims psi (v k)).
  { unfold inner at 1. rewrite <- isum_scal_l. transitivity (isum dims (fun x => kmul (kmul (kconj (psi x)) (psi x)) (inner dims psi (v k)))).
    - apply isum_ext. intros x Hx. transitivity (kmul (kconj (psi x)) (kmul (RC a) (v k x))); [ring|]. rewrite G by auto. ring.
    - rewrite isum_scal_r. fold (inner dims psi psi). rewrite N. ring. }
  assert (G2 : RC a = RC (csq (inner dims (v k) psi))) by (unfold a; rewrite <- (fam_mean _ _ _ _ _ H k Hin); apply mean_pure).
  apply RC_inj in G2. destruct (Req_dec a 1) as [|Na]; [now right|left]. rewrite G2.
  assert (Z : kmul (RC (a - 1)) (inner dims psi (v k)) = k0).
  { unfold Rminus. rewrite <- RC_add, <- RC_opp, RC1. transitivity (kadd (kmul (RC a) (inner dims psi (v k))) (kopp (inner dims psi (v k)))); [ring|]. rewrite G1. ring. }
  apply (f_equal csq) in Z. rewrite csq_mul, csq_RC, csq_0 in Z. rewrite <- inner_conj, csq_kconj.
  assert ((a - 1) * (a - 1) <> 0) by nra. apply Rmult_integral in Z. tauto.
Qed.
Lemma vn_01 ev : (forall e, In e ev -> e = 0 \/ e = 1) -> vonNeumann ev = 0.
Proof.
  intros H. unfold vonNeumann. rewrite (rsum_ext _ (fun _ => 0)); [apply rsum_0|]. intros e He. destruct (H e He) as [->| ->]; destruct (Rlt_dec _ _); rewrite ?ln_1; lra.
Qed.
Lemma entropy_pure solver dims psi rho : inner dims psi psi = k1 -> mmeq dims rho (pure psi) -> solvesSA solver dims (transp rho) -> entropy solver dims rho = 0.
Proof.
  intros N E S. destruct (entropy_ev solver dims rho rho (fun _ _ _ _ => eq_refl) S) as (ev & He & ->). apply vn_01. now apply (pure_ev dims psi rho ev N E).
Qed.

(** ** mutual information *)
Section Parts.
Variables (dims V : list nat).
Let n := length dims.
Hypothesis HV : good_positions n V.
Let sV := shV V dims.
Let sD := shD n V dims.
Let O := others n V.
Hypothesis Hpos : forall m, In m dims -> (0 < m)%nat.
Variable fuel : nat.
Hypothesis Hfuel : (fold_right Nat.mul 1%nat dims <= fuel)%nat.
Variable solver : list nat -> op -> list R.
Variable arr : list nat -> CR.
Let rho : op := fun i j => arr (i ++ j).

Lemma reduce_V : exists a, reduceDO fuel V dims arr = Some a /\ mmeq sV a (ptr V dims rho).
Proof. apply (reduceDO_ok dims V HV Hpos fuel Hfuel arr). Qed.
Lemma negatedO : negated n V = O.
Proof. unfold O, others. now rewrite negated_spec. Qed.
Lemma reduce_O : exists b, reduceDO fuel O dims arr = Some b /\ mmeq sD b (ptr O dims rho).
Proof.
  destruct (reduceDO_ok dims O (others_good dims V) Hpos fuel Hfuel arr) as (b & Eb & Hb). exists b. split; [exact Eb|].
  unfold sD, n. rewrite <- shapeO. exact Hb.
Qed.
Hypothesis S : solvesSA solver dims (transp rho).
Hypothesis SV : solvesSA solver sV (transp (ptr V dims rho)).
Hypothesis SO : solvesSA solver sD (transp (ptr O dims rho)).

Lemma mi_ev : exists ev evV evO, eigenvalues_of dims rho ev /\ eigenvalues_of sV (ptr V dims rho) evV /\ eigenvalues_of sD (ptr O dims rho) evO /\
  mutualInformation solver fuel V dims arr = Some (vonNeumann evV + vonNeumann evO - vonNeumann ev).
Proof.
  destruct reduce_V as (a & Ea & Ha), reduce_O as (b & Eb & Hb).
  destruct (entropy_ev solver dims rho rho (fun _ _ _ _ => eq_refl) S) as (ev & He & E).
  destruct (entropy_ev solver sV a _ Ha SV) as (evV & HeV & EV), (entropy_ev solver sD b _ Hb SO) as (evO & HeO & EO).
  exists ev, evV, evO. repeat (split; [assumption|]). unfold mutualInformation. fold n. rewrite negatedO, Ea, Eb.
  change (fun i j => arr (i ++ j)) with rho. rewrite E. change (shapeOf V dims) with sV. rewrite EV.
  replace (shapeOf O dims) with sD by (symmetry; apply shapeO). now rewrite EO.
Qed.
Lemma rsum_prod2 {A B} (f : A * B -> R) (J : list A) (I : list B) : rsum f (list_prod J I) = rsum (fun j => rsum (fun i => f (j, i)) I) J.
Proof. induction J as [|j J IH]; [reflexivity|]. cbn [list_prod]. rewrite rsum_app, rsum_map, IH. reflexivity. Qed.

Lemma mi_nonneg ev evV evO : density dims rho -> eigenvalues_of dims rho ev -> eigenvalues_of sV (ptr V dims rho) evV -> eigenvalues_of sD (ptr O dims rho) evO ->
  0 <= vonNeumann evV + vonNeumann evO - vonNeumann ev.
Proof.
  intros D He HeV HeO. destruct (density_ev _ _ _ D He) as [P T].
  destruct (density_ev _ _ _ (density_V dims V HV rho D) HeV) as [PV TV]. destruct (density_ev _ _ _ (density_O dims V HV rho D) HeO) as [PO TO].
  apply eigenvalues_fam in He, HeV, HeO. destruct He as [v H], HeV as [a HA], HeO as [b HB]. fold sV in HA. fold n sD O in HB.
  rewrite !vn_form. rewrite <- (rsum_nth (fun e => e)) in T, TV, TO. rewrite <- (rsum_nth (fun e => e * L e) ev), <- (rsum_nth (fun e => e * L e) evV), <- (rsum_nth (fun e => e * L e) evO).
  set (K := seq 0 (length ev)) in *. set (I := seq 0 (length evV)) in *. set (J := seq 0 (length evO)) in *.
  set (ten := fun j i => tensor dims V (b j) (a i)).
  assert (CA : complete sV I a) by (destruct HA as (_ & _ & _ & Hc & _); exact Hc).
  assert (CB : complete sD J b) by (destruct HB as (_ & _ & _ & Hc & _); exact Hc).
  assert (NA : forall l k, In k (seq 0 (length l)) -> (forall e, In e l -> 0 <= e) -> 0 <= nth k l 0).
  { intros l k Hk Hl. apply Hl. apply nth_In. apply in_seq in Hk. lia. }
  pose proof (fam_product dims V HV _ _ I J _ _ a b HA HB) as HP.
  pose proof (klein K J I (fun k => nth k ev 0) (fun j => nth j evO 0) (fun i => nth i evV 0) (fun k j i => csq (inner dims (ten j i) (v k)))) as G.
  match type of G with ?h1 -> ?h2 -> ?h3 -> ?h4 -> ?h5 -> ?h6 -> ?h7 -> ?h8 -> ?h9 -> ?h10 -> ?h11 -> _ =>
    assert (G1 : h1); [|assert (G2 : h2); [|assert (G3 : h3); [|assert (G4 : h4); [|assert (G8 : h8); [|assert (G9 : h9); [|assert (G10 : h10); [|assert (G11 : h11)]]]]]]] end.
  - intros k Hk. now apply NA.
  - intros k Hk. now apply NA.
  - intros k Hk. now apply NA.
  - intros. apply csq_nonneg.
  - intros k Hk. rewrite <- (rsum_prod2 (fun ji => csq (inner dims (ten (fst ji) (snd ji)) (v k)))).
    transitivity (rsum (fun ji => csq (inner dims (v k) (tensor dims V (b (fst ji)) (a (snd ji))))) (list_prod J I)).
    + apply rsum_ext. intros ji _. unfold ten. rewrite <- inner_conj. apply csq_kconj.
    + rewrite (fam_parseval_norm _ _ _ _ _ HP (v k)). destruct H as (_ & Ho & _). now rewrite Ho.
  - intros j i Hj Hi. rewrite (fam_parseval_norm _ _ _ _ _ H). destruct HP as (_ & Ho & _). specialize (Ho (j, i)). cbn [fst snd] in Ho. unfold ten. rewrite Ho; [reflexivity|]. now apply in_prod.
  - intros i Hi. rewrite rsum_swap. apply RC_inj. rewrite <- (fam_mean _ _ _ _ _ HA i Hi), mean_form. unfold sV. rewrite <- (form_V dims V HV J b (a i) (a i) rho CB), <- ksum_RC.
    apply ksum_ext. intros j _. rewrite <- mean_form. unfold ten. now rewrite (fam_mean_any _ _ _ _ _ H).
  - intros j Hj. rewrite rsum_swap. apply RC_inj. rewrite <- (fam_mean _ _ _ _ _ HB j Hj), mean_form. unfold sD, O, n. rewrite <- (form_O dims V HV I a (b j) (b j) rho CA), <- ksum_RC.
    apply ksum_ext. intros i _. rewrite <- mean_form. unfold ten. now rewrite (fam_mean_any _ _ _ _ _ H).
  - specialize (G G1 G2 G3 G4 T TV TO G8 G9 G10 G11). cbv beta in G. lra.
Qed.
Lemma L_mult x y : 0 <= x -> 0 <= y -> x * y * L (x * y) = y * (x * L x) + x * (y * L y).
Proof.
  intros Hx Hy. destruct (Rle_lt_or_eq_dec _ _ Hx) as [X|<-]; [|ring]. destruct (Rle_lt_or_eq_dec _ _ Hy) as [Y|<-]; [|ring].
  rewrite !L_pos by (auto; now apply Rmult_lt_0_compat). rewrite ln_mult by auto. ring.
Qed.
Lemma mi_product b c ev evV evO : density dims rho -> mmeq dims rho (product V dims b c) -> mtrace sV b = k1 -> mtrace sD c = k1 ->
  eigenvalues_of dims rho ev -> eigenvalues_of sV (ptr V dims rho) evV -> eigenvalues_of sD (ptr O dims rho) evO -> vonNeumann evV + vonNeumann evO - vonNeumann ev = 0.
Proof.
  intros D E Tb Tc He HeV HeO.
  destruct (density_ev _ _ _ (density_V dims V HV rho D) HeV) as [PV TV]. destruct (density_ev _ _ _ (density_O dims V HV rho D) HeO) as [PO TO].
  assert (EV : mmeq sV (ptr V dims rho) b).
  { intros s s' Hs Hs'. rewrite (ptr_V dims V HV) by auto. transitivity (isum sD (fun d => kmul (b s s') (c d d))).
    - apply isum_ext. intros d Hd. rewrite E by (now apply addr_inr). unfold product. fold n. fold O. rewrite !(coordsO dims V HV), !(coordsV dims V HV) by auto. reflexivity.
    - rewrite isum_scal_l. fold (mtrace sD c). rewrite Tc. ring. }
  assert (EO : mmeq sD (ptr O dims rho) c).
  { intros d d' Hd Hd'. unfold O, n. rewrite (ptr_O dims V HV) by auto. transitivity (isum sV (fun s => kmul (b s s) (c d d'))).
    - apply isum_ext. intros s Hs. rewrite E by (now apply addr_inr). unfold product. rewrite !(coordsO dims V HV), !(coordsV dims V HV) by auto. reflexivity.
    - rewrite isum_scal_r. fold (mtrace sV b). rewrite Tb. ring. }
  apply (eigenvalues_mmeq _ _ _ _ EV) in HeV. apply (eigenvalues_mmeq _ _ _ _ EO) in HeO. apply (eigenvalues_mmeq _ _ _ _ E) in He.
  apply eigenvalues_fam in He, HeV, HeO. destruct He as [v H], HeV as [a HA], HeO as [u HB].
  pose proof (fam_product dims V HV _ _ _ _ _ _ a u HA HB) as HP.
  pose proof (fam_unique dims _ _ _ _ _ _ _ (fun e => e * L e) H HP) as U. rewrite rsum_prod2 in U. cbv beta in U. cbn [fst snd] in U.
  rewrite !vn_form. rewrite <- (rsum_nth (fun e => e * L e) ev), U.
  assert (X : rsum (fun j => rsum (fun i => nth j evO 0 * nth i evV 0 * L (nth j evO 0 * nth i evV 0)) (seq 0 (length evV))) (seq 0 (length evO)) = rsum (fun e => e * L e) evO + rsum (fun e => e * L e) evV).
  { transitivity (rsum (fun j => rsum (fun e => e) evV * (nth j evO 0 * L (nth j evO 0)) + nth j evO 0 * rsum (fun e => e * L e) evV) (seq 0 (length evO))).
    - apply rsum_ext. intros j Hj. apply in_seq in Hj. rewrite <- (rsum_nth (fun e => e) evV), <- (rsum_nth (fun e => e * L e) evV). rewrite <- rsum_scal, <- rsum_scal_r, <- rsum_add.
      apply rsum_ext. intros i Hi. apply in_seq in Hi. apply L_mult; [apply PO|apply PV]; apply nth_In; lia.
    - rewrite rsum_add, rsum_scal, rsum_scal_r, TV, (rsum_nth (fun e => e * L e) evO), (rsum_nth (fun e => e) evO), TO. ring. }
  rewrite X. ring.
Qed.
(** Schmidt: the two parts of a pure state have the same nonzero eigenvalues *)
Lemma schmidt psi evV evO (f : R -> R) : mmeq dims rho (pure psi) -> eigenvalues_of sV (ptr V dims rho) evV -> eigenvalues_of sD (ptr O dims rho) evO ->
  rsum (fun e => f e * e) evV = rsum (fun e => f e * e) evO.
Proof.
  intros E HeV HeO. apply eigenvalues_fam in HeV, HeO. destruct HeV as [a HA], HeO as [b HB].
  rewrite <- (rsum_nth (fun e => f e * e) evV), <- (rsum_nth (fun e => f e * e) evO).
  set (I := seq 0 (length evV)) in *. set (J := seq 0 (length evO)) in *. set (T := fun i j => inner dims (tensor dims V (b j) (a i)) psi).
  assert (CA : complete sV I a) by (destruct HA as (_ & _ & _ & Hc & _); exact Hc).
  assert (CB : complete sD J b) by (destruct HB as (_ & _ & _ & Hc & _); exact Hc).
  assert (FA : forall i i', ksum (fun j => kmul (T i j) (kconj (T i' j))) J = form sV (a i) (ptr V dims rho) (a i')).
  { intros i i'. unfold sV. rewrite <- (form_V dims V HV J b (a i) (a i') rho CB). apply ksum_ext. intros j _. rewrite (form_ext dims _ _ _ _ E), form_pure. reflexivity. }
  assert (FB : forall j j', ksum (fun i => kmul (T i j) (kconj (T i j'))) I = form sD (b j) (ptr O dims rho) (b j')).
  { intros j j'. unfold sD, O, n. rewrite <- (form_O dims V HV I a (b j) (b j') rho CA). apply ksum_ext. intros i _. rewrite (form_ext dims _ _ _ _ E), form_pure. reflexivity. }
  assert (DD : forall (sh : list nat) (M : op) (X : list nat) (al : nat -> R) (v : nat -> list nat -> CR), eigfam sh M X al v -> forall i i', In i X -> In i' X ->
            form sh (v i) M (v i') = if (i =? i')%nat then RC (al i) else k0).
  { intros sh M X al v (_ & Ho & Ho' & _ & Hv) i i' Hi Hi'. unfold form.
    transitivity (kmul (RC (al i')) (inner sh (v i) (v i'))).
    - unfold inner. rewrite <- isum_scal_l. apply isum_ext. intros x Hx. transitivity (kmul (kconj (v i x)) (isum sh (fun y => kmul (M x y) (v i' y)))).
      + rewrite <- isum_scal_l. apply isum_ext. intros; ring.
      + rewrite Hv by auto. ring.
    - destruct (Nat.eqb_spec i i') as [->|N]; [rewrite Ho by auto|rewrite (Ho' i i') by auto]; ring. }
  assert (KS : forall (X : list nat) (k : nat) (g : nat -> CR) c, NoDup X -> In k X -> ksum (fun l => kmul (if (k =? l)%nat then c else k0) (g l)) X = kmul c (g k)).
  { intros X k g c Hn Hk. rewrite (ksum_single _ X k Hn Hk).
    - now rewrite Nat.eqb_refl.
    - intros l _ Nl. destruct (Nat.eqb_spec k l) as [->|]; [contradiction|ring]. }
  apply (transfer I J (fun i => nth i evV 0) (fun j => nth j evO 0) (fun i j => csq (T i j)) (fun i => nth i evV 0) (fun j => nth j evO 0) f).
  - intros i j Hi Hj. destruct (Req_dec (nth i evV 0) (nth j evO 0)) as [Q|N]; [now right|left].
    assert (Eq : kmul (RC (nth i evV 0)) (T i j) = kmul (RC (nth j evO 0)) (T i j)).
    { transitivity (ksum (fun i' => kmul (ksum (fun j' => kmul (T i j') (kconj (T i' j'))) J) (T i' j)) I).
      - rewrite <- (KS I i (fun i' => T i' j)) by (auto; apply seq_NoDup). apply ksum_ext. intros i' Hi'. rewrite FA, (DD _ _ _ _ _ HA) by auto. reflexivity.
      - transitivity (ksum (fun j' => kmul (kconj (ksum (fun i' => kmul (T i' j') (kconj (T i' j))) I)) (T i j')) J).
        + transitivity (ksum (fun i' => ksum (fun j' => kmul (kmul (T i j') (kconj (T i' j'))) (T i' j)) J) I); [apply ksum_ext; intros; now rewrite ksum_scal_r|].
          rewrite ksum_swap. apply ksum_ext. intros j' _. rewrite ksum_conj, <- ksum_scal_r. apply ksum_ext. intros i' _. rewrite kconj_mul, kconj_invol. ring.
        + rewrite <- (KS J j (fun j' => T i j')) by (auto; apply seq_NoDup). apply ksum_ext. intros j' Hj'. rewrite FB, (DD _ _ _ _ _ HB) by auto.
          rewrite Nat.eqb_sym. destruct (Nat.eqb_spec j j') as [->|]; rewrite ?RC_conj, ?kconj_0; reflexivity. }
    assert (Z : kmul (RC (nth i evV 0 - nth j evO 0)) (T i j) = k0).
    { unfold Rminus. rewrite <- RC_add, <- RC_opp. transitivity (kadd (kmul (RC (nth i evV 0)) (T i j)) (kopp (kmul (RC (nth j evO 0)) (T i j)))); [ring|]. rewrite Eq. ring. }
    apply (f_equal csq) in Z. rewrite csq_mul, csq_RC, csq_0 in Z. assert ((nth i evV 0 - nth j evO 0) * (nth i evV 0 - nth j evO 0) <> 0) by nra. apply Rmult_integral in Z. tauto.
  - intros i Hi. apply RC_inj. rewrite <- ksum_RC. rewrite <- (fam_mean _ _ _ _ _ HA i Hi), mean_form, <- FA. apply ksum_ext. intros j _. now rewrite csq_conj_r.
  - intros j Hj. apply RC_inj. rewrite <- ksum_RC. rewrite <- (fam_mean _ _ _ _ _ HB j Hj), mean_form, <- FB. apply ksum_ext. intros i _. now rewrite csq_conj_r.
Qed.
Lemma vn_schmidt psi evV evO : mmeq dims rho (pure psi) -> eigenvalues_of sV (ptr V dims rho) evV -> eigenvalues_of sD (ptr O dims rho) evO -> vonNeumann evV = vonNeumann evO.
Proof.
  intros E HeV HeO. rewrite !vn_form. f_equal. rewrite (rsum_ext (fun e => e * L e) (fun e => L e * e) evV), (rsum_ext (fun e => e * L e) (fun e => L e * e) evO) by (intros; ring).
  now apply (schmidt psi).
Qed.
End Parts.

(** ** purity *)
Lemma RC_csq_comm (z : CR) : RC (csq z) = kmul z (kconj z).
Proof. symmetry. apply csq_conj_r. Qed.
Lemma purity_sum dims rho : RC (purityOf dims rho) = isum dims (fun i => isum dims (fun j => kmul (rho i j) (kconj (rho i j)))).
Proof.
  unfold purityOf. rewrite <- ksum_RC. unfold isum. apply ksum_ext. intros i _. rewrite <- ksum_RC. apply ksum_ext. intros j _. apply RC_csq_comm.
Qed.
Lemma purityOf_ext dims a b : mmeq dims a b -> purityOf dims a = purityOf dims b.
Proof. intros E. unfold purityOf. apply rsum_ext. intros i Hi. apply rsum_ext. intros j Hj. apply in_indices in Hi, Hj. now rewrite E. Qed.
(** matrix elements of a positive matrix *)
Lemma form_two dims rho x y al be : inr dims x -> inr dims y -> x <> y ->
  mean dims (fun z => if listnat_eqb x z then al else if listnat_eqb y z then be else k0) rho =
  kadd (kadd (kmul (kmul (kconj al) (rho x x)) al) (kmul (kmul (kconj al) (rho x y)) be)) (kadd (kmul (kmul (kconj be) (rho y x)) al) (kmul (kmul (kconj be) (rho y y)) be)).
Proof.
  intros Hx Hy N.
  assert (G : forall g : list nat -> CR -> CR, (forall z, g z k0 = k0) -> isum dims (fun z => g z (if listnat_eqb x z then al else if listnat_eqb y z then be else k0)) = kadd (g x al) (g y be)).
  { intros g Hg. transitivity (kadd (isum dims (fun z => if listnat_eqb x z then g z al else k0)) (isum dims (fun z => if listnat_eqb y z then g z be else k0))).
    - rewrite <- isum_add. apply isum_ext. intros z _. destruct (listnat_eqb_spec x z) as [->|].
      + destruct (listnat_eqb_spec y z) as [->|]; [contradiction|ring].
      + destruct (listnat_eqb y z); rewrite ?Hg; ring.
    - now rewrite (isum_delta dims x (fun z => g z al)), (isum_delta dims y (fun z => g z be)). }
  unfold mean. rewrite (G (fun z c => isum dims (fun w => kmul (kmul (kconj c) (rho z w)) (if listnat_eqb x w then al else if listnat_eqb y w then be else k0)))).
  - rewrite !(G (fun w c => kmul (kmul (kconj _) (rho _ w)) c)) by (intros; ring). reflexivity.
  - intros z. apply isum_zero. intros w _. rewrite kconj_0. ring.
Qed.
Lemma mean_single dims (rho : op) x : inr dims x -> mean dims (unitvec x) rho = rho x x.
Proof.
  intros Hx. rewrite mean_inner. transitivity (isum dims (fun z => kmul (if listnat_eqb x z then k1 else k0) (isum dims (fun y => kmul (rho z y) (unitvec x y))))).
  - apply isum_ext. intros z _. unfold unitvec. destruct (listnat_eqb x z); rewrite ?kconj_1, ?kconj_0; reflexivity.
  - rewrite (isum_delta' dims x (fun z => isum dims (fun y => kmul (rho z y) (unitvec x y)))) by exact Hx.
    rewrite (isum_ext dims _ (fun y => kmul (if listnat_eqb x y then k1 else k0) (rho x y))); [now apply (isum_delta' dims x (rho x))|]. intros y _. unfold unitvec. ring.
Qed.
Lemma pos_diag dims rho x : density dims rho -> inr dims x -> exists p, 0 <= p /\ rho x x = RC p.
Proof. intros [_ P] Hx. destruct (P (unitvec x)) as (p & Hp & E). exists p. split; [exact Hp|]. now rewrite <- E, mean_single. Qed.
Lemma pos_minor dims rho x y : density dims rho -> inr dims x -> inr dims y -> csq (rho x y) <= cre (rho x x) * cre (rho y y).
Proof.
  intros D Hx Hy. destruct (pos_diag _ _ x D Hx) as (p & Pp & Ex), (pos_diag _ _ y D Hy) as (q & Pq & Ey).
  destruct (list_eq_dec Nat.eq_dec x y) as [<-|N]; [rewrite Ex, csq_RC; apply Rle_refl|].
  assert (F : forall al be : CR, exists r, 0 <= r /\ kadd (kadd (kmul (kmul (kconj al) (RC p)) al) (kmul (kmul (kconj al) (rho x y)) be)) (kadd (kmul (kmul (kconj be) (rho y x)) al) (kmul (kmul (kconj be) (RC q)) be)) = RC r).
  { intros al be. destruct D as [_ P]. destruct (P (fun z => if listnat_eqb x z then al else if listnat_eqb y z then be else k0)) as (r & Hr & E). exists r. split; [exact Hr|].
    rewrite form_two in E by auto. now rewrite <- Ex, <- Ey. }
  rewrite Ex, Ey. destruct (rho x y) as [u v]. destruct (rho y x) as [u' v'].
  assert (Hv : v + v' = 0).
  { destruct (F k1 k1) as (r & _ & E). apply (f_equal snd) in E. cbn in E. lra. }
  assert (Hu : u - u' = 0).
  { destruct (F k1 ((0, 1) : CR)) as (r & _ & E). apply (f_equal snd) in E. cbn in E. lra. }
  assert (Q : forall t s, 0 <= t * t * (u * u + v * v) * p + 2 * t * s * (u * u + v * v) + s * s * q).
  { intros t s. destruct (F ((t * u, t * v) : CR) (RC s)) as (r & Hr & E). apply (f_equal fst) in E. cbn in E.
    assert (E1 : u' = u) by lra. assert (E2 : v' = - v) by lra. subst u' v'. nra. }
  unfold csq. cbn [fst snd cre RC]. set (z := u * u + v * v) in *. assert (Hz : 0 <= z) by (unfold z; nra).
  destruct (Rle_lt_or_eq_dec _ _ Hz) as [Z|<-]; [|cbn; apply Rmult_le_pos; assumption].
  destruct (Rle_lt_or_eq_dec _ _ Pq) as [Hq|<-].
  - pose proof (Q q (- z)) as G. assert (G' : 0 <= (q * z) * (p * q - z)) by (replace (q * z * (p * q - z)) with (q * q * z * p + 2 * q * - z * z + - z * - z * q) by ring; exact G).
    assert (Hqz : 0 < q * z) by now apply Rmult_lt_0_compat. change (z <= p * q). apply Rnot_lt_le. intros C. assert (q * z * (p * q - z) < 0) by nra. lra.
  - exfalso. pose proof (Q 1 (- (p + 1))) as G. assert (0 <= z * (- p - 2)) by (replace (z * (- p - 2)) with (1 * 1 * z * p + 2 * 1 * - (p + 1) * z + - (p + 1) * - (p + 1) * 0) by ring; exact G). nra.
Qed.
Lemma density_diag_sum dims rho : density dims rho -> rsum (fun x => cre (rho x x)) (indices dims) = 1.
Proof. intros [T _]. unfold mtrace, isum in T. apply (f_equal cre) in T. rewrite cre_ksum in T. exact T. Qed.
Lemma purity_le dims rho : density dims rho -> purityOf dims rho <= 1.
Proof.
  intros D. apply Rle_trans with (rsum (fun x => rsum (fun y => cre (rho x x) * cre (rho y y)) (indices dims)) (indices dims)).
  - unfold purityOf. apply rsum_mono. intros x Hx. apply rsum_mono. intros y Hy. apply in_indices in Hx, Hy. now apply (pos_minor dims).
  - apply Req_le. rewrite (rsum_ext _ (fun x => cre (rho x x) * 1)); [rewrite rsum_scal_r, density_diag_sum by exact D; ring|].
    intros x _. now rewrite rsum_scal, density_diag_sum.
Qed.
Lemma purity_ge dims rho : density dims rho -> / INR (fold_right Nat.mul 1%nat dims) <= purityOf dims rho.
Proof.
  intros D. pose proof (density_diag_sum dims rho D) as T. rewrite <- indices_length.
  assert (HN : 0 < INR (length (indices dims))).
  { destruct (indices dims); [cbn in T; lra|]. apply lt_0_INR. cbn; lia. }
  set (N := INR (length (indices dims))) in *.
  apply Rle_trans with (rsum (fun x => cre (rho x x) * cre (rho x x)) (indices dims)).
  - assert (G : 0 <= rsum (fun x => (cre (rho x x) - / N) * (cre (rho x x) - / N)) (indices dims)) by (apply rsum_nonneg; intros; apply Rle_0_sqr).
    rewrite (rsum_ext _ (fun x => cre (rho x x) * cre (rho x x) + ((- 2 * / N) * cre (rho x x) + (/ N * / N) * 1))) in G by (intros; ring).
    rewrite !rsum_add, !rsum_scal, T, rsum_one in G. fold N in G. replace (/ N * / N * N) with (/ N) in G by (field; lra). lra.
  - unfold purityOf. apply rsum_mono. intros x Hx. apply Rle_trans with (csq (rho x x)).
    + apply in_indices in Hx. destruct (pos_diag dims rho x D Hx) as (p & _ & E). rewrite E, csq_RC. apply Rle_refl.
    + apply (rsum_le_term (fun y => csq (rho x y))); [intros; apply csq_nonneg|exact Hx].
Qed.
Section PartsPurity.
Variables (dims V : list nat).
Let n := length dims.
Hypothesis HV : good_positions n V.
Let sV := shV V dims.
Let sD := shD n V dims.
Let O := others n V.
Lemma purity_parts psi rho : mmeq dims rho (pure psi) -> purityOf sV (ptr V dims rho) = purityOf sD (ptr O dims rho).
Proof.
  intros E. apply RC_inj. rewrite !purity_sum.
  set (w := fun d s => psi (addr n V d s)).
  transitivity (isum sV (fun s => isum sV (fun s' => isum sD (fun d => isum sD (fun d' => kmul (kmul (w d s) (kconj (w d s'))) (kmul (kconj (w d' s)) (w d' s'))))))).
  - apply isum_ext. intros s Hs. apply isum_ext. intros s' Hs'.
    assert (X : ptr V dims rho s s' = isum sD (fun d => kmul (w d s) (kconj (w d s')))).
    { rewrite (ptr_V dims V HV) by auto. apply isum_ext. intros d Hd. now rewrite E by (now apply addr_inr). }
    rewrite X, isum_conj, <- isum_scal_r. apply isum_ext. intros d _. rewrite <- isum_scal_l. apply isum_ext. intros d' _. rewrite kconj_mul, kconj_invol. ring.
  - transitivity (isum sD (fun d => isum sD (fun d' => isum sV (fun s => isum sV (fun s' => kmul (kmul (w d s) (kconj (w d s'))) (kmul (kconj (w d' s)) (w d' s'))))))).
    + transitivity (isum sV (fun s => isum sD (fun d => isum sD (fun d' => isum sV (fun s' => kmul (kmul (w d s) (kconj (w d s'))) (kmul (kconj (w d' s)) (w d' s'))))))).
      * apply isum_ext. intros s _. rewrite isum_swap. apply isum_ext. intros d _. now rewrite isum_swap.
      * rewrite isum_swap. apply isum_ext. intros d _. now rewrite isum_swap.
    + apply isum_ext. intros d Hd. apply isum_ext. intros d' Hd'.
      assert (X : ptr O dims rho d d' = isum sV (fun s => kmul (w d s) (kconj (w d' s)))).
      { unfold O, n. rewrite (ptr_O dims V HV) by auto. apply isum_ext. intros s Hs. now rewrite E by (now apply addr_inr). }
      rewrite X, isum_conj, <- isum_scal_r. apply isum_ext. intros s _. rewrite <- isum_scal_l. apply isum_ext. intros s' _. rewrite kconj_mul, kconj_invol. ring.
Qed.
Hypothesis Hpos : forall m, In m dims -> (0 < m)%nat.
Variable fuel : nat.
Hypothesis Hfuel : (fold_right Nat.mul 1%nat dims <= fuel)%nat.
Variable arr : list nat -> CR.
Let rho : op := fun i j => arr (i ++ j).
Lemma popt_V : purityOfPartialTrace fuel V dims arr = Some (purityOf sV (ptr V dims rho)).
Proof. unfold purityOfPartialTrace. destruct (reduce_V dims V HV Hpos fuel Hfuel arr) as (a & -> & Ha). f_equal. apply purityOf_ext. exact Ha. Qed.
Lemma popt_O : purityOfPartialTrace fuel O dims arr = Some (purityOf sD (ptr O dims rho)).
Proof.
  unfold purityOfPartialTrace. destruct (reduce_O dims V Hpos fuel Hfuel arr) as (a & Ea & Ha). unfold O, n in *. rewrite Ea. f_equal.
  replace (shapeOf (others (length dims) V) dims) with (shD (length dims) V dims) by (symmetry; apply shapeO). apply purityOf_ext. exact Ha.
Qed.
End PartsPurity.
Lemma purity_of_pure dims b : inner dims b b = k1 -> purityOf dims (pure b) = 1.
Proof.
  intros N. rewrite inner_self, <- RC1 in N. apply RC_inj in N. unfold purityOf, pure. rewrite (rsum_ext _ (fun i => csq (b i) * 1)); [rewrite rsum_scal_r, N; ring|].
  intros i _. rewrite <- N, <- rsum_scal. apply rsum_ext. intros j _. now rewrite csq_mul, csq_kconj.
Qed.
