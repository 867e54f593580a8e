(** Sums with diagonal operators, and the operators of spins, as rotating operators. *)
From Coq Require Import List Arith Bool ZArith Lia Reals Lra.
From Verif Require Import Star CReal Arr TriModel TriSpec TriProofs TriPropagate TriLemmas FreeExactModel FreeExactSpec ElementModel ElementSpec ElementProofs ModeModel ModeProofs SpinProofs CompositeModel ParticleModel
  ParticleProofs InteractionModel InteractionSpec RotProofs RotOps InteractionProofs.
Import ListNotations.
Add Ring CRRs : (k_ring CR).
Local Open Scope nat_scope.

Lemma rots_diff sh (D D' : list nat -> CR) t M : (forall y c, inr sh y -> inr sh c -> ksub (D y) (D c) = ksub (D' y) (D' c)) -> rots sh D t M -> rots sh D' t M.
Proof.
  intros H (A1 & A2 & A3 & A4 & A5 & A6 & A7). repeat (split; [assumption|]). split; [|split; [|exact A7]].
  - intros dg y c n Hd Hy Hc Hp Hn. rewrite (A5 dg y c n) by auto. apply H; congruence.
  - intros dg y c n Hd Hy Hc Hp Hn Hf. pose proof (A6 dg y c n Hd Hy Hc Hp Hn Hf) as E. rewrite A4 in Hy, Hc. specialize (H y c Hy Hc). rewrite E in H.
    assert (H0 : ksub (D' y) (D' c) = k0) by (rewrite <- H; ring). replace (D' y) with (kadd (ksub (D' y) (D' c)) (D' c)) by ring. rewrite H0. ring.
Qed.
Lemma rot_diff b sh (D D' : list nat -> CR) t M : (forall y c, inr sh y -> inr sh c -> ksub (D y) (D c) = ksub (D' y) (D' c)) -> rot b sh D t M -> rot b sh D' t M.
Proof. intros H [A B]. split; [exact (rots_diff _ _ _ _ _ H A)|exact B]. Qed.

(** ** diagonal operators *)
Definition onlyMain (t : triC) : Prop := noFreqs t /\ diffs t = repeat 0 (rankOf t) /\ forall i, i <> 0 -> nonempty (diags t i) = false.
Lemma main_scale c t : onlyMain t -> onlyMain (scale c t).
Proof. intros (A & B & C). split; [exact A|]. split; [exact B|]. exact C. Qed.
Lemma main_add a b t : onlyMain a -> onlyMain b -> dims b = dims a -> add CReqb a b = Ok t -> onlyMain t.
Proof.
  intros (A & B & C) (A' & B' & C') Ed E. assert (Er : rankOf b = rankOf a) by (unfold rankOf; now rewrite Ed).
  unfold add in E. rewrite B, B', Er, mergeDiffs_refl in E. destruct (existsb _ _); [discriminate|]. destruct (existsb _ _); [discriminate|]. apply Ok_inj in E. subst t.
  split; [|split; [reflexivity|]].
  - intros i. cbn [freqs]. rewrite addF_ne, A, A'. reflexivity.
  - intros i Hi. cbn [diags]. rewrite addD_ne, C, C' by auto. reflexivity.
Qed.
Lemma repeat_add {A} (a : A) n m : repeat a (n + m) = repeat a n ++ repeat a m.
Proof. apply repeat_app. Qed.
Lemma main_prod a b t : onlyMain a -> onlyMain b -> prod a b = Ok t -> onlyMain t.
Proof.
  intros (A & B & C) (A' & B' & C') E. unfold prod, direct in E. destruct (Reqb _ _); [|discriminate]. apply Ok_inj in E. subst t. split; [|split].
  - intros i. cbn [freqs]. unfold directDiagonals. rewrite nonempty_direct, A. reflexivity.
  - cbn [diffs]. unfold rankOf. cbn [dims]. rewrite app_length, repeat_add, B, B'. reflexivity.
  - intros i Hi. cbn [diags]. unfold directDiagonals. rewrite nonempty_direct, andb_false_iff. assert (H3 : 3 ^ rankOf b <> 0) by (apply Nat.pow_nonzero; lia).
    destruct (Nat.eq_dec (i / 3 ^ rankOf b) 0) as [H1|H1]; [|left; now apply C]. destruct (Nat.eq_dec (i mod 3 ^ rankOf b) 0) as [H2|H2]; [|right; now apply C'].
    exfalso. apply Hi. rewrite (Nat.div_mod i _ H3), H1, H2. lia.
Qed.
Lemma main_ofDiagonal d f t : ofDiagonal (vecOf d f) = Ok t -> onlyMain t.
Proof.
  unfold ofDiagonal, unary. cbn iota. destruct (_ || _); [discriminate|]. intros E. apply Ok_inj in E. subst t. split; [|split; [reflexivity|]].
  - intros [|[|[|i]]]; reflexivity.
  - intros [|[|[|i]]] H; try reflexivity. congruence.
Qed.
Lemma main_identity d t : identityTri (T := R) 0%R d = Ok t -> onlyMain t.
Proof.
  unfold identityTri, unary. cbn iota. destruct (_ || _); [discriminate|]. intros E. apply Ok_inj in E. subst t. split; [|split; [reflexivity|]].
  - intros [|[|[|i]]]; reflexivity.
  - intros [|[|[|i]]] H; try reflexivity. congruence.
Qed.
Lemma code_zero dg : code dg = 0 -> dg = repeat 0 (length dg).
Proof.
  induction dg as [|d dg IH]; [reflexivity|]. cbn [code length repeat]. intros H. assert (H3 : 3 ^ length dg <> 0) by (apply Nat.pow_nonzero; lia). apply Nat.eq_add_0 in H. destruct H as [H1 H2]. apply Nat.mul_eq_0 in H1. destruct H1 as [->|H1]; [|contradiction]. f_equal. auto.
Qed.
Lemma place_zero ks : forall r y c n, place ks (repeat 0 r) y c = Some n -> y = c.
Proof.
  induction ks as [|k ks IH]; intros [|r] [|i y] [|j c] n; cbn [repeat place]; try discriminate; [reflexivity|].
  destruct (place ks (repeat 0 r) y c) as [m|] eqn:E; [|discriminate]. destruct (Nat.eqb_spec i j) as [->|]; [|discriminate]. intros _. f_equal. exact (IH _ _ _ _ E).
Qed.
Lemma flip_zero dg : Forall (fun d => d < 3) dg -> map flipd dg = repeat 0 (length dg) -> dg = repeat 0 (length dg).
Proof.
  induction 1 as [|d dg Hd H IH]; [reflexivity|]. cbn [map length repeat]. intros E. injection E as E1 E2. f_equal; [|auto]. unfold flipd in E1. destruct d as [|[|[|d]]]; cbn in E1; try discriminate; auto.
Qed.
Lemma merge_zero ks : mergeDiffs ks (repeat 0 (length ks)) = Some ks.
Proof. induction ks as [|k ks IH]; [reflexivity|]. cbn [length repeat mergeDiffs Nat.eqb]. now rewrite IH. Qed.
Lemma dshape_zero : forall ds ks, length ks = length ds -> dshape ds ks (repeat 0 (length ds)) = ds.
Proof. induction ds as [|d ds IH]; intros [|k ks] H; try discriminate; [reflexivity|]. cbn [length repeat dshape]. f_equal. apply IH. cbn in H. lia. Qed.
Lemma code_zeros r : code (repeat 0 r) = 0. Proof. induction r; cbn; auto. Qed.
Lemma inr_zeros r : inr (repeat 3 r) (repeat 0 r). Proof. induction r; constructor; auto; lia. Qed.
Lemma rots_add_main sh D D' t1 t2 M1 M2 : rots sh D' t1 M1 -> onlyMain t1 -> rots sh D t2 M2 ->
  exists t, add CReqb t1 t2 = Ok t /\ rots sh D t (fun y x => kadd (M1 y x) (M2 y x)).
Proof.
  intros (A1 & A2 & A3 & A4 & A5 & A6 & A7) (N1 & N2 & N3) (B1 & B2 & B3 & B4 & B5 & B6 & B7).
  assert (Er : rankOf t2 = rankOf t1) by (unfold rankOf; congruence).
  assert (Em : mergeDiffs (diffs t2) (diffs t1) = Some (diffs t2)).
  { rewrite N2, <- Er. destruct B1 as (_ & <- & _). apply merge_zero. }
  assert (Ex : exists t, add CReqb t1 t2 = Ok t).
  { unfold add. rewrite Em.
    assert (S1 : existsb (fun i => shapesClash (diags t2 i) (diags t1 i)) (seq 0 (3 ^ rankOf t1)) = false).
    { apply not_true_iff_false. rewrite existsb_exists. intros [i [_ Hi]]. unfold shapesClash in Hi. apply andb_true_iff in Hi. destruct Hi as [Hi Hs]. apply andb_true_iff in Hi. destruct Hi as [H2 H1].
      destruct (Nat.eq_dec i 0) as [->|Hne]; [|rewrite N3 in H1 by auto; discriminate].
      destruct A1 as (_ & L1 & W1), B1 as (_ & L2 & W2).
      destruct (W1 (repeat 0 (rankOf t1)) (inr_zeros _)) as [S1 _]; [now rewrite code_zeros|]. destruct (W2 (repeat 0 (rankOf t2)) (inr_zeros _)) as [S2 _]; [now rewrite code_zeros|].
      rewrite code_zeros in S1, S2. unfold rankOf in S1, S2. rewrite dshape_zero in S1, S2 by auto. rewrite S1, S2, A4, B4, listnat_eqb_refl in Hs. discriminate. }
    assert (S2 : existsb (fun i => freqClash CReqb (freqs t2 i) (freqs t1 i)) (seq 0 (3 ^ rankOf t1)) = false).
    { apply not_true_iff_false. rewrite existsb_exists. intros [i [_ Hi]]. unfold freqClash in Hi. rewrite N1, andb_false_r in Hi. discriminate. }
    cbn zeta. rewrite S1, S2. eauto. }
  destruct Ex as [t E]. exists t. split; [exact E|]. destruct (add_matrix CReqb t1 t2 t A1 B1 ltac:(congruence) E) as (W & Dm & HM).
  unfold add in E. rewrite Em in E. destruct (existsb _ _); [discriminate|]. destruct (existsb _ _); [discriminate|]. apply Ok_inj in E. symmetry in E.
  assert (Erk : rankOf t = rankOf t2) by (unfold rankOf; congruence).
  assert (Ek : diffs t = diffs t2) by now subst.
  assert (Ef : forall i, nonempty (freqs t i) = true -> freqs t i = freqs t2 i).
  { intros i. subst t. cbn [freqs]. unfold addFreq. destruct (nonempty (freqs t2 i)); [auto|]. rewrite N1. discriminate. }
  assert (En : forall i, nonempty (freqs t i) = nonempty (freqs t2 i)).
  { intros i. subst t. cbn [freqs]. rewrite addF_ne, N1. apply orb_false_r. }
  assert (Eg : forall i, diags t i = addDiag (diags t2 i) (diags t1 i)) by (intros; now subst).
  assert (Tm : time t = 0%R) by now subst. clear E.
  assert (Z : forall dg, inr (repeat 3 (rankOf t)) dg -> present t dg -> dg = repeat 0 (length dg) \/ present t2 dg).
  { intros dg Hd. unfold present. rewrite !Eg, !addD_ne, !orb_true_iff. pose proof (proj1 (inr_rep3 _ _) Hd) as [Ld Fd].
    intros [[H|H]|[H|H]]; auto.
    - left. apply code_zero. destruct (Nat.eq_dec (code dg) 0); auto. rewrite N3 in H by auto. discriminate.
    - left. apply flip_zero; [exact Fd|]. rewrite <- (map_length flipd dg). apply code_zero. destruct (Nat.eq_dec (code (map flipd dg)) 0); auto. rewrite N3 in H by auto. discriminate. }
  split; [exact W|]. split; [|split; [exact Tm|]; split; [congruence|]; split; [|split]].
  - split; [rewrite En; apply B2|]. intros dg Hd Hn. rewrite Ef by auto. rewrite En in Hn. destruct B2 as [_ B2]. rewrite (B2 dg) by (auto; congruence). rewrite Dm, Ek. congruence.
  - intros dg y c n Hd Hy Hc Hp Hn. rewrite Ef by auto. rewrite En in Hn. rewrite Ek in Hp. rewrite Erk in Hd. rewrite Dm, A4, <- B4 in Hy, Hc. now apply (B5 dg y c n).
  - intros dg y c n Hd Hy Hc Hp Hn Hf. destruct (Z dg Hd Hn) as [Hz|H2].
    + rewrite Hz in Hp. now rewrite (place_zero _ _ _ _ _ Hp).
    + rewrite En in Hf. rewrite Ek in Hp. rewrite Erk in Hd. rewrite Dm, A4, <- B4 in Hy, Hc. now apply (B6 dg y c n).
  - intros y x Hy Hx. now rewrite HM, A7, B7.
Qed.
(** a diagonal operator rotates in every way *)
Lemma main_rots sh D D' t M : rots sh D t M -> onlyMain t -> rots sh D' t M.
Proof.
  intros (A1 & A2 & A3 & A4 & A5 & A6 & A7) (N1 & N2 & N3). repeat (split; [assumption|]). split; [|split; [|exact A7]].
  - intros dg y c n _ _ _ _ H. rewrite N1 in H. discriminate.
  - intros dg y c n Hd Hy Hc Hp Hn _. pose proof (proj1 (inr_rep3 _ _) Hd) as [Ld Fd]. assert (Hz : dg = repeat 0 (length dg)).
    { destruct Hn as [H|H].
      - apply code_zero. destruct (Nat.eq_dec (code dg) 0); auto. rewrite N3 in H by auto. discriminate.
      - apply flip_zero; [exact Fd|]. rewrite <- (map_length flipd dg). apply code_zero. destruct (Nat.eq_dec (code (map flipd dg)) 0); auto. rewrite N3 in H by auto. discriminate. }
    rewrite Hz in Hp. now rewrite (place_zero _ _ _ _ _ Hp).
Qed.

(** ** spins *)
Lemma spDim_pos s : 0 < spDim s.
Proof. unfold spDim, decideDimension. destruct (Nat.eqb_spec (spDimPar s) 0); cbn [negb andb]; [lia|]. destruct (Nat.ltb_spec (spDimPar s) (spTwoS s + 1)); lia. Qed.
Lemma spDim_le s : spDim s <= spTwoS s + 1.
Proof. unfold spDim, decideDimension. destruct (Nat.eqb_spec (spDimPar s) 0); cbn [negb andb]; [lia|]. destruct (Nat.ltb_spec (spDimPar s) (spTwoS s + 1)); lia. Qed.
Lemma splus_rot b s : spinIs b s -> exists t, splusOf s = Ok t /\ rot b [spDim s] (rate [spinRate s]) t (kron [adj (spinLower (spTwoS s))]).
Proof.
  intros Hb. pose proof (spDim_pos s) as Hd. destruct (splus_good (spDim s) (spTwoS s) Hd) as [t [E (A1 & A2 & A3 & A4 & A5 & A6)]]. unfold splusOf. rewrite E. cbn [bind].
  assert (HM : forall y x, y < spDim s -> x < spDim s -> tmat t [y] [x] = adj (spinLower (spTwoS s)) y x).
  { intros y x Hy Hx. rewrite A6, raiseM_spec by (auto using spDim_le). unfold adj. now rewrite spinLower_real. }
  unfold spinIs in Hb. unfold spinRate. destruct (spExact s) as [z|]; subst b.
  - destruct (furnish_exists (spDim s) 1 t (fun i => kmul z (RC (INR i - INR (spTwoS s) / 2))) A4 A5 ltac:(lia)) as [t' Et]. exists t'. split; [exact Et|].
    eapply rot_diff; [|exact (furn_rot _ _ t t' _ _ A1 A2 A3 A4 A5 (off_empty0 _ _ _ _ E) HM Et ltac:(lia))].
    intros y c Hy Hc. destruct (inr1_inv _ _ Hy) as [i [-> _]]. destruct (inr1_inv _ _ Hc) as [j [-> _]]. cbn [nth]. unfold rate, together, eigenvalue. destruct z as [zr zi]. apply cr_eq; cbn -[INR]; ring.
  - exists t. split; [reflexivity|]. eapply rot_D; [|apply (plain_rot [spDim s] t); auto].
    + intros y Hy. destruct (inr1_inv _ _ Hy) as [i [-> _]]. unfold rate, together. apply cr_eq; cbn; ring.
    + intros y x Hy Hx. destruct (inr1_inv _ _ Hy) as [i [-> Hi]]. destruct (inr1_inv _ _ Hx) as [j [-> Hj]]. rewrite kron1. auto.
Qed.
Lemma adj_adj M y x : adj (adj M) y x = M y x.
Proof. unfold adj. apply kconj_invol. Qed.
Lemma kron1_ext A B y x d : (forall i j, i < d -> j < d -> A i j = B i j) -> inr [d] y -> inr [d] x -> kron [A] y x = kron [B] y x.
Proof. intros H Hy Hx. destruct (inr1_inv _ _ Hy) as [i [-> Hi]]. destruct (inr1_inv _ _ Hx) as [j [-> Hj]]. rewrite !kron1. auto. Qed.
Lemma sigma_rot b a : atomIs b a -> exists t, sigmaop a = Ok t /\ rot b [atomDim a] (rate [atomRate a]) t (kron [lowering a]).
Proof.
  destruct a as [zI|s]; cbn [atomIs sigmaop atomDim atomRate lowering]; intros Hb.
  - apply (cav_rot b (mkCavity 2 zI)); [exact Hb|cbn; lia].
  - destruct (splus_rot b s Hb) as [t [E H]]. unfold sminusOf. rewrite E. cbn [bind]. exists (dagger t). split; [reflexivity|].
    eapply rot_ext; [|exact (rot_dagger_kron _ _ _ _ _ H)]. intros y x Hy Hx. cbn [map]. eapply kron1_ext; [|exact Hy|exact Hx]. intros; apply adj_adj.
Qed.
Lemma sx_rot b s : spinIs b s -> exists t, sxOf s = Ok t /\ rot b [spDim s] (rate [spinRate s]) t (kron [spinX (spTwoS s)]).
Proof.
  intros Hb. destruct (splus_rot b s Hb) as [t [E H]]. unfold sxOf. rewrite E. cbn [bind]. destruct (rot_plusHC _ _ _ _ _ H) as [x [Ex Hx]]. unfold plusHC in Ex. rewrite Ex. cbn [bind].
  eexists. split; [reflexivity|]. eapply rot_ext; [|exact (rot_scale _ _ _ _ _ _ Hx)]. intros y z Hy Hz. destruct (inr1_inv _ _ Hy) as [i [-> Hi]]. destruct (inr1_inv _ _ Hz) as [j [-> Hj]].
  rewrite !kron1. unfold adj, spinX. rewrite !spinLower_real. ring.
Qed.
