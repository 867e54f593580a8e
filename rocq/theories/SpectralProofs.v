(** Complete orthonormal sets of eigenvectors. *)
From Coq Require Import List Arith Reals Lra Lia Bool Permutation.
From Verif Require Import Star CReal Arr PureModel PureProofs ElementProofs HermSpec DensitySpec EntangleSpec.
Import ListNotations.
Local Open Scope R_scope.
Add Ring CRSpec : (k_ring CR).

Lemma rsum_0 {A} (l : list A) : rsum (fun _ => 0) l = 0.
Proof. induction l as [|a l IH]; [reflexivity|]. change (0 + rsum (fun _ => 0) l = 0). rewrite IH. ring. Qed.
Lemma rsum_cons {A} (f : A -> R) a l : rsum f (a :: l) = f a + rsum f l.
Proof. reflexivity. Qed.
Lemma rsum_swap {A B} (f : A -> B -> R) la lb : rsum (fun a => rsum (f a) lb) la = rsum (fun b => rsum (fun a => f a b) la) lb.
Proof.
  induction la as [|a la IH].
  - cbn [rsum]. symmetry. apply rsum_0.
  - rewrite rsum_cons, IH. rewrite <- rsum_add. reflexivity.
Qed.
Lemma rsum_scal_r {A} c (f : A -> R) l : rsum (fun a => f a * c) l = rsum f l * c.
Proof. rewrite Rmult_comm, <- rsum_scal. apply rsum_ext. intros. ring. Qed.
Lemma rsum_mono {A} (f g : A -> R) l : (forall a, In a l -> f a <= g a) -> rsum f l <= rsum g l.
Proof.
  induction l as [|a l IH]; intros H; [apply Rle_refl|]. rewrite !rsum_cons. apply Rplus_le_compat; [apply H; now left|]. apply IH. intros; apply H; now right.
Qed.
Lemma rsum_opp {A} (f : A -> R) l : rsum (fun a => - f a) l = - rsum f l.
Proof. replace (- rsum f l) with ((-1) * rsum f l) by ring. rewrite <- rsum_scal. apply rsum_ext. intros; ring. Qed.
Lemma rsum_le_term {A} (f : A -> R) l a : (forall b, In b l -> 0 <= f b) -> In a l -> f a <= rsum f l.
Proof.
  induction l as [|b l IH]; intros H Ha; [destruct Ha|]. rewrite rsum_cons. destruct Ha as [->|Ha].
  - assert (0 <= rsum f l) by (apply rsum_nonneg; intros; apply H; now right). lra.
  - assert (f a <= rsum f l) by (apply IH; [intros; apply H; now right|exact Ha]). specialize (H b (or_introl eq_refl)). lra.
Qed.
Lemma rsum_nth (f : R -> R) (l : list R) : rsum (fun k => f (nth k l 0)) (seq 0 (length l)) = rsum f l.
Proof.
  rewrite <- (rsum_map (fun k => nth k l 0) f). f_equal. apply (nth_ext _ _ 0 0); [now rewrite map_length, seq_length|].
  intros i Hi. rewrite map_length, seq_length in Hi. rewrite (nth_indep _ 0 (nth 0 l 0)) by now rewrite map_length, seq_length.
  rewrite (map_nth (fun k => nth k l 0)). now rewrite seq_nth by exact Hi.
Qed.
Lemma csq_zero (z : CR) : csq z = 0 -> z = k0.
Proof. destruct z as [a b]. unfold csq. cbn [fst snd]. intros H. apply cr_eq; cbn; nra. Qed.
Lemma csq_kconj (z : CR) : csq (kconj z) = csq z.
Proof. destruct z as [a b]. unfold csq. cbn. ring. Qed.
Lemma csq_0 : csq (k0 : CR) = 0.
Proof. unfold csq. cbn. ring. Qed.
Lemma csq_conj_r (z : CR) : kmul z (kconj z) = RC (csq z).
Proof. rewrite <- csq_conj. ring. Qed.
Lemma RC0 : RC 0 = k0.
Proof. reflexivity. Qed.
Lemma RC1 : RC 1 = k1.
Proof. reflexivity. Qed.

(** sums with weights which link equal numbers only *)
Lemma transfer {A B} (I : list A) (J : list B) (a : A -> R) (b : B -> R) (w : A -> B -> R) (p : A -> R) (q : B -> R) (f : R -> R) :
  (forall k l, In k I -> In l J -> w k l = 0 \/ a k = b l) -> (forall k, In k I -> rsum (w k) J = p k) -> (forall l, In l J -> rsum (fun k => w k l) I = q l) ->
  rsum (fun k => f (a k) * p k) I = rsum (fun l => f (b l) * q l) J.
Proof.
  intros H Hp Hq. transitivity (rsum (fun k => rsum (fun l => f (a k) * w k l) J) I).
  - apply rsum_ext. intros k Hk. rewrite rsum_scal. now rewrite Hp.
  - rewrite rsum_swap. apply rsum_ext. intros l Hl. rewrite <- (Hq l Hl), <- rsum_scal. apply rsum_ext. intros k Hk.
    destruct (H k l Hk Hl) as [E|E]; rewrite E; ring.
Qed.

(** ** families of eigenvectors over any index *)
Definition eigfam {A} (dims : list nat) (M : op) (I : list A) (a : A -> R) (v : A -> list nat -> CR) : Prop :=
  NoDup I /\
  (forall k, In k I -> inner dims (v k) (v k) = k1) /\ (forall k l, In k I -> In l I -> k <> l -> inner dims (v k) (v l) = k0) /\
  (forall x y, inr dims x -> inr dims y -> ksum (fun k => kmul (v k x) (kconj (v k y))) I = if listnat_eqb x y then k1 else k0) /\
  (forall k x, In k I -> inr dims x -> isum dims (fun y => kmul (M x y) (v k y)) = kmul (RC (a k)) (v k x)).

Lemma eigenvalues_fam dims M ev : eigenvalues_of dims M ev <-> exists v, eigfam dims M (seq 0 (length ev)) (fun k => nth k ev 0) v.
Proof.
  unfold eigenvalues_of, eigfam. cbv zeta. split; intros [v H]; exists v.
  - destruct H as (H1 & H2 & H3). split; [apply seq_NoDup|]. split; [|split; [|split; [exact H2|]]].
    + intros k Hk. apply in_seq in Hk. rewrite H1 by lia. now rewrite Nat.eqb_refl.
    + intros k l Hk Hl N. apply in_seq in Hk, Hl. rewrite H1 by lia. now apply Nat.eqb_neq in N as ->.
    + intros k x Hk. apply in_seq in Hk. apply H3. lia.
  - destruct H as (_ & H1 & H1' & H2 & H3). split; [|split; [exact H2|]].
    + intros k l Hk Hl. destruct (Nat.eqb_spec k l) as [->|N]; [apply H1|apply H1'; auto]; apply in_seq; lia.
    + intros k x Hk. apply H3. apply in_seq. lia.
Qed.

Lemma inner_conj dims phi chi : kconj (inner dims phi chi) = inner dims chi phi.
Proof. unfold inner. rewrite isum_conj. apply isum_ext. intros. rewrite kconj_mul, kconj_invol. ring. Qed.
Lemma inner_self dims phi : inner dims phi phi = RC (rsum (fun x => csq (phi x)) (indices dims)).
Proof. unfold inner, isum. rewrite <- ksum_RC. apply ksum_ext. intros. apply csq_conj. Qed.
Lemma isum_delta' dims (d0 : list nat) (g : list nat -> CR) : inr dims d0 -> isum dims (fun d => kmul (if listnat_eqb d0 d then k1 else k0) (g d)) = g d0.
Proof.
  intros H. rewrite (isum_single dims _ d0 H).
  - rewrite listnat_eqb_refl. ring.
  - intros b _ N. destruct (listnat_eqb_spec d0 b) as [->|]; [contradiction|ring].
Qed.
Lemma listnat_eqb_sym a b : listnat_eqb a b = listnat_eqb b a.
Proof. destruct (listnat_eqb_spec a b) as [->|N]; [now rewrite listnat_eqb_refl|]. destruct (listnat_eqb_spec b a) as [->|]; [contradiction|reflexivity]. Qed.
Lemma isum_ksum {A} dims (f : list nat -> A -> CR) (l : list A) : isum dims (fun x => ksum (f x) l) = ksum (fun k => isum dims (fun x => f x k)) l.
Proof. unfold isum. apply ksum_swap. Qed.

Section Fam.
Context {A : Type}.
Variables (dims : list nat) (M : op) (I : list A) (a : A -> R) (v : A -> list nat -> CR).
Hypothesis H : eigfam dims M I a v.

Lemma fam_parseval phi chi : ksum (fun k => kmul (inner dims phi (v k)) (inner dims (v k) chi)) I = inner dims phi chi.
Proof.
  destruct H as (_ & _ & _ & Hc & _).
  transitivity (isum dims (fun x => isum dims (fun y => kmul (ksum (fun k => kmul (v k x) (kconj (v k y))) I) (kmul (kconj (phi x)) (chi y))))).
  - transitivity (ksum (fun k => isum dims (fun x => isum dims (fun y => kmul (kmul (v k x) (kconj (v k y))) (kmul (kconj (phi x)) (chi y))))) I).
    + apply ksum_ext. intros k _. unfold inner at 1. rewrite <- isum_scal_r. apply isum_ext. intros x _. unfold inner. rewrite <- isum_scal_l. apply isum_ext. intros y _. ring.
    + rewrite <- isum_ksum. apply isum_ext. intros x _. rewrite <- isum_ksum. apply isum_ext. intros y _. now rewrite ksum_scal_r.
  - unfold inner. apply isum_ext. intros x Hx.
    transitivity (isum dims (fun y => kmul (if listnat_eqb x y then k1 else k0) (kmul (kconj (phi x)) (chi y)))).
    + apply isum_ext. intros y Hy. now rewrite Hc.
    + now rewrite (isum_delta' dims x (fun y => kmul (kconj (phi x)) (chi y))).
Qed.
Lemma fam_parseval_norm phi : rsum (fun k => csq (inner dims phi (v k))) I = cre (inner dims phi phi).
Proof.
  rewrite <- fam_parseval. rewrite cre_ksum. apply rsum_ext. intros k _. rewrite <- (inner_conj dims phi (v k)). rewrite csq_conj_r. reflexivity.
Qed.
(** the spectral form *)
Lemma fam_spectral x y : inr dims x -> inr dims y -> M x y = ksum (fun k => kmul (RC (a k)) (kmul (v k x) (kconj (v k y)))) I.
Proof.
  destruct H as (_ & _ & _ & Hc & He). intros Hx Hy.
  transitivity (isum dims (fun z => kmul (if listnat_eqb y z then k1 else k0) (M x z))); [symmetry; apply (isum_delta' dims y (fun z => M x z) Hy)|].
  transitivity (isum dims (fun z => ksum (fun k => kmul (kmul (M x z) (v k z)) (kconj (v k y))) I)).
  - apply isum_ext. intros z Hz. rewrite listnat_eqb_sym, <- (Hc z y) by auto. rewrite <- ksum_scal_r. apply ksum_ext. intros; ring.
  - rewrite isum_ksum. apply ksum_ext. intros k Hk. rewrite isum_scal_r, He by auto. ring.
Qed.
Lemma fam_hermitian : hermitian dims M.
Proof.
  intros x y Hx Hy. unfold dag. rewrite (fam_spectral y x), (fam_spectral x y) by auto. rewrite ksum_conj. apply ksum_ext. intros k _. rewrite !kconj_mul, kconj_invol, RC_conj. ring.
Qed.
Lemma fam_left k y : In k I -> inr dims y -> isum dims (fun x => kmul (kconj (v k x)) (M x y)) = kmul (RC (a k)) (kconj (v k y)).
Proof.
  intros Hk Hy. destruct H as (_ & _ & _ & _ & He). rewrite <- RC_conj, <- kconj_mul, <- He by auto. rewrite isum_conj. apply isum_ext. intros x Hx.
  rewrite kconj_mul. rewrite <- (fam_hermitian x y) by auto. unfold dag. ring.
Qed.
Lemma fam_transp : eigfam dims (transp M) I a (fun k x => kconj (v k x)).
Proof.
  pose proof fam_left as FL. destruct H as (Hn & Ho & Ho' & Hc & He). split; [exact Hn|]. split; [|split; [|split]].
  - intros k Hk. rewrite <- (Ho k Hk). unfold inner. apply isum_ext. intros. rewrite kconj_invol. ring.
  - intros k l Hk Hl N. rewrite <- (Ho' l k Hl Hk) by auto. unfold inner. apply isum_ext. intros. rewrite kconj_invol. ring.
  - intros x y Hx Hy. rewrite listnat_eqb_sym, <- (Hc y x) by auto. apply ksum_ext. intros. rewrite kconj_invol. ring.
  - intros k x Hk Hx. unfold transp. rewrite <- FL by auto. apply isum_ext. intros; ring.
Qed.
Lemma fam_trace : mtrace dims M = RC (rsum a I).
Proof.
  rewrite <- ksum_RC. unfold mtrace. destruct H as (_ & Ho & _).
  transitivity (isum dims (fun x => ksum (fun k => kmul (RC (a k)) (kmul (v k x) (kconj (v k x)))) I)).
  - apply isum_ext. intros x Hx. now apply fam_spectral.
  - rewrite isum_ksum. apply ksum_ext. intros k Hk. rewrite isum_scal_l.
    transitivity (kmul (RC (a k)) (inner dims (v k) (v k))); [|rewrite Ho by auto; ring]. f_equal. unfold inner. apply isum_ext. intros; ring.
Qed.
Lemma fam_count : INR (length I) = INR (length (indices dims)).
Proof.
  destruct H as (_ & Ho & _ & Hc & _).
  assert (E : RC (INR (length I)) = RC (INR (length (indices dims)))); [|now apply RC_inj in E].
  assert (G : forall B (l : list B), ksum (fun _ => k1 : CR) l = RC (INR (length l))).
  { intros B l. induction l as [|b l IH]; [reflexivity|]. change (kadd (k1 : CR) (ksum (fun _ => k1) l) = RC (INR (Datatypes.S (length l)))). rewrite IH, S_INR, Rplus_comm, <- RC_add, RC1. reflexivity. }
  rewrite <- !G. transitivity (ksum (fun k => inner dims (v k) (v k)) I); [apply ksum_ext; intros; now rewrite Ho|]. unfold inner. rewrite <- isum_ksum.
  unfold isum. apply ksum_ext. intros x Hx. apply in_indices in Hx. specialize (Hc x x Hx Hx). rewrite listnat_eqb_refl in Hc. rewrite <- Hc. apply ksum_ext. intros; ring.
Qed.
Lemma mean_inner phi N : mean dims phi N = isum dims (fun x => kmul (kconj (phi x)) (isum dims (fun y => kmul (N x y) (phi y)))).
Proof. unfold mean. apply isum_ext. intros x _. rewrite <- isum_scal_l. apply isum_ext. intros; ring. Qed.
Lemma fam_mean k : In k I -> mean dims (v k) M = RC (a k).
Proof.
  intros Hk. destruct H as (_ & Ho & _ & _ & He). rewrite mean_inner.
  transitivity (isum dims (fun x => kmul (RC (a k)) (kmul (kconj (v k x)) (v k x)))).
  - apply isum_ext. intros x Hx. rewrite He by auto. ring.
  - rewrite isum_scal_l. fold (inner dims (v k) (v k)). rewrite Ho by auto. ring.
Qed.
(** <phi|M|phi> *)
Lemma fam_mean_any phi : mean dims phi M = RC (rsum (fun k => a k * csq (inner dims phi (v k))) I).
Proof.
  rewrite <- ksum_RC. unfold mean.
  transitivity (isum dims (fun x => isum dims (fun y => ksum (fun k => kmul (RC (a k)) (kmul (kmul (kconj (phi x)) (v k x)) (kmul (kconj (v k y)) (phi y)))) I))).
  - apply isum_ext. intros x Hx. apply isum_ext. intros y Hy. rewrite (fam_spectral x y) by auto. rewrite <- ksum_scal_l, <- ksum_scal_r. apply ksum_ext. intros; ring.
  - transitivity (ksum (fun k => isum dims (fun x => isum dims (fun y => kmul (RC (a k)) (kmul (kmul (kconj (phi x)) (v k x)) (kmul (kconj (v k y)) (phi y)))))) I).
    { rewrite <- isum_ksum. apply isum_ext. intros x _. now rewrite <- isum_ksum. }
    apply ksum_ext. intros k _. rewrite <- RC_mul, <- csq_conj_r, (inner_conj dims phi (v k)). unfold inner. rewrite <- isum_scal_r, <- isum_scal_l. apply isum_ext. intros x _.
    rewrite <- isum_scal_l, <- isum_scal_l. apply isum_ext. intros; ring.
Qed.
End Fam.

Lemma fam_mmeq {A} dims M M' (I : list A) a v : mmeq dims M M' -> eigfam dims M I a v -> eigfam dims M' I a v.
Proof.
  intros E (Hn & Ho & Ho' & Hc & He). repeat (split; [assumption|]). intros k x Hk Hx. rewrite <- He by auto. apply isum_ext. intros y Hy. now rewrite E.
Qed.
(** the eigenvalues are determined *)
Lemma fam_unique {A B} dims M (I : list A) (J : list B) a b v u (f : R -> R) :
  eigfam dims M I a v -> eigfam dims M J b u -> rsum (fun k => f (a k)) I = rsum (fun l => f (b l)) J.
Proof.
  intros H G. pose proof (transfer I J a b (fun k l => csq (inner dims (v k) (u l))) (fun _ => 1) (fun _ => 1) f) as T.
  rewrite (rsum_ext (fun k => f (a k)) (fun k => f (a k) * 1)) by (intros; ring). rewrite (rsum_ext (fun k => f (b k)) (fun k => f (b k) * 1)) by (intros; ring). apply T; clear T.
  - intros k l Hk Hl. destruct (Req_dec (a k) (b l)) as [E|N]; [now right|left].
    assert (Eq : kmul (RC (a k)) (inner dims (v k) (u l)) = kmul (RC (b l)) (inner dims (v k) (u l))).
    { transitivity (isum dims (fun y => kmul (isum dims (fun x => kmul (kconj (v k x)) (M x y))) (u l y))).
      - unfold inner. rewrite <- isum_scal_l. apply isum_ext. intros y Hy. rewrite (fam_left _ _ _ _ _ H) by auto. ring.
      - transitivity (isum dims (fun x => isum dims (fun y => kmul (kconj (v k x)) (kmul (M x y) (u l y))))).
        + rewrite isum_swap. apply isum_ext. intros y _. rewrite <- isum_scal_r. apply isum_ext. intros; ring.
        + unfold inner. rewrite <- isum_scal_l. apply isum_ext. intros x Hx. rewrite isum_scal_l. destruct G as (_ & _ & _ & _ & Ge). rewrite Ge by auto. ring. }
    assert (Z : kmul (RC (a k - b l)) (inner dims (v k) (u l)) = k0).
    { unfold Rminus. rewrite <- RC_add, <- RC_opp.
      transitivity (kadd (kmul (RC (a k)) (inner dims (v k) (u l))) (kopp (kmul (RC (b l)) (inner dims (v k) (u l))))); [ring|]. rewrite Eq. ring. }
    apply (f_equal csq) in Z. rewrite csq_mul, csq_RC, csq_0 in Z. assert ((a k - b l) * (a k - b l) <> 0) by nra. apply Rmult_integral in Z. tauto.
  - intros k Hk. rewrite (fam_parseval_norm _ _ _ _ _ G). destruct H as (_ & Ho & _). now rewrite Ho.
  - intros l Hl. transitivity (rsum (fun k => csq (inner dims (u l) (v k))) I).
    + apply rsum_ext. intros k _. now rewrite <- (inner_conj dims (u l) (v k)), csq_kconj.
    + rewrite (fam_parseval_norm _ _ _ _ _ H). destruct G as (_ & Ho & _). now rewrite Ho.
Qed.
Lemma eigenvalues_mmeq dims M M' ev : mmeq dims M M' -> eigenvalues_of dims M ev -> eigenvalues_of dims M' ev.
Proof. intros E H. apply eigenvalues_fam in H. destruct H as [v H]. apply eigenvalues_fam. exists v. now apply (fam_mmeq dims M M'). Qed.
Lemma eigenvalues_transp dims M ev : eigenvalues_of dims M ev -> eigenvalues_of dims (transp M) ev.
Proof. intros H. apply eigenvalues_fam in H. destruct H as [v H]. apply eigenvalues_fam. eexists. apply (fam_transp _ _ _ _ _ H). Qed.
Lemma eigenvalues_unique dims M ev ev' (f : R -> R) : eigenvalues_of dims M ev -> eigenvalues_of dims M ev' -> rsum f ev = rsum f ev'.
Proof.
  intros H H'. apply eigenvalues_fam in H, H'. destruct H as [v H], H' as [v' H']. rewrite <- !rsum_nth. apply (fam_unique dims M _ _ _ _ _ _ f H H').
Qed.
Lemma eigenvalues_trace dims M ev : eigenvalues_of dims M ev -> mtrace dims M = RC (rsum (fun e => e) ev).
Proof. intros H. apply eigenvalues_fam in H. destruct H as [v H]. rewrite (fam_trace _ _ _ _ _ H). f_equal. apply (rsum_nth (fun e => e)). Qed.
Lemma eigenvalues_pos dims M ev : (forall phi, exists r, 0 <= r /\ mean dims phi M = RC r) -> eigenvalues_of dims M ev -> forall e, In e ev -> 0 <= e.
Proof.
  intros P H e He. apply eigenvalues_fam in H. destruct H as [v H]. apply (In_nth _ _ 0) in He. destruct He as (k & Hk & <-).
  destruct (P (v k)) as (r & Hr & E). rewrite (fam_mean _ _ _ _ _ H) in E by (apply in_seq; lia). apply RC_inj in E. lra.
Qed.
