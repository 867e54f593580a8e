(** Cases. *)
From Coq Require Import List Arith ZArith Reals Lra Lia Bool Sorted Permutation.
From Verif Require Import Star Arr CReal PureModel SliceSpec SliceProofs FourierModel FourierSpec PyModel PySpec PyLists PyExpect PySums PyAct PyFourier PyInit.
Import ListNotations.
Local Open Scope nat_scope.
Add Ring KPC : (k_ring CR).

Lemma increasing_one p : increasing [p]. Proof. constructor; constructor. Qed.
Lemma good_one n p : p < n -> good_positions n [p].
Proof. intros H. split; [constructor; [auto|constructor]|]. intros v [<-|[]]. exact H. Qed.
Lemma dimensions_one p sh x : inr (dimensions [p] sh) x -> exists a, x = [a] /\ a < nth p sh 0.
Proof. unfold dimensions. cbn. intros H. inversion H as [|a ? l ? Ha Hl]; subst. inversion Hl; subst. exists a. auto. Qed.
Lemma create_represents p sh : represents (create (nth p sh 0)) [p] sh raising /\ represents (destroy (nth p sh 0)) [p] sh lowering.
Proof.
  split; (split; [reflexivity|]); intros r c Hr Hc; apply dimensions_one in Hr, Hc; destruct Hr as (a & -> & _), Hc as (b & -> & _); reflexivity.
Qed.
(** the operators of a mode are exchanged *)
Lemma create_wrong sv p : p < ndim sv ->
  expvalue sv (create (nth p (shape sv) 0)) (Some [p]) = Some (expectation lowering [p] (shape sv) (elem sv)) /\
  expvalue sv (destroy (nth p (shape sv) 0)) (Some [p]) = Some (expectation raising [p] (shape sv) (elem sv)).
Proof.
  intros H. destruct (create_represents p (shape sv)) as [R1 R2].
  rewrite (expvalue_spec sv _ [p] [p] raising (good_one _ _ H) (increasing_one p) (Permutation_refl _) R1).
  rewrite (expvalue_spec sv _ [p] [p] lowering (good_one _ _ H) (increasing_one p) (Permutation_refl _) R2). split; f_equal; (apply expectation_ext; [now apply good_one|]);
  intros r c Hr Hc; apply dimensions_one in Hr, Hc; destruct Hr as (a & -> & _), Hc as (b & -> & _); unfold transposed, lowering, raising; reflexivity.
Qed.

(** sigma_y *)
Definition pauliY (r c : list nat) : CR := match r, c with [0], [1] => kopp CI | [1], [0] => CI | _, _ => k0 end.
Definition pauliYArray : ndarray := mkArr [2; 2] (fun x => match x with [a; b] => pauliY [a] [b] | _ => k0 end).
Definition circular : ndarray := mkArr [2] (fun x => match x with [0] => k1 | _ => CI end).
Lemma expectation_one M N psi : expectation M [0] [N] psi = ksum (fun y => ksum (fun z => kmul (kconj (psi [y])) (kmul (M [y] [z]) (psi [z]))) (seq 0 N)) (seq 0 N).
Proof. change [0] with (seq 0 (length [N])). rewrite expectation_all, isum_one. apply ksum_ext. intros y _. apply isum_one. Qed.
Lemma pauliY_represents : represents pauliYArray [0] [2] pauliY.
Proof. split; [reflexivity|]. intros r c Hr Hc; apply dimensions_one in Hr, Hc; destruct Hr as (a & -> & _), Hc as (b & -> & _). reflexivity. Qed.
Lemma pauliY_values : expectation pauliY [0] [2] (elem circular) = RC 2 /\ expvalue circular pauliYArray (Some [0]) = Some (RC (-2)).
Proof.
  split.
  - rewrite expectation_one. apply cr_eq; cbn; ring.
  - rewrite (expvalue_spec circular pauliYArray [0] [0] pauliY); [|apply good_one; cbn; lia|apply increasing_one|reflexivity|exact pauliY_represents]. f_equal.
    change (shape circular) with [2]. rewrite expectation_one. apply cr_eq; cbn; ring.
Qed.
Lemma expvalue_wrong : exists sv op M, represents op [0] (shape sv) M /\ (forall r c, M r c = kconj (M c r)) /\ ndim sv = 1 /\ expvalue sv op (Some [0]) <> Some (expectation M [0] (shape sv) (elem sv)).
Proof.
  exists circular, pauliYArray, pauliY. split; [exact pauliY_represents|]. split.
  - intros r c. unfold pauliY. destruct r as [|[|[|m]] [|x r]], c as [|[|[|n]] [|y c]]; try (apply cr_eq; cbn; ring).
  - split; [reflexivity|]. destruct pauliY_values as [E1 E2]. rewrite E2. change (shape circular) with [2]. rewrite E1. intros E. injection E as E. lra.
Qed.
(** hypotheses are met by an operator of two of the three constituents, listed in any order *)
Definition threeState : ndarray := mkArr [2; 3; 2] (fun x => match x with [a; b; c] => RC (INR (a + 2 * b + c)) | _ => k0 end).
Definition twoOp : ndarray := mkArr [2; 2; 2; 2] (fun x => match x with [r0; c0; r1; c1] => RC (INR (r0 + c0 * r1 + 3 * c1)) | _ => k0 end).
Lemma expvalue_case : good_positions (ndim threeState) [2; 0] /\ increasing [0; 2] /\ Permutation [2; 0] [0; 2] /\
  represents twoOp [0; 2] (shape threeState) (fun r c => RC (INR (nth 0 r 0 + nth 0 c 0 * nth 1 r 0 + 3 * nth 1 c 0))) /\
  (forall y, inr (shape threeState) y -> kconj (elem threeState y) = elem threeState y).
Proof.
  split; [|split; [|split; [|split]]].
  - split; [repeat constructor; cbn; lia|]. intros v [<-|[<-|[]]]; cbn; lia.
  - constructor; [constructor; constructor|]. constructor; [lia|constructor].
  - apply perm_swap.
  - split; [reflexivity|]. intros r c Hr Hc. unfold dimensions in *. cbn in Hr, Hc. inversion Hr as [|a ? l ? _ Hl]; subst. inversion Hl as [|b ? l' ? _ Hl']; subst. inversion Hl'; subst.
    inversion Hc as [|a' ? m ? _ Hm]; subst. inversion Hm as [|b' ? m' ? _ Hm']; subst. inversion Hm'; subst. reflexivity.
  - intros y Hy. inversion Hy as [|a ? l ? _ Hl]; subst. inversion Hl as [|b ? l' ? _ Hl']; subst. inversion Hl' as [|c ? l'' ? _ Hl'']; subst. inversion Hl''; subst. apply RC_conj.
Qed.
(** photon number of a state of two modes: (|10> + 2 |11> + 3 |02>), the second mode has 4+18 *)
Definition twoModes : ndarray := mkArr [2; 3] (fun x => match x with [1; 0] => k1 | [1; 1] => RC 2 | [0; 2] => RC 3 | _ => k0 end).
Lemma diagexpvalue_case : diagexpvalue twoModes (mkArr [3] (fun x => RC (INR (nth 0 x 0)))) (Some [1]) = Some (RC 22).
Proof.
  rewrite (diagexpvalue_spec twoModes _ [1] [1]); [|apply good_one; cbn; lia|apply increasing_one|reflexivity|reflexivity]. f_equal.
  rewrite expectation_diagonal by (apply good_one; cbn; lia). cbn [twoModes shape]. rewrite isum_cons. rewrite (ksum_ext _ (fun i => ksum (fun j => kmul (kmul (elem twoModes [i; j]) (kconj (elem twoModes [i; j]))) (RC (INR j))) (seq 0 3))).
  - apply cr_eq; cbn; ring.
  - intros i _. rewrite isum_one. apply ksum_ext. intros j _. reflexivity.
Qed.
(** annihilation in the second mode *)
Lemma actwith_case : exists r, actwith twoModes [destroy 3] [1] = Some r /\ elem r [1; 0] = RC 2 /\ elem r [0; 1] = RC (3 * sqrt 2).
Proof.
  destruct (actwith_spec twoModes [1]) with (ops := [destroy 3]) as (r & E & S & V).
  - apply good_one. cbn. lia.
  - reflexivity.
  - intros o d [H|[]]. injection H as <- <-. reflexivity.
  - exists r. split; auto. rewrite !V by (repeat constructor). unfold lifted_action. cbn [map nth twoModes shape]. rewrite !isum_one. split; apply cr_eq; cbn -[sqrt INR]; rewrite ?sqrt_1; try ring.
    + change (INR 1) with 1%R. rewrite sqrt_1. ring.
    + change (INR 2) with (1 + 1)%R. replace (1 + 1)%R with 2%R by ring. ring.
Qed.
Lemma reduce_case : shape (reduce twoModes [1] false) = [2] /\ elem (reduce twoModes [1] false) [1] = RC 3 /\ weight (remaining [1] (shape twoModes)) (marginal [1] (shape twoModes) (elem twoModes)) <> 0%R.
Proof.
  destruct (reduce_unnormalised twoModes [1] [1]) as [S V]; [apply good_one; cbn; lia|apply increasing_one|reflexivity|].
  split; [exact S|]. split.
  - rewrite V by (cbn; repeat constructor). unfold marginal. cbn. apply cr_eq; cbn; ring.
  - unfold weight, remaining, marginal. cbn. nra.
Qed.
Lemma fft_case : NoDup [0; 2] /\ within [0; 2] (mkArr [4; 3; 8] (fun _ => k1)) /\ (forall p, In p [0; 2] -> exists fin, 2 <= fin /\ nth p [4; 3; 8] 0 = 2 ^ fin).
Proof.
  split; [repeat constructor; cbn; lia|]. split; [intros p [<-|[<-|[]]]; cbn; lia|]. intros p [<-|[<-|[]]]; [exists 2|exists 3]; split; auto.
Qed.
(** i, two photons at most *)
Lemma coherent_case : exists sv, pyCoherent CI 3 = Some sv /\ elem sv [1] = k0 /\ coherent_amplitude CI 1 = kmul (RC (exp (- (1) / 2))) CI.
Proof.
  destruct (coherent_spec CI 3) as (sv & E & S & V); [lia|]. exists sv. split; auto. split.
  - rewrite V by lia. unfold coherent_amplitude. change (kpow (RC (cre CI)) 1) with (kmul (RC 0) k1). apply cr_eq; cbn; ring.
  - unfold coherent_amplitude. change (kpow CI 1) with (kmul CI k1). change (INR (fact 1)) with 1%R. rewrite sqrt_1. replace (csq CI) with 1%R by (unfold csq; cbn; ring). apply cr_eq; cbn; field.
Qed.
(** momentum -5 among the 8 from -4 to 3 *)
Lemma eigen_case : exists sv, momentumEigen (-5) 3 = Some sv /\ elem sv [7] = k1 /\ gridK (2 ^ 3) 1 7 = 3%R /\ momentumEigen 4 3 = None.
Proof. eexists. split; [reflexivity|]. split; [reflexivity|]. split; [unfold gridK; cbn; field|reflexivity]. Qed.
