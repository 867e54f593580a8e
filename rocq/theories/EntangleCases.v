(** Concrete states: a Bell state of two qubits, and a classical mixture. *)
From Coq Require Import List Arith Reals Lra Lia Bool.
From Verif Require Import Star CReal Arr SliceModel SliceSpec HermModel HermSpec HermProofs DensityModel DensitySpec PureModel PureProofs EntangleModel EntangleSpec SpectralProofs BipartiteProofs EntangleProofs.
Import ListNotations.
Local Open Scope R_scope.
Add Ring CREC : (k_ring CR).

(** diagonal matrices *)
Definition diagm (d : list nat -> R) : op := fun i j => if listnat_eqb i j then RC (d i) else k0.
Lemma diag_ev dims d : eigenvalues_of dims (diagm d) (map d (indices dims)).
Proof.
  exists (fun k => unitvec (nth k (indices dims) [])). cbv zeta. rewrite map_length. split; [|split].
  - intros k l Hk Hl. unfold inner. assert (Ik : inr dims (nth k (indices dims) [])) by (apply in_indices; now apply nth_In).
    transitivity (isum dims (fun x => kmul (if listnat_eqb (nth k (indices dims) []) x then k1 else k0) (unitvec (nth l (indices dims) []) x))).
    + apply isum_ext. intros x _. unfold unitvec. destruct (listnat_eqb (nth k (indices dims) []) x); rewrite ?kconj_1, ?kconj_0; reflexivity.
    + rewrite (isum_delta' dims _ _ Ik). unfold unitvec. destruct (Nat.eqb_spec k l) as [->|N]; [now rewrite listnat_eqb_refl|].
      destruct (listnat_eqb_spec (nth l (indices dims) []) (nth k (indices dims) [])) as [E|]; [|reflexivity]. exfalso. apply N.
      apply (proj1 (NoDup_nth (indices dims) []) (indices_NoDup dims)); auto.
  - intros x y Hx Hy. rewrite <- (unitvec_complete dims x y Hx Hy). rewrite <- (ksum_map (fun k => nth k (indices dims) []) (fun j => kmul (unitvec j x) (kconj (unitvec j y)))). f_equal.
    apply (nth_ext _ _ [] []); [now rewrite map_length, seq_length|]. intros i Hi. rewrite map_length, seq_length in Hi.
    rewrite (nth_indep _ [] ((fun k => nth k (indices dims) []) 0%nat)) by now rewrite map_length, seq_length. rewrite (map_nth (fun k => nth k (indices dims) [])). now rewrite seq_nth by exact Hi.
  - intros k x Hk Hx. unfold diagm. rewrite (isum_ext dims _ (fun y => kmul (if listnat_eqb x y then k1 else k0) (kmul (RC (d x)) (unitvec (nth k (indices dims) []) y)))).
    + rewrite (isum_delta' dims x (fun y => kmul (RC (d x)) (unitvec (nth k (indices dims) []) y)) Hx).
      rewrite (nth_indep _ 0 (d [])) by now rewrite map_length. rewrite map_nth. unfold unitvec. destruct (listnat_eqb_spec (nth k (indices dims) []) x) as [->|]; ring.
    + intros y _. destruct (listnat_eqb x y); ring.
Qed.

(** (|00>+|11>)/sqrt 2, h being 1/sqrt 2 *)
Section Bell.
Variable h : R.
Hypothesis Hh : h * h = 1 / 2.
Definition bellv (x : list nat) : CR := match x with [a; b] => if (a =? b)%nat then RC h else k0 | _ => k0 end.
Definition bell4 (s : nat -> nat -> R) (k : nat) (x : list nat) : CR := match x with [a; b] => RC (h * s k (2 * a + b)%nat) | _ => k0 end.
(** signs of the four Bell vectors at 00, 01, 10, 11 *)
Definition sgn (k p : nat) : R := match k, p with
  | 0%nat, 0%nat | 0%nat, 3%nat | 1%nat, 0%nat | 2%nat, 1%nat | 2%nat, 2%nat | 3%nat, 1%nat => 1
  | 1%nat, 3%nat | 3%nat, 2%nat => -1 | _, _ => 0 end.
Lemma Hh3 : h * (h * h) = h / 2.
Proof. rewrite Hh. field. Qed.
Ltac idx H := apply in_indices in H; cbn in H; repeat (destruct H as [<-|H]; [|]); [| | | |destruct H].
Ltac fin := repeat first [rewrite isum_cons|rewrite isum_nil]; cbn [seq ksum fold_right map]; apply cr_eq; cbn; lra.
Lemma bell_orth k l : (k < 4)%nat -> (l < 4)%nat -> inner [2; 2]%nat (bell4 sgn k) (bell4 sgn l) = if (k =? l)%nat then k1 else k0.
Proof.
  intros Hk Hl. unfold inner. do 4 (destruct k as [|k]; [do 4 (destruct l as [|l]; [fin|]); lia|]). lia.
Qed.
Lemma bell_compl x y : inr [2; 2]%nat x -> inr [2; 2]%nat y -> ksum (fun k => kmul (bell4 sgn k x) (kconj (bell4 sgn k y))) (seq 0 4) = if listnat_eqb x y then k1 else k0.
Proof. intros Hx Hy. idx Hx; idx Hy; fin. Qed.
Lemma bell_ev : eigenvalues_of [2; 2]%nat (pure bellv) [1; 0; 0; 0].
Proof.
  exists (bell4 sgn). cbv zeta. cbn [length]. split; [apply bell_orth|]. split; [apply bell_compl|]. intros k x Hk Hx. unfold pure. pose proof Hh3.
  do 4 (destruct k as [|k]; [idx Hx; fin|]). lia.
Qed.
Lemma bell_pt_ev : eigenvalues_of [2; 2]%nat (ptransp [0%nat] (pure bellv)) [1/2; 1/2; 1/2; -1/2].
Proof.
  exists (bell4 sgn). cbv zeta. cbn [length]. split; [apply bell_orth|]. split; [apply bell_compl|]. intros k x Hk Hx. unfold pure, ptransp. pose proof Hh3.
  do 4 (destruct k as [|k]; [idx Hx; fin|]). lia.
Qed.
Lemma bell_norm : inner [2; 2]%nat bellv bellv = k1.
Proof. unfold inner. fin. Qed.
Lemma bell_red : mmeq [2%nat] (ptr [0%nat] [2; 2]%nat (pure bellv)) (diagm (fun _ => 1/2)).
Proof.
  intros i j Hi Hj. apply in_indices in Hi, Hj. cbn in Hi, Hj. destruct Hi as [<-|[<-|[]]], Hj as [<-|[<-|[]]]; unfold ptr, pure; cbn [indices]; apply cr_eq; cbn; nra.
Qed.
Lemma bell_red' : mmeq [2%nat] (ptr [1%nat] [2; 2]%nat (pure bellv)) (diagm (fun _ => 1/2)).
Proof.
  intros i j Hi Hj. apply in_indices in Hi, Hj. cbn in Hi, Hj. destruct Hi as [<-|[<-|[]]], Hj as [<-|[<-|[]]]; unfold ptr, pure; cbn [indices]; apply cr_eq; cbn; nra.
Qed.
End Bell.
Definition hh : R := sqrt (1 / 2).
Lemma hh2 : hh * hh = 1 / 2.
Proof. apply sqrt_sqrt. lra. Qed.
(** as an array object, and as an array *)
Definition bellArr (x : list nat) : CR := match x with [a; b; c; d] => pure (bellv hh) [a; b] [c; d] | _ => k0 end.
Definition bellObj : obj CR := mkObj bellArr [2; 2; 2; 2]%nat (fun x => x).
Lemma inr22 i : inr [2; 2]%nat i -> exists a b, i = [a; b].
Proof. intros H. pose proof (inr_length _ _ H) as Hl. destruct i as [|a [|b [|? ?]]]; try discriminate. now exists a, b. Qed.
Lemma bellObj_mm : mmeq [2; 2]%nat (mm bellObj) (pure (bellv hh)).
Proof. intros i j Hi Hj. destruct (inr22 i Hi) as (a & b & ->), (inr22 j Hj) as (c & d & ->). reflexivity. Qed.
Lemma density_ext dims a b : mmeq dims a b -> density dims b -> density dims a.
Proof.
  intros E [T P]. split.
  - rewrite <- T. unfold mtrace. apply isum_ext. intros i Hi. now apply E.
  - intros phi. rewrite (mean_ext dims phi a b E). apply P.
Qed.
Lemma bell_density : density [2; 2]%nat (mm bellObj).
Proof. apply (density_ext _ _ _ bellObj_mm). apply pure_density. apply bell_norm. exact hh2. Qed.
(** (|00><00| + |11><11|)/2 *)
Definition mixArr (x : list nat) : CR := match x with [a; b; c; d] => diagm (fun i => match i with [a; b] => if (a =? b)%nat then 1 / 2 else 0 | _ => 0 end) [a; b] [c; d] | _ => k0 end.
Definition mixObj : obj CR := mkObj mixArr [2; 2; 2; 2]%nat (fun x => x).
Definition basisv (c : R) (k : nat) (x : list nat) : CR := match x with [a] => if (a =? k)%nat then RC c else k0 | _ => k0 end.
Lemma mix_sep : separable [2; 2]%nat [0%nat] (mm mixObj).
Proof.
  exists [(basisv hh 0, basisv 1 0); (basisv hh 1, basisv 1 1)]. intros i j Hi Hj. pose proof hh2 as E. apply in_indices in Hi, Hj. cbn in Hi, Hj.
  repeat (destruct Hi as [<-|Hi]; [repeat (destruct Hj as [<-|Hj]; [unfold ksum, product, pure; cbn [map fold_right fst snd]; apply cr_eq; cbn; lra|]); destruct Hj|]). destruct Hi.
Qed.
Lemma mix_pt : mmeq [2; 2]%nat (ptransp [0%nat] (mm mixObj)) (diagm (fun i => match i with [a; b] => if (a =? b)%nat then 1 / 2 else 0 | _ => 0 end)).
Proof.
  intros i j Hi Hj. apply in_indices in Hi, Hj. cbn in Hi, Hj.
  repeat (destruct Hi as [<-|Hi]; [repeat (destruct Hj as [<-|Hj]; [apply cr_eq; cbn; lra|]); destruct Hj|]). destruct Hi.
Qed.
Lemma mix_trace : mtrace [2; 2]%nat (mm mixObj) = k1.
Proof. unfold mtrace. repeat first [rewrite isum_cons|rewrite isum_nil]. cbn [seq ksum fold_right map]. apply cr_eq; cbn; lra. Qed.
(** solvers which are right on these matrices *)
Lemma solves_of dims M ev (s : list nat -> op -> list CR) : eigenvalues_of dims M ev -> (forall M', s dims M' = map RC ev) -> solves s dims (transp M).
Proof.
  intros H Hs M' HM. exists ev. split; [|apply Hs]. apply (eigenvalues_mmeq dims (transp M)); [intros i j Hi Hj; symmetry; now apply HM|]. now apply eigenvalues_transp.
Qed.
Lemma solvesSA_of dims M ev (s : list nat -> op -> list R) : eigenvalues_of dims M ev -> (forall M', s dims M' = ev) -> solvesSA s dims (transp M).
Proof.
  intros H Hs M' HM. rewrite Hs. apply (eigenvalues_mmeq dims (transp M)); [intros i j Hi Hj; symmetry; now apply HM|]. now apply eigenvalues_transp.
Qed.
Definition bellSolver (dims : list nat) (_ : op) : list R := match dims with [_] => [1/2; 1/2] | _ => [1; 0; 0; 0] end.
Lemma mmeq_sym dims (a b : op) : mmeq dims a b -> mmeq dims b a.
Proof. intros E i j Hi Hj. symmetry. now apply E. Qed.
Definition bellRho : op := fun i j => bellArr (i ++ j).
Lemma bellRho_pure : mmeq [2; 2]%nat bellRho (pure (bellv hh)).
Proof. exact bellObj_mm. Qed.
Lemma good0 : good_positions 2 [0%nat].
Proof. split; [repeat constructor; intros []|]. intros v [<-|[]]. lia. Qed.
Lemma bell_S : solvesSA bellSolver [2; 2]%nat (transp bellRho).
Proof. apply (solvesSA_of _ _ [1; 0; 0; 0]); [|reflexivity]. apply (eigenvalues_mmeq _ _ _ _ (mmeq_sym _ _ _ bellRho_pure)). apply bell_ev. exact hh2. Qed.
Lemma half_ev : eigenvalues_of [2%nat] (diagm (fun _ => 1/2)) [1/2; 1/2].
Proof. exact (diag_ev [2%nat] (fun _ => 1/2)). Qed.
Lemma ptr_ext V dims (a b : op) s s' : good_positions (length dims) V -> inr (map (fun v => nth v dims 0%nat) V) s -> inr (map (fun v => nth v dims 0%nat) V) s' -> mmeq dims a b -> ptr V dims a s s' = ptr V dims b s s'.
Proof.
  intros HV Hs Hs' E. rewrite !(ptr_V dims V HV) by assumption. apply isum_ext. intros d Hd. apply E; now apply SliceProofs.addr_inr.
Qed.
Lemma bell_SV : solvesSA bellSolver [2%nat] (transp (ptr [0%nat] [2; 2]%nat bellRho)).
Proof.
  apply (solvesSA_of _ _ [1/2; 1/2]); [|reflexivity]. apply (eigenvalues_mmeq _ (diagm (fun _ => 1/2))); [|apply half_ev]. apply mmeq_sym.
  intros i j Hi Hj. rewrite <- (bell_red hh hh2 i j Hi Hj). apply ptr_ext; auto; [exact good0|exact bellRho_pure].
Qed.
Lemma good1 : good_positions 2 [1%nat].
Proof. split; [repeat constructor; intros []|]. intros v [<-|[]]. lia. Qed.
Lemma bell_SO : solvesSA bellSolver [2%nat] (transp (ptr [1%nat] [2; 2]%nat bellRho)).
Proof.
  apply (solvesSA_of _ _ [1/2; 1/2]); [|reflexivity]. apply (eigenvalues_mmeq _ (diagm (fun _ => 1/2))); [|apply half_ev]. apply mmeq_sym.
  intros i j Hi Hj. rewrite <- (bell_red' hh hh2 i j Hi Hj). apply ptr_ext; auto; [exact good1|exact bellRho_pure].
Qed.
