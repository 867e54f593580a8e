(** C93, C94, C95. *)
From Coq Require Import List Arith Reals Lra Lia.
From Verif Require Import Star CReal Arr SliceSpec HermModel HermSpec DensitySpec EntangleModel EntangleSpec SpectralProofs BipartiteProofs EntangleProofs EntangleFacts EntangleCases.
Import ListNotations.
Local Open Scope R_scope.

(** C93. For a density operator, negPT is the sum of the absolute values of the negative eigenvalues of the partial transpose, whichever complete set of eigenvectors
    is taken, provided that the solver is right on the matrix it is given; it is nonnegative. *)
Theorem C93_negativity : forall (solver : list nat -> op -> list CR) (dims V : list nat) (o : obj CR) (ev : list R),
  oShape o = dims ++ dims -> let rho : op := fun i j => oRead o (i ++ j) in density dims rho -> solves solver dims (transp (ptransp V rho)) -> eigenvalues_of dims (ptransp V rho) ev ->
  negPT solver (length dims) V o = Some (negativePart ev) /\ 0 <= negativePart ev.
Proof. exact negativity_fact. Qed.
Print Assumptions C93_negativity.
(** It vanishes for separable states, *)
Theorem C93_separable : forall (solver : list nat -> op -> list CR) (dims V : list nat) (o : obj CR), good_positions (length dims) V -> oShape o = dims ++ dims ->
  let rho : op := fun i j => oRead o (i ++ j) in mtrace dims rho = k1 -> separable dims V rho -> solves solver dims (transp (ptransp V rho)) ->
  negPT solver (length dims) V o = Some 0.
Proof. exact negPT_separable. Qed.
Print Assumptions C93_separable.
(** and is the same for the two complementary parts. *)
Theorem C93_complement : forall (solver : list nat -> op -> list CR) (dims V W : list nat) (o : obj CR), oShape o = dims ++ dims ->
  let rho : op := fun i j => oRead o (i ++ j) in density dims rho -> (forall k, (k < length dims)%nat -> (In k V <-> ~ In k W)) ->
  solves solver dims (transp (ptransp V rho)) -> solves solver dims (transp (ptransp W rho)) -> negPT solver (length dims) V o = negPT solver (length dims) W o.
Proof. exact negPT_complement. Qed.
Print Assumptions C93_complement.
(** A Bell state has the negativity 1/2. *)
Example C93_case : let rho : op := fun i j => oRead bellObj (i ++ j) in let solver := fun (_ : list nat) (_ : op) => map RC [1/2; 1/2; 1/2; -1/2] in
  oShape bellObj = [2; 2]%nat ++ [2; 2]%nat /\ density [2; 2]%nat rho /\ solves solver [2; 2]%nat (transp (ptransp [0%nat] rho)) /\
  negPT solver 2 [0%nat] bellObj = Some (negativePart [1/2; 1/2; 1/2; -1/2]) /\ negativePart [1/2; 1/2; 1/2; -1/2] = 1/2.
Proof.
  assert (E : eigenvalues_of [2; 2]%nat (ptransp [0%nat] (HermProofs.mm bellObj)) [1/2; 1/2; 1/2; -1/2]).
  { apply (eigenvalues_mmeq _ (ptransp [0%nat] (pure (bellv hh)))); [|apply bell_pt_ev; exact hh2]. apply mmeq_sym. apply HermProofs.mmeq_ptransp. exact bellObj_mm. }
  assert (S : solves (fun _ _ => map RC [1/2; 1/2; 1/2; -1/2]) [2; 2]%nat (transp (ptransp [0%nat] (HermProofs.mm bellObj)))).
  { apply (solves_of _ _ [1/2; 1/2; 1/2; -1/2]); [exact E|reflexivity]. }
  cbv zeta. split; [reflexivity|]. split; [exact bell_density|]. split; [exact S|]. split.
  - apply (negPT_ok _ [2; 2]%nat [0%nat] bellObj _ eq_refl bell_density S E).
  - unfold negativePart. cbn [PureModel.rsum fold_right map]. unfold PureModel.rsum. cbn [fold_right]. unfold Rmax. repeat destruct (Rle_dec _ _); lra.
Qed.
(** A classical mixture has none. *)
Example C93_case_separable : let rho : op := fun i j => oRead mixObj (i ++ j) in
  good_positions 2 [0%nat] /\ mtrace [2; 2]%nat rho = k1 /\ separable [2; 2]%nat [0%nat] rho /\ solves (fun _ _ => map RC [1/2; 0; 0; 1/2]) [2; 2]%nat (transp (ptransp [0%nat] rho)).
Proof.
  cbv zeta. split; [exact good0|]. split; [exact mix_trace|]. split; [exact mix_sep|]. apply (solves_of _ _ [1/2; 0; 0; 1/2]); [|reflexivity].
  apply (eigenvalues_mmeq _ _ _ _ (mmeq_sym _ _ _ mix_pt)). apply (diag_ev [2; 2]%nat (fun i => match i with [a; b] => if (a =? b)%nat then 1 / 2 else 0 | _ => 0 end)).
Qed.

(** C94. The entropy of a density operator is the von Neumann entropy of its eigenvalues, whichever complete set of eigenvectors is taken; it is between 0 and the logarithm
    of the dimension. *)
Theorem C94_entropy : forall (solver : list nat -> op -> list R) (dims : list nat) (rho : op) (ev : list R), density dims rho -> solvesSA solver dims (transp rho) ->
  eigenvalues_of dims rho ev -> entropy solver dims rho = vonNeumann ev /\ 0 <= vonNeumann ev <= ln (INR (fold_right Nat.mul 1%nat dims)).
Proof. exact entropy_bounds. Qed.
Print Assumptions C94_entropy.
(** The mutual information of the parts V and W (the positions not in V) is never negative: the entropy is subadditive. *)
Theorem C94_mutual_information : forall (solver : list nat -> op -> list R) (fuel : nat) (dims V : list nat) (arr : list nat -> CR), good_positions (length dims) V ->
  (forall m, In m dims -> (0 < m)%nat) -> (fold_right Nat.mul 1%nat dims <= fuel)%nat -> let rho : op := fun i j => arr (i ++ j) in let W := others (length dims) V in density dims rho ->
  solvesSA solver dims (transp rho) -> solvesSA solver (map (fun v => nth v dims 0%nat) V) (transp (ptr V dims rho)) ->
  solvesSA solver (map (fun v => nth v dims 0%nat) W) (transp (ptr W dims rho)) -> exists mi, mutualInformation solver fuel V dims arr = Some mi /\ 0 <= mi.
Proof. exact mi_nonneg_fact. Qed.
Print Assumptions C94_mutual_information.
(** It is zero if the two parts are uncorrelated, *)
Theorem C94_uncorrelated : forall (solver : list nat -> op -> list R) (fuel : nat) (dims V : list nat) (arr : list nat -> CR) (b c : op), good_positions (length dims) V ->
  (forall m, In m dims -> (0 < m)%nat) -> (fold_right Nat.mul 1%nat dims <= fuel)%nat -> let rho : op := fun i j => arr (i ++ j) in let W := others (length dims) V in density dims rho ->
  mmeq dims rho (product V dims b c) -> mtrace (map (fun v => nth v dims 0%nat) V) b = k1 -> mtrace (map (fun v => nth v dims 0%nat) W) c = k1 ->
  solvesSA solver dims (transp rho) -> solvesSA solver (map (fun v => nth v dims 0%nat) V) (transp (ptr V dims rho)) ->
  solvesSA solver (map (fun v => nth v dims 0%nat) W) (transp (ptr W dims rho)) -> mutualInformation solver fuel V dims arr = Some 0.
Proof. exact mi_product_fact. Qed.
Print Assumptions C94_uncorrelated.
(** and in a pure state, which has entropy 0, the two parts have equal entropies and the mutual information is twice that. *)
Theorem C94_pure : forall (solver : list nat -> op -> list R) (fuel : nat) (dims V : list nat) (arr psi : list nat -> CR), good_positions (length dims) V ->
  (forall m, In m dims -> (0 < m)%nat) -> (fold_right Nat.mul 1%nat dims <= fuel)%nat -> let rho : op := fun i j => arr (i ++ j) in let W := others (length dims) V in
  inner dims psi psi = k1 -> mmeq dims rho (pure psi) ->
  solvesSA solver dims (transp rho) -> solvesSA solver (map (fun v => nth v dims 0%nat) V) (transp (ptr V dims rho)) ->
  solvesSA solver (map (fun v => nth v dims 0%nat) W) (transp (ptr W dims rho)) ->
  entropy solver dims rho = 0 /\ entropy solver (map (fun v => nth v dims 0%nat) V) (ptr V dims rho) = entropy solver (map (fun v => nth v dims 0%nat) W) (ptr W dims rho) /\
  mutualInformation solver fuel V dims arr = Some (2 * entropy solver (map (fun v => nth v dims 0%nat) V) (ptr V dims rho)).
Proof. exact mi_pure_fact. Qed.
Print Assumptions C94_pure.
(** The mutual information of the two qubits of a Bell state is 2 ln 2. *)
Example C94_case : good_positions 2 [0%nat] /\ density [2; 2]%nat bellRho /\ mmeq [2; 2]%nat bellRho (pure (bellv hh)) /\ solvesSA bellSolver [2; 2]%nat (transp bellRho) /\
  solvesSA bellSolver [2%nat] (transp (ptr [0%nat] [2; 2]%nat bellRho)) /\ solvesSA bellSolver [2%nat] (transp (ptr (others 2 [0%nat]) [2; 2]%nat bellRho)) /\
  mutualInformation bellSolver 4 [0%nat] [2; 2]%nat bellArr = Some (2 * ln 2).
Proof.
  split; [exact good0|]. split; [exact bell_density|]. split; [exact bellRho_pure|]. split; [exact bell_S|]. split; [exact bell_SV|]. split; [exact bell_SO|].
  destruct (C94_pure bellSolver 4 [2; 2]%nat [0%nat] bellArr (bellv hh) good0) as (_ & _ & E); auto using bell_norm, hh2, bellRho_pure, bell_S, bell_SV, bell_SO.
  - intros m [<-|[<-|[]]]; lia.
  - rewrite E. f_equal. unfold entropy, bellSolver. cbn [map nth fold_left]. destruct (Rlt_dec 0 (1 / 2)) as [_|N]; [|lra].
    replace (1 / 2) with (/ 2) by lra. rewrite ln_Rinv by lra. lra.
Qed.

(** C95. The purity of a part of a system is between the reciprocal of the dimension of the part and 1; *)
Theorem C95_bounds : forall (fuel : nat) (dims V : list nat) (arr : list nat -> CR), good_positions (length dims) V -> (forall m, In m dims -> (0 < m)%nat) ->
  (fold_right Nat.mul 1%nat dims <= fuel)%nat -> let rho : op := fun i j => arr (i ++ j) in density dims rho ->
  exists p, purityOfPartialTrace fuel V dims arr = Some p /\ / INR (fold_right Nat.mul 1%nat (map (fun v => nth v dims 0%nat) V)) <= p <= 1.
Proof. exact purity_fact. Qed.
Print Assumptions C95_bounds.
(** the two parts of a pure state have the same purity; *)
Theorem C95_complement : forall (fuel : nat) (dims V : list nat) (arr psi : list nat -> CR), good_positions (length dims) V -> (forall m, In m dims -> (0 < m)%nat) ->
  (fold_right Nat.mul 1%nat dims <= fuel)%nat -> mmeq dims (fun i j => arr (i ++ j)) (pure psi) ->
  exists p, purityOfPartialTrace fuel V dims arr = Some p /\ purityOfPartialTrace fuel (others (length dims) V) dims arr = Some p.
Proof. exact purity_compl_fact. Qed.
Print Assumptions C95_complement.
(** it is 1 for a part which is in a pure state. *)
Theorem C95_unentangled : forall (fuel : nat) (dims V : list nat) (arr b : list nat -> CR) (c : op), good_positions (length dims) V -> (forall m, In m dims -> (0 < m)%nat) ->
  (fold_right Nat.mul 1%nat dims <= fuel)%nat -> inner (map (fun v => nth v dims 0%nat) V) b b = k1 -> mtrace (map (fun v => nth v dims 0%nat) (others (length dims) V)) c = k1 ->
  mmeq dims (fun i j => arr (i ++ j)) (product V dims (pure b) c) -> purityOfPartialTrace fuel V dims arr = Some 1.
Proof. exact purity_product_fact. Qed.
Print Assumptions C95_unentangled.
(** The lower bound is reached by the parts of a Bell state. *)
Example C95_case : density [2; 2]%nat bellRho /\ purityOfPartialTrace 4 [0%nat] [2; 2]%nat bellArr = Some (1 / 2).
Proof.
  split; [exact bell_density|]. rewrite (popt_V [2; 2]%nat [0%nat] good0) by (cbn; auto; intros m [<-|[<-|[]]]; lia). f_equal.
  rewrite (purityOf_ext _ _ (diagm (fun _ => 1/2))).
  - unfold purityOf, PureModel.rsum. cbn. unfold csq. cbn. lra.
  - intros i j Hi Hj. rewrite <- (bell_red hh hh2 i j Hi Hj). apply ptr_ext; auto; [exact good0|exact bellRho_pure].
Qed.
