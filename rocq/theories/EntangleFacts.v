(** The statements of EntangleProperties.v. *)
From Coq Require Import List Arith Reals Lra Lia Bool.
From Verif Require Import Star CReal Arr SliceModel SliceSpec SliceProofs HermModel HermSpec HermProofs DensityModel DensitySpec PTraceProofs PureModel PureProofs EntangleModel EntangleSpec
  SpectralProofs BipartiteProofs EntangleProofs.
Import ListNotations.
Local Open Scope R_scope.
Add Ring CREF : (k_ring CR).

Lemma negativity_fact (solver : list nat -> op -> list CR) (dims V : list nat) (o : obj CR) (ev : list R) :
  oShape o = dims ++ dims -> let rho : op := fun i j => oRead o (i ++ j) in density dims rho -> solves solver dims (transp (ptransp V rho)) -> eigenvalues_of dims (ptransp V rho) ev ->
  negPT solver (length dims) V o = Some (negativePart ev) /\ 0 <= negativePart ev.
Proof. intros Sh rho D S He. split; [now apply (negPT_ok solver dims)|apply negpart_nonneg]. Qed.
Lemma mi_nonneg_fact (solver : list nat -> op -> list R) (fuel : nat) (dims V : list nat) (arr : list nat -> CR) : good_positions (length dims) V -> (forall m, In m dims -> (0 < m)%nat) ->
  (fold_right Nat.mul 1%nat dims <= fuel)%nat -> let rho : op := fun i j => arr (i ++ j) in let W := others (length dims) V in density dims rho ->
  solvesSA solver dims (transp rho) -> solvesSA solver (map (fun v => nth v dims 0%nat) V) (transp (ptr V dims rho)) ->
  solvesSA solver (map (fun v => nth v dims 0%nat) W) (transp (ptr W dims rho)) -> exists mi, mutualInformation solver fuel V dims arr = Some mi /\ 0 <= mi.
Proof.
  intros HV Hp Hf rho W D S SV SW. assert (E : map (fun v => nth v dims 0%nat) W = shD (length dims) V dims) by apply (shapeO dims V). rewrite E in SW.
  destruct (mi_ev dims V HV Hp fuel Hf solver arr S SV SW) as (ev & evV & evO & H1 & H2 & H3 & ->). eexists. split; [reflexivity|]. now apply (mi_nonneg dims V HV fuel Hf arr).
Qed.
Lemma mi_product_fact (solver : list nat -> op -> list R) (fuel : nat) (dims V : list nat) (arr : list nat -> CR) (b c : op) : good_positions (length dims) V -> (forall m, In m dims -> (0 < m)%nat) ->
  (fold_right Nat.mul 1%nat dims <= fuel)%nat -> let rho : op := fun i j => arr (i ++ j) in let W := others (length dims) V in density dims rho ->
  mmeq dims rho (product V dims b c) -> mtrace (map (fun v => nth v dims 0%nat) V) b = k1 -> mtrace (map (fun v => nth v dims 0%nat) W) c = k1 ->
  solvesSA solver dims (transp rho) -> solvesSA solver (map (fun v => nth v dims 0%nat) V) (transp (ptr V dims rho)) ->
  solvesSA solver (map (fun v => nth v dims 0%nat) W) (transp (ptr W dims rho)) -> mutualInformation solver fuel V dims arr = Some 0.
Proof.
  intros HV Hp Hf rho W D Ep Tb Tc S SV SW. assert (E : map (fun v => nth v dims 0%nat) W = shD (length dims) V dims) by apply (shapeO dims V). rewrite E in SW, Tc.
  destruct (mi_ev dims V HV Hp fuel Hf solver arr S SV SW) as (ev & evV & evO & H1 & H2 & H3 & ->). f_equal. now apply (mi_product dims V HV fuel Hf arr b c).
Qed.
Lemma mi_pure_fact (solver : list nat -> op -> list R) (fuel : nat) (dims V : list nat) (arr psi : list nat -> CR) : good_positions (length dims) V -> (forall m, In m dims -> (0 < m)%nat) ->
  (fold_right Nat.mul 1%nat dims <= fuel)%nat -> let rho : op := fun i j => arr (i ++ j) in let W := others (length dims) V in inner dims psi psi = k1 -> mmeq dims rho (pure psi) ->
  solvesSA solver dims (transp rho) -> solvesSA solver (map (fun v => nth v dims 0%nat) V) (transp (ptr V dims rho)) ->
  solvesSA solver (map (fun v => nth v dims 0%nat) W) (transp (ptr W dims rho)) ->
  entropy solver dims rho = 0 /\ entropy solver (map (fun v => nth v dims 0%nat) V) (ptr V dims rho) = entropy solver (map (fun v => nth v dims 0%nat) W) (ptr W dims rho) /\
  mutualInformation solver fuel V dims arr = Some (2 * entropy solver (map (fun v => nth v dims 0%nat) V) (ptr V dims rho)).
Proof.
  intros HV Hp Hf rho W N Ep S SV SW. assert (E : map (fun v => nth v dims 0%nat) W = shD (length dims) V dims) by apply (shapeO dims V). rewrite E in *.
  destruct (mi_ev dims V HV Hp fuel Hf solver arr S SV SW) as (ev & evV & evO & H1 & H2 & H3 & ->).
  split; [now apply (entropy_pure solver dims psi)|]. rewrite (entropy_ok solver _ _ evV SV H2), (entropy_ok solver _ _ evO SW H3).
  pose proof (vn_schmidt dims V HV arr psi evV evO Ep H2 H3) as Q. split; [exact Q|]. f_equal. rewrite <- Q, (vn_01 ev); [ring|]. now apply (pure_ev dims psi rho).
Qed.
Lemma purity_fact (fuel : nat) (dims V : list nat) (arr : list nat -> CR) : good_positions (length dims) V -> (forall m, In m dims -> (0 < m)%nat) ->
  (fold_right Nat.mul 1%nat dims <= fuel)%nat -> let rho : op := fun i j => arr (i ++ j) in density dims rho ->
  exists p, purityOfPartialTrace fuel V dims arr = Some p /\ / INR (fold_right Nat.mul 1%nat (map (fun v => nth v dims 0%nat) V)) <= p <= 1.
Proof.
  intros HV Hp Hf rho D. rewrite (popt_V dims V HV Hp fuel Hf arr). eexists. split; [reflexivity|]. pose proof (density_V dims V HV rho D) as DV. split; [now apply purity_ge|now apply purity_le].
Qed.
Lemma purity_compl_fact (fuel : nat) (dims V : list nat) (arr psi : list nat -> CR) : good_positions (length dims) V -> (forall m, In m dims -> (0 < m)%nat) ->
  (fold_right Nat.mul 1%nat dims <= fuel)%nat -> mmeq dims (fun i j => arr (i ++ j)) (pure psi) ->
  exists p, purityOfPartialTrace fuel V dims arr = Some p /\ purityOfPartialTrace fuel (others (length dims) V) dims arr = Some p.
Proof.
  intros HV Hp Hf E. rewrite (popt_V dims V HV Hp fuel Hf arr). eexists. split; [reflexivity|]. rewrite (popt_O dims V Hp fuel Hf arr). f_equal. symmetry. now apply (purity_parts dims V HV psi).
Qed.
Lemma purity_product_fact (fuel : nat) (dims V : list nat) (arr b : list nat -> CR) (c : op) : good_positions (length dims) V -> (forall m, In m dims -> (0 < m)%nat) ->
  (fold_right Nat.mul 1%nat dims <= fuel)%nat -> inner (map (fun v => nth v dims 0%nat) V) b b = k1 -> mtrace (map (fun v => nth v dims 0%nat) (others (length dims) V)) c = k1 ->
  mmeq dims (fun i j => arr (i ++ j)) (product V dims (pure b) c) -> purityOfPartialTrace fuel V dims arr = Some 1.
Proof.
  intros HV Hp Hf Nb Tc E. rewrite (popt_V dims V HV Hp fuel Hf arr). f_equal. rewrite <- (purity_of_pure _ b Nb). apply purityOf_ext. intros s s' Hs Hs'.
  replace (map (fun v => nth v dims 0%nat) (others (length dims) V)) with (shD (length dims) V dims) in Tc by (symmetry; apply (shapeO dims V)).
  rewrite (ptr_V dims V HV) by auto. transitivity (isum (shD (length dims) V dims) (fun d => kmul (pure b s s') (c d d))).
  - apply isum_ext. intros d Hd. rewrite E by (now apply addr_inr). unfold product. rewrite !(coordsO dims V HV), !(coordsV dims V HV) by auto. reflexivity.
  - rewrite isum_scal_l. fold (mtrace (shD (length dims) V dims) c). rewrite Tc. ring.
Qed.
