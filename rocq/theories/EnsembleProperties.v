(** Property C42 *)
From Coq Require Import Reals Lra List Arith Permutation.
From Verif Require Import Star CReal Arr HermSpec DensityModel DensitySpec PureModel EnsembleModel EnsembleSpec EnsembleProofs.
Import ListNotations.

(** C42. For every nonempty ensemble, whatever the result object contained before, the average is the mean of the dyads of
    the members: Hermitian, positive, of unit trace if the members are normalised; every expectation value is the mean of
    those of the members; and the order of the members makes no difference. *)
Theorem C42_ensemble_average : forall dims rho trajs,
  trajs <> [] -> cSh rho = dims ++ dims -> (forall p, In p trajs -> cSh p = dims) ->
  exists r, averageTrajectories rho trajs = Some r /\
    mmeq dims (indexDO r) (meanDyad (map cElem trajs)) /\
    hermitian dims (indexDO r) /\ positive dims (indexDO r) /\
    ((forall p, In p trajs -> normalised dims (cElem p)) -> mtrace dims (indexDO r) = k1) /\
    (forall A, expectation dims A (indexDO r) =
       kmul (RC (/ INR (length trajs))) (ksum (fun p => expectation dims A (pure (cElem p))) trajs)) /\
    (forall rho' trajs', cSh rho' = dims ++ dims -> Permutation trajs trajs' ->
       exists r', averageTrajectories rho' trajs' = Some r' /\ mmeq dims (indexDO r) (indexDO r')).
Proof. exact ensemble_all. Qed.
Print Assumptions C42_ensemble_average.

(** An ensemble of ensembles of one size averages to the mean over all trajectories. *)
Theorem C42_nested_ensembles : forall dims rho ens n, 0 < n -> ens <> [] -> cSh rho = dims ++ dims ->
  (forall e, In e ens -> length e = n /\ forall p, In p e -> cSh p = dims) ->
  exists r, averageEnsembles rho ens = Some r /\ mmeq dims (indexDO r) (meanDyad (map cElem (concat ens))).
Proof. exact nested_equal. Qed.
Print Assumptions C42_nested_ensembles.

(** two basis states of a qubit average to half the identity *)
Example C42_case : let up := mkCarr (K:=CR) [2] (fun p => if Nat.eqb p 0 then k1 else k0) in
  let down := mkCarr (K:=CR) [2] (fun p => if Nat.eqb p 1 then k1 else k0) in
  (forall p, In p [up;down] -> cSh p = [2] /\ normalised [2] (cElem p)) /\
  meanDyad (map cElem [up;down]) [0] [0] = RC (1/2) /\ meanDyad (map cElem [up;down]) [0] [1] = RC 0.
Proof.
  split; [intros p [<-|[<-|[]]]; (split; [reflexivity | apply cr_eq; cbn; ring])|].
  split; apply cr_eq; cbn; field.
Qed.
