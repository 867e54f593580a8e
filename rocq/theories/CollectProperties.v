(** Property theorems C75 and C76, nothing else. *)
From Coq Require Import List Arith Reals String Lra.
From Verif Require Import Star CReal Arr HermSpec DensityModel PureModel CompositeModel AverageModel AverageSpec AverageCases CollectModel CollectSpec CollectProofs.
Import ListNotations.
Local Open Scope nat_scope.

(** C75: together with the reduced density operator, its negativity is displayed. It fails, since the averages are lost when space is made for one more:
    there are contents of the new memory with which what is displayed is something else. *)
Theorem C75_negativity_refuted : exists resized dims rho fuel vals, (forall n, List.length (resized n) = n) /\ state dims rho /\ deflate RParts fuel dims rho true = Some vals /\
  forall negPT, option_map (negProcess negPT dims) (negAverage resized fuel dims rho) <> Some (vals ++ [negPT (linear_view dims rho)])%list.
Proof. exact neg_wrong. Qed.
Print Assumptions C75_negativity_refuted.
(** The processing is right: given the averages (the elements of the Hermitian rho in the order of the labels, and one more number), it reconstructs the whole of rho,
    leaves the averages as they are, and the last becomes the negativity. [negPT] is any function of the matrix. *)
Theorem C75_negativity_partial : forall negPT dims rho fuel x, dims <> [] -> (forall n, In n dims -> 0 < n) -> fold_right Nat.mul 1 dims <= fuel -> HermSpec.hermitian dims rho ->
  (forall m m', (forall p q, p < fold_right Nat.mul 1 dims -> q < fold_right Nat.mul 1 dims -> m p q = m' p q) -> negPT m = negPT m') ->
  exists vals, deflate RParts fuel dims rho true = Some vals /\ negProcess negPT dims (vals ++ [x]) = (vals ++ [negPT (linear_view dims rho)])%list.
Proof. exact neg_processed. Qed.
Print Assumptions C75_negativity_partial.
Example C75_case : negMatrix 2 [/ 4; 3 / 4; / 5; / 6; 0]%R 1 0 = ((/ 5, - / 6)%R : CR) /\ negMatrix 2 [/ 4; 3 / 4; / 5; / 6; 0]%R 1 1 = RC (3 / 4).
Proof. split; reflexivity. Qed.

(** C76: a collection of averages displays everything the collected ones would display, under the same labels, in order. *)
Theorem C76_collecting : forall els t m, Forall (proper t m) els -> exists a, collectAverage els t m = Some a /\
  combine (collectLabels els) (collectProcess els a) = List.concat (map (fun e => shown e t m) els).
Proof. exact collect_shown. Qed.
Print Assumptions C76_collecting.
(** This holds not only for one state: the processing acts on each window separately, whatever is there (eg. the average over an ensemble). *)
Theorem C76_processing : forall els ws, Forall2 (fun e w => List.length w = avN e /\ List.length (avProcess e w) = avN e) els ws ->
  collectProcess els (List.concat ws) = List.concat (map (fun ew => avProcess (fst ew) (snd ew)) (combine els ws)).
Proof. exact collect_process. Qed.
Print Assumptions C76_processing.
Example C76_case : Forall (proper 0%R (pureLevel 1)) [qbitAveraged; modeAveraged 2 [] []] /\
  collectProcess [qbitAveraged; modeAveraged 2 [] []] [1; 2; 3; 4; 5; 6; 7; 8]%R = [1; 2; 3; 4; 5; 6 - 5 * 5; 7; 8]%R.
Proof.
  split; [|reflexivity]. repeat constructor; intros w H; cbn in H; do 5 (destruct w as [|? w]; try discriminate); reflexivity.
Qed.
