(** C90 and C91. *)
From Coq Require Import List Arith Bool Reals.
From Verif Require Import Star CReal Arr TriModel TriSpec ElementSpec CompositeModel ParticleModel ModeModel InteractionSpec SigmaModel SigmaSpec SigmaProofs.
Import ListNotations.
Local Open Scope nat_scope.

(** C90: whatever |L><R|s and tridiagonals are multiplied together, in whatever order, their apply adds the tensor product of the factors, on the state, to the derivative. *)
Theorem C90_product : forall o sh psi dpsidt y, fitsDims sh o -> inr sh y ->
  dpApply o psi dpsidt y = kadd (dpsidt y) (isum sh (fun x => kmul (productOf o y x) (psi x))).
Proof. exact (fun o sh psi d y H => product_fact o sh H psi d y). Qed.
Print Assumptions C90_product.
(** dagger is the adjoint *)
Theorem C90_dagger : forall s i j, ketbra (fst (sigmaDagger s)) (snd (sigmaDagger s)) i j = kconj (ketbra (fst s) (snd s) j i).
Proof. exact dagger_fact. Qed.
Print Assumptions C90_dagger.
(** |0><2| on the first, |1><0| on the last of three subsystems, |1><1| in the middle *)
Example C90_case : let o := DHead 0 2 (DTail 1 0 (DSigma 1 1)) in
  fitsDims [3; 2; 4] o /\ forall psi d, dpApply o psi d [0; 1; 1] = kadd (d [0; 1; 1]) (psi [2; 1; 0]) /\ dpApply o psi d [0; 1; 0] = d [0; 1; 0].
Proof.
  split.
  - cbn. exists 3, [2; 4]. repeat split; auto with arith. exists 4, [2]. repeat split; auto with arith. exists 2. repeat split; auto with arith.
  - intros psi d. split; reflexivity.
Qed.

(** C91: the couplings, any number of them and between any levels, generate the Jaynes-Cummings Hamiltonian, whatever the picture of the mode (without Kerr term in the
    interaction picture) and whatever the earlier calls. *)
Theorem C91_generator : forall NL exact m gs, cavIs exact m -> 0 < cvDim m -> (forall c, In c gs -> cI c < NL /\ cJ c < NL) ->
  exists ds, makeMLJC false m gs = MMade (Ok ds) /\ mljc_generator [NL; cvDim m] [no_rate; cavRate m] ds (overI (hMLJC gs)).
Proof. exact mljc_fact. Qed.
Print Assumptions C91_generator.
(** that Hamiltonian is Hermitian, the norm is kept *)
Theorem C91_norm : forall NL exact m gs, cavIs exact m -> 0 < cvDim m -> (forall c, In c gs -> cI c < NL /\ cJ c < NL) ->
  exists ds, makeMLJC false m gs = MMade (Ok ds) /\ forall dts dt psi,
    norm_rate [NL; cvDim m] (carried [no_rate; cavRate m] dt psi) (carried [no_rate; cavRate m] dt (snd (mljcContribution dt (mljcAfter dts ds) psi (fun _ => k0)))) = k0.
Proof. exact mljc_norm. Qed.
Print Assumptions C91_norm.
(** with a multi-level system in interaction picture there is an exception, if there is any coupling *)
Theorem C91_refused : forall m gs, makeMLJC true m gs = MNotImplemented <-> gs <> [].
Proof. exact mljc_refused. Qed.
Print Assumptions C91_refused.
(** a Lambda scheme in a lossy, detuned mode in interaction picture *)
Example C91_case : let m := mkCavity 5 (Some ((1, -2)%R : CR, 0%R)) in let gs := [mkCoupling 0 2 ((1, 1)%R : CR); mkCoupling 1 2 ((0, 3)%R : CR)] in
  cavIs true m /\ 0 < cvDim m /\ (forall c, In c gs -> cI c < 3 /\ cJ c < 3) /\ overI (hMLJC gs) [0; 1] [2; 0] = ((1, -1)%R : CR).
Proof.
  cbv zeta. split; [split; reflexivity|]. split; [cbn; auto with arith|]. split; [intros c [<-|[<-|[]]]; cbn; auto with arith|exact case_entry].
Qed.
