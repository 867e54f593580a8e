(** A system coupled to two identical atoms: one object each for the atom and for the interaction, as in 2particles1mode.cc:19-31; the constituent on both atoms has nothing, as IdenticalParticles. *)
From Coq Require Import String List Arith NArith Reals Lra Lia Bool Permutation.
From Verif Require Import Star CReal Arr SliceSpec HermSpec HermProofs DensitySpec MasterModel MasterSpec MasterProofs MasterCases CompositeModel CompositeSpec CompositeCases ExchSpec.
Import ListNotations.
Local Open Scope nat_scope.
Local Open Scope string_scope.
Local Open Scope list_scope.

Definition twin : parts := mkParts (pEx (exPart [2] flip)) (pHa (atom true)) (pLi (atom true)) (pAv (atom true)) 1.
Definition twins : composite := mkComposite [2; 2; 2] [darkPart; twin; twin] [([0; 1], exch); ([0; 2], exch); ([1; 2], darkPart)].
Definition swap12 : list nat := [0; 2; 1].
Definition ofKind {X} (a e d : X) (p : parts) : X := match pLi p with Some li => match liSuper li 0 with Some _ => a | None => e end | None => d end.
Definition twinH : parts -> op := ofKind (minusI (nonHermitian [2] atomH [atomJ])) (minusI (nonHermitian [2; 2] exchH [exchJ])) zero.
Definition twinHnh : parts -> op := ofKind (nonHermitian [2] atomH [atomJ]) (nonHermitian [2; 2] exchH [exchJ]) zero.
Definition twinU : parts -> op := ofKind flip identity identity.
Definition twinJ : parts -> list op := ofKind [atomJ] [exchJ] [].
Definition twinR : parts -> list op := ofKind [mmul [2] (dag atomJ) atomJ] [mmul [2; 2] (dag exchJ) exchJ] [].
Definition twinA : parts -> list op := ofKind [atomH] [exchH] [].
(** one excitation shared by the atoms, with a sign *)
Definition shared (s : CR) : list nat -> CR := fun y => match y with [0; 1; 0] => k1 | [0; 0; 1] => s | _ => k0 end.

Lemma twins_well : wellFormed twins.
Proof.
  split; [intros k Hk; cbn in Hk; intuition lia|]. split; [reflexivity|].
  cbn. repeat (apply Forall_cons; [split; [repeat (apply NoDup_cons; [cbn; intuition congruence|]); apply NoDup_nil|cbn; intros v Hv; intuition lia]|]). apply Forall_nil.
Qed.
Lemma twins_renaming : renaming 3 swap12 /\ kinds_kept [2; 2; 2] swap12.
Proof. split; [unfold renaming, swap12; cbn; apply perm_skip, perm_swap|reflexivity]. Qed.
Lemma twins_same : indistinguishable swap12 (constituents twins).
Proof.
  unfold indistinguishable. cbn. apply perm_trans with ([([1], twin); ([2], twin); ([0; 2], exch); ([0; 1], exch)]); [apply perm_swap|]. do 2 apply perm_skip. apply perm_swap.
Qed.
Lemma twins_sameU : indistinguishableU swap12 (constituents twins).
Proof.
  split; [cbn; apply perm_swap|]. cbn. intros a b [<-|[<-|[]]] [<-|[<-|[]]]; cbn; try (left; reflexivity); right; intros v [<-|[]] [E|[]]; discriminate.
Qed.
Lemma twins_sameL : indistinguishableL swap12 (constituents twins).
Proof. exact twins_same. Qed.
Ltac each := let vp := fresh in let H := fresh in intros vp H; cbn in H; repeat (destruct H as [<-|H]); [..|destruct H].
Lemma twins_H t t0 : objects (fun sh p => hamiltonian_adds sh p t t0) (cDims twins) (constituents twins) twinH.
Proof. each; try reflexivity; first [exact (opPart_h [2] atomH atomJ atomH true "atom" 1 t t0) | exact (opPart_h [2; 2] exchH exchJ exchH false "exchange" 5 t t0)]. Qed.
Lemma twins_U t t0 : objects (fun sh p => propagates_with sh p t t0) (cDims twins) (constituents twins) twinU.
Proof. each; try reflexivity; apply matop_acts. Qed.
Lemma twins_J t : objects (fun sh p => jumps_are sh p t) (cDims twins) (constituents twins) twinJ.
Proof. each; try reflexivity; first [exact (opPart_j [2] atomH atomJ atomH true "atom" 1 t) | exact (opPart_j [2; 2] exchH exchJ exchH false "exchange" 5 t)]. Qed.
Lemma twins_R t : objects (fun sh p => rates_are sh p t) (cDims twins) (constituents twins) twinR.
Proof. each; try reflexivity; first [exact (opPart_r [2] atomH atomJ atomH true "atom" 1 t) | exact (opPart_r [2; 2] exchH exchJ exchH false "exchange" 5 t)]. Qed.
Lemma twins_A t : objects (fun sh p => averages_are sh p t) (cDims twins) (constituents twins) twinA.
Proof. each; try reflexivity; first [exact (opPart_a [2] atomH atomJ atomH true "atom" 1 t) | exact (opPart_a [2; 2] exchH exchJ exchH false "exchange" 5 t)]. Qed.
Lemma twins_Hnh t t0 : objects (fun sh p H => hamiltonian_adds sh p t t0 (minusI H)) (cDims twins) (constituents twins) twinHnh.
Proof. each; try apply zero_minusI; first [exact (opPart_h [2] atomH atomJ atomH true "atom" 1 t t0) | exact (opPart_h [2; 2] exchH exchJ exchH false "exchange" 5 t t0)]. Qed.
Lemma twins_S t : objects (fun sh p => supers_are sh p t) (cDims twins) (constituents twins) twinJ.
Proof. each; try exact I; first [exact (opPart_s [2] atomH atomJ atomH true "atom" 1 t) | exact (opPart_s [2; 2] exchH exchJ exchH false "exchange" 5 t)]. Qed.
Lemma shared_symmetric s y : kmul s s = k1 -> inr [2; 2; 2] y -> shared s (coords swap12 y) = kmul s (shared s y).
Proof.
  intros Hs Hy. inversion Hy as [|a ? ? ? Ha Hy1]; subst. inversion Hy1 as [|b ? ? ? Hb Hy2]; subst. inversion Hy2 as [|e ? ? ? He Hy3]; subst. inversion Hy3; subst.
  destruct a as [|[|a]]; [| |lia]; (destruct b as [|[|b]]; [| |lia]); (destruct e as [|[|e]]; [| |lia]); unfold coords, swap12; cbn [map nth shared]; first [symmetry; exact Hs | apply cr_eq; cbn; ring].
Qed.
