(** C100: state vectors and density operators behave as values. *)
From Coq Require Import List Arith Bool ZArith.
From Verif Require Import AliasModel AliasSpec AliasProofs.
Import ListNotations.

(** Every program which makes sense as a program with values, in which nothing is used after it was moved from and nothing
    exchanged, runs, and in the end all names have the values they should: no statement changes anything but the name it is
    about.  The arithmetic of the elements is arbitrary. *)
Theorem C100_values_partial : forall K kz kadd ksub kmul kdiv kneg kconj (p : list (cmd K)) vs,
  steps K kz kadd ksub kmul kdiv kneg kconj (nothing K) p vs -> noSwap K p ->
  exists s, run K kz kadd ksub kmul kdiv kneg kconj (start K) p = Ok K s
    /\ forall x v, vs x = Some v -> look K kz s x = Some v.
Proof. exact values_run. Qed.
Print Assumptions C100_values_partial.

(** Conversely, a program which runs without moves, references and exchanges is a program with values, and what is seen of any
    name is its value. *)
Theorem C100_only_values_partial : forall K kz kadd ksub kmul kdiv kneg kconj (p : list (cmd K)) s,
  Forall (noMove K) p -> run K kz kadd ksub kmul kdiv kneg kconj (start K) p = Ok K s ->
  exists vs, steps K kz kadd ksub kmul kdiv kneg kconj (nothing K) p vs /\ forall x, look K kz s x = vs x.
Proof. exact run_values. Qed.
Print Assumptions C100_only_values_partial.

(** Two objects of which one was constructed by reference to the other, or moved from it, show the same class, dimensions and
    elements for ever after, whatever is done to either or to anything else, unless one is constructed anew. *)
Theorem C100_references : forall K kz kadd ksub kmul kdiv kneg kconj (s : state K) c x y s1 p s2,
  c = Ref K x y \/ c = Move K x y -> x <> y ->
  exec K kz kadd ksub kmul kdiv kneg kconj s c = Ok K s1 ->
  run K kz kadd ksub kmul kdiv kneg kconj s1 p = Ok K s2 ->
  Forall (fun c => ~ constructs K c x /\ ~ constructs K c y) p ->
  look K kz s2 x = look K kz s2 y /\ look K kz s2 y <> None.
Proof. exact shared. Qed.
Print Assumptions C100_references.

(** A slice remains a window upon the object of which it is a slice. *)
Theorem C100_slices : forall K kz kadd ksub kmul kdiv kneg kconj (s : state K) x y dims pos s1 p s2, x <> y ->
  exec K kz kadd ksub kmul kdiv kneg kconj s (View K x y dims pos) = Ok K s1 ->
  run K kz kadd ksub kmul kdiv kneg kconj s1 p = Ok K s2 ->
  Forall (fun c => ~ constructs K c x /\ ~ constructs K c y) p ->
  exists k d v, look K kz s2 y = Some (k, d, v) /\ look K kz s2 x = Some (k, dims, map (fun i => nth i v kz) pos)
                /\ forall i, In i pos -> i < length v.
Proof. exact viewed. Qed.
Print Assumptions C100_slices.

(** [std::swap] does not exchange: whatever the program before it, it leaves the value of the second in both, and the value of
    the first is lost. *)
Theorem C100_swap_refuted : forall K kz kadd ksub kmul kdiv kneg kconj (p : list (cmd K)) vs t x y k d v w,
  steps K kz kadd ksub kmul kdiv kneg kconj (nothing K) p vs -> noSwap K p ->
  vs x = Some (k, d, v) -> vs y = Some (k, d, w) -> x <> y -> t <> x -> t <> y ->
  exists s, run K kz kadd ksub kmul kdiv kneg kconj (start K) (p ++ [Swap K t x y]) = Ok K s
    /\ look K kz s x = Some (k, d, w) /\ look K kz s y = Some (k, d, w).
Proof. exact swap_loses. Qed.
Print Assumptions C100_swap_refuted.

Local Open Scope Z_scope.

(** Two qubits: a copy is changed, added to the original, the density operator of the sum is formed, and the original moved. *)
Example C100_case :
  let run := run Z 0 Z.add Z.sub Z.mul Z.div Z.opp (fun a => a) in
  let p := [New Z 0 Psi [2%nat] (Some [1; 2]); Copy Z 1 0; Write Z 1 0 5; AddTo Z 0 1; AddTo Z 0 0; Dyad Z 2 0;
            AddDyad Z 2 1 (-1); Move Z 3 0; MulBy Z 3 2] in
  (exists vs, steps Z 0 Z.add Z.sub Z.mul Z.div Z.opp (fun a => a) (nothing Z) p vs /\ noSwap Z p)
  /\ match run (start Z) p with
     | Ok _ s => look Z 0 s 1 = Some (Psi, [2%nat], [5; 2]) /\ look Z 0 s 2 = Some (Rho, [2%nat], [119; 86; 86; 60])
                 /\ look Z 0 s 3 = Some (Psi, [2%nat], [24; 16]) /\ look Z 0 s 0 = Some (Psi, [2%nat], [24; 16])
     | Undefined _ => False
     end
  /\ match run (start Z) [New Z 0 Psi [2%nat] (Some [1; 0]); New Z 1 Psi [2%nat] (Some [0; 1]); Swap Z 9 0 1] with
     | Ok _ s => look Z 0 s 0 = Some (Psi, [2%nat], [0; 1]) /\ look Z 0 s 1 = Some (Psi, [2%nat], [0; 1])
     | Undefined _ => False
     end
  /\ match run (start Z) [New Z 0 Psi [2; 2]%nat (Some [1; 2; 3; 4]); View Z 1 0 [2%nat] [1; 3]%nat; MulBy Z 1 10] with
     | Ok _ s => look Z 0 s 0 = Some (Psi, [2; 2]%nat, [1; 20; 3; 40])
     | Undefined _ => False
     end
  /\ run (start Z) [New Z 0 Psi [2%nat] None; New Z 1 Psi [3%nat] None; Assign Z 0 1] = Undefined Z.
Proof.
  cbv zeta. split.
  - eexists. split.
    + econstructor; [apply step_new; reflexivity|].
      econstructor; [eapply step_copy; reflexivity|].
      econstructor; [apply (step_write _ _ _ _ _ _ _ _ _ 1%nat Psi [2%nat] [] [2] 1); reflexivity|].
      econstructor; [eapply step_add; reflexivity|].
      econstructor; [eapply step_add; reflexivity|].
      econstructor; [eapply step_dyad; reflexivity|].
      econstructor; [eapply step_add_dyad; reflexivity|].
      econstructor; [eapply step_move; reflexivity|].
      econstructor; [eapply step_mul; reflexivity|].
      constructor.
    + intros t x y H. cbn in H. repeat destruct H as [H|H]; try discriminate. exact H.
  - repeat split; reflexivity.
Qed.
