(** C142: Tridiagonal operators in memory *)
From Coq Require Import List Arith Bool ZArith.
From Verif Require Import Star Arr TriModel TriLemmas TriHeapModel TriHeapSpec TriHeapProofs.
Import ListNotations.
Local Open Scope nat_scope.

(** C142, refuted in full: every program computes with operators in memory as it would with operators which are values, and what fails changes nothing. What holds: every program has the outcome it would have with values. If it
    is finished, all arrays and operators have the values they should. If a command throws, then all have the values they had before this command but for the operator upon which += or -= threw. Missing: the operator which the
    exception leaves half added to, and assignments between operators whose arrays are of different shapes. *)
Theorem C142_values_partial : forall (K : StarRing) (T : Type) (keq : K -> K -> bool) (teq : T -> T -> bool) (t0 : T) (evolved : T -> T -> nat -> arr K -> arr K -> arr K) (cs : list (cmd K T)) s o vs o',
  run keq teq t0 evolved started cs = (s, o) -> meanings keq teq t0 evolved nothing cs = (vs, o') ->
  o = o' /\ (o = Ok tt -> agree s vs) /\
  (o <> Ok tt -> o <> UB -> exists pre c post, cs = pre ++ c :: post /\ meanings keq teq t0 evolved nothing pre = (vs, Ok tt) /\ agreeBut (target c) s vs).
Proof.
  exact (fun K T keq teq t0 evolved cs s o vs o' E E' =>
    match run_follows keq teq t0 evolved cs started nothing good_started agree_nothing s o vs o' E E' with conj A (conj B C) => conj A (conj (fun X => proj2 (B X)) C) end).
Qed.
Print Assumptions C142_values_partial.
(** commands which are not about an operator do not change its value, whatever it was made of, and whatever was made of it; not even those which throw *)
Theorem C142_untouched : forall (K : StarRing) (T : Type) (keq : K -> K -> bool) (teq : T -> T -> bool) (t0 : T) (evolved : T -> T -> nat -> arr K -> arr K -> arr K) (cs cs' : list (cmd K T)) v s s' o h x,
  run keq teq t0 evolved started cs = (s, Ok tt) -> run keq teq t0 evolved s cs' = (s', o) -> o <> UB -> (forall c, In c cs' -> ~ writes c v) ->
  ops s v = Some h -> represents (mem s) h x -> exists h', ops s' v = Some h' /\ represents (mem s') h' x.
Proof. exact (fun K T keq teq t0 evolved => run_untouched keq teq t0 evolved). Qed.
Print Assumptions C142_untouched.

(** programs for the cases: integers for times, nothing rotates *)
Definition still (t t' i : nat) (d f : arr GaussZ) : arr GaussZ := d.
Definition Cmd := cmd GaussZ nat.
Definition ints (l : list Z) : arr GaussZ := vec (K := GaussZ) (map (fun n => (n, 0%Z)) l).
Definition int (n : Z) : GaussZ := (n, 0%Z).
Definition go (cs : list Cmd) := run (K := GaussZ) Zeq Nat.eqb 0 still started cs.
(** the elements of the diagonal number i of an operator *)
Definition elements (s : heap GaussZ nat) (v i : nat) : list GaussZ := match ops s v with Some h => map (fun n => av (get (mem s) (hD h i)) [n]) (seq 0 (asize (get (mem s) (hD h i)))) | None => [] end.
Definition made : list Cmd := [NewArray 0 (ints [1; 2]%Z); NewArray 1 (ints [3]%Z); Unary 0 0 1 1 1].
(** an operator is copied, doubled, the arrays of the user overwritten, added to itself, subtracted from its copy *)
Example C142_case : snd (go (made ++ [Copy 1 0; Scale 0 (int 2); Write 0 (ints [7; 7]%Z); AddTo 0 0; Dagger 2 0; SubFrom 1 2; Neg 3 1; Scale 3 (int 5)])) = Ok tt /\
  let s := fst (go (made ++ [Copy 1 0; Scale 0 (int 2); Write 0 (ints [7; 7]%Z); AddTo 0 0; Dagger 2 0; SubFrom 1 2; Neg 3 1; Scale 3 (int 5)])) in
  elements s 0 0 = [(4, 0); (8, 0)]%Z /\ elements s 0 1 = [(12, 0)]%Z /\ elements s 1 0 = [(-3, 0); (-6, 0)]%Z /\ elements s 2 2 = [(12, 0)]%Z /\ elements s 3 0 = [(15, 0); (30, 0)]%Z.
Proof. vm_compute. repeat split. Qed.
Example C142_untouched_case : ~ writes (Scale (K := GaussZ) (T := nat) 0 (int 2)) 1 /\ elements (fst (go (made ++ [Copy 1 0; Scale 0 (int 2)]))) 1 0 = [(1, 0); (2, 0)]%Z.
Proof. split; [intros X; cbn in X; discriminate|vm_compute; reflexivity]. Qed.

(** an exception of += because of the frequencies comes when the diagonals have been added *)
Theorem C142_throw_refuted : exists (cs : list Cmd) v w s s' h h' x, go cs = (s, Ok tt) /\ go (cs ++ [AddTo v w]) = (s', FreqMismatch) /\
  ops s v = Some h /\ represents (mem s) h x /\ ops s' v = Some h' /\ ~ represents (mem s') h' x.
Proof.
  set (cs := made ++ [Copy 1 0; Furnish 0 0; NewArray 2 (ints [1; 5]%Z); Furnish 1 2]). exists cs, 0, 1.
  destruct (go cs) as [s o] eqn:E. destruct (go (cs ++ [AddTo 0 1])) as [s' o'] eqn:E'. exists s, s'.
  assert (O : snd (go cs) = Ok tt) by (vm_compute; reflexivity). assert (O' : snd (go (cs ++ [AddTo 0 1])) = FreqMismatch) by (vm_compute; reflexivity). rewrite E in O. rewrite E' in O'. cbn [snd] in O, O'. subst o o'.
  assert (V : elements (fst (go cs)) 0 0 = [(1, 0); (2, 0)]%Z) by (vm_compute; reflexivity). assert (V' : elements (fst (go (cs ++ [AddTo 0 1]))) 0 0 = [(2, 0); (4, 0)]%Z) by (vm_compute; reflexivity). rewrite E in V. rewrite E' in V'. cbn [fst] in V, V'.
  unfold elements in V, V'. destruct (ops s 0) as [h|] eqn:Eh; [|discriminate V]. destruct (ops s' 0) as [h'|] eqn:Eh'; [|discriminate V']. exists h, h'.
  exists (mkTri (hDims h) (hDiffs h) (fun i => get (mem s) (hD h i)) (hTime h) (fun i => get (mem s) (hF h i))).
  split; [reflexivity|]. split; [reflexivity|]. split; [reflexivity|]. split; [repeat split; auto|]. split; [reflexivity|]. intros (_ & _ & _ & R). destruct (R 0) as [R0 _]; [apply Nat.neq_0_lt_0, Nat.pow_nonzero; discriminate|]. cbn [diags] in R0. rewrite R0, V in V'. discriminate V'.
Qed.
Print Assumptions C142_throw_refuted.
(** two operators of the same dimensions, of which one has off-diagonals: assignment is undefined *)
Theorem C142_assign_refuted : exists (cs : list Cmd) v w s h h', go cs = (s, Ok tt) /\ ops s v = Some h /\ ops s w = Some h' /\ hDims h = hDims h' /\ snd (go (cs ++ [Assign v w])) = UB.
Proof.
  set (cs := made ++ [NewArray 2 (ints []); Unary 1 0 0 2 2]). exists cs, 1, 0. destruct (go cs) as [s o] eqn:E. exists s. assert (O : snd (go cs) = Ok tt) by (vm_compute; reflexivity). rewrite E in O. cbn [snd] in O. subst o.
  assert (V : match ops (fst (go cs)) 1, ops (fst (go cs)) 0 with Some h, Some h' => hDims h = [2] /\ hDims h' = [2] | _, _ => False end) by (vm_compute; auto). rewrite E in V. cbn [fst] in V.
  destruct (ops s 1) as [h|]; [|contradiction]. destruct (ops s 0) as [h'|]; [|contradiction]. exists h, h'. destruct V as [V V']. split; [reflexivity|]. split; [reflexivity|]. split; [reflexivity|]. split; [congruence|]. vm_compute. reflexivity.
Qed.
Print Assumptions C142_assign_refuted.
