From Coq Require Import List Arith Bool ZArith Lia Reals Lra.
From Verif Require Import Star CReal Arr MetricModel MetricSpec MetricProofs MetricNorm.
Import ListNotations.
Local Open Scope nat_scope.
Add Ring MetricCasesRing : (k_ring CR).

(** three factors of dimension 1, each doubling *)
Definition two : GaussZ := (2, 0)%Z.
Definition twice : @part GaussZ := (Matrix 1 (fun _ _ => two), [1], fun _ _ => two).
Lemma twice_valid n : valid (repeat twice n).
Proof. apply Forall_forall. intros p H. apply repeat_spec in H. subst p. split; [reflexivity|]. cbn. reflexivity. Qed.
Definition start : addr -> list nat -> GaussZ := fun _ _ => (1, 0)%Z.
Lemma storage_case : exists (ps : list (@part GaussZ)) m i o m' a y, valid ps /\ i <> o /\ compositeTransform (dimsOf ps) (trafosOf ps) m i o = Some (m', a) /\ inr (dimsOf ps) y /\
  m' o y <> isum (dimsOf ps) (fun x => kmul (tensorOf ps y x) (m i x)).
Proof.
  exists (repeat twice 3), start, (Given 0), (Given 1).
  assert (H1 : 1 < factors (repeat twice 3)) by (cbn; lia). assert (H2 : Nat.even (factors (repeat twice 3)) = false) by reflexivity.
  destruct (composite_storage (repeat twice 3) start (Given 0) (Given 1) (twice_valid 3) H1 H2 (given_buffer 0) (given_buffer 1)) as (m' & E & C).
  exists m', Buffer, [0; 0; 0]. split; [apply twice_valid|]. split; [discriminate|]. split; [exact E|]. split; [repeat constructor|].
  rewrite C. vm_compute. discriminate.
Qed.
Lemma factors_case : valid (repeat twice 4) /\ factors (repeat twice 4) = 4.
Proof. split; [apply twice_valid|reflexivity]. Qed.
(** a basis of two vectors which are not orthogonal: (1,0) and (1,1) *)
Definition slanted : list nat -> list nat -> CR := fun x a => match x, a with [0], [0] => k1 | [1], [_] => k1 | _, _ => k0 end.
Definition slantedState (psi : list nat -> CR) : nosv := newNosv [2] psi (Elementary (Matrix 1 (metric [2] slanted))).
Lemma slanted_case psi : on_basis (slantedState psi) [2] slanted /\ metric [2] slanted [0] [1] = k1.
Proof.
  split.
  - exists (tensorOf [(Matrix 1 (metric [2] slanted), [2], metric [2] slanted)]). split.
    + exists [(Matrix 1 (metric [2] slanted), [2], metric [2] slanted)]. split; [|repeat split].
      constructor; [|constructor]. split; [reflexivity|]. cbn. reflexivity.
    + intros y x Hy Hx. cbn [tensorOf length].
      inversion Hy as [|a ? ? ? Ha Hy']; subst. inversion Hy'; subst. inversion Hx as [|b ? ? ? Hb Hx']; subst. inversion Hx'; subst. cbn [firstn]. match goal with |- kmul ?a k1 = _ => transitivity a; [ring|reflexivity] end.
  - unfold metric, isum. cbn. apply cr_eq; cbn; ring.
Qed.
(** its norm after multiplication by 4, not updated, is twice what it was *)
Lemma stale_case : exists v space e c, on_basis v space e /\ norm (scale (RC c) (update v)) <> Some (lengthOf (scale (RC c) v) space e).
Proof.
  exists (slantedState (fun y => match y with [0] => k1 | _ => k0 end)), [2], slanted, 4%R. split; [apply slanted_case|].
  rewrite (norm_stale _ [2] slanted 4 (proj1 (slanted_case _)) ltac:(lra)), scaled_length by lra. intros H. pose proof (f_equal (fun o => match o with Some x => x | None => 0%R end) H) as E. cbv beta iota in E.
  assert (L : lengthOf (slantedState (fun y => match y with [0] => k1 | _ => k0 end)) [2] slanted = 1%R).
  { unfold lengthOf, lengthSq, vectorOf, isum. transitivity (sqrt 1); [|apply sqrt_1]. apply (f_equal sqrt). cbn. ring. }
  rewrite L in E. replace 4%R with (2 * 2)%R in E at 1 by ring. rewrite sqrt_square in E by lra. lra.
Qed.
