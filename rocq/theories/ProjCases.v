From Coq Require Import String List Arith Bool Reals Lra Lia.
From Verif Require Import Star CReal Arr ProjModel ProjSpec ProjProofs.
Import ListNotations.
Local Open Scope nat_scope.

(** two states of a two-level system, which are not orthogonal, and the inverse of the matrix of their overlaps *)
Definition up : state := fun x => match x with [0] => k1 | _ => k0 end.
Definition tilted : state := fun x => match x with [0] => RC (3 / 5) | [1] => RC (4 / 5) | _ => k0 end.
Definition down : state := fun x => match x with [1] => k1 | _ => k0 end.
Definition twoByTwo (a b c d : R) : matrix := fun i j => match i, j with 0, 0 => RC a | 0, 1 => RC b | 1, 0 => RC c | 1, 1 => RC d | _, _ => k0 end.
Definition invertTilted : nat -> matrix -> matrix := fun _ _ => twoByTwo (25 / 16) (- (15 / 16)) (- (15 / 16)) (25 / 16).
Definition invertUnit : nat -> matrix -> matrix := fun _ _ => twoByTwo 1 0 0 1.
Definition nothing : matrix := fun _ _ => k0.

Lemma up_up : braket [2] up up = k1. Proof. apply cr_eq; cbn; ring. Qed.
Lemma up_tilted : braket [2] up tilted = RC (3 / 5). Proof. apply cr_eq; cbn; ring. Qed.
Lemma tilted_up : braket [2] tilted up = RC (3 / 5). Proof. apply cr_eq; cbn; ring. Qed.
Lemma tilted_tilted : braket [2] tilted tilted = k1. Proof. apply cr_eq; cbn; field. Qed.
Lemma up_down : braket [2] up down = k0. Proof. apply cr_eq; cbn; ring. Qed.
Lemma down_up : braket [2] down up = k0. Proof. apply cr_eq; cbn; ring. Qed.
Lemma down_down : braket [2] down down = k1. Proof. apply cr_eq; cbn; ring. Qed.

Lemma invert_tilted : inverts [2] invertTilted [up; tilted].
Proof.
  intros m _ k i Hk Hi. cbn [length] in *. unfold invertTilted, nthState. cbn [seq ksum nth].
  destruct k as [|[|k]]; [| |lia]; (destruct i as [|[|i]]; [| |lia]); cbn [nth Nat.eqb twoByTwo]; rewrite ?up_up, ?up_tilted, ?tilted_up, ?tilted_tilted; apply cr_eq; cbn; field.
Qed.
Lemma invert_unit : inverts [2] invertUnit [up; down].
Proof.
  intros m _ k i Hk Hi. cbn [length] in *. unfold invertUnit, nthState. cbn [seq ksum nth].
  destruct k as [|[|k]]; [| |lia]; (destruct i as [|[|i]]; [| |lia]); cbn [nth Nat.eqb twoByTwo]; rewrite ?up_up, ?up_down, ?down_up, ?down_down; apply cr_eq; cbn; field.
Qed.
Lemma unit_orthonormal : orthonormal [2] [up; down].
Proof.
  intros i j Hi Hj. cbn [length] in *. unfold nthState.
  destruct i as [|[|i]]; [| |lia]; (destruct j as [|[|j]]; [| |lia]); cbn [nth Nat.eqb]; rewrite ?up_up, ?up_down, ?down_up, ?down_down; reflexivity.
Qed.
(** the columns for the state [up] *)
Lemma tilted_columns : streamed [2] invertTilted nothing [up; tilted] up = [1%R; (9 / 25)%R; 1%R].
Proof.
  unfold streamed. cbn [length Nat.eqb seq map fold_left app]. unfold term, nthState, metricTensor_uu. cbn [length Nat.eqb nth]. unfold invertTilted. cbn [twoByTwo].
  rewrite ?up_up, ?up_tilted, ?tilted_up, ?tilted_tilted. unfold csq, cre. cbn.
  apply f_equal2; [field|]. apply f_equal2; [field|]. apply f_equal2; [field|reflexivity].
Qed.
Lemma sum_refuted : inverts [2] invertTilted [up; tilted] /\ weight [2] up = 1%R /\ weight [2] tilted = 1%R /\
  streamed [2] invertTilted nothing [up; tilted] up = [1%R; (9 / 25)%R; 1%R] /\ (1 + 9 / 25 <> 1)%R.
Proof.
  split; [exact invert_tilted|]. split; [unfold weight; rewrite up_up; reflexivity|]. split; [unfold weight; rewrite tilted_tilted; reflexivity|].
  split; [exact tilted_columns|lra].
Qed.
Lemma key_refuted dims invert memory psi i : 0 < i -> streamed dims invert memory [] psi = [] /\ announced (key [] i) = 1.
Proof. intros H. split; [reflexivity|]. unfold announced, key. cbn [fold_right fst snd length]. lia. Qed.
Lemma span_case : inverts [2] invertTilted [up; tilted] /\ [up; tilted] <> [] /\ last (streamed [2] invertTilted nothing [up; tilted] up) 0%R = 1%R.
Proof. split; [exact invert_tilted|]. split; [discriminate|]. rewrite tilted_columns. reflexivity. Qed.
Lemma orthonormal_case : [up; down] <> [] /\ orthonormal [2] [up; down] /\ inverts [2] invertUnit [up; down].
Proof. split; [discriminate|]. split; [exact unit_orthonormal|exact invert_unit]. Qed.
