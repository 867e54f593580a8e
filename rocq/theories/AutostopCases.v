From Coq Require Import List Arith Bool Reals Lra Lia.
From Verif Require Import AutostopModel AutostopSpec AutostopProofs.
Import ListNotations.
Local Open Scope R_scope.

Lemma settled1 eps epsAbs a b m v recs n j : mean epsAbs recs n j 0 = m -> col epsAbs recs j 0 = v -> Rabs (m - v) = a -> Rabs m + Rabs v = b ->
  (settled eps epsAbs 1 recs n j <-> a < eps * b).
Proof.
  intros <- <- <- <-. unfold settled. cbv zeta. split; intros H.
  - apply (H 0%nat). lia.
  - intros c Hc. replace c with 0%nat by lia. exact H.
Qed.
Lemma col_big epsAbs recs i c : epsAbs <= nth c (nth i recs []) 0 -> col epsAbs recs i c = nth c (nth i recs []) 0.
Proof. intros H. unfold col. destruct (Rlt_dec _ _) as [L|]; auto. pose proof (Rle_abs (nth c (nth i recs []) 0)). lra. Qed.

Lemma ex_stop : stopsAt (1/10) (1/1000) 2 [[5]; [1]; [2]; [3/2]; [9]] = Some 3%nat.
Proof.
  pose proof (stops_first (1/10) (1/1000) 2 1 ltac:(lia) ltac:(lia) ltac:(lra) [[5]; [1]; [2]; [3/2]; [9]]) as H.
  assert (W : forall r, In r [[5]; [1]; [2]; [3/2]; [9]] -> length r = 1%nat).
  { intros r Hr. cbn in Hr. repeat destruct Hr as [<-|Hr]; try reflexivity. contradiction. }
  specialize (H W).
  assert (D : stopCond (1/10) (1/1000) 2 1 [[5]; [1]; [2]; [3/2]; [9]] 3).
  { split; [cbn; lia|]. eapply settled1.
    - unfold mean. cbn [sumR Nat.sub Nat.add]. rewrite !col_big by (cbn; lra). cbn [nth]. reflexivity.
    - rewrite col_big by (cbn; lra). cbn [nth]. reflexivity.
    - rewrite Rabs_right; [reflexivity|]. cbn. lra.
    - rewrite !Rabs_right; [reflexivity| |]; cbn; lra.
    - cbn. lra. }
  destruct (stopsAt _ _ _ _) as [j|].
  - destruct H as [[Hj Hs] Hmin]. f_equal. destruct (le_lt_dec 3 j) as [L|L]; [|lia].
    destruct (le_lt_dec j 3) as [L2|L2]; [lia|]. exfalso. exact (Hmin 3%nat L2 D).
  - exfalso. exact (H 3%nat D).
Qed.

Lemma ex_first : stopsAt (1/10) (1/1000) 1 [[5]; [5]; [5]] = Some 2%nat.
Proof.
  pose proof (stops_first (1/10) (1/1000) 1 1 ltac:(lia) ltac:(lia) ltac:(lra) [[5]; [5]; [5]]) as H.
  assert (W : forall r, In r [[5]; [5]; [5]] -> length r = 1%nat).
  { intros r Hr. cbn in Hr. repeat destruct Hr as [<-|Hr]; try reflexivity. contradiction. }
  specialize (H W).
  assert (D : stopCond (1/10) (1/1000) 1 1 [[5]; [5]; [5]] 2).
  { split; [cbn; lia|]. eapply settled1.
    - unfold mean. cbn [sumR Nat.sub Nat.add]. rewrite !col_big by (cbn; lra). cbn [nth]. reflexivity.
    - rewrite col_big by (cbn; lra). cbn [nth]. reflexivity.
    - rewrite Rabs_right; [reflexivity|]. cbn. lra.
    - rewrite !Rabs_right; [reflexivity| |]; cbn; lra.
    - cbn. lra. }
  destruct (stopsAt _ _ _ _) as [j|].
  - destruct H as [[Hj Hs] Hmin]. f_equal. cbn in Hj. lia.
  - exfalso. exact (H 2%nat D).
Qed.
