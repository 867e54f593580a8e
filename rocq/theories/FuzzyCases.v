From Coq Require Import ZArith Reals Bool Lra Lia.
From Flocq Require Import Core.Raux Core.Zaux.
From Verif Require Import FuzzyModel FuzzySpec FuzzyProofs.
Local Open Scope R_scope.

(** ** the numbers of the test of the class, test/FuzzyDouble.cc *)
Lemma test_case : eqFD (3 / 10 ^ 4 * (1 + / 2 ^ 52)) (3 / 10 ^ 4) = true /\ 3 / 10 ^ 4 * (1 + / 2 ^ 52) <> 3 / 10 ^ 4 /\ ltFF (314 / 100) (3141 / 1000) = true /\ gtDF (3141 / 1000) (314 / 100) = true.
Proof.
  assert (P : 0 < / 2 ^ 52) by (apply Rinv_0_lt_compat, pow_lt; lra).
  assert (L : ltFF (314 / 100) (3141 / 1000) = true).
  { apply lt_spec. destruct (delta_bounds (314 / 100) (3141 / 1000)) as [_ B].
    assert (E : larger (314 / 100) (3141 / 1000) = 3141 / 1000). { unfold larger. rewrite !Rabs_right by lra. apply Rmax_right. lra. }
    rewrite E in B. specialize (B ltac:(lra)). assert (tolerance < 1 / 10 ^ 5); [|lra]. unfold tolerance. apply (Rmult_lt_reg_r (2 ^ 52)); [apply pow_lt; lra|].
    unfold Rdiv. rewrite Rmult_assoc, Rinv_l by (apply pow_nonzero; lra). lra. }
  split; [|split; [lra|split; exact L]].
  apply (fuzzy_tolerant fuzzy (or_introl eq_refl)). replace (3 / 10 ^ 4 * (1 + / 2 ^ 52) - 3 / 10 ^ 4) with (3 / 10 ^ 4 * / 2 ^ 52) by ring.
  rewrite Rabs_right by (apply Rle_ge, Rmult_le_pos; lra). unfold larger, tolerance. set (u := / 2 ^ 52) in *. replace (10 / 2 ^ 52) with (10 * u) by reflexivity.
  pose proof (Rmax_r (Rabs (3 / 10 ^ 4 * (1 + u))) (Rabs (3 / 10 ^ 4))) as M. rewrite (Rabs_right (3 / 10 ^ 4)) in M at 1 by lra.
  apply Rle_trans with (10 * u * (3 / 10 ^ 4)); [nra|]. apply Rmult_le_compat_l; lra.
Qed.

(** ** equality is not transitive *)
Lemma delta_one a b : 1 <= a < 2 -> 1 <= b < 2 -> delta a b = 2 * tolerance.
Proof.
  intros A B. rewrite delta_larger, eps_tolerance. rewrite Rmult_comm. f_equal. unfold larger. rewrite !Rabs_right by lra.
  assert (M : 1 <= Rmax a b < 2) by (unfold Rmax; destruct (Rle_dec a b); lra). unfold frexpExponent. destruct (Req_EM_T (Rmax a b) 0); [lra|].
  rewrite (mag_unique radix2 (Rmax a b) 1); [reflexivity|]. rewrite Rabs_right by lra. cbn. lra.
Qed.
Lemma equality_refuted c : c = fuzzy \/ c = fuzzyDouble \/ c = doubleFuzzy -> exists x y z, eq c x y = true /\ eq c y z = true /\ eq c x z <> true /\ lt c x z = true.
Proof.
  intros H. exists 1, (1 + 2 * tolerance), (1 + 4 * tolerance). pose proof tolerance_pos.
  destruct (all_same c H 1 (1 + 2 * tolerance)) as (_ & -> & _). destruct (all_same c H (1 + 2 * tolerance) (1 + 4 * tolerance)) as (_ & -> & _).
  destruct (all_same c H 1 (1 + 4 * tolerance)) as (-> & -> & _). rewrite !eq_spec, lt_spec, !delta_one by lra.
  replace (1 - (1 + 2 * tolerance)) with (- (2 * tolerance)) by ring. replace (1 + 2 * tolerance - (1 + 4 * tolerance)) with (- (2 * tolerance)) by ring.
  replace (1 - (1 + 4 * tolerance)) with (- (4 * tolerance)) by ring. rewrite !Rabs_Ropp, !Rabs_right by lra. repeat split; lra.
Qed.
