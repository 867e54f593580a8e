From Coq Require Import ZArith Reals Bool Lra Lia.
From Flocq Require Import Core.Raux Core.Zaux.
From Verif Require Import FuzzyModel FuzzySpec.
Local Open Scope R_scope.

Definition fuzzy : comparisons := mkComparisons ltFF eqFF gtFF leFF geFF neFF.
Definition fuzzyDouble : comparisons := mkComparisons ltFD eqFD gtFD leFD geFD neFD.
Definition doubleFuzzy : comparisons := mkComparisons ltDF eqDF gtDF leDF geDF neDF.

Lemma eps_tolerance : eps = tolerance.
Proof. unfold eps, tolerance. rewrite bpow_powerRZ. cbn -[pow]. unfold powerRZ. cbn -[pow]. change (IZR 2) with 2. unfold Rdiv. do 2 f_equal. Qed.
Lemma tolerance_pos : 0 < tolerance < 1 / 100.
Proof.
  unfold tolerance. split; [apply Rdiv_lt_0_compat; [lra|apply pow_lt; lra]|]. apply (Rmult_lt_reg_r (2 ^ 52)); [apply pow_lt; lra|].
  unfold Rdiv. rewrite Rmult_assoc, Rinv_l by (apply pow_nonzero; lra). lra.
Qed.
(** the tolerance of the comparison of two numbers *)
Definition delta (a b : R) : R := eps * bpow radix2 (frexpExponent (if Rlt_dec (Rabs b) (Rabs a) then a else b)).
Lemma exponent_abs x : frexpExponent (Rabs x) = frexpExponent x.
Proof. unfold frexpExponent. destruct (Req_EM_T x 0) as [->|N]; [rewrite Rabs_R0; now destruct (Req_EM_T 0 0)|]. destruct (Req_EM_T (Rabs x) 0) as [E|E]; [exfalso; revert E; now apply Rabs_no_R0|]. now rewrite mag_abs. Qed.
Lemma delta_larger a b : delta a b = eps * bpow radix2 (frexpExponent (larger a b)).
Proof.
  unfold delta, larger. do 2 f_equal. rewrite <- exponent_abs. f_equal. destruct (Rlt_dec (Rabs b) (Rabs a)); [rewrite Rmax_left|rewrite Rmax_right]; lra.
Qed.
Lemma larger_sym a b : larger a b = larger b a.
Proof. apply Rmax_comm. Qed.
Lemma larger_pos a b : 0 <= larger a b.
Proof. unfold larger. pose proof (Rabs_pos a). pose proof (Rmax_l (Rabs a) (Rabs b)). lra. Qed.
Lemma delta_sym a b : delta a b = delta b a.
Proof. now rewrite !delta_larger, larger_sym. Qed.
Lemma exponent_bounds x : 0 < x -> x < bpow radix2 (frexpExponent x) <= 2 * x.
Proof.
  intros H. unfold frexpExponent. destruct (Req_EM_T x 0); [lra|]. destruct (mag radix2 x) as [e E]. cbn [mag_val]. specialize (E n). rewrite Rabs_right in E by lra.
  split; [apply E|]. replace e with (e - 1 + 1)%Z at 1 by lia. rewrite bpow_plus_1. change (IZR radix2) with 2. lra.
Qed.
Lemma exponent_le x y : 0 < x <= y -> bpow radix2 (frexpExponent x) <= bpow radix2 (frexpExponent y).
Proof.
  intros H. unfold frexpExponent. destruct (Req_EM_T x 0); [lra|]. destruct (Req_EM_T y 0); [lra|]. apply bpow_le. apply mag_le; lra.
Qed.
Lemma delta_pos a b : 0 < delta a b.
Proof. unfold delta. rewrite eps_tolerance. apply Rmult_lt_0_compat; [apply tolerance_pos|apply bpow_gt_0]. Qed.
Lemma delta_bounds a b : tolerance * larger a b <= delta a b /\ (0 < larger a b -> tolerance * larger a b < delta a b <= 2 * tolerance * larger a b).
Proof.
  rewrite delta_larger, eps_tolerance. pose proof (larger_pos a b). pose proof tolerance_pos. pose proof (bpow_gt_0 radix2 (frexpExponent (larger a b))).
  assert (G : 0 < larger a b -> tolerance * larger a b < tolerance * bpow radix2 (frexpExponent (larger a b)) <= 2 * tolerance * larger a b).
  { intros P. destruct (exponent_bounds _ P) as [B C]. split; [apply Rmult_lt_compat_l; lra|]. replace (2 * tolerance * larger a b) with (tolerance * (2 * larger a b)) by ring. apply Rmult_le_compat_l; lra. }
  split; [|exact G]. destruct (Req_EM_T (larger a b) 0) as [E|N]; [rewrite E at 1; rewrite Rmult_0_r; apply Rmult_le_pos; lra|]. destruct G; lra.
Qed.
Lemma fcmp_cases a b : (delta a b < a - b /\ fcmp a b eps = 1%Z) \/ (a - b < - delta a b /\ fcmp a b eps = (-1)%Z) \/ (Rabs (a - b) <= delta a b /\ fcmp a b eps = 0%Z).
Proof.
  unfold fcmp, ldexp. fold (delta a b). pose proof (delta_pos a b). destruct (Rlt_dec (delta a b) (a - b)); [left; auto|]. destruct (Rlt_dec (a - b) (- delta a b)); [right; left; auto|].
  right; right. split; [|reflexivity]. apply Rabs_le. lra.
Qed.
Lemma lt_spec a b : ltFF a b = true <-> delta a b < b - a.
Proof.
  unfold ltFF. pose proof (delta_pos a b). destruct (fcmp_cases a b) as [[H' E]|[[H' E]|[H' E]]]; rewrite E; cbn.
  - split; [discriminate|lra].
  - split; [lra|trivial].
  - split; [discriminate|]. intros L. exfalso. revert H'. apply Rlt_not_le. rewrite Rabs_left by lra. lra.
Qed.
Lemma gt_spec a b : gtFD a b = true <-> delta a b < a - b.
Proof.
  unfold gtFD. pose proof (delta_pos a b). destruct (fcmp_cases a b) as [[H' E]|[[H' E]|[H' E]]]; rewrite E; cbn.
  - split; trivial.
  - split; [discriminate|lra].
  - split; [discriminate|]. intros L. exfalso. revert H'. apply Rlt_not_le. rewrite Rabs_right by lra. lra.
Qed.
Lemma eq_spec a b : eqFF a b = true <-> Rabs (a - b) <= delta a b.
Proof.
  unfold eqFF. pose proof (delta_pos a b). destruct (fcmp_cases a b) as [[H' E]|[[H' E]|[H' E]]]; rewrite E; cbn.
  - split; [discriminate|]. rewrite Rabs_right by lra. lra.
  - split; [discriminate|]. rewrite Rabs_left by lra. lra.
  - split; trivial.
Qed.
Lemma gt_lt a b : gtFD a b = ltFF b a.
Proof. apply eq_true_iff_eq. rewrite gt_spec, lt_spec, (delta_sym b a). reflexivity. Qed.
Lemma eq_sym a b : eqFF a b = eqFF b a.
Proof. apply eq_true_iff_eq. rewrite !eq_spec, (delta_sym b a), Rabs_minus_sym. reflexivity. Qed.
Lemma all_same c : c = fuzzy \/ c = fuzzyDouble \/ c = doubleFuzzy -> forall a b,
  lt c a b = ltFF a b /\ eq c a b = eqFF a b /\ gt c a b = ltFF b a /\ le c a b = negb (ltFF b a) /\ ge c a b = negb (ltFF a b) /\ ne c a b = negb (eqFF a b).
Proof.
  intros [-> | [-> | ->]] a b; cbn; unfold gtFF, leFF, geFF, neFF, leFD, geFD, neFD, gtDF, ltDF, leDF, geDF, eqDF, neDF; change ltFD with ltFF; change eqFD with eqFF;
    rewrite ?gt_lt, ?(eq_sym b a); repeat split; reflexivity.
Qed.
Lemma fuzzy_coherent c : c = fuzzy \/ c = fuzzyDouble \/ c = doubleFuzzy -> coherent c.
Proof.
  intros H a b. destruct (all_same c H a b) as (-> & -> & -> & -> & -> & ->).
  pose proof (lt_spec a b) as A. pose proof (lt_spec b a) as B. pose proof (eq_spec a b) as E. rewrite (delta_sym b a) in B. pose proof (delta_pos a b) as D.
  assert (T : delta a b < b - a \/ delta a b < a - b \/ Rabs (a - b) <= delta a b).
  { destruct (Rle_dec (Rabs (a - b)) (delta a b)) as [|N]; [auto|]. apply Rnot_le_lt in N. unfold Rabs in N. destruct (Rcase_abs (a - b)); [left|right; left]; lra. }
  assert (X : Rabs (a - b) <= delta a b -> ~ delta a b < b - a /\ ~ delta a b < a - b). { intros L. unfold Rabs in L. destruct (Rcase_abs (a - b)); lra. }
  destruct (ltFF a b), (ltFF b a), (eqFF a b); cbn; intuition (try discriminate; try lra).
Qed.
Lemma fuzzy_tolerant c : c = fuzzy \/ c = fuzzyDouble \/ c = doubleFuzzy -> tolerant c.
Proof.
  intros H a b. destruct (all_same c H a b) as (-> & -> & -> & _). pose proof (delta_pos a b) as D. rewrite !lt_spec, eq_spec, (delta_sym b a). destruct (delta_bounds a b) as [L U].
  split; [lra|]. split; [lra|]. split; [lra|]. intros Q. destruct (larger_pos a b) as [P|P]; [specialize (U P); lra|].
  assert (a = 0 /\ b = 0) as [-> ->].
  { unfold larger in P. pose proof (Rmax_l (Rabs a) (Rabs b)). pose proof (Rmax_r (Rabs a) (Rabs b)). pose proof (Rabs_pos a). pose proof (Rabs_pos b).
    split; destruct (Req_dec a 0), (Req_dec b 0); trivial; try (pose proof (Rabs_pos_lt a); pose proof (Rabs_pos_lt b); intuition lra). }
  rewrite Rminus_0_r, Rabs_R0. rewrite <- P. lra.
Qed.
Lemma fuzzy_transitive c : c = fuzzy \/ c = fuzzyDouble \/ c = doubleFuzzy -> transitive (lt c).
Proof.
  intros H a b d. destruct (all_same c H a b) as (-> & _). destruct (all_same c H b d) as (-> & _). destruct (all_same c H a d) as (-> & _). rewrite !lt_spec. intros A B.
  pose proof (delta_pos a b). pose proof (delta_pos b d).
  assert (M : larger a d <= larger a b \/ larger a d <= larger b d).
  { unfold larger. pose proof (Rmax_l (Rabs a) (Rabs b)). pose proof (Rmax_r (Rabs b) (Rabs d)). unfold Rmax at 1 3. destruct (Rle_dec (Rabs a) (Rabs d)); [right|left]; lra. }
  assert (P : 0 < larger a d).
  { unfold larger. pose proof (Rmax_l (Rabs a) (Rabs d)). pose proof (Rmax_r (Rabs a) (Rabs d)). destruct (Req_dec a 0) as [->|N]; [|pose proof (Rabs_pos_lt a N); lra].
    assert (N : d <> 0) by lra. pose proof (Rabs_pos_lt d N). lra. }
  pose proof tolerance_pos as T. rewrite <- eps_tolerance in T. rewrite (delta_larger a d). rewrite (delta_larger a b), (delta_larger b d) in *.
  destruct M as [M|M]; (pose proof (exponent_le _ _ (conj P M)) as L; apply (Rmult_le_compat_l eps) in L; [|lra]; lra).
Qed.
Lemma fuzzy_mirrored : mirrored fuzzy fuzzy /\ mirrored fuzzyDouble doubleFuzzy.
Proof.
  split; intros a b.
  - destruct (all_same fuzzy) with (a := a) (b := b) as (-> & -> & -> & _); auto. destruct (all_same fuzzy) with (a := b) (b := a) as (-> & -> & -> & _); auto. rewrite (eq_sym a b). auto.
  - destruct (all_same fuzzyDouble) with (a := a) (b := b) as (-> & -> & -> & _); auto. destruct (all_same doubleFuzzy) with (a := b) (b := a) as (-> & -> & -> & _); auto. rewrite (eq_sym a b). auto.
Qed.
