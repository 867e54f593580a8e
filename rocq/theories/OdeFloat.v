(** The closing step of advance in binary64 arithmetic (without overflow): with finite precision the step
    [time+=dt], dt=endTime-time may miss endTime by one ulp; the next iteration then hits it exactly. *)
From Coq Require Import Reals Lra ZArith Lia.
From Flocq Require Import Core.
Local Open Scope R_scope.

(** binary64: precision 53, smallest exponent -1074 (gradual underflow) *)
Definition b64 : Z -> Z := FLT_exp (-1074) 53.
Global Instance b64_valid : Valid_exp b64.
Proof. apply FLT_exp_valid. unfold Prec_gt_0. lia. Qed.
Global Instance b64_mono : Monotone_exp b64.
Proof. apply FLT_exp_monotone. Qed.
Definition rnd (x : R) : R := round radix2 b64 ZnearestE x.
Definition is_double (x : R) : Prop := generic_format radix2 b64 x.

(** one iteration of the loop of advance (Trajectory.h:47) in which the trajectory performs the whole requested
    step (ODE.h: dtTry=deltaT; ODE_GSL.h:78 time+=dtTry) *)
Definition closing (e t : R) : R := rnd (t + rnd (e - t)).

Lemma closing_neighbour e t : is_double e -> is_double t -> 0 <= t < e ->
  closing e t = pred radix2 b64 e \/ closing e t = e \/ closing e t = succ radix2 b64 e.
Proof.
  intros Fe Ft H. unfold closing.
  assert (He : Rabs (rnd (e - t) - (e - t)) <= / 2 * ulp radix2 b64 (e - t)) by (apply error_le_half_ulp; typeclasses eauto).
  apply Rabs_le_inv in He.
  assert (Fp : is_double (pred radix2 b64 e)) by (apply generic_format_pred; [typeclasses eauto|exact Fe]).
  assert (Fs : is_double (succ radix2 b64 e)) by (apply generic_format_succ; [typeclasses eauto|exact Fe]).
  assert (Hs : succ radix2 b64 e = e + ulp radix2 b64 e) by (apply succ_eq_pos; lra).
  assert (Hp : pred radix2 b64 e + ulp radix2 b64 (pred radix2 b64 e) = e) by (apply pred_plus_ulp; [typeclasses eauto|lra|exact Fe]).
  assert (Hp0 : 0 <= pred radix2 b64 e) by (apply pred_ge_0; [typeclasses eauto|lra|exact Fe]).
  assert (Hu : ulp radix2 b64 (e - t) <= ulp radix2 b64 e) by (apply ulp_le_pos; [typeclasses eauto|typeclasses eauto|lra|lra]).
  pose proof (ulp_ge_0 radix2 b64 e) as U0. pose proof (ulp_ge_0 radix2 b64 (pred radix2 b64 e)) as U1.
  assert (Hlow : pred radix2 b64 e <= t + rnd (e - t)).
  { destruct (Rle_or_lt (e - t) (pred radix2 b64 e)) as [Hl|Hl].
    - assert (ulp radix2 b64 (e - t) <= ulp radix2 b64 (pred radix2 b64 e)) by (apply ulp_le_pos; [typeclasses eauto|typeclasses eauto|lra|lra]).
      lra.
    - assert (pred radix2 b64 e <= rnd (e - t)).
      { apply round_ge_generic; [typeclasses eauto|typeclasses eauto|exact Fp|lra]. }
      lra. }
  assert (Hhigh : t + rnd (e - t) <= succ radix2 b64 e) by lra.
  set (y := rnd (t + rnd (e - t))).
  assert (Fy : is_double y) by (apply generic_format_round; typeclasses eauto).
  assert (Y1 : pred radix2 b64 e <= y) by (apply round_ge_generic; [typeclasses eauto|typeclasses eauto|exact Fp|exact Hlow]).
  assert (Y2 : y <= succ radix2 b64 e) by (apply round_le_generic; [typeclasses eauto|typeclasses eauto|exact Fs|exact Hhigh]).
  destruct (Rtotal_order y e) as [L|[L|L]].
  - left. apply Rle_antisym; auto. apply pred_ge_gt; auto; typeclasses eauto.
  - now right; left.
  - right; right. apply Rle_antisym; auto. apply succ_le_lt; auto; typeclasses eauto.
Qed.

(** the loop of advance ends exactly at the end time after at most one corrective iteration *)
Lemma closing_twice e t : is_double e -> is_double t -> 0 <= t < e ->
  closing e (closing e t) = e /\ (closing e t = e \/ Rabs (closing e t - e) <= ulp radix2 b64 e).
Proof.
  intros Fe Ft H. pose proof (closing_neighbour e t Fe Ft H) as N.
  assert (Hs : succ radix2 b64 e = e + ulp radix2 b64 e) by (apply succ_eq_pos; lra).
  assert (Hp : pred radix2 b64 e + ulp radix2 b64 (pred radix2 b64 e) = e) by (apply pred_plus_ulp; [typeclasses eauto|lra|exact Fe]).
  assert (Hp0 : 0 <= pred radix2 b64 e) by (apply pred_ge_0; [typeclasses eauto|lra|exact Fe]).
  pose proof (ulp_ge_0 radix2 b64 e) as U0. pose proof (ulp_ge_0 radix2 b64 (pred radix2 b64 e)) as U1.
  assert (Hup : ulp radix2 b64 (pred radix2 b64 e) <= ulp radix2 b64 e) by (apply ulp_le_pos; [typeclasses eauto|typeclasses eauto|lra|lra]).
  set (y := closing e t) in *.
  assert (Fd : is_double (e - y)).
  { destruct N as [->|[->| ->]].
    - replace (e - pred radix2 b64 e) with (ulp radix2 b64 (pred radix2 b64 e)) by lra. apply generic_format_ulp; typeclasses eauto.
    - rewrite Rminus_diag_eq by reflexivity. apply generic_format_0.
    - replace (e - succ radix2 b64 e) with (- ulp radix2 b64 e) by lra. apply generic_format_opp, generic_format_ulp; typeclasses eauto. }
  split.
  - unfold closing. unfold rnd at 2. rewrite (round_generic _ _ _ (e - y) Fd). replace (y + (e - y)) with e by ring.
    unfold rnd. apply round_generic; [typeclasses eauto|exact Fe].
  - destruct N as [->|[->| ->]]; [right|now left|right]; apply Rabs_le; lra.
Qed.

(** the corrective iteration does occur: t=2^-53, e=1+2^-52 *)
Definition exT : R := bpow radix2 (-53).
Definition exE : R := 1 + bpow radix2 (-52).
Lemma exT_double : is_double exT.
Proof. apply generic_format_bpow. unfold b64, FLT_exp. cbn. lia. Qed.
Lemma exE_double : is_double exE.
Proof.
  unfold is_double, b64. apply generic_format_FLT. exists (Float radix2 (2 ^ 52 + 1) (-52)).
  - unfold F2R, exE. cbn [Fnum Fexp]. rewrite plus_IZR. rewrite Rmult_plus_distr_r.
    replace (IZR (2 ^ 52)) with (bpow radix2 52) by (rewrite <- IZR_Zpower by lia; reflexivity).
    rewrite <- bpow_plus. change (bpow radix2 (52 + -52)) with 1. lra.
  - cbn [Fnum]. reflexivity.
  - cbn [Fexp]. lia.
Qed.
Lemma tie : rnd (1 + bpow radix2 (-53)) = 1.
Proof.
  assert (P : 0 < bpow radix2 (-53) < 1).
  { split; [apply bpow_gt_0|]. change 1 with (bpow radix2 0). apply bpow_lt. lia. }
  assert (Hc : cexp radix2 b64 (1 + bpow radix2 (-53)) = (-52)%Z).
  { unfold cexp. rewrite (mag_unique radix2 _ 1).
    - reflexivity.
    - rewrite Rabs_pos_eq by lra. simpl (bpow radix2 (1 - 1)). simpl (bpow radix2 1). lra. }
  unfold rnd, round, scaled_mantissa. rewrite Hc.
  assert (Hx : (1 + bpow radix2 (-53)) * bpow radix2 (- -52) = IZR (2 ^ 52) + / 2).
  { replace (IZR (2 ^ 52)) with (bpow radix2 52) by (rewrite <- IZR_Zpower by lia; reflexivity).
    rewrite Rmult_plus_distr_r, <- bpow_plus. simpl (- -52)%Z. replace (-53 + 52)%Z with (-1)%Z by lia.
    simpl (bpow radix2 (-1)). lra. }
  rewrite Hx.
  assert (Hf : Zfloor (IZR (2 ^ 52) + / 2) = (2 ^ 52)%Z).
  { apply Zfloor_imp. rewrite plus_IZR. simpl (IZR 1). lra. }
  unfold Znearest. rewrite Hf. replace (IZR (2 ^ 52) + / 2 - IZR (2 ^ 52)) with (/ 2) by ring.
  rewrite Rcompare_Eq by reflexivity.
  replace (negb (Z.even (2 ^ 52))) with false by reflexivity.
  unfold F2R. cbn [Fnum Fexp]. replace (IZR (2 ^ 52)) with (bpow radix2 52) by (rewrite <- IZR_Zpower by lia; reflexivity).
  rewrite <- bpow_plus. reflexivity.
Qed.
Lemma exMiss : closing exE exT = 1 /\ closing exE exT <> exE.
Proof.
  assert (P : 0 < bpow radix2 (-52)) by apply bpow_gt_0.
  assert (H2 : bpow radix2 (-52) = bpow radix2 (-53) + bpow radix2 (-53)).
  { replace (-52)%Z with (-53 + 1)%Z by lia. rewrite bpow_plus. change (bpow radix2 1) with 2. ring. }
  assert (H : closing exE exT = 1).
  { unfold closing. replace (exE - exT) with (1 + bpow radix2 (-53)) by (unfold exE, exT; lra).
    rewrite tie. unfold exT. rewrite Rplus_comm. apply tie. }
  split; auto. rewrite H. unfold exE. lra.
Qed.
Lemma exMiss_all : is_double exE /\ is_double exT /\ 0 <= exT < exE /\ closing exE exT = 1 /\ closing exE exT <> exE.
Proof.
  split; [exact exE_double|]. split; [exact exT_double|]. split; [|exact exMiss].
  assert (0 < bpow radix2 (-53)) by apply bpow_gt_0. assert (0 < bpow radix2 (-52)) by apply bpow_gt_0.
  assert (bpow radix2 (-53) < bpow radix2 0) by (apply bpow_lt; lia). change (bpow radix2 0) with 1 in *.
  unfold exT, exE. lra.
Qed.
