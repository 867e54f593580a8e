From Coq Require Import List Arith Bool Reals Lia Lra Ascii String.
From Coquelicot Require Import Coquelicot.
From Verif Require Import TestConfModel TestConfSpec TestConfProofs.
From Verif Require Import Star CReal Arr ElementModel AverageModel ScriptModel VerdictModel CompareModel CompareSpec CompareProofs.
Import ListNotations.
Local Open Scope R_scope.

Section Cases.
Variable higher : nat -> list (R * R).
Lemma trajectories_affine refTs refYs f ts ys g p q eps :
  polygon refTs refYs f -> polygon ts ys g -> firstTime refTs <= firstTime ts -> lastTime ts <= lastTime refTs ->
  (forall t, firstTime ts <= t <= lastTime ts -> f t - g t = p + q * t) ->
  compareTrajectories higher refTs refYs ts ys eps = Succeeds <-> deviation f g (firstTime ts) (lastTime ts) < eps.
Proof.
  intros P Q A B D. unfold compareTrajectories. apply (column_affine higher _ f ts ys g p q eps Q); [|exact D]. intros t Ht. apply interp_polygon; [exact P|lra].
Qed.
Lemma function_affine f ts ys g p q eps :
  polygon ts ys g -> (forall t, firstTime ts <= t <= lastTime ts -> f t - g t = p + q * t) ->
  compareFunction higher f ts ys eps = Succeeds <-> deviation f g (firstTime ts) (lastTime ts) < eps.
Proof. intros Q D. unfold compareFunction. now apply (column_affine higher _ f ts ys g p q eps Q). Qed.
Lemma missed_refuted d eps : 0 < eps ->
  polygon missTs [0; 0; 0; 0] (fun _ => 0) /\ polygon missTs (missYs d) (bump d) /\ deviation (fun _ => 0) (bump d) (firstTime missTs) (lastTime missTs) = d ^ 2 / 15 /\
  compareTrajectories higher missTs [0; 0; 0; 0] missTs (missYs d) eps = Succeeds.
Proof.
  intros E. split; [exact (zero_polygon missTs ltac:(cbn; lia) miss_increasing)|]. split; [apply miss_polygon|]. split; [apply miss_deviation|]. now apply missed.
Qed.
(** a reference which is off by 1/2 *)
Definition caseTs : list R := [0; 1; 2].
Lemma case_increasing : increasing caseTs.
Proof. intros i j [H K]. cbn in K. destruct i as [|[|i]], j as [|[|[|j]]]; cbn; try lia; lra. Qed.
Lemma const_polygon c : polygon caseTs [c; c; c] (fun _ => c).
Proof.
  split; [cbn; lia|]. split; [exact case_increasing|]. split; [reflexivity|]. intros i t Hi Ht. cbn in Hi. destruct i as [|[|i]]; [| |lia]; cbn; field.
Qed.
Lemma compare_case : compareTrajectories higher caseTs [1 / 2; 1 / 2; 1 / 2] caseTs [0; 0; 0] 1 = Succeeds /\ compareTrajectories higher caseTs [1 / 2; 1 / 2; 1 / 2] caseTs [0; 0; 0] (1 / 4) <> Succeeds.
Proof.
  pose proof (fun eps => trajectories_affine caseTs [1 / 2; 1 / 2; 1 / 2] (fun _ => 1 / 2) caseTs [0; 0; 0] (fun _ => 0) (1 / 2) 0 eps (const_polygon _) (const_polygon _)
    ltac:(lra) ltac:(lra) ltac:(intros; lra)) as H.
  rewrite (deviation_affine _ _ (1 / 2) 0) in H by (unfold firstTime, lastTime; cbn; intros; lra). unfold firstTime, lastTime, primitive in H. cbn in H. split; [|intros K]; rewrite H in *; lra.
Qed.
End Cases.

(** ** run modes *)
Local Open Scope string_scope.
Lemma in_filter m l sel : In m (filter (fun m => existsb (String.eqb m) sel) l) <-> In m l /\ In m sel.
Proof.
  rewrite filter_In, existsb_exists. split; intros [H K]; split; auto.
  - destruct K as (x & Hx & E). apply String.eqb_eq in E. now subst.
  - exists m. split; [exact K|apply String.eqb_refl].
Qed.
Lemma runmodes_selected limit c test s l all sel : chain c s l -> (List.length l <= limit)%nat -> means c l "runmodes" (Some all) ->
  written c s ("runmodes_" ++ test ++ "_local") = Some sel ->
  exists modes, filterRunmodes limit c test s = Some modes /\ forall m, In m modes <-> In m (split ","%char all) /\ In m (split ","%char sel).
Proof.
  intros C L M W. rewrite (filtered limit c test s l C L). apply means_seen in M. rewrite <- M. rewrite written_get in W. rewrite W. eexists. split; [reflexivity|]. intros m. apply in_filter.
Qed.
Definition asDocumented : config := [("run", [("runmodes", "single,master"); ("runmodes_cmp", "master")])].
Definition asCoded : config := [("run", [("runmodes", "single,master"); ("runmodes_cmp_local", "master")])].
Lemma runmodes_ignored : written asDocumented "run" "runmodes_cmp" = Some "master" /\ filterRunmodes 1000 asDocumented "cmp" "run" = Some ["single"; "master"].
Proof. split; reflexivity. Qed.
Local Open Scope R_scope.

(** ** Bloch vectors *)
Lemma bloch_columns (rho : list nat -> list nat -> CR) t dt n t' : rho [1%nat] [0%nat] = kconj (rho [0%nat] [1%nat]) -> cre (rho [0%nat] [0%nat]) + cre (rho [1%nat] [1%nat]) = 1 ->
  ptlaPostprocess (let '(z, x, y) := ptlaStart rho in [t; dt; z; x; y]) = ([t; dt] ++ qbitAverage n t' rho)%list.
Proof.
  intros H T. unfold ptlaStart, ptlaPostprocess, qbitAverage, diagonal. cbn [nth app]. rewrite H. unfold cre, cim in *. cbn.
  repeat (f_equal; try lra).
Qed.
(** there is a thermal distribution at each temperature *)
Lemma thermal_exists nTh : 0 <= nTh -> thermal nTh (fun n => (nTh / (1 + nTh)) ^ n / (1 + nTh)).
Proof.
  intros N. split; [intros n; cbn; field; lra|]. set (r := nTh / (1 + nTh)). assert (H : Rabs r < 1).
  { unfold r. rewrite Rabs_right. - apply (Rmult_lt_reg_r (1 + nTh)); [lra|]. unfold Rdiv. rewrite Rmult_assoc, Rinv_l; lra.
    - apply Rle_ge. apply Rmult_le_pos; [exact N|]. left. apply Rinv_0_lt_compat. lra. }
  pose proof (GP_infinite _ H) as I. unfold Pser in I. apply is_series_Reals. apply is_series_Reals in I. apply (is_series_scal_l (/ (1 + nTh))) in I.
  match type of I with is_series _ ?x => assert (E : x = 1) by (unfold scal; cbn; unfold mult; cbn; unfold r; field; lra); rewrite E in I end.
  eapply is_series_ext; [|exact I]. intros m. cbn. unfold scal. cbn. unfold mult. cbn. field. lra.
Qed.
Lemma bloch_case : exists rho : list nat -> list nat -> CR,
  rho [1%nat] [0%nat] = kconj (rho [0%nat] [1%nat]) /\ cre (rho [0%nat] [0%nat]) + cre (rho [1%nat] [1%nat]) = 1 /\ cim (rho [1%nat] [0%nat]) = 1 / 4.
Proof.
  exists (fun r c => match r, c with [1%nat], [0%nat] => ((1 / 8, 1 / 4) : CR) | [0%nat], [1%nat] => ((1 / 8, - (1 / 4)) : CR) | _, _ => RC (1 / 2) end). cbn. unfold cre, cim. cbn.
  split; [apply cr_eq; cbn; lra|]. split; lra.
Qed.
Lemma uncovered_case : In 1 caseTs /\ lastTime [0; 1 / 2] < 1.
Proof. split; [cbn; auto|unfold lastTime; cbn; lra]. Qed.
