(** A small trajectory to instantiate the theorems on run: a clock with a step counter, whose adaptive steps are of length one
    unless less is asked for, and a handler stopping at the n-th record. *)
From Coq Require Import List Arith Bool Reals Lra Lia Sorted.
From Verif Require Import RunModel RunSpec RunProofs RunLemmas RunResume.
Import ListNotations.

Definition clock := (R * nat)%type.
Definition ctime (x : clock) : R := fst x.
Definition cadv (x : clock) (d : R) : clock := ((fst x + d)%R, S (snd x)).
Definition cstep (x : clock) (d : R) : clock := ((fst x + Rmin d 1)%R, S (snd x)).
Definition cline (x : clock) : clock := x.
Definition csave (x : clock) : clock := x.
Definition cload (s x : clock) : option clock := Some s.
Definition cstop (h : nat) (l : clock) : option nat := match h with 0 => None | S h' => Some h' end.
Definition cgo (h : nat) (l : clock) : option nat := Some h.
Notation crun := (runFrom ctime cadv cstep cline csave cstop).

Lemma cadv_exact x d : ctime (cadv x d) = (ctime x + d)%R.
Proof. reflexivity. Qed.
Lemma cstep_ok x d : (0 < d)%R -> (ctime x < ctime (cstep x d) <= ctime x + d)%R.
Proof. intros H. unfold cstep, ctime; cbn. unfold Rmin. destruct (Rle_dec d 1); lra. Qed.
Lemma cstep_prog x d : (0 < d)%R -> (ctime x + Rmin d 1 <= ctime (cstep x d))%R.
Proof. intros H. unfold cstep, ctime; cbn. lra. Qed.

(** dc mode up to time 3, streaming every second step: the record at time 3 is streamed but not returned *)
Lemma dc_run : exists es, crun 10 (EndDc 3 2) 0 true true false 100%nat (0%R, 0%nat) = Some ((3%R, 3%nat), es, [(0%R, 0%nat); (2%R, 2%nat)])
  /\ linesOf es = [(0%R, 0%nat); (2%R, 2%nat); (3%R, 3%nat)].
Proof.
  assert (S1 : forall t n, (t + 1 <= 3)%R -> cstep (t, n) (3 - t) = ((t + 1)%R, S n)).
  { intros t n H. unfold cstep. cbn. rewrite Rmin_right by lra. reflexivity. }
  unfold runFrom, timeToReach. destruct (Req_EM_T 3 0); [lra|]. cbn [ctime fst].
  destruct (Rle_dec 3 0) as [Hc|_]; [lra|].
  assert (L : forall x, (fst x < 3)%R -> (if Rlt_dec (ctime x) 3 then true else false) = true) by (intros x Hx; unfold ctime; destruct (Rlt_dec (fst x) 3); [reflexivity|contradiction]).
  assert (A1 : adv (Traj := clock) ctime cadv cstep (EndDc 3 2) (0%R, 0%nat) = (1%R, 1%nat)) by (cbn [adv]; unfold ctime; cbn [fst]; rewrite S1 by lra; f_equal; ring).
  assert (A2 : adv (Traj := clock) ctime cadv cstep (EndDc 3 2) (1%R, 1%nat) = (2%R, 2%nat)) by (cbn [adv]; unfold ctime; cbn [fst]; rewrite S1 by lra; f_equal; ring).
  assert (A3 : adv (Traj := clock) ctime cadv cstep (EndDc 3 2) (2%R, 2%nat) = (3%R, 3%nat)) by (cbn [adv]; unfold ctime; cbn [fst]; rewrite S1 by lra; f_equal; ring).
  assert (G : forall f s s', (ctime (tr s) < 3)%R -> body ctime cadv cstep cline csave cstop (EndDc 3 2) 0 true false s = (s', false) ->
    loop ctime cadv cstep cline csave cstop (S f) (EndDc 3 2) 0 true false s =
    loop ctime cadv cstep cline csave cstop f (EndDc 3 2) 0 true false
      (mkLst (tr s') (S (count s')) (stateCount s') (stateSaved s') (arrayStreamed s') (ah s') (evs s') (res s'))).
  { intros f s s' H1 H2. cbn [loop cond]. rewrite L by exact H1. now rewrite H2. }
  assert (E : exists s, loop ctime cadv cstep cline csave cstop 10 (EndDc 3 2) 0 true false (mkLst (0%R, 0%nat) 0 0 false false 100%nat [] []) = Some (s, false)
    /\ tr s = (3%R, 3%nat) /\ res s = [(0%R, 0%nat); (2%R, 2%nat)] /\ linesOf (evs s) = [(0%R, 0%nat); (2%R, 2%nat)] /\ arrayStreamed s = false).
  { eexists.
    erewrite G; [|cbn; lra|cbv -[IZR adv ctime cadv cstep clock]; reflexivity]. cbn [tr count stateCount stateSaved arrayStreamed ah evs res].
    erewrite G; [|cbn; lra|cbv -[IZR adv ctime cadv cstep clock]; rewrite A1; cbv -[IZR]; reflexivity].
    cbn [tr count stateCount stateSaved arrayStreamed ah evs res].
    erewrite G; [|cbn; lra|cbv -[IZR adv ctime cadv cstep clock]; rewrite A2; cbv -[IZR]; reflexivity].
    cbn [tr count stateCount stateSaved arrayStreamed ah evs res].
    erewrite G; [|cbn; lra|cbv -[IZR adv ctime cadv cstep clock]; rewrite A3; cbv -[IZR]; reflexivity].
    cbn [loop cond tr count stateCount stateSaved arrayStreamed ah evs res].
    destruct (Rlt_dec (ctime (3%R, 3%nat)) 3) as [Hc|_]; [cbn in Hc; lra|].
    split; [reflexivity|]. repeat split; reflexivity. }
  destruct E as (s & E1 & E2 & E3 & E4 & E5).
  eexists. match type of E1 with ?L = _ => match goal with |- context [@loop ?t1 ?t2 ?t3 ?t4 ?a ?b ?c ?d ?e ?f ?g ?h ?i ?j ?k ?l] =>
    change (@loop t1 t2 t3 t4 a b c d e f g h i j k l) with L end end. rewrite E1, E2, E3. split; [reflexivity|].
  rewrite linesOf_app. unfold finish. rewrite !linesOf_app, E4, E5, E2. destruct (stateSaved s); reflexivity.
Qed.

(** ** the lemmas in the form used by the properties *)
Section L.
Context {Traj Line Saved AH : Type}.
Variable getTime : Traj -> R.
Variable advanceBy tstep : Traj -> R -> Traj.
Variable lineOf : Traj -> Line.
Variable save : Traj -> Saved.
Variable load : Saved -> Traj -> option Traj.
Variable ahStep : AH -> Line -> option AH.
Notation runFrom := (runFrom getTime advanceBy tstep lineOf save ahStep).

Lemma ndt_schedule n Dt fuel sdf si fss cont h x : (0 < n)%nat -> (0 < Dt)%R -> (getTime x + INR n * Dt <> 0)%R -> (n < fuel)%nat ->
  (forall y, getTime (advanceBy y Dt) = getTime y + Dt)%R ->
  exists x' es r, runFrom fuel (NDt n Dt) sdf si fss cont h x = Some (x', es, r) /\
    let state k := Nat.iter k (fun y => advanceBy y Dt) x in
    (forall k, getTime (state k) = getTime x + INR k * Dt)%R /\
    (~ In EStopped es -> x' = state n /\ linesOf es = map (fun k => lineOf (state k)) (if cont then seq 1 n else seq 0 (S n))) /\
    (In EStopped es -> exists N, (N <= n)%nat /\ x' = state N /\
       linesOf es = map (fun k => lineOf (state k)) (if cont then seq 1 N else seq 0 (S N))).
Proof.
  intros Hn HD Ht Hf Ha.
  pose proof (ndt_returns getTime advanceBy tstep lineOf save ahStep fuel n Dt sdf si fss cont h x Hf) as R.
  destruct (runFrom fuel (NDt n Dt) sdf si fss cont h x) as [[[x' es] r]|] eqn:E; [clear R|congruence].
  exists x', es, r. split; [reflexivity|].
  destruct (ndt_lines getTime advanceBy tstep lineOf save ahStep _ _ _ _ _ _ _ _ _ _ _ _ Hn Ht HD E) as (N & A & B & C & D & F & G).
  cbv zeta. split; [intros k; apply iter_time; auto|]. split.
  - intros NS. specialize (B NS). subst N. replace (S n - 1)%nat with n in * by lia. auto.
  - intros _. exists (N - 1)%nat. split; [lia|]. split; [auto|]. rewrite F. replace (S (N - 1)) with N by lia. reflexivity.
Qed.

Lemma dc_schedule T dc fuel sdf si fss cont h x x' es r : (0 < dc)%nat -> T <> 0%R -> (getTime x < T)%R ->
  runFrom fuel (EndDc T dc) sdf si fss cont h x = Some (x', es, r) ->
  let state k := Nat.iter k (fun y => tstep y (T - getTime y)%R) x in
  exists N, x' = state N /\
    linesOf es = map (fun k => lineOf (state k))
      (filter (fun k => k mod dc =? 0) (if cont then seq 1 N else seq 0 (S N)) ++
       (if (N mod dc =? 0) && (negb (N =? 0) || negb cont) then [] else [N])).
Proof.
  intros H1 H2 H3 E state.
  destruct (dc_lines getTime advanceBy tstep lineOf save ahStep _ _ _ _ _ _ _ _ _ _ _ _ H1 H2 H3 E) as (N & A & B & C & D).
  exists (N - 1)%nat. split; [exact B|]. rewrite D, C, map_app. f_equal.
  - replace (S (N - 1)) with N by lia. reflexivity.
  - rewrite B. destruct (_ && _); reflexivity.
Qed.

Lemma end_run' (lineTime : Line -> R) m T fuel sdf si fss cont h x x' es r :
  match m with NDt _ _ => False | EndDt T' Dt => T' = T /\ (0 < Dt)%R | EndDc T' dc => T' = T /\ (0 < dc)%nat end ->
  (forall y d, (0 < d)%R -> getTime (advanceBy y d) = getTime y + d)%R ->
  (forall y d, (0 < d)%R -> getTime y < getTime (tstep y d) <= getTime y + d)%R ->
  (forall y, lineTime (lineOf y) = getTime y) ->
  T <> 0%R -> (getTime x < T)%R ->
  runFrom fuel m sdf si fss cont h x = Some (x', es, r) ->
  (getTime x' <= T)%R /\ (forall y, In (EAdvance y) es -> (getTime y <= T)%R) /\
  StronglySorted Rlt (map lineTime (linesOf es)) /\
  (forall l, In l (linesOf es) -> (lineTime l <= T)%R) /\
  (~ In EStopped es -> getTime x' = T /\ exists ls, linesOf es = ls ++ [lineOf x']).
Proof.
  intros Hm Ha Hs Hl HT Hlt E.
  exact (proj2 (end_run getTime advanceBy tstep lineOf save ahStep m T Hm Ha Hs lineTime Hl fuel sdf si fss cont h x x' es r HT Hlt E)).
Qed.

Lemma nothing_beyond m T fuel sdf si fss h x f ss :
  match m with NDt _ _ => False | EndDt T' Dt => T' = T /\ (0 < Dt)%R | EndDc T' dc => T' = T /\ (0 < dc)%nat end -> T <> 0%R ->
  (tfile f = None \/ tfile f = Some []) /\ (T <= getTime x)%R \/
  (exists e es, tfile f = Some (e :: es)) /\ sfile f = Some ss /\ (exists y, loadAll load ss x = Some y /\ T <= getTime y)%R ->
  exists y, runFile getTime advanceBy tstep lineOf save load ahStep fuel m sdf si fss None h x f = Done (y, f, [], []).
Proof.
  intros Hm HT [[Hf Hx]|[(e & es & Hf) [Hs [y [Hy Ht]]]]].
  - exists x. unfold runFile. destruct Hf as [Hf|Hf]; rewrite Hf; cbv zeta;
    rewrite (end_nothing getTime advanceBy tstep lineOf save ahStep m T Hm fuel sdf si fss false h x HT Hx); reflexivity.
  - exists y. unfold runFile. rewrite Hf, Hs; cbv zeta. rewrite Hy.
    rewrite (end_nothing getTime advanceBy tstep lineOf save ahStep m T Hm fuel sdf si fss true h y HT Ht). reflexivity.
Qed.

Lemma saved_once m fuel sdf si fss cont h x x' es r :
  timeToReach getTime m x <> 0%R -> (getTime x < timeToReach getTime m x)%R ->
  runFrom fuel m sdf si fss cont h x = Some (x', es, r) ->
  (exists ss, savedOf es = ss ++ [save x']) /\
  (forall a s1 b s2 c, es = a ++ ESave s1 :: b ++ ESave s2 :: c -> exists y, In (EAdvance y) b).
Proof.
  intros H1 H2 E. destruct (save_run getTime advanceBy tstep lineOf save ahStep _ _ _ _ _ _ _ _ _ _ _ H1 H2 E) as [A B].
  split; [exact A|]. intros a s1 b s2 c ->. exact (once_between getTime advanceBy tstep lineOf save _ _ _ _ _ _ B).
Qed.

Lemma returned_dt m Dt fuel sdf si fss cont h x x' es r :
  (exists T, m = EndDt T Dt) \/ (exists n, m = NDt n Dt /\ (0 < n)%nat /\ (0 < Dt)%R) ->
  timeToReach getTime m x <> 0%R -> (getTime x < timeToReach getTime m x)%R ->
  runFrom fuel m sdf si fss cont h x = Some (x', es, r) -> r = linesOf es.
Proof.
  intros [[T ->]|(n & -> & Hn & HD)] H1 H2 E.
  - exact (res_enddt getTime advanceBy tstep lineOf save ahStep _ _ _ _ _ _ _ _ _ _ _ _ H1 H2 E).
  - destruct (ndt_lines getTime advanceBy tstep lineOf save ahStep _ _ _ _ _ _ _ _ _ _ _ _ Hn H1 HD E) as (N & A & B & C & D & F & G). exact G.
Qed.
End L.

(** ** cases *)
Lemma returned_refuted : exists x' es r, crun 10 (EndDc 3 2) 0 true true false 100%nat (0%R, 0%nat) = Some (x', es, r) /\
    linesOf es = r ++ [cline x'] /\ ctime x' = 3%R.
Proof. destruct dc_run as [es [H1 H2]]. do 3 eexists. split; [exact H1|]. split; [exact H2|reflexivity]. Qed.

Lemma ndt_case : exists x' es r,
  crun 4 (NDt 3 (1/2)) 0 true true false 100%nat (1%R, 0%nat) = Some (x', es, r) /\
  linesOf es = map (fun k => Nat.iter k (fun y => cadv y (1/2)) (1%R, 0%nat)) [0; 1; 2; 3]%nat.
Proof.
  destruct (Req_EM_T (1 + INR 3 * (1/2)) 0) as [Hc|Hc]; [exfalso; cbn in Hc; lra|].
  unfold runFrom, timeToReach. cbn [ctime fst]. destruct (Req_EM_T (1 + INR 3 * (1 / 2)) 0); [contradiction|].
  destruct (Rle_dec (1 + INR 3 * (1 / 2)) 1) as [Hd|_]; [exfalso; cbn in Hd; lra|].
  cbv -[Rplus Rmult Rdiv IZR]. do 3 eexists. split; [reflexivity|]. reflexivity.
Qed.

Lemma stop_case : exists x' es r, crun 10 (NDt 5 1) 1 true true false 1%nat (0%R, 0%nat) = Some (x', es, r) /\
  In EStopped es /\ savedOf es = [(0%R, 0%nat); ((0 + 1)%R, 1%nat)].
Proof.
  unfold runFrom, timeToReach. cbn [ctime fst]. destruct (Req_EM_T (0 + INR 5 * 1) 0) as [Hd|_]; [exfalso; cbn in Hd; lra|].
  destruct (Rle_dec (0 + INR 5 * 1) 0) as [Hd|_]; [exfalso; cbn in Hd; lra|].
  cbv -[Rplus Rmult Rdiv IZR In savedOf]. do 3 eexists. split; [reflexivity|]. split; [cbn; tauto|reflexivity].
Qed.

Lemma end_case : exists x' es r, runFrom ctime cadv cstep cline csave cgo 10 (EndDt 2 (1/2)) 1 true true false 0%nat (1/4, 0%nat)%R = Some (x', es, r) /\
  ctime x' = 2%R /\ StronglySorted Rlt (map ctime (linesOf es)).
Proof.
  assert (Hm : 2%R = 2%R /\ (0 < 1/2)%R) by (split; [reflexivity|lra]).
  pose proof (end_returns ctime cadv cstep cline csave cgo (EndDt 2 (1/2)) 2 Hm (fun x d _ => cadv_exact x d) (1/2) ltac:(lra) eq_refl
    10 1 true true false 0%nat (1/4, 0%nat)%R) as R.
  assert (Hf : (2 - ctime (1 / 4, 0%nat)%R <= (INR 10 - 1) * (1 / 2))%R) by (unfold ctime; cbn; lra). specialize (R Hf).
  destruct (runFrom ctime cadv cstep cline csave cgo 10 (EndDt 2 (1/2)) 1 true true false 0%nat (1/4, 0%nat)%R) as [[[x' es] r]|] eqn:E; [|congruence].
  exists x', es, r. split; [reflexivity|].
  assert (Hlt : (ctime (1/4, 0%nat)%R < 2)%R) by (unfold ctime; cbn; lra).
  assert (H2 : (2 <> 0)%R) by lra.
  destruct (end_run ctime cadv cstep cline csave cgo (EndDt 2 (1/2)) 2 Hm (fun x d _ => cadv_exact x d) cstep_ok ctime (fun _ => eq_refl) _ _ _ _ _ _ _ _ _ _ H2 Hlt E)
    as (A & B & C & D & F & G).
  split; [|exact D]. apply G.
  assert (NV : forall h l, cgo h l <> None) by discriminate.
  exact (never_stopped ctime cadv cstep cline csave cgo NV (EndDt 2 (1/2)) _ _ _ _ _ _ _ _ _ _ H2 Hlt E).
Qed.

Lemma resume_case : exists x1 f1 es1 r1 x2 f2 es2 r2 x3 f3 es3 r3,
  runFile ctime cadv cstep cline csave cload cgo 10 (NDt 2 1) 1 true true None 0%nat (0%R, 0%nat) (mkFiles None None) = Done (x1, f1, es1, r1) /\
  runFile ctime cadv cstep cline csave cload cgo 10 (NDt 3 1) 1 true true None 0%nat (7%R, 7%nat) f1 = Done (x2, f2, es2, r2) /\
  runFile ctime cadv cstep cline csave cload cgo 10 (NDt 5 1) 1 true true None 0%nat (0%R, 0%nat) (mkFiles None None) = Done (x3, f3, es3, r3) /\
  x2 = x3 /\ snd x3 = 5%nat.
Proof.
  assert (K : forall n fuel sdf si fss cont h x, (0 < n)%nat -> (0 <= fst x)%R -> exists x' es r, runFrom ctime cadv cstep cline csave cgo (n + S fuel) (NDt n 1) sdf si fss cont h x = Some (x', es, r)).
  { intros n fuel sdf si fss cont h x Hn Hx. pose proof (ndt_returns ctime cadv cstep cline csave cgo (n + S fuel) n 1 sdf si fss cont h x ltac:(lia)) as R.
    destruct (runFrom _ _ _ _ _ _ _ _ _ _ _ _ _ _) as [[[x' es] r]|]; [eauto|congruence]. }
  assert (R1 : exists x1 f1 es1 r1, runFile ctime cadv cstep cline csave cload cgo 10 (NDt 2 1) 1 true true None 0%nat (0%R, 0%nat) (mkFiles None None) = Done (x1, f1, es1, r1)).
  { unfold runFile. cbn [tfile]. destruct (K 2%nat 7%nat 1%nat true true false 0%nat (0%R, 0%nat) ltac:(lia) ltac:(cbn; lra)) as (x' & es & r & E). cbn [Nat.add] in E. rewrite E. do 4 eexists. reflexivity. }
  assert (R3 : exists x1 f1 es1 r1, runFile ctime cadv cstep cline csave cload cgo 10 (NDt 5 1) 1 true true None 0%nat (0%R, 0%nat) (mkFiles None None) = Done (x1, f1, es1, r1)).
  { unfold runFile. cbn [tfile]. destruct (K 5%nat 4%nat 1%nat true true false 0%nat (0%R, 0%nat) ltac:(lia) ltac:(cbn; lra)) as (x' & es & r & E). cbn [Nat.add] in E. rewrite E. do 4 eexists. reflexivity. }
  destruct R1 as (x1 & f1 & es1 & r1 & E1). destruct R3 as (x3 & f3 & es3 & r3 & E3).
  assert (NV : forall h l, cgo h l <> None) by discriminate.
  assert (SL : forall x y, exists z, cload (csave x) y = Some z /\ x = z) by (intros x y; exists x; split; reflexivity).
  destruct (run_files ctime cadv cstep cline csave cload cgo NV _ _ _ _ _ _ _ _ (mkFiles None None) _ _ _ _ (0%R, 0%nat) eq_refl (Nat.lt_0_succ _) Rlt_0_1 (Rle_refl _) E1) as (A1 & A2 & A3 & A4 & A5 & A6).
  destruct (run_files ctime cadv cstep cline csave cload cgo NV _ _ _ _ _ _ _ _ (mkFiles None None) _ _ _ _ (0%R, 0%nat) eq_refl (Nat.lt_0_succ _) Rlt_0_1 (Rle_refl _) E3) as (B1 & _).
  assert (R2 : exists x2 f2 es2 r2, runFile ctime cadv cstep cline csave cload cgo 10 (NDt 3 1) 1 true true None 0%nat (7%R, 7%nat) f1 = Done (x2, f2, es2, r2)).
  { unfold runFile. rewrite A3, A4. cbn [appendFile tfile sfile].
    destruct A5 as [ss A5]. rewrite A5.
    assert (HL : forall ss z x, loadAll cload (ss ++ [z]) x = Some z). { clear. induction ss as [|s ss IH]; intros z x; cbn; auto. }
    rewrite HL.
    destruct (filter isText es1) as [|e t].
    - destruct (K 3%nat 6%nat 1%nat true true false 0%nat (7%R, 7%nat) ltac:(lia) ltac:(cbn; lra)) as (x' & es & r & E). cbn [Nat.add] in E. rewrite E. do 4 eexists. reflexivity.
    - assert (Hx1 : (0 <= fst (csave x1))%R) by (rewrite A1; cbn; lra).
      destruct (K 3%nat 6%nat 1%nat true true true 0%nat (csave x1) ltac:(lia) Hx1) as (x' & es & r & E). cbn [Nat.add] in E. rewrite E. do 4 eexists. reflexivity. }
  destruct R2 as (x2 & f2 & es2 & r2 & E2).
  exists x1, f1, es1, r1, x2, f2, es2, r2, x3, f3, es3, r3. split; [exact E1|]. split; [exact E2|]. split; [exact E3|].
  destruct (resume ctime cadv cstep cline csave cload cgo eq) with (fuel1 := 10%nat) (fuel2 := 10%nat) (fuel3 := 10%nat) (a := 2%nat) (b := 3%nat) (Dt := 1%R)
    (sdf := 1%nat) (si := true) (fss := true) (h1 := 0%nat) (h2 := 0%nat) (h3 := 0%nat) (x := (0%R, 0%nat)) (y := (7%R, 7%nat))
    (x1 := x1) (f1 := f1) (es1 := es1) (r1 := r1) (x2 := x2) (f2 := f2) (es2 := es2) (r2 := r2) (x3 := x3) (f3 := f3) (es3 := es3) (r3 := r3)
    as [H _]; auto; try lia; try (cbn; lra); try congruence.
  split; [now symmetry|]. rewrite B1. reflexivity.
Qed.
