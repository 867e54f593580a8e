From Coq Require Import List Arith Bool Reals Lra Lia Sorted.
From Verif Require Import RunModel RunSpec RunProofs RunLemmas.
Import ListNotations.

Section Resume.
Context {Traj Line Saved AH : Type}.
Variable getTime : Traj -> R.
Variable advanceBy tstep : Traj -> R -> Traj.
Variable lineOf : Traj -> Line.
Variable save : Traj -> Saved.
Variable load : Saved -> Traj -> option Traj.
Variable ahStep : AH -> Line -> option AH.
Notation runFrom := (runFrom getTime advanceBy tstep lineOf save ahStep).
Notation runFile := (runFile getTime advanceBy tstep lineOf save load ahStep).
Notation event := (@event Traj Line Saved).

Variable sim : Traj -> Traj -> Prop.
Hypothesis sim_refl : forall x, sim x x.
Hypothesis sim_advance : forall x y d, sim x y -> sim (advanceBy x d) (advanceBy y d).
Hypothesis sim_time : forall x y, sim x y -> getTime x = getTime y.
Hypothesis sim_line : forall x y, sim x y -> lineOf x = lineOf y.
Hypothesis sim_save : forall x y, sim x y -> save x = save y.
Hypothesis sim_load : forall x y, exists z, load (save x) y = Some z /\ sim x z.
Hypothesis never : forall h l, ahStep h l <> None.

Lemma loadAll_app a : forall b x, loadAll load (a ++ b) x = match loadAll load a x with Some y => loadAll load b y | None => None end.
Proof. induction a as [|s a IH]; intros b x; cbn; auto. destruct (load s x); auto. Qed.
Lemma loadAll_ok ss x : (forall s, In s ss -> exists w, s = save w) -> exists y, loadAll load ss x = Some y.
Proof.
  revert x. induction ss as [|s ss IH]; intros x H; cbn; eauto.
  destruct (H s (or_introl eq_refl)) as [w ->]. destruct (sim_load w x) as [z [-> _]]. apply IH. intros; apply H; now right.
Qed.

Lemma savedOf_in (es : list event) s : In s (savedOf es) <-> In (ESave s) es.
Proof.
  unfold savedOf. rewrite in_flat_map. split.
  - intros [e [He Hs]]. destruct e; cbn in Hs; try contradiction. destruct Hs as [->|[]]. exact He.
  - intros H. exists (ESave s). split; [exact H|now left].
Qed.
Lemma saves_are_saves m fuel sdf si fss cont h x x' es r :
  timeToReach getTime m x <> 0%R -> (getTime x < timeToReach getTime m x)%R ->
  runFrom fuel m sdf si fss cont h x = Some (x', es, r) -> forall s, In s (savedOf es) -> exists w, s = save w.
Proof.
  intros H1 H2 E s Hs. apply savedOf_in in Hs.
  destruct (run_trace getTime advanceBy tstep lineOf save ahStep m sdf fss cont x fuel si h x' es r) as (N & st & A & B & C & D & F & G & I); auto.
  rewrite I in Hs. rewrite !in_app_iff in Hs.
  destruct Hs as [Hin|[Hin|[Hin|[Hin|[Hin|Hin]]]]].
  - destruct si, cont; cbn in Hin; try contradiction; destruct Hin as [Hin|[]]; discriminate Hin.
  - apply in_flat_map in Hin. destruct Hin as [j [Hj Hin]]. unfold stepEvents in Hin. rewrite !in_app_iff in Hin.
    destruct Hin as [Hin|[Hin|Hin]].
    + destruct (j =? 0); [destruct Hin|]. destruct Hin as [Hin|[]]; discriminate Hin.
    + destruct (saveDue m sdf fss cont j); [|destruct Hin]. destruct Hin as [Hin|[]]. inversion Hin. eauto.
    + destruct (lineDue m cont j); [|destruct Hin]. destruct Hin as [Hin|[]]; discriminate Hin.
  - destruct st; [|destruct Hin]. destruct Hin as [Hin|[]]; discriminate Hin.
  - destruct (lineDue m cont (N - 1)); [destruct Hin|]. destruct Hin as [Hin|[]]; discriminate Hin.
  - destruct Hin as [Hin|[]]; discriminate Hin.
  - destruct (saveDue m sdf fss cont (N - 1)); [destruct Hin|]. destruct Hin as [Hin|[]]. inversion Hin. eauto.
Qed.

Lemma never_stopped m fuel sdf si fss cont h x x' es r :
  timeToReach getTime m x <> 0%R -> (getTime x < timeToReach getTime m x)%R ->
  runFrom fuel m sdf si fss cont h x = Some (x', es, r) -> ~ In EStopped es.
Proof.
  intros H1 H2 E Hin.
  destruct (run_lines getTime advanceBy tstep lineOf save ahStep m sdf fss cont x fuel si h x' es r) as (N & st & A & B & C & D & F & G & G' & I); auto.
  destruct (G' (proj2 G Hin)) as [_ [h' Hh]]. exact (never _ _ Hh).
Qed.

Lemma linesOf_filter (es : list event) : linesOf (filter isText es) = linesOf es.
Proof. induction es as [|e es IH]; [reflexivity|]. destruct e; cbn; rewrite ?IH; auto. now f_equal. Qed.

Lemma ndt_start n Dt x : (0 < n)%nat -> (0 < Dt)%R -> (0 <= getTime x)%R ->
  timeToReach getTime (NDt n Dt) x <> 0%R /\ (getTime x < timeToReach getTime (NDt n Dt) x)%R.
Proof. intros Hn HD Hx. assert (0 < INR n)%R by (apply lt_0_INR; lia). cbn. split; nra. Qed.

Lemma iter_sim x y k Dt : sim x y -> sim (Nat.iter k (fun z => advanceBy z Dt) x) (Nat.iter k (fun z => advanceBy z Dt) y).
Proof. intros H. induction k as [|k IH]; cbn; auto. Qed.
Lemma iter_plus {A} (f : A -> A) x a k : Nat.iter k f (Nat.iter a f x) = Nat.iter (k + a) f x.
Proof. induction k as [|k IH]; [reflexivity|]. exact (f_equal f IH). Qed.

(** what one run over intervals does to the files *)
Lemma run_files fuel n Dt sdf si fss h x f x' f' es r (cont := match tfile f with Some (_ :: _) => true | _ => false end) x0 :
  (if cont then match sfile f with None => None | Some ss => loadAll load ss x end else Some x) = Some x0 ->
  (0 < n)%nat -> (0 < Dt)%R -> (0 <= getTime x0)%R ->
  runFile fuel (NDt n Dt) sdf si fss None h x f = Done (x', f', es, r) ->
  x' = Nat.iter n (fun z => advanceBy z Dt) x0 /\
  linesOf es = map (fun k => lineOf (Nat.iter k (fun z => advanceBy z Dt) x0)) (if cont then seq 1 n else seq 0 (S n)) /\
  tfile f' = Some (appendFile (tfile f) (filter isText es)) /\
  sfile f' = Some (appendFile (sfile f) (savedOf es)) /\
  (exists ss, savedOf es = ss ++ [save x']) /\ (forall s, In s (savedOf es) -> exists w, s = save w).
Proof.
  intros Hst Hn HD H0 E. unfold RunModel.runFile in E. fold cont in E. rewrite Hst in E.
  destruct (runFrom fuel (NDt n Dt) sdf si fss cont h x0) as [[[y es'] r']|] eqn:ER; [|discriminate].
  destruct (ndt_start n Dt x0 Hn HD H0) as [N1 N2].
  pose proof (never_stopped _ _ _ _ _ _ _ _ _ _ _ N1 N2 ER) as NS.
  destruct (ndt_lines getTime advanceBy tstep lineOf save ahStep _ _ _ _ _ _ _ _ _ _ _ _ Hn N1 HD ER) as (N & A & B & C & D & F & G).
  specialize (B NS). subst N. replace (S n - 1)%nat with n in * by lia.
  destruct (save_run getTime advanceBy tstep lineOf save ahStep _ _ _ _ _ _ _ _ _ _ _ N1 N2 ER) as [Sv _].
  pose proof (saves_are_saves _ _ _ _ _ _ _ _ _ _ _ N1 N2 ER) as SS.
  destruct (Req_EM_T _ 0) as [Hz|_] in E; [contradiction|].
  assert (Hne : es' <> []). { intros ->. destruct Sv as [ss Hss]. cbn in Hss. destruct ss; discriminate. }
  destruct es' as [|e es']; [congruence|]. injection E as <- <- <- <-. cbn [tfile sfile]. repeat split; auto.
Qed.

Lemma resume fuel1 fuel2 fuel3 a b Dt sdf si fss h1 h2 h3 x y x1 f1 es1 r1 x2 f2 es2 r2 x3 f3 es3 r3 :
  (0 < a)%nat -> (0 < b)%nat -> (0 < Dt)%R -> (0 <= getTime x)%R ->
  (forall z, getTime (advanceBy z Dt) = getTime z + Dt)%R ->
  runFile fuel1 (NDt a Dt) sdf si fss None h1 x (mkFiles None None) = Done (x1, f1, es1, r1) ->
  runFile fuel2 (NDt b Dt) sdf si fss None h2 y f1 = Done (x2, f2, es2, r2) ->
  runFile fuel3 (NDt (a + b) Dt) sdf si fss None h3 x (mkFiles None None) = Done (x3, f3, es3, r3) ->
  sim x3 x2 /\
  (exists t2 t3, tfile f2 = Some t2 /\ tfile f3 = Some t3 /\ linesOf t2 = linesOf t3) /\
  (exists s2 s3, sfile f2 = Some (s2 ++ [save x3]) /\ sfile f3 = Some (s3 ++ [save x3])).
Proof.
  intros Ha Hb HD H0 Hadv E1 E2 E3.
  destruct (run_files _ _ _ _ _ _ _ x (mkFiles None None) _ _ _ _ x eq_refl Ha HD H0 E1) as (A1 & A2 & A3 & A4 & [ss A5] & A6).
  assert (Hab : (0 < a + b)%nat) by lia.
  destruct (run_files _ _ _ _ _ _ _ x (mkFiles None None) _ _ _ _ x eq_refl Hab HD H0 E3) as (B1 & B2 & B3 & B4 & [ss' B5] & B6).
  cbn [tfile sfile appendFile] in *.
  (* the state read back *)
  destruct (loadAll_ok ss y) as [w Hw]. { intros s Hs. apply A6. rewrite A5. apply in_app_iff. now left. }
  destruct (sim_load x1 w) as [z [Hz1 Hz2]].
  assert (HL : loadAll load (savedOf es1) y = Some z). { rewrite A5, loadAll_app, Hw. cbn. now rewrite Hz1. }
  assert (Hne : exists e t, filter isText es1 = e :: t).
  { destruct (filter isText es1) as [|e t] eqn:E; [|eauto]. rewrite <- linesOf_filter, E in A2. discriminate A2. }
  destruct Hne as (e & t & Het).
  assert (Hst : (if match tfile f1 with Some (_ :: _) => true | _ => false end
                 then match sfile f1 with None => None | Some ss => loadAll load ss y end else Some y) = Some z).
  { rewrite A3, A4, Het. exact HL. }
  assert (Ht : (0 <= getTime z)%R).
  { rewrite <- (sim_time _ _ Hz2), A1, (iter_time getTime advanceBy Dt x a Hadv). assert (0 <= INR a)%R by apply pos_INR. nra. }
  destruct (run_files _ _ _ _ _ _ _ _ _ _ _ _ _ z Hst Hb HD Ht E2) as (C1 & C2 & C3 & C4 & [ss2 C5] & C6).
  rewrite A3, Het in C2. rewrite A3 in C3. rewrite A4 in C4. cbn [appendFile] in *.
  assert (Hs : forall k, sim (Nat.iter (k + a) (fun z => advanceBy z Dt) x) (Nat.iter k (fun z => advanceBy z Dt) z)).
  { intros k. rewrite <- iter_plus, <- A1. now apply iter_sim. }
  assert (H23 : sim x3 x2). { rewrite B1, C1, (Nat.add_comm a b). apply Hs. }
  split; [exact H23|]. split.
  - exists (filter isText es1 ++ filter isText es2), (filter isText es3). split; [rewrite C3; reflexivity|]. split; [exact B3|].
    rewrite linesOf_app, !linesOf_filter, A2, B2, C2.
    replace (S (a + b)) with (S a + b)%nat by lia. rewrite seq_app, map_app. f_equal.
    cbn [Nat.add]. replace (S a) with (1 + a)%nat by lia.
    assert (Hseq : forall q b, seq (q + a) b = map (fun k => k + a)%nat (seq q b)).
    { intros q b'. revert q. induction b' as [|b' IH]; intros q; cbn; [reflexivity|]. f_equal. now rewrite <- IH. }
    rewrite Hseq, map_map. apply map_ext. intros k. symmetry. apply sim_line, Hs.
  - exists (savedOf es1 ++ ss2), ss'. rewrite C4, B4, B5, C5. split; [|reflexivity].
    rewrite (sim_save _ _ H23). now rewrite app_assoc.
Qed.
End Resume.
