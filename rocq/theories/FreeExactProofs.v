From Coq Require Import Reals Lra List Arith Lia Bool.
From Verif Require Import Star CReal TriModel FreeExactModel FreeExactSpec.
Import ListNotations.

Lemma Reqb_eq a b : Reqb a b = true <-> a = b.
Proof. unfold Reqb. destruct (Req_EM_T a b); split; congruence. Qed.
Lemma oneEq_eq a b : oneEq a b = true <-> a = b.
Proof. apply Reqb_eq. Qed.
Lemma twoEq_eq a b : twoEq a b = true <-> a = b.
Proof.
  destruct a, b. unfold twoEq. cbn [fst snd]. rewrite andb_true_iff, !Reqb_eq. split; [intros []; congruence|intros E; injection E; auto].
Qed.

Section Cache.
Context {Time : Type} (mkTime : R -> R -> Time) (teq : Time -> Time -> bool).
Context (teq_eq : forall a b, teq a b = true <-> a = b).
Context (updateU : Time -> (nat -> CR) -> (nat -> CR)) (dim : nat) (U : Time -> nat -> CR).
Context (fills : forall t d i, i < dim -> updateU t d i = U t i).

Definition upToDate (o : freeExact Time) : Prop := forall i, i < dim -> feDiag o i = U (feTime o) i.

Lemma refresh_ok o t : upToDate o \/ t <> feTime o ->
  upToDate (refresh teq updateU o t) /\ feTime (refresh teq updateU o t) = t.
Proof.
  intros H. unfold refresh. destruct (teq t (feTime o)) eqn:E; cbn [negb].
  - apply teq_eq in E. destruct H as [H|H]; [split; auto|contradiction].
  - split; [|reflexivity]. intros i Hi. cbn. apply fills; auto.
Qed.

Lemma refresh_cases o t : upToDate (refresh teq updateU o t) \/ (refresh teq updateU o t = o /\ t = feTime o).
Proof.
  unfold refresh. destruct (teq t (feTime o)) eqn:E; cbn [negb].
  - apply teq_eq in E. auto.
  - left. intros i Hi. cbn. apply fills; auto.
Qed.

Lemma calls_ok calls : forall o, upToDate o -> upToDate (callsU mkTime teq updateU dim o calls).
Proof.
  induction calls as [|[[t t0] p] l IH]; intros o H; auto. cbn. apply IH. apply refresh_ok. auto.
Qed.

Lemma calls_some calls : forall o, (exists t t0 p, In (t,t0,p) calls /\ mkTime t t0 <> feTime o) ->
  upToDate (callsU mkTime teq updateU dim o calls).
Proof.
  induction calls as [|[[t t0] p] l IH]; intros o (s & s0 & q & I & H); [destruct I|]. destruct I as [I|I].
  - injection I as -> -> ->. cbn. apply calls_ok. apply refresh_ok. auto.
  - cbn. destruct (refresh_cases o (mkTime t t0)) as [G|[G E]]; [now apply calls_ok|].
    fold (callsU mkTime teq updateU dim). rewrite G. apply IH. exists s, s0, q. auto.
Qed.

Lemma calls_none calls : forall o, (forall t t0 p, In (t,t0,p) calls -> mkTime t t0 = feTime o) ->
  callsU mkTime teq updateU dim o calls = o.
Proof.
  induction calls as [|[[t t0] p] l IH]; intros o H; auto. cbn. fold (callsU mkTime teq updateU dim).
  destruct (refresh_cases o (mkTime t t0)) as [_|[G E]].
  all: unfold refresh; rewrite (proj2 (teq_eq _ _)) by (apply (H t t0 p); left; auto); cbn; apply IH; intros; eapply H; right; eauto.
Qed.

Lemma cache_spec calls mem t t0 psi i : i < dim ->
  (mkTime t t0 <> mkTime 0%R 0%R \/ exists s s0 q, In (s,s0,q) calls /\ mkTime s s0 <> mkTime 0%R 0%R) ->
  snd (actWithU mkTime teq updateU dim (callsU mkTime teq updateU dim (newFE mkTime mem) calls) t t0 psi) i =
  kmul (psi i) (U (mkTime t t0) i).
Proof.
  intros Hi H. unfold actWithU. cbn [snd]. apply Nat.ltb_lt in Hi as Hi'. rewrite Hi'. f_equal.
  set (o := callsU mkTime teq updateU dim (newFE mkTime mem) calls).
  assert (G : upToDate o \/ mkTime t t0 <> feTime o).
  { destruct (in_dec (fun a b : bool => bool_dec a b) true
       (map (fun c => negb (teq (mkTime (fst (fst c)) (snd (fst c))) (mkTime 0%R 0%R))) calls)) as [I|I].
    - left. apply calls_some. apply in_map_iff in I as ([[s s0] q] & E & I). exists s, s0, q. split; auto. cbn in E.
      intros F. cbn in F. apply teq_eq in F. rewrite F in E. discriminate.
    - assert (N : forall s s0 q, In (s,s0,q) calls -> mkTime s s0 = mkTime 0%R 0%R).
      { intros s s0 q J. destruct (teq (mkTime s s0) (mkTime 0%R 0%R)) eqn:E; [now apply teq_eq|].
        exfalso. apply I. apply in_map_iff. exists (s,s0,q). cbn. rewrite E. auto. }
      destruct H as [H|(s & s0 & q & J & H)]; [|exfalso; apply H; eapply N; eauto].
      right. unfold o. rewrite calls_none by exact N. exact H. }
  destruct (refresh_ok o (mkTime t t0) G) as [A B]. rewrite A by auto. now rewrite B.
Qed.
End Cache.

Lemma spinUpdateU_ok dim gamma omega t d i : i < dim ->
  spinUpdateU dim gamma omega t d i = cexp (kmul (RC (- t * INR i)) ((gamma, omega) : CR)).
Proof.
  intros Hi. unfold spinUpdateU.
  set (F := fun i => cexp (kmul (RC (- t * INR i)) ((gamma, omega) : CR))).
  change (fold_left (fun f i j => if Nat.eqb j i then F i else f j) (seq 0 dim) d i = F i).
  clearbody F. revert Hi. induction dim as [|n IH]; [lia|]. intros Hi.
  rewrite seq_S, fold_left_app. cbn. destruct (Nat.eqb_spec i n) as [->|Ne]; auto. apply IH. lia.
Qed.

Lemma element_fills dim e t d i : i < dim -> elementUpdateU dim e t d i = cexp (kmul (RC t) (eigenvalue e i)).
Proof.
  intros Hi. destruct e as [z|g o|om k]; cbn [elementUpdateU eigenvalue].
  - unfold modeUpdateU. rewrite (proj2 (Nat.ltb_lt _ _) Hi). f_equal. apply cr_eq; cbn; ring.
  - rewrite spinUpdateU_ok by auto. f_equal. apply cr_eq; cbn; ring.
  - unfold particleUpdateU, fExpFill. rewrite (proj2 (Nat.ltb_lt _ _) Hi). f_equal. apply cr_eq; cbn; ring.
Qed.

Lemma one_time_cache dim e mem calls t t0 psi i : i < dim ->
  (t <> t0 \/ exists s s0 q, In (s,s0,q) calls /\ s <> s0) ->
  snd (actWithU oneTime oneEq (elementUpdateU dim e) dim
        (callsU oneTime oneEq (elementUpdateU dim e) dim (newFE oneTime mem) calls) t t0 psi) i =
  kmul (cexp (kmul (RC (t - t0)) (eigenvalue e i))) (psi i).
Proof.
  intros Hi H. rewrite (cache_spec oneTime oneEq oneEq_eq _ dim (fun t i => cexp (kmul (RC t) (eigenvalue e i)))
    (fun t d i => element_fills dim e t d i)); auto.
  - unfold oneTime. set (c := cexp _). clearbody c. apply cr_eq; cbn; ring.
  - unfold oneTime. destruct H as [H|(s & s0 & q & I & H)]; [left|right; exists s, s0, q; split; auto]; lra.
Qed.

Lemma uninitialised : exists dim e mem psi i, i < dim /\
  snd (actWithU oneTime oneEq (elementUpdateU dim e) dim (newFE oneTime mem) 0 0 psi) i <>
  kmul (cexp (kmul (RC (0 - 0)) (eigenvalue e i))) (psi i).
Proof.
  exists 1, (EMode (RC 1)), (fun _ => RC 5), (fun _ => RC 1), 0. split; auto.
  unfold actWithU, newFE, refresh, oneTime. cbn [feTime]. rewrite (proj2 (oneEq_eq _ _)) by reflexivity.
  cbn [negb feDiag snd Nat.ltb Nat.leb]. replace (kmul (RC (0 - 0)) (eigenvalue (EMode (RC 1)) 0)) with (k0 : CR) by (apply cr_eq; cbn; ring).
  rewrite cexp_0. intros E. apply (f_equal fst) in E. cbn in E. lra.
Qed.
