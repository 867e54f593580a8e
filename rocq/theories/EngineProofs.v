(** Proofs for EngineProperties.v *)
From Coq Require Import List Arith Bool Lia.
From Verif Require Import EngineModel EngineSpec.
Import ListNotations.

Section Engines.
Context {State Seed Word Text : Type}.
Variable init : Seed -> State.
Variable next : State -> State * Word.
Variable print : State -> Text.
Variable parse : State -> Text -> State + State.
Notation machine := (@machine State Text).

Lemma store_length : forall (mem : list State) a s, length (store mem a s) = length mem.
Proof. induction mem as [|x mem IH]; intros [|a] s; cbn; auto. Qed.
Lemma store_same : forall (mem : list State) a s, a < length mem -> nth_error (store mem a s) a = Some s.
Proof. induction mem as [|x mem IH]; intros [|a] s H; cbn in *; try lia; [reflexivity|]. apply IH. lia. Qed.
Lemma store_other : forall (mem : list State) a b s, a <> b -> nth_error (store mem a s) b = nth_error mem b.
Proof. induction mem as [|x mem IH]; intros [|a] [|b] s H; cbn in *; try reflexivity; try lia. apply IH. lia. Qed.
(** every variable has an address of its own, with the state it should have *)
Definition agrees (m : machine) (e : states) : Prop :=
  (forall v, match mVars m v with Some a => a < length (mMem m) /\ e v = nth_error (mMem m) a | None => e v = None end) /\
  (forall v w a, mVars m v = Some a -> mVars m w = Some a -> v = w).
Lemma holds_agree m e v : agrees m e -> match holds m v with Some (a, s) => mVars m v = Some a /\ a < length (mMem m) /\ e v = Some s | None => e v = None end.
Proof.
  intros [H _]. specialize (H v). unfold holds. destruct (mVars m v) as [a|]; [|exact H]. destruct H as [L E]. destruct (nth_error (mMem m) a) as [s|] eqn:N; [auto|]. apply nth_error_None in N. lia.
Qed.
Lemma fresh_agrees m e v s : agrees m e -> agrees (fresh m v s) (put e v s).
Proof.
  intros [H I]. split.
  - intros u. unfold fresh, bound, put. cbn [mVars mMem]. rewrite app_length. cbn [length]. destruct (Nat.eqb_spec u v) as [->|N].
    + split; [lia|]. now rewrite nth_error_app2, Nat.sub_diag by lia.
    + specialize (H u). destruct (mVars m u) as [a|]; [|exact H]. destruct H as [L E]. split; [lia|]. now rewrite nth_error_app1.
  - intros u w a. unfold fresh, bound. cbn [mVars]. destruct (Nat.eqb_spec u v) as [->|N]; destruct (Nat.eqb_spec w v) as [->|N']; intros A B; [reflexivity| | |now apply (I _ _ a)].
    + injection A as <-. specialize (H w). rewrite B in H. lia.
    + injection B as <-. specialize (H u). rewrite A in H. lia.
Qed.
Lemma store_agrees m e v a s : agrees m e -> mVars m v = Some a -> a < length (mMem m) -> agrees (withMem m (store (mMem m) a s)) (put e v s).
Proof.
  intros [H I] V L. split; [|exact I]. intros u. unfold withMem, put. cbn [mVars mMem]. rewrite store_length. specialize (H u). destruct (Nat.eqb_spec u v) as [->|N].
  - rewrite V in *. split; [exact L|]. symmetry. now apply store_same.
  - destruct (mVars m u) as [b|] eqn:U; [|exact H]. destruct H as [Lb E]. split; [exact Lb|]. rewrite store_other; [exact E|]. intros ->. apply N. now apply (I _ _ b).
Qed.
Lemma perform_agrees sharing m e x : agrees m e -> (sharing = false \/ isCopy x = false) ->
  let (m', o) := perform init next print parse sharing m x in let (ea, o') := ideal init next print parse (e, mArch m) x in o = o' /\ agrees m' (fst ea) /\ mArch m' = snd ea.
Proof.
  intros A Hs. destruct x as [v s|v w|v s|v|v|v i]; cbn [perform ideal].
  - split; [reflexivity|]. split; [now apply fresh_agrees|reflexivity].
  - pose proof (holds_agree m e w A) as W. destruct (holds m w) as [[a s]|]; [|rewrite W; auto]. destruct W as (_ & _ & W). rewrite W. destruct Hs as [->|Hs]; [|discriminate]. split; [reflexivity|]. split; [now apply fresh_agrees|reflexivity].
  - pose proof (holds_agree m e v A) as W. destruct (holds m v) as [[a s']|]; [|rewrite W; auto]. destruct W as (V & L & W). rewrite W. split; [reflexivity|]. split; [now apply store_agrees|reflexivity].
  - pose proof (holds_agree m e v A) as W. destruct (holds m v) as [[a s']|]; [|rewrite W; auto]. destruct W as (V & L & W). rewrite W. split; [reflexivity|]. split; [now apply store_agrees|reflexivity].
  - pose proof (holds_agree m e v A) as W. destruct (holds m v) as [[a s']|]; [|rewrite W; auto]. destruct W as (V & L & W). rewrite W. auto.
  - pose proof (holds_agree m e v A) as W. destruct (holds m v) as [[a s']|]; [|rewrite W; auto]. destruct W as (V & L & W). rewrite W. destruct (nth_error (mArch m) i) as [t|]; [|auto].
    destruct (parse s' t); (split; [reflexivity|]; split; [now apply store_agrees|reflexivity]).
Qed.
Lemma performAll_agrees sharing xs : forall m e, agrees m e -> (sharing = false \/ existsb isCopy xs = false) ->
  let (m', o) := performAll init next print parse sharing m xs in let (ea, o') := ideally init next print parse (e, mArch m) xs in o = o' /\ agrees m' (fst ea) /\ mArch m' = snd ea.
Proof.
  induction xs as [|x xs IH]; intros m e A Hs; cbn [performAll ideally]; [auto|].
  assert (H1 : sharing = false \/ isCopy x = false). { destruct Hs as [Hs|Hs]; [now left|right]. cbn in Hs. now apply orb_false_iff in Hs. }
  assert (H2 : sharing = false \/ existsb isCopy xs = false). { destruct Hs as [Hs|Hs]; [now left|right]. cbn in Hs. now apply orb_false_iff in Hs. }
  pose proof (perform_agrees sharing m e x A H1) as P. destruct (perform init next print parse sharing m x) as [m1 o]. destruct (ideal init next print parse (e, mArch m) x) as [[e1 ar1] o']. cbn [fst snd] in P. destruct P as (-> & A1 & E1).
  specialize (IH m1 e1 A1 H2). rewrite E1 in IH. destruct (performAll init next print parse sharing m1 xs) as [m2 os]. destruct (ideally init next print parse (e1, ar1) xs) as [[e2 ar2] os']. cbn [fst snd] in *. destruct IH as (-> & A2 & E2). auto.
Qed.
Lemma own_states sharing xs : (sharing = false \/ existsb isCopy xs = false) -> snd (performAll init next print parse sharing started xs) = snd (ideally init next print parse nothing xs).
Proof.
  intros Hs. assert (A : agrees started (fun _ => None)). { split; [intros v; reflexivity|intros v w a; discriminate]. }
  pose proof (performAll_agrees sharing xs started _ A Hs) as P. unfold nothing. cbn [started mArch] in P. destruct (performAll _ _ _ _ sharing started xs). destruct (ideally _ _ _ _ _ xs). now destruct P.
Qed.
(** saving and loading *)
Lemma ideally_app ea xs ys : ideally init next print parse ea (xs ++ ys) =
  let (ea1, o1) := ideally init next print parse ea xs in let (ea2, o2) := ideally init next print parse ea1 ys in (ea2, o1 ++ o2).
Proof.
  revert ea. induction xs as [|x xs IH]; intros ea; cbn [ideally app]; [destruct (ideally _ _ _ _ ea ys); reflexivity|].
  destruct (ideal _ _ _ _ ea x) as [ea' o]. rewrite IH. destruct (ideally _ _ _ _ ea' xs) as [ea1 o1]. destruct (ideally _ _ _ _ ea1 ys) as [ea2 o2]. reflexivity.
Qed.
Lemma draws v : forall n (e : states) ar s, e v = Some s -> snd (ideally init next print parse (e, ar) (repeat (Draw v) n)) = map Number (numbers next n s).
Proof.
  induction n as [|n IH]; intros e ar s H; cbn [repeat ideally ideal numbers map]; [reflexivity|]. rewrite H. specialize (IH (put e v (fst (next s))) ar (fst (next s))).
  destruct (ideally _ _ _ _ (put e v (fst (next s)), ar) _) as [ea os]. cbn [snd] in *. f_equal. apply IH. unfold put. now rewrite Nat.eqb_refl.
Qed.
Lemma saved_loaded sharing xs ys v w n : reads_back print parse -> (sharing = false \/ existsb isCopy (xs ++ ys) = false) ->
  (forall x, In x ys -> match x with Save _ => False | _ => True end) ->
  let e1 := fst (fst (ideally init next print parse nothing xs)) in let i := length (snd (fst (ideally init next print parse nothing xs))) in
  let e2 := fst (fst (ideally init next print parse nothing (xs ++ Save v :: ys))) in
  forall s, e1 v = Some s -> e2 w <> None ->
  exists os, snd (performAll init next print parse sharing started (xs ++ Save v :: ys ++ Load w i :: repeat (Draw w) n)) = os ++ Quiet :: map Number (numbers next n s).
Proof.
  intros RB Hs NS e1 i e2 s Hv Hw.
  rewrite own_states.
  2:{ destruct Hs as [Hs|Hs]; [now left|right]. rewrite existsb_app in *. cbn [existsb isCopy]. rewrite existsb_app. cbn [existsb isCopy]. apply orb_false_iff in Hs as [-> ->]. cbn. clear. induction n; auto. }
  assert (Keep : forall ys (e : states) ar, (forall x, In x ys -> match x with Save _ => False | _ => True end) -> snd (fst (ideally init next print parse (e, ar) ys)) = ar).
  { clear. induction ys as [|y ys IH]; intros e ar H; [reflexivity|]. cbn [ideally]. assert (P : exists e' o, ideal init next print parse (e, ar) y = ((e', ar), o)).
    { assert (Hy := H y (or_introl eq_refl)). destruct y as [v s|v u|v s|v|v|v i]; cbn [ideal]; [eauto| | | |destruct Hy|]; try (destruct (e _); eauto). destruct (nth_error ar i) as [t|]; [|eauto]. destruct (parse s t); eauto. }
    destruct P as (e' & o & ->). specialize (IH e' ar (fun x Hx => H x (or_intror Hx))). destruct (ideally _ _ _ _ (e', ar) ys) as [ea os]. exact IH. }
  rewrite ideally_app. destruct (ideally init next print parse nothing xs) as [[e ar] o1] eqn:E1. cbn [fst snd] in e1, i. subst e1 i. cbn [ideally ideal]. rewrite Hv.
  unfold e2 in Hw. rewrite ideally_app, E1 in Hw. cbn [ideally ideal] in Hw. rewrite Hv in Hw.
  rewrite ideally_app. specialize (Keep ys e (ar ++ [print s]) NS). destruct (ideally init next print parse (e, ar ++ [print s]) ys) as [[e3 ar3] o3] eqn:E3. cbn [fst snd] in *. subst ar3.
  destruct (e3 w) as [s3|] eqn:W; [|contradiction]. cbn [ideally ideal]. rewrite W. rewrite nth_error_app2 by lia. rewrite Nat.sub_diag. cbn [nth_error]. rewrite RB.
  pose proof (draws w n (put e3 w s) (ar ++ [print s]) s) as D. destruct (ideally init next print parse (put e3 w s, ar ++ [print s]) (repeat (Draw w) n)) as [ea4 o4]. cbn [snd] in D. cbn [snd].
  rewrite D by (unfold put; now rewrite Nat.eqb_refl). exists (o1 ++ Quiet :: o3). rewrite <- app_assoc. reflexivity.
Qed.
(** copies which share *)
Lemma shared_copy s : snd (performAll init next print parse true started [New 0 s; Copy 1 0; Draw 0; Draw 1]) =
  [Quiet; Quiet; Number (snd (next (init s))); Number (snd (next (fst (next (init s)))))].
Proof. reflexivity. Qed.
Lemma own_copy s : snd (performAll init next print parse false started [New 0 s; Copy 1 0; Draw 0; Draw 1]) = [Quiet; Quiet; Number (snd (next (init s))); Number (snd (next (init s)))].
Proof. reflexivity. Qed.
Lemma copies_not_own s : snd (next (init s)) <> snd (next (fst (next (init s)))) ->
  exists xs, snd (performAll init next print parse true started xs) <> snd (ideally init next print parse nothing xs).
Proof. intros H. exists [New 0 s; Copy 1 0; Draw 0; Draw 1]. cbn. intros E. injection E as E. congruence. Qed.
End Engines.

Section Fill.
Context {State M X : Type}.
Variable dist0 : M.
Variable distDraw : M -> State -> M * State * X.
Lemma fill_any : memoryless distDraw -> forall n m m' s, fillFrom distDraw m n s = fillFrom distDraw m' n s.
Proof.
  intros H. induction n as [|n IH]; intros m m' s; cbn [fillFrom]; [reflexivity|]. destruct (H m m' s) as [A B]. destruct (distDraw m s) as [[m1 s1] x1]. destruct (distDraw m' s) as [[m2 s2] x2]. cbn [fst snd] in *. subst. now rewrite (IH m1 m2).
Qed.
Lemma fill_parts : memoryless distDraw -> fills_in_parts dist0 distDraw.
Proof.
  intros H n k. unfold fill. generalize dist0 at 1 2. induction n as [|n IH]; intros m s; cbn [Nat.add fillFrom].
  - rewrite (fill_any H k m dist0). destruct (fillFrom distDraw dist0 k s); reflexivity.
  - destruct (distDraw m s) as [[m1 s1] x1]. rewrite IH. destruct (fillFrom distDraw m1 n s1) as [xs s2]. destruct (fillFrom distDraw dist0 k s2) as [ys s3]. reflexivity.
Qed.
(** with memory *)
Lemma fill_remembers s m1 s1 x1 : distDraw dist0 s = (m1, s1, x1) -> snd (distDraw m1 s1) <> snd (distDraw dist0 s1) -> ~ fills_in_parts dist0 distDraw.
Proof.
  intros E N H. specialize (H 1 1 s). unfold fill in H. cbn [Nat.add fillFrom] in H. rewrite E in H. apply N. destruct (distDraw m1 s1) as [[m2 s2] x2]. cbn [fillFrom] in H. destruct (distDraw dist0 s1) as [[m3 s3] x3]. cbn in *. congruence.
Qed.
End Fill.
