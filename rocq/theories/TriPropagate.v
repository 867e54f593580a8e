From Coq Require Import List Arith Lia PeanoNat Bool Reals Lra.
From Verif Require Import Star CReal Arr TriModel TriSpec TriProofs.
Import ListNotations.

Section Unary.
Context {K : StarRing} {T : Type}.
Add Ring KR : (k_ring K).
Local Open Scope K_scope.

(** element of a possibly empty one-dimensional array *)
Definition elem (a : arr K) (n : nat) : K := if nonempty a then av a [n] else 0.

Lemma unary_tmat (t : tri K T) k y x : rankOf t = 1%nat -> diffs t = [k] ->
  tmat t [y] [x] = (if Nat.eqb y x then elem (diags t 0) y else 0)
                 + (if Nat.eqb y (x + k) then elem (diags t 1) x else 0)
                 + (if Nat.eqb x (y + k) then elem (diags t 2) y else 0).
Proof.
  intros E1 E2. unfold tmat. rewrite E1, E2. cbn [repeat]. rewrite isum_cons. cbn [seq ksum].
  rewrite !isum_nil. cbn [place code length Nat.pow Nat.mul Nat.add]. unfold elem. destruct (Nat.eqb y x), (Nat.eqb y (x + k)), (Nat.eqb x (y + k)); ring.
Qed.

Lemma nonempty1 (a : arr K) n : ash a = [n] -> (nonempty a = true <-> n <> 0%nat) /\ asize a = n.
Proof.
  intros E. unfold nonempty, asize. rewrite E. cbn. rewrite Nat.mul_1_r. split; auto.
  destruct (Nat.eqb_spec n 0); cbn; split; congruence.
Qed.

Lemma digits1 dg : inr (repeat 3%nat 1) dg -> dg = [0%nat] \/ dg = [1%nat] \/ dg = [2%nat].
Proof.
  intros H. apply inr_rep3 in H. destruct H as [L F]. destruct dg as [|d [|? ?]]; try discriminate.
  inversion F; subst. destruct d as [|[|[|d]]]; auto; lia.
Qed.

Lemma unary_wf t0 zero k minus plus n m p (t : tri K T) :
  ash zero = [n] -> ash minus = [m] -> ash plus = [p] -> (n = 0 \/ k <= n)%nat ->
  unary t0 zero k minus plus false = Ok t ->
  wf t /\ wf_freqs t /\ time t = t0 /\ diffs t = [k] /\
  dims t = [if Nat.eqb n 0 then (Nat.max m p + k)%nat else n] /\
  forall y x, tmat t [y] [x] = (if Nat.eqb y x then elem zero y else 0)
                 + (if Nat.eqb y (x + k) then elem minus x else 0)
                 + (if Nat.eqb x (y + k) then elem plus y else 0).
Proof.
  intros Ez Em Ep Hk H. unfold unary in H. cbn [negb] in H.
  destruct (nonempty1 zero n Ez) as [Nz Sz]. destruct (nonempty1 minus m Em) as [Nm Sm].
  destruct (nonempty1 plus p Ep) as [Np Sp].
  rewrite Sz, Sm, Sp in H.
  destruct (negb (compatible zero k minus 0) || negb (compatible zero k plus 0) || negb (compatible minus 0 plus 0)
       || ((nonempty minus || nonempty plus) && Nat.eqb k 0)) eqn:Ec; [discriminate|]. injection H as <-.
  rewrite !orb_false_iff, !negb_false_iff in Ec. destruct Ec as [[[C1 C2] C3] C4].
  unfold compatible in *. rewrite Sz, Sm in C1. rewrite Sz, Sp in C2. rewrite Sm, Sp in C3.
  assert (Dz : nonempty zero = negb (Nat.eqb n 0)) by (destruct (nonempty zero) eqn:E; destruct (Nat.eqb_spec n 0); auto; [destruct (proj1 Nz); auto|exfalso; assert (false = true) by (now apply Nz); congruence]).
  assert (Dm : nonempty minus = negb (Nat.eqb m 0)) by (destruct (nonempty minus) eqn:E; destruct (Nat.eqb_spec m 0); auto; [destruct (proj1 Nm); auto|exfalso; assert (false = true) by (now apply Nm); congruence]).
  assert (Dp : nonempty plus = negb (Nat.eqb p 0)) by (destruct (nonempty plus) eqn:E; destruct (Nat.eqb_spec p 0); auto; [destruct (proj1 Np); auto|exfalso; assert (false = true) by (now apply Np); congruence]).
  rewrite Dz, Dm, Dp in *. rewrite !negb_involutive in *.
  assert (Ed : Nat.max (Nat.max n (m + k)) (p + k) = if Nat.eqb n 0 then (Nat.max m p + k)%nat else n).
  { destruct (Nat.eqb_spec n 0), (Nat.eqb_spec m 0), (Nat.eqb_spec p 0); cbn in *;
      rewrite ?orb_true_iff, ?orb_false_l, ?Nat.eqb_eq in *; cbn in *; rewrite ?Nat.eqb_eq in *; try lia. }
  split; [|split; [|split; [|split; [|split]]]]; try reflexivity.
  - split; [discriminate|]. split; [reflexivity|]. intros dg Hdg. unfold rankOf in Hdg. cbn [dims length] in Hdg.
    cbn [diags dims diffs].
    destruct (digits1 dg Hdg) as [->|[->| ->]]; cbn [code length Nat.pow Nat.mul Nat.add].
    + rewrite Dz. intros Hn. rewrite Ez. split; [|cbn; split; [lia|auto]]. cbn. rewrite Ed.
      destruct (Nat.eqb n 0); [discriminate|reflexivity].
    + rewrite Dm. intros Hn. rewrite Em. 
      destruct (Nat.eqb_spec m 0) as [E0|E0]; [discriminate|]. cbn in C4, C1, C3.
      apply Nat.eqb_neq in C4. split; [|cbn; split; [lia|auto]]. cbn [dshape]. f_equal.
      destruct (Nat.eqb_spec n 0), (Nat.eqb_spec p 0); cbn in *; rewrite ?Nat.eqb_eq in *; lia.
    + rewrite Dp. intros Hn. rewrite Ep.
      destruct (Nat.eqb_spec p 0) as [E0|E0]; [discriminate|]. rewrite orb_true_r in C4. cbn in C4, C2, C3.
      apply Nat.eqb_neq in C4. split; [|cbn; split; [lia|auto]]. cbn [dshape]. f_equal.
      destruct (Nat.eqb_spec n 0), (Nat.eqb_spec m 0); cbn in *; rewrite ?Nat.eqb_eq in *; lia.
  - split; [reflexivity|]. intros dg _. cbn. discriminate.
  - cbn [dims]. now rewrite Ed.
  - intros y x. rewrite (unary_tmat _ k) by reflexivity. reflexivity.
Qed.

(** furnishing with frequencies changes nothing but the frequencies *)
Lemma furnish_spec (t t' : tri K T) d k D : dims t = [d] -> diffs t = [k] -> wf_freqs t ->
  furnish t D = Ok t' ->
  dims t' = dims t /\ diffs t' = diffs t /\ diags t' = diags t /\ time t' = time t /\ wf_freqs t' /\
  ((k < d)%nat -> nonempty (freqs t' 1) = true /\ nonempty (freqs t' 2) = true /\
     (forall i, av (freqs t' 1) [i] = av D [(i + k)%nat] - av D [i]) /\
     (forall i, av (freqs t' 2) [i] = av D [i] - av D [(i + k)%nat])).
Proof.
  intros E1 E2 [W0 W1] H. unfold furnish in H. rewrite E1, E2 in H. cbn [nth] in H.
  destruct (Nat.ltb_spec d k); [discriminate|].
  destruct (Nat.eqb_spec (d - k) 0).
  { injection H as <-. repeat (split; [reflexivity|]). split; [split; auto|]. lia. }
  destruct (Nat.ltb_spec (asize D) d); [discriminate|]. injection H as <-. cbn [dims diffs diags time freqs].
  rewrite E1, E2. repeat (split; [reflexivity|]). split.
  - split; [exact W0|]. unfold rankOf. cbn [dims length]. intros dg Hdg.
    destruct (digits1 dg Hdg) as [->|[->| ->]]; cbn [code length Nat.pow Nat.mul Nat.add freqs dims diffs]; intros Hn; try reflexivity.
    specialize (W1 [0%nat]). unfold rankOf in W1. rewrite E1, E2 in W1. cbn [length code Nat.pow Nat.mul Nat.add] in W1.
    apply W1; auto.
  - intros _. unfold nonempty, asize; cbn [ash amap fold_right]. rewrite Nat.mul_1_r.
    destruct (Nat.eqb_spec (d - k) 0); [lia|]. repeat split; intros i; cbn [av amap nth]; ring.
Qed.
End Unary.

Notation triR := (tri CR R).
Add Ring CRR : (k_ring CR).

(** ** propagate *)
Definition pfac (x : triR) (t : R) (i : nat) (n : list nat) : CR :=
  match i with
  | 0%nat => k1
  | _ => if nonempty (diags x i) && nonempty (freqs x i) then cexp (kmul (RC (t - time x)) (av (freqs x i) n)) else k1
  end.

Lemma propagate_diag t x i :
  ash (diags (propagate t x) i) = ash (diags x i) /\
  nonempty (diags (propagate t x) i) = nonempty (diags x i) /\
  forall n, av (diags (propagate t x) i) n = kmul (av (diags x i) n) (pfac x t i n).
Proof.
  unfold propagate, pfac. cbn [diags].
  destruct (Req_EM_T (t - time x) 0) as [E|E].
  - repeat split; auto. intros n. destruct i as [|i]; [ring|].
    destruct (_ && _); [|ring]. rewrite E. replace (kmul (RC 0) _) with (k0 : CR); [rewrite cexp_0; ring|].
    change (RC 0) with (k0 : CR). ring.
  - destruct i as [|i]; [repeat split; auto; intros; ring|].
    destruct (nonempty (diags x (S i)) && nonempty (freqs x (S i))); repeat split; auto. intros; ring.
Qed.

Lemma pfac_compose x s t i n : kmul (pfac x s i n) (pfac (propagate s x) t i n) = pfac x t i n.
Proof.
  destruct (propagate_diag s x i) as (_ & Hn & _).
  destruct i as [|i]; cbn [pfac]; [ring|]. rewrite Hn. change (freqs (propagate s x)) with (freqs x).
  change (time (propagate s x)) with s.
  destruct (_ && _); [|ring]. rewrite <- cexp_add. f_equal.
  replace (RC (t - time x)) with (kadd (RC (s - time x)) (RC (t - s))) by (rewrite RC_add; f_equal; lra). ring.
Qed.

Lemma tmat_ext {T1 T2} (a : tri CR T1) (b : tri CR T2) y x : dims a = dims b -> diffs a = diffs b ->
  (forall i, nonempty (diags a i) = nonempty (diags b i)) -> (forall i n, av (diags a i) n = av (diags b i) n) ->
  tmat a y x = tmat b y x.
Proof.
  intros E1 E2 E3 E4. unfold tmat, rankOf. rewrite E1, E2. apply isum_ext. intros dg _. rewrite E3.
  destruct (place _ _ _ _); auto. destruct (nonempty _); auto.
Qed.

Lemma propagate_twice t s x i :
  ash (diags (propagate t (propagate s x)) i) = ash (diags (propagate t x) i) /\
  nonempty (diags (propagate t (propagate s x)) i) = nonempty (diags (propagate t x) i) /\
  forall n, av (diags (propagate t (propagate s x)) i) n = av (diags (propagate t x) i) n.
Proof.
  destruct (propagate_diag t (propagate s x) i) as (A1 & A2 & A3).
  destruct (propagate_diag s x i) as (B1 & B2 & B3).
  destruct (propagate_diag t x i) as (C1 & C2 & C3).
  split; [congruence|]. split; [congruence|]. intros n. rewrite A3, B3, C3. rewrite <- (pfac_compose x s t i n). ring.
Qed.

(** two operators indistinguishable element by element *)
Definition eqt (a b : triR) : Prop :=
  dims a = dims b /\ diffs a = diffs b /\ time a = time b /\ freqs a = freqs b /\
  forall i, ash (diags a i) = ash (diags b i) /\ forall n, av (diags a i) n = av (diags b i) n.
Lemma eqt_nonempty a b i : eqt a b -> nonempty (diags a i) = nonempty (diags b i).
Proof. intros (_ & _ & _ & _ & H). destruct (H i) as [E _]. unfold nonempty, asize. now rewrite E. Qed.
Lemma eqt_tmat a b y x : eqt a b -> tmat a y x = tmat b y x.
Proof.
  intros H. pose proof (fun i => eqt_nonempty a b i H) as Hn. destruct H as (E1 & E2 & _ & _ & H). apply tmat_ext; auto. intros i n. apply H.
Qed.
Lemma eqt_trans a b c : eqt a b -> eqt b c -> eqt a c.
Proof.
  intros (A1&A2&A3&A4&A5) (B1&B2&B3&B4&B5). repeat (split; [congruence|]). intros i. destruct (A5 i), (B5 i).
  split; [congruence|]. intros n. congruence.
Qed.
Lemma propagate_eqt t a b : eqt a b -> eqt (propagate t a) (propagate t b).
Proof.
  intros H. pose proof H as H'. destruct H as (A1&A2&A3&A4&A5). split; [exact A1|]. split; [exact A2|]. split; [reflexivity|]. split; [exact A4|].
  intros i. destruct (propagate_diag t a i) as (P1 & P2 & P3). destruct (propagate_diag t b i) as (Q1 & Q2 & Q3). destruct (A5 i) as [E1 E2].
  split; [congruence|]. intros n. rewrite P3, Q3, E2. f_equal. unfold pfac. rewrite A3, A4, (eqt_nonempty a b i H'). reflexivity.
Qed.

Lemma propagate_path ts : forall t x, eqt (propagate t (fold_left (fun x s => propagate s x) ts x)) (propagate t x).
Proof.
  induction ts as [|s ts IH]; intros t x; cbn [fold_left].
  - repeat split; auto.
  - eapply eqt_trans; [apply IH|]. repeat (split; [reflexivity|]). intros i.
    destruct (propagate_twice t s x i) as (A & _ & B). auto.
Qed.

(** ** interaction picture with generator D (of H/i): every stored off-diagonal rotates with the difference of D *)
Definition generated (x : triR) (D : list nat -> CR) : Prop :=
  forall dg y c n, inr (repeat 3%nat (rankOf x)) dg -> inr (dims x) y -> inr (dims x) c ->
    place (diffs x) dg y c = Some n -> nonempty (diags x (code dg)) = true ->
    match code dg with
    | 0%nat => D y = D c
    | _ => (nonempty (freqs x (code dg)) = true /\ av (freqs x (code dg)) n = ksub (D y) (D c)) \/
           (nonempty (freqs x (code dg)) = false /\ D y = D c)
    end.

Lemma propagate_generated x D t y c : generated x D -> inr (dims x) y -> inr (dims x) c ->
  tmat (propagate t x) y c =
  kmul (kmul (cexp (kmul (RC (t - time x)) (D y))) (tmat x y c)) (cexp (kopp (kmul (RC (t - time x)) (D c)))).
Proof.
  intros G Hy Hc. unfold tmat. rewrite <- isum_scal_l, <- isum_scal_r.
  change (rankOf (propagate t x)) with (rankOf x). change (diffs (propagate t x)) with (diffs x).
  apply isum_ext. intros dg Hdg. destruct (propagate_diag t x (code dg)) as (_ & Hn & Hv). rewrite Hn.
  destruct (place (diffs x) dg y c) as [n|] eqn:E; [|ring].
  destruct (nonempty (diags x (code dg))) eqn:En; [|ring].
  rewrite Hv. specialize (G dg y c n Hdg Hy Hc E En). unfold pfac. rewrite En. cbn [andb].
  assert (Hinv : forall z : CR, kmul (cexp z) (cexp (kopp z)) = k1).
  { intros z. rewrite <- cexp_add. replace (kadd z (kopp z)) with (k0 : CR) by ring. apply cexp_0. }
  assert (Hsame : D y = D c -> av (diags x (code dg)) n =
     kmul (kmul (cexp (kmul (RC (t - time x)) (D y))) (av (diags x (code dg)) n)) (cexp (kopp (kmul (RC (t - time x)) (D c))))).
  { intros ED. rewrite ED. set (e := kmul (RC (t - time x)) (D c)). specialize (Hinv e).
    transitivity (kmul (av (diags x (code dg)) n) (kmul (cexp e) (cexp (kopp e)))); [rewrite Hinv|]; ring. }
  destruct (code dg) as [|i].
  - rewrite <- Hsame by exact G. ring.
  - destruct G as [[Hf Ef]|[Hf ED]]; rewrite Hf.
    + rewrite Ef. set (r := RC (t - time x)).
      replace (kmul r (ksub (D y) (D c))) with (kadd (kmul r (D y)) (kopp (kmul r (D c)))) by ring.
      rewrite cexp_add. ring.
    + rewrite <- Hsame by exact ED. ring.
Qed.

Lemma furnish_generated (x x' : triR) d k D : dims x = [d] -> diffs x = [k] -> wf x -> wf_freqs x ->
  furnish x D = Ok x' -> generated x' (fun y => av D y).
Proof.
  intros E1 E2 W Wf H. destruct (furnish_spec x x' d k D E1 E2 Wf H) as (A1 & A2 & A3 & A4 & A5 & A6).
  unfold generated, rankOf. rewrite A1, A2, A3, E1, E2. cbn [length].
  intros dg y c n Hdg Hy Hc Hp Hne.
  inversion Hy as [|i ? y' ? Hi Hy']; subst. inversion Hy'; subst.
  inversion Hc as [|j ? c' ? Hj Hc']; subst. inversion Hc'; subst.
  destruct (digits1 dg Hdg) as [->|[->| ->]]; cbn [code length Nat.pow Nat.mul Nat.add] in *; cbn [place] in Hp.
  - destruct (Nat.eqb_spec i j); [|discriminate]. subst; reflexivity.
  - destruct (Nat.eqb_spec i (j + k)); [|discriminate]. injection Hp as <-. subst i.
    destruct A6 as (F1 & F2 & F3 & F4); [lia|]. left. split; auto.
  - destruct (Nat.eqb_spec j (i + k)); [|discriminate]. injection Hp as <-. subst j.
    destruct A6 as (F1 & F2 & F3 & F4); [lia|]. left. split; auto.
Qed.

(** ** propagate and direct product *)
(** wherever both factors have a diagonal, either both or none of them has frequencies *)
Definition freqs_match (a b : triR) : Prop :=
  forall i j, (i < 3 ^ rankOf a)%nat -> (j < 3 ^ rankOf b)%nat ->
    nonempty (diags a i) = true -> nonempty (diags b j) = true -> nonempty (freqs a i) = nonempty (freqs b j).

Definition eqm (a b : triR) : Prop :=
  dims a = dims b /\ diffs a = diffs b /\ time a = time b /\
  forall i, (i < 3 ^ rankOf a)%nat -> same_arr (diags a i) (diags b i).

Lemma direct_propagate (a b c : triR) t : wf a -> wf b -> wf_freqs a -> wf_freqs b -> freqs_match a b ->
  direct Reqb a b = Ok c ->
  exists c', direct Reqb (propagate t a) (propagate t b) = Ok c' /\ eqm (propagate t c) c'.
Proof.
  intros Wa Wb Fa Fb M E. unfold direct in E. unfold Reqb in E at 1.
  destruct (Req_EM_T (time a) (time b)) as [Et|]; [|discriminate]. injection E as <-.
  unfold direct. change (time (propagate t a)) with t. change (time (propagate t b)) with t.
  unfold Reqb. destruct (Req_EM_T t t) as [_|Hx]; [|congruence].
  eexists. split; [reflexivity|]. split; [reflexivity|]. split; [reflexivity|]. split; [reflexivity|].
  set (c := mkTri (dims a ++ dims b) (diffs a ++ diffs b) (directDiagonals kmul (rankOf b) (diags a) (diags b)) (time a)
                  (directDiagonals kadd (rankOf b) (freqs a) (freqs b))).
  intros m Hm0. assert (Hm : (m < 3 ^ (rankOf a + rankOf b))%nat) by (unfold rankOf in *; rewrite <- app_length; exact Hm0). clear Hm0.
  match goal with |- same_arr (diags (propagate t ?z) m) _ => change z with c end.
  destruct (propagate_diag t c m) as (P1 & P2 & P3).
  change (rankOf (propagate t b)) with (rankOf b). cbn [diags].
  set (i := (m / 3 ^ rankOf b)%nat). set (j := (m mod 3 ^ rankOf b)%nat).
  pose proof (pow3_pos (rankOf b)) as Hp.
  assert (Hi : (i < 3 ^ rankOf a)%nat).
  { apply Nat.div_lt_upper_bound; [lia|]. rewrite Nat.pow_add_r in Hm. lia. }
  assert (Hj : (j < 3 ^ rankOf b)%nat) by (apply Nat.mod_upper_bound; lia).
  destruct (propagate_diag t a i) as (A1 & A2 & A3). destruct (propagate_diag t b j) as (B1 & B2 & B3).
  change (directDiagonals kmul (rankOf b) (diags (propagate t a)) (diags (propagate t b)) m)
    with (doDirect kmul (diags (propagate t a) i) (diags (propagate t b) j)).
  assert (Ec : diags c m = doDirect kmul (diags a i) (diags b j)) by reflexivity.
  assert (Hne : nonempty (diags c m) = nonempty (diags a i) && nonempty (diags b j)) by (rewrite Ec; apply nonempty_direct).
  split; [rewrite P2, nonempty_direct, A2, B2; exact Hne|].
  rewrite P2, Hne, andb_true_iff. intros [Ha Hb].
  split; [rewrite P1, Ec; cbn [doDirect ash]; now rewrite A1, B1|].
  intros n _. rewrite P3. cbn [doDirect av]. rewrite A3, B3, A1, Ec. cbn [doDirect av].
  set (n1 := firstn _ n). set (n2 := skipn _ n).
  cut (pfac c t m n = kmul (pfac a t i n1) (pfac b t j n2)); [intros ->; ring|].
  specialize (M i j Hi Hj Ha Hb).
  assert (Hmij : m = (i * 3 ^ rankOf b + j)%nat) by (unfold i, j; rewrite (Nat.div_mod m (3 ^ rankOf b)) at 1; lia).
  assert (Hi0 : i = 0%nat -> nonempty (freqs a i) = false) by (intros ->; apply Fa).
  assert (Hj0 : j = 0%nat -> nonempty (freqs b j) = false) by (intros ->; apply Fb).
  assert (Hfc : nonempty (freqs c m) = nonempty (freqs a i) && nonempty (freqs b j)).
  { change (freqs c m) with (doDirect kadd (freqs a i) (freqs b j)). apply nonempty_direct. }
  assert (Hlen : nonempty (freqs a i) = true -> length (ash (freqs a i)) = length (ash (diags a i))).
  { intros Hf. destruct (code_surj _ _ Hi) as [dg [Hdg Edg]]. rewrite <- Edg in *. destruct Fa as [_ Fa]. destruct Wa as (_ & _ & Wa).
    rewrite (Fa dg Hdg Hf). destruct (Wa dg Hdg Ha) as [-> _]. reflexivity. }
  assert (Hav : nonempty (freqs a i) = true -> av (freqs c m) n = kadd (av (freqs a i) n1) (av (freqs b j) n2)).
  { intros Hf. change (freqs c m) with (doDirect kadd (freqs a i) (freqs b j)). cbn [doDirect av].
    unfold n1, n2. rewrite (Hlen Hf). reflexivity. }
  unfold pfac. rewrite Hne, Ha, Hb, Hfc, <- M. cbn [andb]. rewrite andb_diag.
  clearbody i j n1 n2.
  destruct (nonempty (freqs a i)) eqn:Hf.
  - destruct i as [|i']; [specialize (Hi0 eq_refl); discriminate|].
    destruct j as [|j']; [specialize (Hj0 eq_refl); congruence|].
    destruct m as [|m']; [nia|].
    change (time c) with (time a). rewrite <- Et, <- cexp_add. f_equal. rewrite Hav by auto. ring.
  - destruct m, i, j; ring.
Qed.

Lemma eqm_tmat a b y x : eqm a b -> wf a -> inr (dims a) y -> inr (dims a) x -> tmat a y x = tmat b y x.
Proof.
  intros (E1 & E2 & E3 & E4) (_ & L & W) Hy Hx. unfold tmat. unfold rankOf at 2. rewrite <- E1, <- E2. fold (rankOf a).
  apply isum_ext. intros dg Hdg.
  assert (Hc : (code dg < 3 ^ rankOf a)%nat).
  { apply inr_rep3 in Hdg. destruct Hdg as [Ld F]. rewrite <- Ld. now apply code_lt. }
  destruct (E4 _ Hc) as [S1 S2]. rewrite <- S1.
  destruct (place (diffs a) dg y x) as [n|] eqn:Ep; auto.
  destruct (nonempty (diags a (code dg))) eqn:En; auto.
  destruct (S2 eq_refl) as [_ S3]. apply S3.
  destruct (W dg Hdg En) as [-> _]. apply inr_rep3 in Hdg. destruct Hdg as [Ld F]. unfold rankOf in *.
  clear - L Ld F Hy Hx Ep. revert L Ld F Hy Hx Ep. unfold inr. generalize (diffs a) as ks. revert dg y x n. generalize (dims a) as ds.
  induction ds as [|d ds IH]; intros dg y x n ks L Ld F Hy Hx Ep;
    inversion Hy as [|i ? y' ? Hi Hy']; inversion Hx as [|j ? x' ? Hj Hx']; subst;
    destruct dg as [|g dg]; try discriminate; destruct ks as [|k ks]; try discriminate; cbn in *.
  - injection Ep as <-. constructor.
  - inversion F as [|? ? Hg Fg]; subst. destruct (place ks dg y' x') as [n'|] eqn:E; [|discriminate].
    assert (Hrec : Forall2 lt n' (dshape ds ks dg)) by (apply (IH dg y' x' n' ks); auto; lia).
    destruct g as [|[|[|g]]]; try lia.
    + destruct (Nat.eqb_spec i j); [|discriminate]. injection Ep as <-. constructor; auto.
    + destruct (Nat.eqb_spec i (j + k)); [|discriminate]. injection Ep as <-. constructor; auto. lia.
    + destruct (Nat.eqb_spec j (i + k)); [|discriminate]. injection Ep as <-. constructor; auto. lia.
Qed.

Lemma wf_propagate t x : wf x -> wf (propagate t x).
Proof.
  intros (A & B & C). split; [exact A|]. split; [exact B|]. intros dg Hdg Hne.
  destruct (propagate_diag t x (code dg)) as (P1 & P2 & _). rewrite P1. rewrite P2 in Hne. exact (C dg Hdg Hne).
Qed.

(** ** propagate and sums *)
Lemma Ok_inj {A} (a b : A) : Ok a = Ok b -> a = b.
Proof. congruence. Qed.

Lemma add_propagate (a b c : triR) t : wf a -> wf b -> dims b = dims a -> time b = time a -> freqs b = freqs a ->
  add CReqb a b = Ok c ->
  forall y x, inr (dims a) y -> inr (dims a) x ->
   tmat (propagate t c) y x = kadd (tmat (propagate t a) y x) (tmat (propagate t b) y x).
Proof.
  intros Wa Wb Ed Et Ef E y x Hy Hx.
  destruct (add CReqb (propagate t a) (propagate t b)) as [c'| | | | |] eqn:E'.
  { destruct (add_matrix CReqb _ _ c' (wf_propagate t a Wa) (wf_propagate t b Wb) Ed E') as (_ & _ & Hc'). rewrite <- Hc'.
    destruct (add_matrix CReqb a b c Wa Wb Ed E) as (Wc & Edc & _).
    apply eqm_tmat; auto using wf_propagate; [|cbn [propagate dims]; rewrite Edc; auto ..].
    unfold add in E, E'. change (diffs (propagate t a)) with (diffs a) in E'. change (diffs (propagate t b)) with (diffs b) in E'.
    destruct (mergeDiffs (diffs b) (diffs a)) as [ks|]; [|discriminate].
    destruct (existsb _ _) in E; [discriminate|]. destruct (existsb _ _) in E; [discriminate|]. apply Ok_inj in E; subst c.
    destruct (existsb _ _) in E'; [discriminate|]. destruct (existsb _ _) in E'; [discriminate|]. apply Ok_inj in E'; subst c'.
    repeat (split; [reflexivity|]). intros i _.
    set (c := mkTri _ _ _ _ _). destruct (propagate_diag t c i) as (P1 & P2 & P3).
    destruct (propagate_diag t a i) as (A1 & A2 & A3). destruct (propagate_diag t b i) as (B1 & B2 & B3).
    change (diags (mkTri (dims (propagate t a)) ks (fun i => addDiag (diags (propagate t b) i) (diags (propagate t a) i))
       (time (propagate t a)) (fun i => addFreq (freqs (propagate t b) i) (freqs (propagate t a) i))) i)
      with (addDiag (diags (propagate t b) i) (diags (propagate t a) i)).
    assert (Hd : diags c i = addDiag (diags b i) (diags a i)) by reflexivity.
    assert (Hf : freqs c i = freqs a i).
    { change (freqs c i) with (addFreq (freqs b i) (freqs a i)). rewrite Ef. unfold addFreq. destruct (nonempty (freqs a i)); reflexivity. }
    assert (Hpf : forall x n, time x = time a -> freqs x i = freqs a i -> nonempty (diags x i) = true ->
              pfac x t i n = match i with 0%nat => k1 | _ => if nonempty (freqs a i) then cexp (kmul (RC (t - time a)) (av (freqs a i) n)) else k1 end).
    { intros z n H1 H2 H3. unfold pfac. rewrite H1, H2, H3. reflexivity. }
    unfold addDiag. rewrite A2, B2.
    destruct (nonempty (diags b i)) eqn:Nb; [destruct (nonempty (diags a i)) eqn:Na; cbn [negb]|].
    - assert (Nc : nonempty (diags c i) = true) by (rewrite Hd; unfold addDiag; rewrite Nb, Na; exact Na).
      assert (Hsh : ash (diags c i) = ash (diags a i)) by (rewrite Hd; unfold addDiag; rewrite Nb, Na; reflexivity).
      split; [rewrite P2, Nc; unfold nonempty, asize; cbn [ash]; rewrite A1; symmetry; exact Na|].
      intros _. split; [cbn [ash]; rewrite P1, Hsh, A1; reflexivity|]. intros n _. rewrite P3. cbn [av]. rewrite A3, B3.
      rewrite (Hpf c), (Hpf a), (Hpf b); auto; try congruence.
      assert (Hv : av (diags c i) n = kadd (av (diags a i) n) (av (diags b i) n)) by (rewrite Hd; unfold addDiag; rewrite Nb, Na; reflexivity).
      rewrite Hv. ring.
    - assert (Hcd : diags c i = diags b i) by (rewrite Hd; unfold addDiag; rewrite Nb, Na; reflexivity).
      split; [rewrite P2, B2, Hcd; exact Nb|]. intros _. split; [congruence|]. intros n _.
      rewrite P3, B3, Hcd. rewrite (Hpf c), (Hpf b); auto; try congruence.
    - assert (Hcd : diags c i = diags a i) by (rewrite Hd; unfold addDiag; rewrite Nb; reflexivity).
      split; [rewrite P2, Hcd; symmetry; exact A2|]. rewrite P2, Hcd. intros Na. split; [congruence|]. intros n _.
      rewrite P3, A3, Hcd. rewrite (Hpf c), (Hpf a); auto; try congruence. }
  all: exfalso.
  - unfold add in E'. destruct (mergeDiffs _ _); [|discriminate]. destruct (existsb _ _) in E'; [discriminate|]. destruct (existsb _ _) in E'; discriminate.
  - change (diffs (propagate t a)) with (diffs a) in E'. unfold add in E, E'. change (diffs (propagate t a)) with (diffs a) in E'.
    change (diffs (propagate t b)) with (diffs b) in E'. destruct (mergeDiffs _ _); [|discriminate].
    destruct (existsb _ _) in E'; [discriminate|]. destruct (existsb _ _) in E'; discriminate.
  - unfold add in E, E'. change (diffs (propagate t a)) with (diffs a) in E'.
    change (diffs (propagate t b)) with (diffs b) in E'. destruct (mergeDiffs _ _); [|discriminate].
    destruct (existsb _ _) in E; [discriminate|]. destruct (existsb _ _) eqn:E2 in E; [discriminate|].
    destruct (existsb _ _) in E'; [discriminate|]. 
    change (freqs (propagate t a)) with (freqs a) in E'. change (freqs (propagate t b)) with (freqs b) in E'.
    change (rankOf (propagate t a)) with (rankOf a) in E'. rewrite E2 in E'. discriminate.
  - unfold add in E'. destruct (mergeDiffs _ _); [|discriminate]. destruct (existsb _ _) in E'; [discriminate|]. destruct (existsb _ _) in E'; discriminate.
  - exact (add_no_ub CReqb _ _ (wf_propagate t a Wa) (wf_propagate t b Wb) Ed E').
Qed.
