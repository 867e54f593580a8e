(** Scalars: commutative rings with an involution, and finite sums over lists.

    This file is not a transcription of code of /repo: it is the number system standing for
    [dcomp] (std::complex<double>, CPPQEDutils/ComplexExtensions.h) in exact arithmetic.
    [GaussZ] is a computable instance used in examples, [CR] is the field of complex numbers as
    pairs of reals. *)
From Coq Require Import List Arith Lia ZArith Ring Permutation.
Import ListNotations.

Record StarRing := mkStarRing {
  K :> Type;
  k0 : K; k1 : K;
  kadd : K -> K -> K; kmul : K -> K -> K; ksub : K -> K -> K; kopp : K -> K;
  kconj : K -> K;
  k_ring : ring_theory k0 k1 kadd kmul ksub kopp (@eq K);
  kconj_add : forall x y, kconj (kadd x y) = kadd (kconj x) (kconj y);
  kconj_mul : forall x y, kconj (kmul x y) = kmul (kconj x) (kconj y);
  kconj_invol : forall x, kconj (kconj x) = x
}.

Arguments k0 {s}. Arguments k1 {s}.
Arguments kadd {s}. Arguments kmul {s}. Arguments ksub {s}. Arguments kopp {s}. Arguments kconj {s}.

Declare Scope K_scope.
Delimit Scope K_scope with KK.
Infix "+" := kadd : K_scope.
Infix "*" := kmul : K_scope.
Infix "-" := ksub : K_scope.
Notation "- x" := (kopp x) : K_scope.
Notation "0" := k0 : K_scope.
Notation "1" := k1 : K_scope.

Section StarFacts.
Context {S : StarRing}.
Add Ring StarRing_ring : (k_ring S).
Local Open Scope K_scope.
Implicit Types x y z : S.

Lemma kconj_0 : kconj (0:S) = 0.
Proof.
  assert (H : kconj (0:S) + kconj (0:S) = kconj (0:S)).
  { rewrite <- kconj_add. f_equal. ring. }
  assert (E : kconj (0:S) + kconj (0:S) - kconj (0:S) = kconj (0:S) - kconj (0:S)) by (now rewrite H).
  transitivity (kconj (0:S) + kconj (0:S) - kconj (0:S)); [ring|].
  rewrite E. ring.
Qed.

Lemma kconj_1 : kconj (1:S) = 1.
Proof.
  transitivity (kconj (1 * kconj (1:S))).
  { rewrite kconj_mul, kconj_invol. ring. }
  transitivity (kconj (kconj (1:S))); [f_equal; ring|].
  now rewrite kconj_invol.
Qed.

Lemma kconj_opp x : kconj (- x) = - kconj x.
Proof.
  transitivity (kconj x + kconj (-x) - kconj x); [ring|].
  rewrite <- kconj_add. replace (x + - x) with (0:S) by ring. rewrite kconj_0. ring.
Qed.

Lemma kconj_sub x y : kconj (x - y) = kconj x - kconj y.
Proof. replace (x - y) with (x + - y) by ring. rewrite kconj_add, kconj_opp. ring. Qed.

(** Sum of [f] over a list. *)
Fixpoint ksum {A} (f : A -> S) (l : list A) : S :=
  match l with nil => 0 | a :: l' => f a + ksum f l' end.

Lemma ksum_nil {A} (f : A -> S) : ksum f [] = 0.
Proof. reflexivity. Qed.

Lemma ksum_app {A} (f : A -> S) l1 l2 : ksum f (l1 ++ l2) = ksum f l1 + ksum f l2.
Proof. induction l1 as [|a l1 IH]; cbn; [ring|]. rewrite IH. ring. Qed.

Lemma ksum_ext {A} (f g : A -> S) l : (forall a, In a l -> f a = g a) -> ksum f l = ksum g l.
Proof.
  induction l as [|a l IH]; cbn; intros H; [reflexivity|].
  rewrite (H a) by auto. rewrite IH by auto. reflexivity.
Qed.

Lemma ksum_0 {A} (l : list A) : ksum (fun _ => 0) l = 0.
Proof. induction l as [|a l IH]; cbn; [reflexivity|]. rewrite IH. ring. Qed.

Lemma ksum_zero {A} (f : A -> S) l : (forall a, In a l -> f a = 0) -> ksum f l = 0.
Proof. intros H. rewrite (ksum_ext f (fun _ => 0)) by assumption. apply ksum_0. Qed.

Lemma ksum_add {A} (f g : A -> S) l : ksum (fun a => f a + g a) l = ksum f l + ksum g l.
Proof. induction l as [|a l IH]; cbn; [ring|]. rewrite IH. ring. Qed.

Lemma ksum_opp {A} (f : A -> S) l : ksum (fun a => - f a) l = - ksum f l.
Proof. induction l as [|a l IH]; cbn; [ring|]. rewrite IH. ring. Qed.

Lemma ksum_sub {A} (f g : A -> S) l : ksum (fun a => f a - g a) l = ksum f l - ksum g l.
Proof. induction l as [|a l IH]; cbn; [ring|]. rewrite IH. ring. Qed.

Lemma ksum_scal_l {A} c (f : A -> S) l : ksum (fun a => c * f a) l = c * ksum f l.
Proof. induction l as [|a l IH]; cbn; [ring|]. rewrite IH. ring. Qed.

Lemma ksum_scal_r {A} c (f : A -> S) l : ksum (fun a => f a * c) l = ksum f l * c.
Proof. induction l as [|a l IH]; cbn; [ring|]. rewrite IH. ring. Qed.

Lemma ksum_conj {A} (f : A -> S) l : kconj (ksum f l) = ksum (fun a => kconj (f a)) l.
Proof. induction l as [|a l IH]; cbn; [apply kconj_0|]. now rewrite kconj_add, IH. Qed.

Lemma ksum_swap {A B} (f : A -> B -> S) la lb :
  ksum (fun a => ksum (fun b => f a b) lb) la = ksum (fun b => ksum (fun a => f a b) la) lb.
Proof.
  induction la as [|a la IH]; cbn.
  - symmetry; apply ksum_0.
  - rewrite IH. symmetry. apply ksum_add.
Qed.

Lemma ksum_map {A B} (g : A -> B) (f : B -> S) l : ksum f (map g l) = ksum (fun a => f (g a)) l.
Proof. induction l as [|a l IH]; cbn; [reflexivity|]. now rewrite IH. Qed.

Lemma ksum_flat_map {A B} (g : A -> list B) (f : B -> S) l :
  ksum f (flat_map g l) = ksum (fun a => ksum f (g a)) l.
Proof. induction l as [|a l IH]; cbn; [reflexivity|]. now rewrite ksum_app, IH. Qed.

Lemma ksum_perm {A} (f : A -> S) l1 l2 : Permutation l1 l2 -> ksum f l1 = ksum f l2.
Proof.
  induction 1 as [|a l1 l2 _ IH|a b l|l1 l2 l3 _ IH1 _ IH2]; cbn.
  - reflexivity.
  - now rewrite IH.
  - ring.
  - congruence.
Qed.

(** Sum with a single contributing term. *)
Lemma ksum_single {A} (f : A -> S) l a :
  NoDup l -> In a l -> (forall b, In b l -> b <> a -> f b = 0) -> ksum f l = f a.
Proof.
  induction l as [|b l IH]; cbn; intros Hnd Hin Hz; [easy|].
  inversion Hnd as [|? ? Hnin Hnd']; subst.
  destruct Hin as [->|Hin].
  - rewrite (ksum_zero f l); [ring|].
    intros c Hc. apply Hz; auto. intros ->. contradiction.
  - rewrite IH; auto.
    rewrite (Hz b); auto; [ring|]. intros ->. contradiction.
Qed.

(** Re-indexing along a bijection between duplicate-free lists. *)
Lemma ksum_bij {A B} (f : A -> S) (g : B -> S) la lb (h : A -> B) :
  NoDup la -> NoDup lb ->
  (forall a, In a la -> In (h a) lb) ->
  (forall a a', In a la -> In a' la -> h a = h a' -> a = a') ->
  (forall b, In b lb -> exists a, In a la /\ h a = b) ->
  (forall a, In a la -> f a = g (h a)) ->
  ksum f la = ksum g lb.
Proof.
  intros Ha Hb Hin Hinj Hsur Hf.
  rewrite (ksum_ext f (fun a => g (h a)) la Hf).
  rewrite <- (ksum_map h g la).
  apply ksum_perm, NoDup_Permutation; auto.
  - clear - Ha Hinj. induction la as [|a la IH]; cbn; constructor.
    + inversion Ha as [|? ? Hnin _]; subst. rewrite in_map_iff. intros [a' [E Ha']].
      assert (a' = a) by (apply Hinj; cbn; auto). subst; contradiction.
    + inversion Ha; subst. apply IH; auto. intros; apply Hinj; cbn; auto.
  - intros b; split.
    + rewrite in_map_iff. intros [a [<- H]]; auto.
    + intros H. destruct (Hsur b H) as [a [H1 H2]]. rewrite in_map_iff. eauto.
Qed.

(** Sum restricted by a boolean test. *)
Lemma ksum_filter {A} (p : A -> bool) (f : A -> S) l :
  ksum f (filter p l) = ksum (fun a => if p a then f a else 0) l.
Proof.
  induction l as [|a l IH]; cbn; [reflexivity|].
  destruct (p a); cbn; rewrite IH; ring.
Qed.

End StarFacts.

(** ** Gaussian integers: a computable instance *)
Local Open Scope Z_scope.
Definition gz := (Z * Z)%type.
Definition gz_add (x y : gz) : gz := (fst x + fst y, snd x + snd y).
Definition gz_mul (x y : gz) : gz := (fst x * fst y - snd x * snd y, fst x * snd y + snd x * fst y).
Definition gz_sub (x y : gz) : gz := (fst x - fst y, snd x - snd y).
Definition gz_opp (x : gz) : gz := (- fst x, - snd x).
Definition gz_conj (x : gz) : gz := (fst x, - snd x).

Lemma gz_ring : ring_theory (0,0) (1,0) gz_add gz_mul gz_sub gz_opp (@eq gz).
Proof.
  constructor; intros; unfold gz_add, gz_mul, gz_sub, gz_opp in *;
    repeat match goal with x : gz |- _ => destruct x end; apply injective_projections; cbn [fst snd]; ring.
Qed.

Definition GaussZ : StarRing.
Proof.
  refine (mkStarRing gz (0,0) (1,0) gz_add gz_mul gz_sub gz_opp gz_conj gz_ring _ _ _);
  intros; unfold gz_add, gz_mul, gz_conj; repeat match goal with x : gz |- _ => destruct x end;
  apply injective_projections; cbn [fst snd]; ring.
Defined.

Definition gI : GaussZ := (0,1).
Definition gZ (z : Z) : GaussZ := (z,0).
