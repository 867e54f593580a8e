(** Complex numbers as pairs of reals, the real instance of [StarRing]. Stands for [dcomp]. *)
From Coq Require Import Reals Lra List.
From Verif Require Import Star.
Import ListNotations.
Local Open Scope R_scope.

Definition cr := (R * R)%type.
Definition cr_add (x y : cr) : cr := (fst x + fst y, snd x + snd y).
Definition cr_mul (x y : cr) : cr := (fst x * fst y - snd x * snd y, fst x * snd y + snd x * fst y).
Definition cr_sub (x y : cr) : cr := (fst x - fst y, snd x - snd y).
Definition cr_opp (x : cr) : cr := (- fst x, - snd x).
Definition cr_conj (x : cr) : cr := (fst x, - snd x).

Lemma cr_ring : ring_theory (0,0) (1,0) cr_add cr_mul cr_sub cr_opp (@eq cr).
Proof.
  constructor; intros; unfold cr_add, cr_mul, cr_sub, cr_opp in *;
    repeat match goal with x : cr |- _ => destruct x end; apply injective_projections; cbn [fst snd]; ring.
Qed.

Definition CR : StarRing.
Proof.
  refine (mkStarRing cr (0,0) (1,0) cr_add cr_mul cr_sub cr_opp cr_conj cr_ring _ _ _);
  intros; unfold cr_add, cr_mul, cr_conj; repeat match goal with x : cr |- _ => destruct x end;
  apply injective_projections; cbn [fst snd]; ring.
Defined.

(** real number as complex, imaginary unit, squared modulus, exponential *)
Definition RC (x : R) : CR := (x, 0).
Definition CI : CR := (0, 1).
Definition cre (z : CR) : R := fst z.
Definition cim (z : CR) : R := snd z.
Definition csq (z : CR) : R := fst z * fst z + snd z * snd z.
Definition cexp (z : CR) : CR := (exp (fst z) * cos (snd z), exp (fst z) * sin (snd z)).

Lemma csq_nonneg z : 0 <= csq z.
Proof. unfold csq. nra. Qed.

Lemma csq_conj (z : CR) : kmul (kconj z) z = RC (csq z).
Proof. destruct z as [a b]. unfold RC, csq. cbn. unfold cr_mul, cr_conj; cbn [fst snd]. f_equal; ring. Qed.

Lemma csq_mul (z w : CR) : csq (kmul z w) = csq z * csq w.
Proof. destruct z, w. unfold csq. cbn. unfold cr_mul; cbn [fst snd]. ring. Qed.

Lemma csq_RC x : csq (RC x) = x * x.
Proof. unfold csq, RC; cbn. ring. Qed.

Lemma RC_add x y : kadd (RC x) (RC y) = RC (x + y).
Proof. unfold RC; cbn; unfold cr_add; cbn; f_equal; ring. Qed.
Lemma RC_mul x y : kmul (RC x) (RC y) = RC (x * y).
Proof. unfold RC; cbn; unfold cr_mul; cbn; f_equal; ring. Qed.
Lemma RC_opp x : kopp (RC x) = RC (- x).
Proof. unfold RC; cbn; unfold cr_opp; cbn; f_equal; ring. Qed.
Lemma RC_conj x : kconj (RC x) = RC x.
Proof. unfold RC; cbn; unfold cr_conj; cbn; f_equal; ring. Qed.
Lemma RC_inj x y : RC x = RC y -> x = y.
Proof. unfold RC; congruence. Qed.
Lemma cr_eq (z w : CR) : fst z = fst w -> snd z = snd w -> z = w.
Proof. destruct z, w; cbn; congruence. Qed.

Lemma cexp_add (z w : CR) : cexp (kadd z w) = kmul (cexp z) (cexp w).
Proof.
  destruct z as [a b], w as [c d]. unfold cexp. cbn. unfold cr_mul, cr_add; cbn [fst snd].
  rewrite exp_plus, cos_plus, sin_plus. f_equal; ring.
Qed.
Lemma cexp_0 : cexp k0 = k1.
Proof. unfold cexp. cbn. rewrite exp_0, cos_0, sin_0. f_equal; ring. Qed.
Lemma cexp_conj (z : CR) : cexp (kconj z) = kconj (cexp z).
Proof.
  destruct z as [a b]. unfold cexp. cbn. unfold cr_conj; cbn [fst snd].
  rewrite cos_neg, sin_neg. f_equal; ring.
Qed.
Lemma cexp_imag_csq (y : R) : csq (cexp (0,y)) = 1.
Proof.
  unfold csq, cexp; cbn [fst snd]. rewrite exp_0.
  pose proof (sin2_cos2 y) as H. unfold Rsqr in H. lra.
Qed.
