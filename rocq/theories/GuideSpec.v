(** What the structure guide (CPPQEDcore/doc/structureGuide.markdown) says of its example elements. *)
From Coq Require Import List Arith Reals.
From Verif Require Import Star CReal Arr ElementSpec ParticleSpec InteractionSpec.
Import ListNotations.
Local Open Scope nat_scope.

(** H = - delta a^dagger a + (eta a^dagger + h.c.) *)
Definition guideH (delta : R) (eta : CR) : mat := fun m n =>
  kadd (if m =? n then RC (- delta * INR m) else k0) (kadd (kmul eta (creation m n)) (kmul (kconj eta) (annihilation m n))).
(** H/i - kappa (2 nTh + 1) a^dagger a *)
Definition guideGenerator (delta kappa : R) (eta : CR) (nTh : R) : mat := fun m n =>
  ksub (kmul (kopp CI) (guideH delta eta m n)) (if m =? n then RC (kappa * (2 * nTh + 1) * INR m) else k0).
(** sqrt(2 kappa (nTh + 1)) a, sqrt(2 kappa nTh) a^dagger *)
Definition guideJumps (kappa nTh : R) : list mat :=
  [mscale (sqrt (2 * (kappa * (nTh + 1)))) annihilation; mscale (sqrt (2 * (kappa * nTh))) creation].
(** all the matrix elements, at finite temperature without the diagonal one of the highest level *)
Definition guideLevels (nTh : R) (dim m n : nat) : Prop := nTh = 0%R \/ m + 1 < dim \/ m <> n.
(** g (a + a^dagger) (b + b^dagger) *)
Definition twoX : mat := fun m n => kadd (annihilation m n) (creation m n).
Definition hGuide (g : R) : op := timesO (RC g) (kron [twoX; twoX]).
(** both modes in Schroedinger picture, or both in interaction picture *)
Definition same_picture (z0 z1 : option CR) : Prop := match z0, z1 with None, None => True | Some _, Some _ => True | _, _ => False end.
Definition exactRate (z : option CR) (n : nat) : CR := match z with Some z => FreeExactSpec.eigenvalue (FreeExactModel.EMode z) n | None => k0 end.
