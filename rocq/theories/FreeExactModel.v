(** Model of CPPQEDcore/structure/FreeExact.h, the times of CPPQEDcore/structure/TimeDependence.h, and the propagators of the
    elements: CPPQEDelements/frees/Mode.cc, Spin.cc, Particle.cc. (multilevel::Exact, MultiLevel.h:77-97, declares
    updateU(double), which does not override updateU(Time): an abstract class that cannot be instantiated; not modelled.)
    Times are real numbers; blitz arrays of rank 1 are functions of the index. *)
From Coq Require Import Reals List Arith.
From Verif Require Import Star CReal TriModel.
Import ListNotations.

(** OneTime, TimeDependence.h:40-52, and its operator==; TwoTime, TimeDependence.h:20-37 *)
Definition oneTime (t t0 : R) : R := (t - t0)%R.
Definition oneEq (a b : R) : bool := Reqb a b.
Definition twoTime (t t0 : R) : R * R := (t, t0).
Definition twoEq (a b : R * R) : bool := andb (Reqb (fst a) (fst b)) (Reqb (snd a) (snd b)).

Section FreeExact.
Context {Time : Type} (mkTime : R -> R -> Time) (teq : Time -> Time -> bool).
(** updateU, FreeExact.h:33: what it makes of the contents of the diagonal *)
Context (updateU : Time -> (nat -> CR) -> (nat -> CR)).

(** data members, FreeExact.h:36-37 *)
Record freeExact := mkFE { feDiag : nat -> CR; feTime : Time }.
(** constructor, FreeExact.h:26: the array has the contents of the memory allocated *)
Definition newFE (mem : nat -> CR) : freeExact := mkFE mem (mkTime 0 0).
(** if (t!=t_) {updateU(t_=t);}, FreeExact.h:31 *)
Definition refresh (o : freeExact) (t : Time) : freeExact :=
  if negb (teq t (feTime o)) then mkFE (updateU t (feDiag o)) t else o.
(** Exact::actWithU, Exact.h:58-61, 86, and FreeExact::actWithU_v, FreeExact.h:31 *)
Definition actWithU (dim : nat) (o : freeExact) (t t0 : R) (psi : nat -> CR) : freeExact * (nat -> CR) :=
  let o' := refresh o (mkTime t t0) in
  (o', fun i => if i <? dim then kmul (psi i) (feDiag o' i) else psi i).
(** the object after a number of calls *)
Definition callsU (dim : nat) (o : freeExact) (calls : list (R * R * (nat -> CR))) : freeExact :=
  fold_left (fun o c => fst (actWithU dim o (fst (fst c)) (snd (fst c)) (snd c))) calls o.
End FreeExact.
Arguments freeExact : clear implicits.

(** mode::Exact::updateU, Mode.cc:42-45: getDiagonal()=exp(-zI_*(double(t)*i)) *)
Definition modeUpdateU (dim : nat) (zI : CR) (t : R) (d : nat -> CR) : nat -> CR :=
  fun i => if i <? dim then cexp (kmul (kopp zI) (RC (t * INR i))) else d i.
(** Spin::updateU, Spin.cc:129-134: for (i<size) factors(i)=exp(-dtDid*i*get_z()); get_z, Spin.h:102 *)
Definition spinUpdateU (dim : nat) (gamma omega : R) (t : R) (d : nat -> CR) : nat -> CR :=
  fold_left (fun f i => fun j => if Nat.eqb j i then cexp (kmul (RC (- t * INR i)) ((gamma, omega) : CR)) else f j)
            (seq 0 dim) d.
(** fExpFill, Particle.cc:33-36, and particle::Exact::updateU, Particle.cc:46-49; [k] is Spatial::getK *)
Definition fExpFill (omrec : R) (k : nat -> R) : nat -> CR :=
  fun i => kmul (kmul (kopp CI) (RC omrec)) (RC (k i * k i)).
Definition particleUpdateU (dim : nat) (omrec : R) (k : nat -> R) (t : R) (d : nat -> CR) : nat -> CR :=
  fun i => if i <? dim then cexp (kmul (fExpFill omrec k i) (RC t)) else d i.

(** the elements *)
Inductive element := EMode (zI : CR) | ESpin (gamma omega : R) | EParticle (omrec : R) (k : nat -> R).
Definition elementUpdateU (dim : nat) (e : element) : R -> (nat -> CR) -> (nat -> CR) :=
  match e with
  | EMode zI => modeUpdateU dim zI
  | ESpin gamma omega => spinUpdateU dim gamma omega
  | EParticle omrec k => particleUpdateU dim omrec k
  end.
