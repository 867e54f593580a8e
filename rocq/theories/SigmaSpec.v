(** What direct products with |L><R|, and the multi-level Jaynes-Cummings interaction have to be. *)
From Coq Require Import List Arith Bool Reals.
From Verif Require Import Star CReal Arr TriModel TriSpec ElementSpec CompositeModel ParticleModel InteractionSpec SigmaModel.
Import ListNotations.
Local Open Scope nat_scope.

(** the matrix of a direct product, ketbra l r being |l><r|: the factors act on the first, or on the last index, and on the others *)
Fixpoint productOf (o : dpOp) (y x : list nat) : CR :=
  match o with
  | DSigma l r => ketbra l r (hd 0 y) (hd 0 x)
  | DTri t => tmat t y x
  | DHead l r o => kmul (ketbra l r (hd 0 y) (hd 0 x)) (productOf o (tl y) (tl x))
  | DTail l r o => kmul (productOf o (removelast y) (removelast x)) (ketbra l r (last y 0) (last x 0))
  end.
(** the operator fits states of the given dimensions *)
Fixpoint fitsDims (sh : list nat) (o : dpOp) : Prop :=
  match o with
  | DSigma l r => exists n, sh = [n] /\ l < n /\ r < n
  | DTri t => dims t = sh /\ wf t
  | DHead l r o => exists n sh', sh = n :: sh' /\ l < n /\ r < n /\ fitsDims sh' o
  | DTail l r o => exists n sh', sh = sh' ++ [n] /\ l < n /\ r < n /\ fitsDims sh' o
  end.

(** sum over the couplings of i (conj(g) |I><J| a^dagger - h.c.) *)
Definition hMLJC (gs : list mlCoupling) : op := fun y x => ksum (fun c => hJaynesCummings (cG c) (ketbra (cI c) (cJ c)) y x) gs.
(** the generator in the Schroedinger picture of the mode, the multi-level system being in the Schroedinger picture anyway, as in InteractionSpec *)
Definition mljc_generator (dims : list nat) (es : list (nat -> CR)) (ds : list modeDynamics) (G : op) : Prop :=
  forall dts dt psi d y, inr dims y ->
    carried es dt (fun y => ksub (snd (mljcContribution dt (mljcAfter dts ds) psi d) y) (d y)) y = isum dims (fun x => kmul (G y x) (carried es dt psi x)).
Definition no_rate : nat -> CR := fun _ => k0.
