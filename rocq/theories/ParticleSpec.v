(** What the operators of a particle mean: positions x in [-pi,pi], momentum states e^(ikx), k on the grid of the particle. *)
From Coq Require Import List Arith ZArith Reals.
From Coquelicot Require Import Coquelicot.
From Verif Require Import Star CReal TriModel TriSpec FreeExactModel FreeExactSpec ElementSpec ModeModel ModeSpec ParticleModel.
Import ListNotations.

Definition wave (k x : R) : CR := cexp ((0, k * x)%R : CR).
(** the mode function of the given kind and wave number at x (the function modeFunction of ModeFunction.cc:45-54 at Kx) *)
Definition mfValue (f : modeFunction) (x : R) : CR :=
  let u := (IZR (snd f) * x)%R in
  match fst f with
  | MSin => RC (sin u) | MCos => RC (cos u)
  | MPlus => cexp ((0, u)%R : CR) | MMinus => cexp ((0, - u)%R : CR)
  end.

(** M is the matrix of the multiplication by f(x) between the states of momenta k(0),...,k(dim-1):
    M i j = 1/(2 pi) * integral over [-pi,pi] of conj(e^(i k(i) x)) f(x) e^(i k(j) x) *)
Definition multiplies (dim : nat) (k : nat -> R) (f : R -> CR) (M : nat -> nat -> CR) : Prop :=
  forall i j, (i < dim)%nat -> (j < dim)%nat ->
    let g := fun x => kmul (kconj (wave (k i) x)) (kmul (f x) (wave (k j) x)) in
    is_RInt (fun x => cre (g x)) (- PI) PI (2 * PI * cre (M i j)) /\
    is_RInt (fun x => cim (g x)) (- PI) PI (2 * PI * cim (M i j)).

(** the matrix of a unary operator *)
Definition matrixOf (t : tri CR R) (i j : nat) : CR := tmat t [i] [j].

(** the eigenvalues of the generator of the exact propagator of the particle: none in the Schroedinger picture *)
Definition eigenOf (exact : option R) (k : nat -> R) (i : nat) : CR := match exact with Some omrec => eigenvalue (EParticle omrec k) i | None => k0 end.
(** The outcome is an operator which is the multiplication by f at first, and after propagation to time s the same in the
    interaction picture, U(s)^-1 f U(s). *)
Definition operator_of (p : particle) (o : outcome (tri CR R)) (f : R -> CR) : Prop :=
  exists t, o = Ok t /\ multiplies (pDim p) (pK p) f (matrixOf t) /\
    forall s i j, (i < pDim p)%nat -> (j < pDim p)%nat ->
      matrixOf (propagate s t) i j =
      kmul (kmul (cexp (kopp (kmul (RC s) (eigenOf (pExact p) (pK p) i)))) (matrixOf t i j)) (cexp (kmul (RC s) (eigenOf (pExact p) (pK p) j))).

(** ** The free particle *)
(** G is the generator of the particle, dpsi/dt = G psi in the Schroedinger picture, whatever the picture the particle is in; see ModeSpec *)
Definition part_generator (sys : partSys) (G : mat) : Prop :=
  let dim := (2 ^ psFin sys)%nat in
  let k := gridK (psFin sys) 1 in
  match psExact sys, psH sys with
  | None, None => forall m n, (m < dim)%nat -> (n < dim)%nat -> G m n = k0
  | Some omrec, None => forall m n, (m < dim)%nat -> (n < dim)%nat -> G m n = if Nat.eqb m n then eigenvalue (EParticle omrec k) m else k0
  | None, Some (td, hs) => forall ts t psi m, (m < dim)%nat ->
      hAction td (afterCalls td ts hs) t psi m = lsum dim (fun n => kmul (G m n) (psi n))
  | Some omrec, Some (td, hs) => forall ts t psi m, (m < dim)%nat ->
      let U := particleUpdateU dim omrec k t (fun _ => k0) in
      kmul (U m) (hAction td (afterCalls td ts hs) t psi m) =
      lsum dim (fun n => kmul (ksub (G m n) (if Nat.eqb m n then eigenvalue (EParticle omrec k) m else k0)) (kmul (U n) (psi n)))
  end.
(** the potential vClass |f(x)|^2, without its mean value *)
Definition potential (vClass : R) (f : modeFunction) (x : R) : CR := RC (vClass * (csq (mfValue f x) - (if isComplexMF (fst f) then 1 else / 2))).
(** G is -i (omrec k^2 + V(x)) *)
Definition kinetic_and (fin : nat) (omrec : R) (V : R -> CR) (G : mat) : Prop :=
  exists W, multiplies (2 ^ fin) (gridK fin 1) V W /\
    forall m n, (m < 2 ^ fin)%nat -> (n < 2 ^ fin)%nat ->
      G m n = kmul (kopp CI) (kadd (if Nat.eqb m n then RC (omrec * (gridK fin 1 m * gridK fin 1 m)) else k0) (W m n)).
