(** What the interactions are: generators of the evolution in the Schroedinger picture of all the constituents. *)
From Coq Require Import List Arith ZArith Reals.
From Verif Require Import Star CReal Arr TriModel FreeExactSpec FreeExactModel ElementSpec ModeModel CompositeModel ParticleModel ParticleSpec InteractionModel.
Import ListNotations.
Local Open Scope nat_scope.
Notation op := (list nat -> list nat -> CR).

(** the eigenvalues of the exact propagators of the constituents, exp(t*rate n): none in the Schroedinger picture *)
Definition cavRate (m : cavity) (n : nat) : CR := match cvExact m with Some (z, _) => eigenvalue (EMode z) n | None => k0 end.
Definition partRate (p : particle) : nat -> CR := eigenOf (pExact p) (pK p).
Definition spinRate (s : spinC) (n : nat) : CR := match spExact s with Some z => eigenvalue (ESpin (cre z) (cim z)) n | None => k0 end.
Definition atomRate (a : atom) : nat -> CR := match a with AQbit zI => cavRate (mkCavity 2 zI) | ASpin s => spinRate s end.
Fixpoint together (es : list (nat -> CR)) (y : list nat) : CR :=
  match es, y with e :: es, n :: y => kadd (e n) (together es y) | _, _ => k0 end.
(** the state carried over the time t by the exact propagators *)
Definition carried (es : list (nat -> CR)) (t : R) (psi : array) : array := fun y => kmul (cexp (kmul (RC t) (together es y))) (psi y).

(** G is the generator: what the interaction adds to the derivative at the time dt after the last exact propagation, whatever the times of earlier
    calls, is, carried to the Schroedinger picture, G on the state carried there; on the states in P. *)
Definition has_generator (h : intH) (es : list (nat -> CR)) (P : array -> Prop) (G : op) : Prop :=
  forall dts dt psi dpsidt, P psi -> exists d', snd (intContribution dt (intAfter dts h) psi dpsidt) = Some d' /\
    forall y, inr (ihDims h) y -> carried es dt (fun y => ksub (d' y) (dpsidt y)) y = isum (ihDims h) (fun x => kmul (G y x) (carried es dt psi x)).
(** a basis state *)
Definition unit_state (x : list nat) : array := fun y => if listnat_eqb y x then k1 else k0.
Definition any_state (psi : array) : Prop := True.
(** no momenta within k of the edges of the grid; the particle is the last of the constituents *)
Definition away_from_edges (dim : nat) (k : Z) (psi : array) : Prop :=
  forall x i, (Z.of_nat i < Z.abs k)%Z \/ (Z.of_nat dim <= Z.of_nat i + Z.abs k)%Z -> psi (x ++ [i]) = k0.

(** operators of several constituents *)
Fixpoint kron (ms : list mat) (y x : list nat) : CR :=
  match ms, y, x with m :: ms, i :: y, j :: x => kmul (m i j) (kron ms y x) | _, _, _ => k1 end.
Definition hc (M : op) : op := fun y x => kconj (M x y).
Definition plusO (M N : op) : op := fun y x => kadd (M y x) (N y x).
Definition timesO (c : CR) (M : op) : op := fun y x => kmul c (M y x).
Definition number : mat := fun m n => if m =? n then RC (INR m) else k0.
Definition adj (M : mat) : mat := fun m n => kconj (M n m).
Definition position : mat := fun m n => kmul (RC (/ sqrt 2)) (kadd (annihilation m n) (creation m n)).
Definition hermitian (dims : list nat) (H : op) : Prop := forall y x, inr dims y -> inr dims x -> H y x = kconj (H x y).
(** H/i *)
Definition overI (H : op) : op := timesO (kopp CI) H.

(** ** The Hamiltonians *)
(** eta (a f(x) + h.c.) *)
Definition hOrthogonal (eta : R) (F : mat) : op := let T := kron [annihilation; F] in timesO (RC eta) (plusO T (hc T)).
(** U0 n (|fCav|^2-mean) + eta (a^dagger conj(fCav) fPart + h.c.); W and F are the matrices of the functions of x *)
Definition hAlong (uNot eta : R) (W F : mat) : op :=
  let T := kron [creation; F] in plusO (timesO (RC uNot) (kron [number; W])) (timesO (RC eta) (plusO T (hc T))).
(** c a0^dagger a1 conj(f0) f1 + h.c. *)
Definition hTwoModes (c : CR) (F : mat) : op := let T := timesO c (kron [creation; annihilation; F]) in plusO T (hc T).
(** i (conj(g) sigma a^dagger - h.c.) *)
Definition hJaynesCummings (g : CR) (sigma : mat) : op := let T := timesO (kmul CI (kconj g)) (kron [sigma; creation]) in plusO T (hc T).
Definition hCoupledModes (c : coupling) (u : CR) : op :=
  match c with
  | CM_NX => timesO (RC (cre u)) (kron [number; position])
  | CM_XX => timesO (RC (cre u)) (kron [position; position])
  | CM_XX_RWA => let T := timesO (kmul CI (kconj u)) (kron [annihilation; creation]) in plusO T (hc T)
  end.
(** u n (Sz+s) + y (a + a^dagger) Sx *)
Definition spinX (twoS : nat) : mat := fun m n => kmul (RC (/ 2)) (kadd (spinLower twoS m n) (kconj (spinLower twoS n m))).
Definition hGeneralDicke (twoS : nat) (u y : CR) : op :=
  plusO (timesO u (kron [number; number])) (timesO y (kron [fun m n => kadd (annihilation m n) (creation m n); spinX twoS])).

(** ** Pictures *)
Definition kerrless (m : cavity) : Prop := match cvExact m with Some (_, o) => o = 0%R | None => True end.
Definition cavIs (exact : bool) (m : cavity) : Prop := match cvExact m with Some (_, o) => exact = true /\ o = 0%R | None => exact = false end.
Definition partIs (exact : bool) (p : particle) : Prop := match pExact p with Some _ => exact = true | None => exact = false end.
Definition spinIs (exact : bool) (s : spinC) : Prop := match spExact s with Some _ => exact = true | None => exact = false end.
Definition atomIs (exact : bool) (a : atom) : Prop := match a with AQbit zI => cavIs exact (mkCavity 2 zI) | ASpin s => spinIs exact s end.
Definition lowering (a : atom) : mat := match a with AQbit _ => annihilation | ASpin s => spinLower (spTwoS s) end.
Definition proper (a : atom) : Prop := match a with AQbit _ => True | ASpin s => 0 < spTwoS s end.

(** ** The norm *)
(** d<psi|psi>/dt, if dpsi/dt is d *)
Definition norm_rate (dims : list nat) (psi d : array) : CR :=
  kadd (isum dims (fun y => kmul (kconj (psi y)) (d y))) (isum dims (fun y => kmul (kconj (d y)) (psi y))).
(** what the interaction adds to the derivative does not change the norm of the state, on the states in P *)
Definition norm_kept (h : intH) (es : list (nat -> CR)) (P : array -> Prop) : Prop :=
  forall dts dt psi d', P psi -> snd (intContribution dt (intAfter dts h) psi (fun _ => k0)) = Some d' ->
    norm_rate (ihDims h) (carried es dt psi) (carried es dt d') = k0.
(** conj(f) g *)
Definition overlap (f g : modeFunction) (x : R) : CR := kmul (kconj (mfValue f x)) (mfValue g x).
(** the grid holds twice the first wave number and the second *)
Definition fits (p : particle) (f g : modeFunction) : Prop := (2 * Z.abs (snd f) <= Z.of_nat (pDim p))%Z /\ (Z.abs (snd g) <= Z.of_nat (pDim p))%Z.
(** neither function is constant and nor is there a constant part in conj(f) g: a sine and a cosine, or waves running in opposite directions *)
Definition runs (f : modeFunction) : option Z := match fst f with MPlus => Some (snd f) | MMinus => Some (- snd f)%Z | _ => None end.
Definition oscillating (f g : modeFunction) : Prop := snd f <> 0%Z /\ snd g <> 0%Z /\ (Z.abs (snd f) = Z.abs (snd g) ->
  match runs f, runs g with
  | Some k, Some l => (k + l = 0)%Z
  | None, None => fst f <> fst g
  | _, _ => False
  end).
