(** Two particles in a cavity. *)
From Coq Require Import List Arith ZArith Reals.
From Verif Require Import Star CReal Arr HermSpec MasterSpec TriModel FreeExactModel FreeExactSpec ElementModel ElementSpec ModeModel ModeSpec DampSpec CompositeModel ParticleModel ParticleSpec InteractionModel InteractionSpec AverageSpec MatHamModel ScriptSpec
  CavScriptModel CavScriptSpec TwoPartModel.
Import ListNotations.
Local Open Scope nat_scope.

(** an operator of the mode and one of the particles as one of the mode and both particles *)
Definition withFirst (A : op) : op := fun y x => match y, x with [i; j; k], [i'; j'; k'] => kmul (one k k') (A [i; j] [i'; j']) | _, _ => k0 end.
Definition withSecond (A : op) : op := fun y x => match y, x with [i; j; k], [i'; j'; k'] => kmul (one j j') (A [i; k] [i'; k']) | _, _ => k0 end.
(** the mode, the particle twice, and the interaction of the mode with each have together the generator G, on the states in P *)
Definition simulates_two (sm : modeSys) (sp : partSys) (h : intH) (P : array -> Prop) (G : op) : Prop :=
  ihDims h = [msDim sm; 2 ^ psFin sp] /\
  exists Gm Gp Gi, no_jump_generator sm Gm /\ part_generator sp Gp /\ has_generator h [modeRate sm; particleRate sp] P Gi /\
    forall y x, inr [msDim sm; 2 ^ psFin sp; 2 ^ psFin sp] y -> inr [msDim sm; 2 ^ psFin sp; 2 ^ psFin sp] x ->
      G y x = kadd (kadd (kadd (kron [Gm; one; one] y x) (kron [one; Gp; one] y x)) (kron [one; one; Gp] y x)) (kadd (withFirst Gi y x) (withSecond Gi y x)).
(** the mode with its detuning as given, the particles with their kinetic energies in the potential of the pump, and for each U0 n cos^2(x) + eta (a^dagger cos(x) g(x) + h.c.) *)
Definition cavityAndParticles (q : modePars) (K1 K2 : mat) (H : op) : op :=
  plusO (plusO (plusO (kron [modeGenerator q; one; one]) (kron [one; K1; one])) (kron [one; one; K2])) (overI (plusO (withFirst H) (withSecond H))).
Definition cosine (p : twoPars) : modeFunction := (MCos, snd (oCav (tOne p))).
Definition pumpDepth (p : twoPars) : R := (oUnot (tOne p) * tAlphaSquare p)%R.
(** the strength of scattering is U0 alpha *)
Definition scattering (p : twoPars) (e : R) : Prop := (e * e = oUnot (tOne p) * oUnot (tOne p) * tAlphaSquare p)%R /\ (0 <= e * oUnot (tOne p))%R.
Definition right_two (p : twoPars) (sm : modeSys) (sp : partSys) (h : intH) : Prop :=
  let o := tOne p in let g := grid (oFin o) in
  exists e K1 K2, scattering p e /\ kinetic_and (oFin o) (oOmrec o) (potential (pumpDepth p) (oPump o)) K1 /\ kinetic_and (tFin2 p) (tOmrec2 p) (potential (pumpDepth p) (tPump2 p)) K2 /\
    forall W F, mult g (intensity (cosine p)) W -> mult g (overlap (cosine p) (oPump o)) F ->
      simulates_two sm sp h (away_from_edges (2 ^ oFin o) (snd (cosine p))) (cavityAndParticles (oMode o) K1 K2 (hAlong (oUnot o) e W F)).
(** the same parameters for both particles *)
Definition identical (p : twoPars) : Prop := tFin2 p = oFin (tOne p) /\ tOmrec2 p = oOmrec (tOne p) /\ tPump2 p = oPump (tOne p).
Definition sensible_two (p : twoPars) : Prop :=
  let o := tOne p in plain (oMode o) /\ (0 <= snd (cosine p))%Z /\ fits (grid (oFin o)) (cosine p) (oPump o).
(** exchange of the particles *)
Definition exchange (y : list nat) : list nat := match y with [i; j; k] => [i; k; j] | _ => y end.
Definition symmetric (psi : array) : Prop := forall i j, psi [i; j] = psi [j; i].
Definition antisymmetric (psi : array) : Prop := forall i j, psi [i; j] = kopp (psi [j; i]).
Definition norm_sq (dims : list nat) (psi : array) : CR := isum dims (fun y => kmul (psi y) (kconj (psi y))).
Definition vanishes (dims : list nat) (psi : array) : Prop := forall y, inr dims y -> psi y = k0.
(** the momentum of a particle *)
Definition momentumOf (fin : nat) : mat := fun m n => if m =? n then RC (gridK fin 1 m) else k0.
