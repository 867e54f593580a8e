(** What the pictures of a mode have in common: one generator G of the evolution without jumps, dpsi/dt = G psi in the Schroedinger
    picture. *)
From Coq Require Import List Arith Reals.
From Verif Require Import Star CReal TriModel FreeExactModel FreeExactSpec ElementModel ElementSpec ModeModel.
Import ListNotations.

(** what the Hamiltonian adds to the derivative of psi at time t (counted from the last exact propagation) *)
Definition hAction (timeDependent : bool) (hs : list (tri CR R)) (t : R) (psi : ket) : ket :=
  fun m => snd (addContribution timeDependent t hs (fun x => psi (nth 0 x 0)) (fun _ => k0)) [m].
(** the diagonal of the exact propagator over the time t *)
Definition uDiag (dim : nat) (zI : CR) (t : R) : ket := modeUpdateU dim zI t (fun _ => k0).

(** G is the generator of the system as it acts at time t, after earlier calls at [ts]: without exact propagator, the Hamiltonian is G.
    With the exact propagator U(t) with generator G0, the Hamiltonian is U(t)^-1 (G - G0) U(t). Without Hamiltonian, G0 is G. *)
Definition generator_at (sys : modeSys) (ts : list R) (t : R) (G : mat) : Prop :=
  let dim := msDim sys in
  match msExact sys, msH sys with
  | None, None => forall m n, m < dim -> n < dim -> G m n = k0
  | Some z, None => forall m n, m < dim -> n < dim -> G m n = if m =? n then eigenvalue (EMode z) m else k0
  | None, Some (td, hs) => forall psi m, m < dim ->
      hAction td (afterCalls td ts hs) t psi m = lsum dim (fun n => kmul (G m n) (psi n))
  | Some z, Some (td, hs) => forall psi m, m < dim ->
      kmul (uDiag dim z t m) (hAction td (afterCalls td ts hs) t psi m) =
      lsum dim (fun n => kmul (ksub (G m n) (if m =? n then eigenvalue (EMode z) m else k0)) (kmul (uDiag dim z t n) (psi n)))
  end.
(** one generator at all times *)
Definition no_jump_generator (sys : modeSys) (G : mat) : Prop := forall ts t, generator_at sys ts t G.

(** the generator of the mode with the given parameters: -z a^dagger a - i (omegaKerr + omegaKerrAlter) a^dagger a (a^dagger a - 1) + eta a^dagger - eta^* a,
    z = kappa (2 nTh + 1) - i delta *)
Definition modeGenerator (p : modePars) : mat :=
  let z := ((pKappa p * (2 * pNTh p + 1), - pDelta p)%R : CR) in
  fun m n => kadd (if m =? n then ksub (kmul (RC (- INR m)) z) (kmul CI (RC ((pKerr p + pKerrAlter p) * (INR m * (INR m - 1))))) else k0)
                  (ksub (kmul (pEta p) (creation m n)) (kmul (kconj (pEta p)) (annihilation m n))).

(** the cases in which the Kerr terms are there as they should be *)
Definition kerr_honoured (p : modePars) (qmp : picture) : Prop :=
  (pKerr p = 0%R \/ (qmp = SCH /\ (pKappa p * (2 * pNTh p + 1), - pDelta p)%R <> (0, 0)%R) \/
   (qmp = UIP /\ pKappa p * (2 * pNTh p + 1) <> 0 /\ pEta p = k0)%R) /\
  (pKerrAlter p = 0%R \/ qmp = SCH \/ pEta p <> k0 \/ (qmp = UIP /\ pKappa p <> 0%R)).
