(** An ion in a cavity, with its motion. *)
From Coq Require Import List Arith ZArith Bool Reals.
From Verif Require Import Star CReal Arr TriModel ElementModel ElementSpec ModeModel ModeSpec DampSpec ParticleModel InteractionModel InteractionSpec CavScriptModel CavScriptSpec SigmaModel SigmaSpec Ca40Model.
Import ListNotations.
Local Open Scope nat_scope.

(** the rate of decay from the level J to the level I, and to those in a list: half of the rate of the jumps which lead there *)
Definition decayTo (ds : list decay) (i j : nat) : R := fold_right Rplus 0%R (map dcGamma (filter (fun d => (dcFirst d =? i) && (dcSecond d =? j)) ds)).
Definition decayInto (ds : list decay) (is : list nat) (j : nat) : R := fold_right Rplus 0%R (map (fun i => decayTo ds i j) is).
(** levels of S1/2, P1/2, D3/2 *)
Definition levelsS := [0; 1].
Definition levelsP := [2; 3].
Definition levelsD := [4; 5; 6; 7].
(** the rates of P1/2 -> S1/2 and of P1/2 -> D3/2 *)
Definition rateS : R := (1048 / 100)%R.
Definition rateD : R := (73 / 100)%R.
(** both levels of P1/2 decay into S1/2 and into D3/2 at the given rates *)
Definition decays_right (ds : list decay) : Prop := forall j, In j levelsP -> decayInto ds levelsS j = rateS /\ decayInto ds levelsD j = rateD.
(** the square of the coupling of the level j to all others *)
Definition strengthOf (gs : list mlCoupling) (j : nat) : R := fold_right Rplus 0%R (map (fun c => csq (cG c)) (filter (fun c => cJ c =? j) gs)).
(** in the frame rotating with the laser, the energies of the levels of P1/2, as those of H/i, differ from those of S1/2 by the detuning *)
Definition energy (H : ket -> ket -> ket) (j : nat) : R := cim (H (fun i => if i =? j then k1 else k0) (fun _ => k0) j).
Definition laser_detuned (deltaEta : R) (H : ket -> ket -> ket) : Prop :=
  forall i j, In i levelsS -> In j levelsP -> (energy H j - energy H i = deltaEta)%R.
(** the rate at which the amplitude of a level is lost, as that of H/i *)
Definition width (H : ket -> ket -> ket) (j : nat) : R := (- cre (H (fun i => if i =? j then k1 else k0) (fun _ => k0) j))%R.

(** twice the magnetic quantum numbers *)
Definition twiceM (j : nat) : Z := match j with 0 | 2 | 5 => (-1)%Z | 1 | 3 | 6 => 1%Z | 4 => (-3)%Z | 7 => 3%Z | _ => 100%Z end.
(** squares of the Clebsch-Gordan coefficients of P1/2 with S1/2 and with D3/2 *)
Definition weightS (i j : nat) : R := if (twiceM i =? twiceM j)%Z then (1 / 3)%R else (2 / 3)%R.
Definition weightD (i j : nat) : R :=
  let q := (twiceM i - twiceM j)%Z in
  if (Z.abs q >? 2)%Z then 0%R else if (q =? 0)%Z then (1 / 3)%R else if (q * twiceM j >? 0)%Z then (1 / 2)%R else (1 / 6)%R.
Definition among (j : nat) (l : list nat) : bool := existsb (Nat.eqb j) l.
(** the laser drives the transitions between S1/2 and P1/2 which change the magnetic quantum number *)
Definition driven (i j : nat) : bool := among i levelsS && among j levelsP && negb (twiceM i =? twiceM j)%Z.
(** H/i of the atom in terms of the parameters, with the rates of loss as they are: no detunings *)
Definition ionGenerator (eta : CR) : mat := fun m n =>
  if (m =? n) && among m levelsP then RC (- ((sqrt (1 / 3) + sqrt (2 / 3)) * rateS + (sqrt (1 / 2) + sqrt (1 / 3) + sqrt (1 / 6)) * rateD))
  else if driven m n then kconj eta else if driven n m then kopp eta else k0.
(** the interactions: every pair of levels *)
Definition allPairs (l l' : list nat) : list (nat * nat) := flat_map (fun j => map (fun i => (i, j)) l) l'.
Definition phononCoupling (factor : R) (eta : CR) : op := fun y x =>
  ksum (fun ij => if driven (fst ij) (snd ij) then hJaynesCummings (kmul (kopp CI) (kmul (RC factor) eta)) (ketbra (fst ij) (snd ij)) y x else k0) (allPairs levelsS levelsP).
Definition cavityCoupling (g : R) : op := fun y x =>
  ksum (fun ij => hJaynesCummings (RC (sqrt (weightD (fst ij) (snd ij)) * g)) (ketbra (fst ij) (snd ij)) y x) (allPairs levelsD levelsP).
(** the modes: the motion at -omega without drive and loss; the cavity, detuned from the laser *)
Definition motion (omega : R) (cutoff : nat) : modePars := mkPars (- omega) 0 0 cutoff k0 0 0.
Definition resonator (deltaEta deltaG : R) (etaC : CR) (cutoff : nat) : modePars := mkPars (deltaG - deltaEta) 0 0 cutoff etaC (55 / 1000) 0.
