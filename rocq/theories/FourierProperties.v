(** C79: the transformation between position and momentum space. C80: what particles display. C81, C82: initial states of particles. *)
From Coq Require Import List Arith ZArith Reals Lra Lia.
From Verif Require Import Star CReal FourierModel FourierSpec FourierProofs FourierFacts PacketProofs PacketCases.
Import ListNotations.
Local Open Scope nat_scope.

(** on a power of two of points, ffTransform is the canonical transformation between the wave functions on the grids of position and momentum (up to a phase common to all amplitudes for one and two points) *)
Theorem C79_vector : forall fin dk, dk <> 0%R -> exists c, csq c = 1%R /\ (2 <= fin -> c = k1) /\ forall psi, exists p x,
  ffTransformCV (2 ^ fin) psi DIR_XK = Some p /\ ffTransformCV (2 ^ fin) psi DIR_KX = Some x /\
  forall k, k < 2 ^ fin -> p k = kmul c (to_momentum (2 ^ fin) dk psi k) /\ x k = kmul (kconj c) (to_position (2 ^ fin) dk psi k).
Proof. exact fourier_vector. Qed.
Print Assumptions C79_vector.
(** other sizes are refused *)
Theorem C79_refused : forall n psi dir, ffTransformCV n psi dir = None <-> ~ (n = 0 \/ exists fin, n = 2 ^ fin).
Proof. exact transform_refused. Qed.
Print Assumptions C79_refused.
(** it leaves scalar products unchanged, and transforming back gives what was there *)
Theorem C79_unitary : forall fin dir phi psi, exists phi' psi' psi'', ffTransformCV (2 ^ fin) phi dir = Some phi' /\ ffTransformCV (2 ^ fin) psi dir = Some psi' /\
  overlap (2 ^ fin) phi' psi' = overlap (2 ^ fin) phi psi /\ ffTransformCV (2 ^ fin) psi' (reverse dir) = Some psi'' /\ forall k, k < 2 ^ fin -> psi'' k = psi k.
Proof. exact fourier_unitary. Qed.
Print Assumptions C79_unitary.
(** in a multipartite state vector it acts on the index asked for only *)
Theorem C79_axis : forall dims p fin dk psi, dk <> 0%R -> nth p dims 0 = 2 ^ fin -> exists c, csq c = 1%R /\ (2 <= fin -> c = k1) /\ exists a b,
  ffTransform dims [p] (Pure psi) DIR_XK = Some (Pure a) /\ ffTransform dims [p] (Pure psi) DIR_KX = Some (Pure b) /\
  forall y, nth p y 0 < 2 ^ fin -> a y = kmul c (to_momentum (2 ^ fin) dk (fun v => psi (replaced p v y)) (nth p y 0)) /\ b y = kmul (kconj c) (to_position (2 ^ fin) dk (fun v => psi (replaced p v y)) (nth p y 0)).
Proof. exact fourier_axis. Qed.
Print Assumptions C79_axis.
(** transforming several indices is transforming them one after the other *)
Theorem C79_sequence : forall dims V W m dir, ffTransform dims (V ++ W) m dir = match ffTransform dims V m dir with Some m' => ffTransform dims W m' dir | None => None end.
Proof. exact fourier_sequence. Qed.
Print Assumptions C79_sequence.
(** the transform of a density operator is the mixture of the transforms of the states mixed *)
Theorem C79_mixed : forall dims V dir, (forall m, ffTransform dims V m dir = None) \/
  exists T, (forall psi, ffTransform dims V (Pure psi) dir = Some (Pure (T psi))) /\
  forall l rho, (forall y z, rho y z = mixture l y z) -> exists rho', ffTransform dims V (Mixed rho) dir = Some (Mixed rho') /\ forall y z, rho' y z = mixture (map (fun e => (fst e, T (snd e))) l) y z.
Proof. exact fourier_mixed. Qed.
Print Assumptions C79_mixed.
(** a momentum eigenstate becomes a wave *)
Example C79_case : exists x, ffTransformCV 8 (fun m => if m =? 5 then k1 else k0) DIR_KX = Some x /\ (forall j, j < 8 -> x j = wave 8 1 5 j) /\ ffTransformCV 6 (fun _ => k0) DIR_KX = None.
Proof. exact wave_case. Qed.

(** the columns of a particle are mean and variance of momentum and mean and standard deviation of position, for mixed and pure states *)
Theorem C80_mixed : forall fin rho, is_state (2 ^ fin) (fun m n => rho [m] [n]) ->
  exists a, particleAverage fin (Mixed rho) = Some a /\ particleProcess a = Some (particleColumns (2 ^ fin) (fun m n => rho [m] [n])).
Proof. exact displayed_mixed. Qed.
Print Assumptions C80_mixed.
Theorem C80_pure : forall fin psi, overlap (2 ^ fin) (fun m => psi [m]) (fun m => psi [m]) = k1 ->
  exists a, particleAverage fin (Pure psi) = Some a /\ particleProcess a = Some (particleColumns (2 ^ fin) (fun m n => kmul (psi [m]) (kconj (psi [n])))).
Proof. exact displayed_pure. Qed.
Print Assumptions C80_pure.
(** a state with <P>=1 and no spread of momentum *)
Example C80_case : exists a, particleAverage 2 (Pure (fun y => if hd 0 y =? 3 then k1 else k0)) = Some a /\ nth 0 a 0%R = 1%R /\ nth 1 a 0%R = 1%R /\ overlap (2 ^ 2) (fun m => if m =? 3 then k1 else k0) (fun m => if m =? 3 then k1 else k0) = k1.
Proof. exact eigenstate_case. Qed.

(** wave packets are normalised Gaussians in the space they are defined in, and are the same state in both spaces *)
Theorem C81_packet : forall init fin dk, dk <> 0%R -> iSig init <> 0%R ->
  (forall kFlag, normalised (2 ^ fin) (wavePacket init fin dk kFlag)) /\
  (iInK init = false -> samples (2 ^ fin) (gridX (2 ^ fin) dk) (gaussian (PI * iX0 init) (iSig init) (iK0 init)) (wavePacket init fin dk false)) /\
  (iInK init = true -> samples (2 ^ fin) (gridK (2 ^ fin) dk) (gaussian (iK0 init) (iSig init) (- (PI * iX0 init))) (wavePacket init fin dk true)) /\
  exists c, csq c = 1%R /\ (2 <= fin -> c = k1) /\ forall k, k < 2 ^ fin -> wavePacket init fin dk true k = kmul c (to_momentum (2 ^ fin) dk (wavePacket init fin dk false) k).
Proof. exact packet_facts. Qed.
Print Assumptions C81_packet.
Example C81_case : iSig (mkInit (-1/2) 3 (1/10) true) <> 0%R /\ iInK (mkInit (-1/2) 3 (1/10) true) = true.
Proof. cbn. split; [lra|reflexivity]. Qed.

(** harmonic oscillator states are, with the length given, the normalised eigenstates, the same state in both spaces *)
Theorem C82_eigenstates_partial : forall n, exists u, ho_eigenstate (Z.to_nat n) u /\ forall init fin dk, dk <> 0%R -> iSig init <> 0%R ->
  let shifted x := RC (u ((x - PI * iX0 init) / iSig init)%R) in
  (exists j, j < 2 ^ fin /\ shifted (gridX (2 ^ fin) dk j) <> k0) ->
  (forall kFlag, normalised (2 ^ fin) (hoState n init fin dk kFlag)) /\
  samples (2 ^ fin) (gridX (2 ^ fin) dk) shifted (hoState n init fin dk false) /\
  exists c, csq c = 1%R /\ (2 <= fin -> c = k1) /\ forall k, k < 2 ^ fin -> hoState n init fin dk true k = kmul c (to_momentum (2 ^ fin) dk (hoState n init fin dk false) k).
Proof. exact ho_facts. Qed.
Print Assumptions C82_eigenstates_partial.
(** with no length given, the wave packet is the ground state of the pump potential in harmonic approximation *)
Theorem C82_packet_partial : forall p, (0 < pOmrec p)%R -> pVClass p <> 0%R -> iSig (pInit p) = 0%R -> iK0 (pInit p) = 0%R -> (pHoInitn p < 0)%Z ->
  samples (2 ^ pFin p) (gridX (2 ^ pFin p) 1) (fun x => RC (ground (pOmrec p) (Rabs (pVClass p)) (PI * iX0 (pInit p)) x)) (pumpedInit p false).
Proof. exact default_packet. Qed.
Print Assumptions C82_packet_partial.
(** (what ground is) *)
Theorem C82_ground_partial : forall omrec V x0, (0 < omrec)%R -> (0 < V)%R -> exists g1 g2 E,
  (forall x, 0 < ground omrec V x0 x)%R /\ (forall x, derivable_pt_lim (ground omrec V x0) x (g1 x)) /\ (forall x, derivable_pt_lim g1 x (g2 x)) /\
  forall x, (- omrec * g2 x + V * ((x - x0) * (x - x0)) * ground omrec V x0 x = E * ground omrec V x0 x)%R.
Proof. exact ground_state. Qed.
Print Assumptions C82_ground_partial.
(** but the oscillator state number 0 is not: it is narrower by the square root of 2 *)
Theorem C82_default_refuted : exists p, (0 < pOmrec p)%R /\ pVClass p <> 0%R /\ iSig (pInit p) = 0%R /\ iK0 (pInit p) = 0%R /\ pHoInitn p = 0%Z /\
  ~ samples (2 ^ pFin p) (gridX (2 ^ pFin p) 1) (fun x => RC (ground (pOmrec p) (Rabs (pVClass p)) (PI * iX0 (pInit p)) x)) (pumpedInit p false).
Proof. exact default_refuted. Qed.
Print Assumptions C82_default_refuted.
Example C82_case : exists j, j < 2 ^ 3 /\ RC (exp (- (gridX (2 ^ 3) 1 j * gridX (2 ^ 3) 1 j) / 2) * hermite 2 (gridX (2 ^ 3) 1 j)) <> k0.
Proof. exact hermite_case. Qed.
