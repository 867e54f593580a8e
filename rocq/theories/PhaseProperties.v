(** C87-C89: distribution functions. *)
From Coq Require Import List Arith Reals.
From Verif Require Import Star CReal PhaseModel PhaseSpec PhaseProofs PhaseFacts PhaseScan.
Import ListNotations.
Local Open Scope R_scope.

(** * C87: wignerFunction is the Wigner function of the density operator, the quasi-probability density of the documented quadratures. It is half of it. *)
Theorem C87_density_refuted : forall atan2 W, polar_angle atan2 -> wigner_family W ->
  exists rho dim x y f, selfadjoint dim rho /\ ksum (fun n => rho n n) (seq 0 dim) = k1 /\ wignerFunction atan2 rho dim x y 0 = Some f /\ RC f <> wigner_of W dim rho x y.
Proof. exact wigner_refuted. Qed.
Print Assumptions C87_density_refuted.
(** For every selfadjoint operator and everywhere, of the first levels if a truncation is given; missing: the factor 2, and dimensions for which factorials overflow. *)
Theorem C87_half_partial : forall atan2 W rho dim t x y, polar_angle atan2 -> wigner_family W -> let d := if (t =? 0)%nat then dim else Nat.min t dim in
  ((d <= 171)%nat -> selfadjoint d rho -> exists f, wignerFunction atan2 rho dim x y t = Some f /\ RC (2 * f) = wigner_of W d rho x y) /\
  ((171 < d)%nat -> wignerFunction atan2 rho dim x y t = None).
Proof. exact wigner_fact. Qed.
Print Assumptions C87_half_partial.
(** the correspondence rules have exactly one solution *)
Theorem C87_family : wigner_family V /\ forall W W', wigner_family W -> wigner_family W' -> forall m n x y, W m n x y = W' m n x y.
Proof. exact (conj V_family family_unique). Qed.
Print Assumptions C87_family.
Example C87_case : exists W, wigner_family W /\ polar_angle angleOf /\ selfadjoint 3 vacuumRho /\ vacuumRho 0%nat 0%nat = k1 /\
  wigner_of W 3 vacuumRho 0 0 = RC (2 / PI) /\ laguerre 2 1 2 = -1.
Proof. exact wigner_case. Qed.

(** * C88: qFunction is <alpha|rho|alpha>, alpha=x+iy; between 0 and 1 for density operators *)
Theorem C88_overlap : forall rho dim phi x y t, (dim <= 170)%nat -> coherent_state ((x, y) : CR) dim phi -> qFunction rho dim x y t = cre (expectation dim rho phi).
Proof. exact q_fact. Qed.
Print Assumptions C88_overlap.
Theorem C88_range : forall dim parts x y t, (dim <= 170)%nat -> proper_mixture dim parts -> 0 <= qFunction (mixture parts) dim x y t <= 1.
Proof. exact q_range. Qed.
Print Assumptions C88_range.
Example C88_case : proper_mixture 2 [(half, [k1; k0]); (half, [k0; CI])] /\ qFunction (mixture [(half, [k1; k0]); (half, [k0; CI])]) 2 0 0 0 = half /\
  coherent_state k0 2 [k1; k0].
Proof. exact q_case. Qed.

(** * C89: a scan streams the function at the points of the grid, a line for each, the lines of each x followed by an empty one; a nonzero symmetric limit takes precedence *)
Theorem C89_scan : forall f p, 0 < sStep p ->
  let (xl, xu) := if Req_EM_T (sXUL p) 0 then (sXL p, sXU p) else (- sXUL p, sXUL p) in
  let (yl, yu) := if Req_EM_T (sYUL p) 0 then (sYL p, sYU p) else (- sYUL p, sYUL p) in
  exists n m, points_below xl xu (sStep p) n /\ points_below yl yu (sStep p) m /\
    forall out, scanFunction f p out <-> out = flat_map (fun x => map (fun y => SPoint x y (f x y)) (grid yl (sStep p) m) ++ [SEmpty]) (grid xl (sStep p) n).
Proof. exact scan_fact. Qed.
Print Assumptions C89_scan.
(** without a positive step it does not end *)
Theorem C89_endless : forall f p out, sStep p <= 0 -> sXUL p = 0 -> sXL p < sXU p -> ~ scanFunction f p out.
Proof. exact scan_endless. Qed.
Print Assumptions C89_endless.
Example C89_case : 0 < sStep (mkScan 0 1 0 1 5 7 1) /\ points_below 0 1 1 1 /\ points_below (-1) 1 1 2 /\ grid (-1) 1 2 = [-1; 0].
Proof. exact scan_case. Qed.
