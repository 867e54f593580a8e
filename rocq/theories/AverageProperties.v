(** Property theorems C73 and C74, nothing else. *)
From Coq Require Import List Arith Reals String.
From Verif Require Import Star CReal Arr HermSpec MasterSpec ElementSpec CompositeModel CompositeSpec InteractionSpec AverageModel AverageSpec AverageElements AverageCorrelations AverageCases.
Import ListNotations.
Local Open Scope nat_scope.

(** C73: what is displayed under a label is the expectation value, variance, covariance named by it. Mode: *)
Theorem C73_mode : forall dim t rho N2, is_product number number N2 ->
  let E A := mean [dim] (kron [A]) rho in
  shown (modeAveraged dim [] []) t rho =
  [("<number operator>"%string, cre (E number)); ("VAR(number operator)"%string, (cre (E N2) - cre (E number) * cre (E number))%R);
   ("real(<ladder operator>)"%string, cre (E annihilation)); (imagLabel, cim (E annihilation))].
Proof. exact mode_shown. Qed.
Print Assumptions C73_mode.
(** with quadratures, *)
Theorem C73_quadratures : forall dim t rho N2 X2 Y2 XY YX, state [dim] rho ->
  is_product number number N2 -> is_product quadX quadX X2 -> is_product quadY quadY Y2 -> is_product quadX quadY XY -> is_product quadY quadX YX ->
  shown (quadAveraged dim [] []) t rho = quadColumns dim rho N2 X2 Y2 XY YX.
Proof. exact quad_shown. Qed.
Print Assumptions C73_quadratures.
(** with the population of the highest level monitored: one more column, the others unchanged. *)
Theorem C73_cutoff : forall dim t rho, 0 < dim ->
  shown (cutoffAveraged dim modeAveraged) t rho = (shown (modeAveraged dim [] []) t rho ++ [cutoffColumn dim rho])%list /\
  shown (cutoffAveraged dim quadAveraged) t rho = (shown (quadAveraged dim [] []) t rho ++ [cutoffColumn dim rho])%list.
Proof. intros dim t rho H. exact (conj (cutoff_mode dim t rho H) (cutoff_quad dim t rho H)). Qed.
Print Assumptions C73_cutoff.
(** Propagating in interaction picture without exact part: what is displayed refers to Schroedinger picture. *)
Theorem C73_no_exact : forall z dim t rho, let E A := mean [dim] (kron [A]) (schroedinger z t rho) in
  shown (noExactAveraged z dim) t rho = [("<number operator>"%string, cre (E number)); ("real(<ladder operator>)"%string, cre (E annihilation)); (imagLabel, cim (E annihilation))].
Proof. exact noexact_shown. Qed.
Print Assumptions C73_no_exact.
Theorem C73_qbit : forall t rho, shown qbitAveraged t rho =
  [("rho00"%string, cre (rho [0] [0])); ("rho11"%string, cre (rho [1] [1])); ("real(rho10=<sigma>)"%string, cre (mean [2] (kron [sigmaMinus]) rho)); (imagLabel, cim (mean [2] (kron [sigmaMinus]) rho))] /\
  mean [2] (kron [sigmaMinus]) rho = rho [1] [0].
Proof. exact qbit_shown. Qed.
Print Assumptions C73_qbit.
(** It fails for spins: *)
Theorem C73_spin_refuted : exists twoS dim t rho Z2, state [dim] rho /\ is_product (spinZ twoS) (spinZ twoS) Z2 /\ 0 < dim /\ shown (spinAveraged twoS dim) t rho <> spinColumns twoS dim rho Z2.
Proof. exact spin_wrong. Qed.
Print Assumptions C73_spin_refuted.
(** the column <sz^2> contains the variance. The others are as they should. *)
Theorem C73_spin_partial : forall twoS dim t rho Z2, 0 < dim -> is_product (spinZ twoS) (spinZ twoS) Z2 ->
  let E A := mean [dim] (kron [A]) rho in
  shown (spinAveraged twoS dim) t rho =
  [("<sz>"%string, cre (E (spinZ twoS))); ("<sz^2>"%string, (cre (E Z2) - cre (E (spinZ twoS)) * cre (E (spinZ twoS)))%R);
   ("real(<s^+>)"%string, cre (E (spinPlus twoS))); (imagLabel, cim (E (spinPlus twoS))); ("|Psi(dim-1)|^2"%string, cre (E (ketbra (dim - 1) (dim - 1))))].
Proof. exact spin_shown. Qed.
Print Assumptions C73_spin_partial.
Example C73_products : (exists N2 X2 Y2 XY YX, is_product number number N2 /\ is_product quadX quadX X2 /\ is_product quadY quadY Y2 /\ is_product quadX quadY XY /\ is_product quadY quadX YX) /\
  (forall twoS, exists Z2, is_product (spinZ twoS) (spinZ twoS) Z2).
Proof. exact (conj products_exist spin_product). Qed.
Example C73_case : state [2] (pureLevel 1) /\ mean [2] (kron [number]) (pureLevel 1) = k1.
Proof. split; [exact level_state|]. rewrite level_mean. reflexivity. Qed.

(** C74: correlations of two modes: all the eighteen columns, for pure and mixed states; *)
Theorem C74_modes : forall d0 d1 m t N2 X2 Y2 XY YX, 0 < d0 -> 0 < d1 -> state [d0; d1] (indexOf m) ->
  is_product number number N2 -> is_product quadX quadX X2 -> is_product quadY quadY Y2 -> is_product quadX quadY XY -> is_product quadY quadX YX ->
  exists a, corrAverage d0 d1 t m = Some a /\ combine corrLabels (corrProcess a) = corrColumns d0 d1 (indexOf m) N2 X2 Y2 XY YX.
Proof. exact corr_shown. Qed.
Print Assumptions C74_modes.
(** of a qbit and a mode, sigma being |0><1| and sigmaZ (|1><1|-|0><0|)/2. *)
Theorem C74_qbit_mode : forall d1 t rho, shown (qbitModeAveraged d1) t rho = qbitModeColumns d1 rho.
Proof. exact qbitMode_shown. Qed.
Print Assumptions C74_qbit_mode.
(** (|01>+|10>)/sqrt 2 is a state in which X and Q are correlated. *)
Example C74_case : state [2; 2] (indexOf entangled) /\ forall N2 X2 Y2 XY YX, nth 14 (corrColumns 2 2 (indexOf entangled) N2 X2 Y2 XY YX) (EmptyString, 0%R) = ("<XQ>-<X><Q>"%string, (/ 2)%R).
Proof. exact (conj entangled_state entangled_xq). Qed.
