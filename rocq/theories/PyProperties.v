(** C101-C108: state vectors, operators and initial conditions of the Python interface. *)
From Coq Require Import List Arith ZArith Reals Permutation.
From Verif Require Import Star Arr CReal SliceSpec FourierModel FourierSpec PyModel PySpec PyLists PyExpect PySums PyAct PyFourier PyInit PyCases.
Import ListNotations.
Local Open Scope nat_scope.

(** C101: expvalue is the expectation value of the transposed operator, for subsystems listed in any order ([op] being arranged with these increasing) and for the whole system *)
Theorem C101_value : forall sv op l V M, good_positions (ndim sv) l -> increasing V -> Permutation l V -> represents op V (shape sv) M ->
  expvalue sv op (Some l) = Some (expectation (transposed M) V (shape sv) (elem sv)).
Proof. exact expvalue_spec. Qed.
Print Assumptions C101_value.
Theorem C101_whole : forall sv op M, represents op (seq 0 (ndim sv)) (shape sv) M ->
  expvalue sv op None = Some (expectation (transposed M) (seq 0 (ndim sv)) (shape sv) (elem sv)).
Proof. exact expvalue_whole. Qed.
Print Assumptions C101_whole.
(** so for some Hermitian operator and state it is wrong *)
Theorem C101_refuted : exists sv op M, represents op [0] (shape sv) M /\ (forall r c, M r c = kconj (M c r)) /\ ndim sv = 1 /\
  expvalue sv op (Some [0]) <> Some (expectation M [0] (shape sv) (elem sv)).
Proof. exact expvalue_wrong. Qed.
Print Assumptions C101_refuted.
(** it gives <a> when asked for the creation operator, and the other way round *)
Theorem C101_modes_refuted : forall sv p, p < ndim sv ->
  expvalue sv (create (nth p (shape sv) 0)) (Some [p]) = Some (expectation lowering [p] (shape sv) (elem sv)) /\
  expvalue sv (destroy (nth p (shape sv) 0)) (Some [p]) = Some (expectation raising [p] (shape sv) (elem sv)).
Proof. exact create_wrong. Qed.
Print Assumptions C101_modes_refuted.
(** right for symmetric operators and for real amplitudes *)
Theorem C101_partial : forall sv op l V M, good_positions (ndim sv) l -> increasing V -> Permutation l V -> represents op V (shape sv) M ->
  (forall r c, inr (dimensions V (shape sv)) r -> inr (dimensions V (shape sv)) c -> M r c = M c r) \/ (forall y, inr (shape sv) y -> kconj (elem sv y) = elem sv y) ->
  expvalue sv op (Some l) = Some (expectation M V (shape sv) (elem sv)).
Proof. exact expvalue_right. Qed.
Print Assumptions C101_partial.
Example C101_case : good_positions (ndim threeState) [2; 0] /\ increasing [0; 2] /\ Permutation [2; 0] [0; 2] /\
  represents twoOp [0; 2] (shape threeState) (fun r c => RC (INR (nth 0 r 0 + nth 0 c 0 * nth 1 r 0 + 3 * nth 1 c 0))) /\
  (forall y, inr (shape threeState) y -> kconj (elem threeState y) = elem threeState y).
Proof. exact expvalue_case. Qed.
Example C101_values : expectation pauliY [0] [2] (elem circular) = RC 2 /\ expvalue circular pauliYArray (Some [0]) = Some (RC (-2)).
Proof. exact pauliY_values. Qed.

(** C102: diagexpvalue is the expectation value of the diagonal operator *)
Theorem C102_value : forall sv op l V, good_positions (ndim sv) l -> increasing V -> Permutation l V -> shape op = dimensions V (shape sv) ->
  diagexpvalue sv op (Some l) = Some (expectation (diagonal (elem op)) V (shape sv) (elem sv)).
Proof. exact diagexpvalue_spec. Qed.
Print Assumptions C102_value.
Theorem C102_whole : forall sv op, shape op = shape sv -> diagexpvalue sv op None = Some (expectation (diagonal (elem op)) (seq 0 (ndim sv)) (shape sv) (elem sv)).
Proof. exact diagexpvalue_whole. Qed.
Print Assumptions C102_whole.
Example C102_case : diagexpvalue twoModes (mkArr [3] (fun x => RC (INR (nth 0 x 0)))) (Some [1]) = Some (RC 22).
Proof. exact diagexpvalue_case. Qed.

(** C103: actwith is the action of the product of the operators on the dimensions given, and the identity on the others *)
Theorem C103_action : forall sv dims, good_positions (ndim sv) dims -> forall ops, length ops = length dims ->
  (forall o d, In (o, d) (combine ops dims) -> shape o = [nth d (shape sv) 0; nth d (shape sv) 0]) ->
  exists r, actwith sv ops dims = Some r /\ shape r = shape sv /\ forall y, inr (shape sv) y -> elem r y = lifted_action (product_of ops) dims (shape sv) (elem sv) y.
Proof. exact actwith_spec. Qed.
Print Assumptions C103_action.
Example C103_case : exists r, actwith twoModes [destroy 3] [1] = Some r /\ elem r [1; 0] = RC 2 /\ elem r [0; 1] = RC (3 * sqrt 2).
Proof. exact actwith_case. Qed.

(** C104: reduce sums the amplitudes over the indices given, and normalises the result once, whatever the number of indices *)
Theorem C104_sum : forall sv l V, good_positions (ndim sv) l -> increasing V -> Permutation l V ->
  shape (reduce sv l false) = remaining V (shape sv) /\ forall x, inr (remaining V (shape sv)) x -> elem (reduce sv l false) x = marginal V (shape sv) (elem sv) x.
Proof. exact reduce_unnormalised. Qed.
Print Assumptions C104_sum.
Theorem C104_normalised : forall sv l V, good_positions (ndim sv) l -> increasing V -> Permutation l V -> V <> [] ->
  weight (remaining V (shape sv)) (marginal V (shape sv) (elem sv)) <> 0%R ->
  shape (reduce sv l true) = remaining V (shape sv) /\ forall x, inr (remaining V (shape sv)) x ->
  elem (reduce sv l true) x = kmul (RC (/ sqrt (weight (remaining V (shape sv)) (marginal V (shape sv) (elem sv))))) (marginal V (shape sv) (elem sv) x).
Proof. exact reduce_normalised. Qed.
Print Assumptions C104_normalised.
Example C104_case : shape (reduce twoModes [1] false) = [2] /\ elem (reduce twoModes [1] false) [1] = RC 3 /\ weight (remaining [1] (shape twoModes)) (marginal [1] (shape twoModes) (elem twoModes)) <> 0%R.
Proof. exact reduce_case. Qed.

(** C105: fft and ifft take the indices given, of even size, from position to momentum space and back *)
Theorem C105_value : forall sv axes, NoDup axes -> within axes sv -> (forall p, In p axes -> 0 < nth p (shape sv) 0 /\ Nat.even (nth p (shape sv) 0) = true) ->
  shape (pyfft sv axes) = shape sv /\ shape (pyifft sv axes) = shape sv /\ forall y, inr (shape sv) y ->
  elem (pyfft sv axes) y = fold_left (momentum_in (shape sv)) axes (elem sv) y /\ elem (pyifft sv axes) y = fold_left (position_in (shape sv)) axes (elem sv) y.
Proof. exact fft_value. Qed.
Print Assumptions C105_value.
(** as the C++ framework does *)
Theorem C105_same : forall sv axes, NoDup axes -> within axes sv -> (forall p, In p axes -> exists fin, 2 <= fin /\ nth p (shape sv) 0 = 2 ^ fin) -> exists a b,
  ffTransform (shape sv) axes (Pure (elem sv)) DIR_XK = Some (Pure a) /\ ffTransform (shape sv) axes (Pure (elem sv)) DIR_KX = Some (Pure b) /\
  forall y, inr (shape sv) y -> elem (pyfft sv axes) y = a y /\ elem (pyifft sv axes) y = b y.
Proof. exact fft_same. Qed.
Print Assumptions C105_same.
Theorem C105_back : forall sv axes, NoDup axes -> within axes sv -> (forall p, In p axes -> exists fin, 2 <= fin /\ nth p (shape sv) 0 = 2 ^ fin) ->
  forall y, inr (shape sv) y -> elem (pyifft (pyfft sv axes) axes) y = elem sv y.
Proof. exact fft_back. Qed.
Print Assumptions C105_back.
Example C105_case : NoDup [0; 2] /\ within [0; 2] (mkArr [4; 3; 8] (fun _ => k1)) /\ (forall p, In p [0; 2] -> exists fin, 2 <= fin /\ nth p [4; 3; 8] 0 = 2 ^ fin).
Proof. exact fft_case. Qed.

(** C106: gaussian with cppqed=True is the wave packet of the C++ framework; without it the position is not in units of pi *)
Theorem C106_packet : forall x0 k0 sigma fin inK, (0 < sigma)%R -> 2 <= fin -> forall j, j < 2 ^ fin ->
  elem (pyGaussian x0 k0 sigma fin inK true) [j] = wavePacket (mkInit x0 k0 sigma inK) fin 1 true j /\
  elem (pyGaussian (x0 * PI) k0 sigma fin inK false) [j] = wavePacket (mkInit x0 k0 sigma inK) fin 1 true j.
Proof. exact gaussian_both. Qed.
Print Assumptions C106_packet.
Example C106_case : (0 < 1 / 10)%R /\ 2 <= 6 /\ 33 < 2 ^ 6.
Proof. exact gaussian_case. Qed.

(** C107: coherent forgets the imaginary part of alpha at each multiplication *)
Theorem C107_value : forall alpha N, 0 < N -> exists sv, pyCoherent alpha N = Some sv /\ shape sv = [N] /\
  forall n, n < N -> elem sv [n] = kmul (RC (exp (- (cim alpha * cim alpha) / 2))) (coherent_amplitude (RC (cre alpha)) n).
Proof. exact coherent_spec. Qed.
Print Assumptions C107_value.
Theorem C107_refuted : forall alpha N, cim alpha <> 0%R -> 2 <= N -> exists sv, pyCoherent alpha N = Some sv /\ elem sv [1] <> coherent_amplitude alpha 1.
Proof. exact coherent_wrong. Qed.
Print Assumptions C107_refuted.
Theorem C107_partial : forall a N, 0 < N -> exists sv, pyCoherent (RC a) N = Some sv /\ shape sv = [N] /\ forall n, n < N -> elem sv [n] = coherent_amplitude (RC a) n.
Proof. exact coherent_real. Qed.
Print Assumptions C107_partial.
Example C107_case : exists sv, pyCoherent CI 3 = Some sv /\ elem sv [1] = k0 /\ coherent_amplitude CI 1 = kmul (RC (exp (- (1) / 2))) CI.
Proof. exact coherent_case. Qed.

(** C108: fock and momentum_eigen; those out of range above are refused, those below are not: they are some other state *)
Theorem C108_fock_partial : forall dim i,
  ((0 <= i < Z.of_nat dim)%Z -> exists sv, fock dim i = Some sv /\ shape sv = [dim] /\ forall x, elem sv x = basis_state (Z.to_nat i) x) /\
  ((Z.of_nat dim <= i)%Z -> fock dim i = None) /\ ((i < - Z.of_nat dim)%Z -> fock dim i = None) /\
  ((- Z.of_nat dim <= i < 0)%Z -> exists sv, fock dim i = Some sv /\ shape sv = [dim] /\ forall x, elem sv x = basis_state (Z.to_nat (i + Z.of_nat dim)) x).
Proof. exact fock_spec. Qed.
Print Assumptions C108_fock_partial.
Theorem C108_momentum_partial : forall k fin, 1 <= fin -> let half := Z.of_nat (2 ^ fin / 2) in
  ((- half <= k < half)%Z -> exists sv m, momentumEigen k fin = Some sv /\ shape sv = [2 ^ fin] /\ (forall x, elem sv x = basis_state m x) /\ m < 2 ^ fin /\ gridK (2 ^ fin) 1 m = IZR k) /\
  ((half <= k)%Z -> momentumEigen k fin = None) /\
  ((- 3 * half <= k < - half)%Z -> exists sv m, momentumEigen k fin = Some sv /\ (forall x, elem sv x = basis_state m x) /\ m < 2 ^ fin /\ gridK (2 ^ fin) 1 m = IZR (k + 2 * half)).
Proof. exact momentum_spec. Qed.
Print Assumptions C108_momentum_partial.
Theorem C108_refuted : exists sv, momentumEigen (-5) 3 = Some sv /\ elem sv [7] = k1 /\ gridK (2 ^ 3) 1 7 = 3%R /\ momentumEigen 4 3 = None.
Proof. exact eigen_case. Qed.
Print Assumptions C108_refuted.
