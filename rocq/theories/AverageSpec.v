(** What averages have to be. *)
From Coq Require Import List Arith Reals String.
From Verif Require Import Star CReal Arr HermSpec MasterSpec ElementSpec CompositeModel CompositeSpec InteractionSpec AverageModel.
Import ListNotations.
Local Open Scope nat_scope.

(** <O> = Tr(O rho) *)
Definition mean (dims : list nat) (O rho : op) : CR := mtrace dims (mmul dims O rho).
(** Tr rho = 1, rho is Hermitian *)
Definition state (dims : list nat) (rho : op) : Prop := mtrace dims rho = k1 /\ HermSpec.hermitian dims rho.
(** a system of which only averages are there *)
Definition only (av : averaged) : parts := mkParts None None None (Some av) 0%R.
(** what is displayed: the columns with their labels, after processing *)
Definition shown (av : averaged) (t : R) (rho : op) : list (string * R) := combine (avLabels av) (avProcess av (avAverage av t rho)).

(** the identity of one subsystem *)
Definition one : mat := ElementSpec.identity.
(** C is the product of A and B, these having no elements above the diagonal next to the main one; on the infinitely many levels of an oscillator *)
Definition is_product (A B C : mat) : Prop := forall m n N, m + 2 <= N -> C m n = ksum (fun k => kmul (A m k) (B k n)) (seq 0 N).
(** quadratures *)
Definition quadX : mat := position.
Definition quadY : mat := fun m n => kmul (RC (/ sqrt 2)) (kmul (kopp CI) (ksub (annihilation m n) (creation m n))).
(** (XY+YX)/2 *)
Definition half_sum (A B : mat) : mat := fun m n => kmul (RC (/ 2)) (kadd (A m n) (B m n)).
(** S_z of a spin, S_+ *)
Definition spinZ (twoS : nat) : mat := fun m n => if m =? n then RC (INR m - INR twoS / 2) else k0.
Definition spinPlus (twoS : nat) : mat := adj (spinLower twoS).
(** sigma = |0><1|, sigma_z = (|1><1|-|0><0|)/2 *)
Definition sigmaMinus : mat := ketbra 0 1.
Definition sigmaZ : mat := fun m n => kmul (RC (/ 2)) (ksub (ketbra 1 1 m n) (ketbra 0 0 m n)).
(** the state in Schroedinger picture of the state given in the interaction picture with respect to -z n *)
Definition schroedinger (z : CR) (t : R) (rho : op) : op :=
  fun i j => kmul (kmul (cexp (kmul (kopp z) (RC (INR (hd 0 i) * t)))) (rho i j)) (kconj (cexp (kmul (kopp z) (RC (INR (hd 0 j) * t))))).

(** what has to be displayed by a mode with quadratures; N2, X2, ... are the products nn, XX, ... *)
Definition quadColumns (dim : nat) (rho : op) (N2 X2 Y2 XY YX : mat) : list (string * R) :=
  let E A := mean [dim] (kron [A]) rho in
  [("<number operator>"%string, cre (E number)); ("VAR(number operator)"%string, (cre (E N2) - cre (E number) * cre (E number))%R);
   ("real(<ladder operator>)"%string, cre (E annihilation)); (imagLabel, cim (E annihilation));
   ("VAR(X)"%string, (cre (E X2) - cre (E quadX) * cre (E quadX))%R); ("VAR(Y)"%string, (cre (E Y2) - cre (E quadY) * cre (E quadY))%R);
   ("COV(X,Y)"%string, (cre (E (half_sum XY YX)) - cre (E quadX) * cre (E quadY))%R)].
(** the population of the highest level *)
Definition cutoffColumn (dim : nat) (rho : op) : string * R := ("|Psi(cutoff-1)|^2"%string, cre (mean [dim] (kron [ketbra (dim - 1) (dim - 1)]) rho)).
(** what has to be displayed by a spin *)
Definition spinColumns (twoS dim : nat) (rho : op) (Z2 : mat) : list (string * R) :=
  let E A := mean [dim] (kron [A]) rho in
  [("<sz>"%string, cre (E (spinZ twoS))); ("<sz^2>"%string, cre (E Z2)); ("real(<s^+>)"%string, cre (E (spinPlus twoS))); (imagLabel, cim (E (spinPlus twoS)));
   ("|Psi(dim-1)|^2"%string, cre (E (ketbra (dim - 1) (dim - 1))))].
(** what has to be displayed about two modes, (a;X,Y) and (b;Q,P) *)
Definition corrColumns (d0 d1 : nat) (rho : op) (N2 X2 Y2 XY YX : mat) : list (string * R) :=
  let E A B := mean [d0; d1] (kron [A; B]) rho in let a A := E A one in let b B := E one B in
  [("<a number operator>"%string, cre (a number)); ("VAR(a number operator)"%string, (cre (a N2) - cre (a number) * cre (a number))%R);
   ("real(<a>)"%string, cre (a annihilation)); (imagLabel, cim (a annihilation));
   ("<X^2>-<X>^2"%string, (cre (a X2) - cre (a quadX) * cre (a quadX))%R); ("<Y^2>-<Y>^2"%string, (cre (a Y2) - cre (a quadY) * cre (a quadY))%R);
   ("<(XY+YX)/2>-<X><Y>"%string, (cre (a (half_sum XY YX)) - cre (a quadX) * cre (a quadY))%R);
   ("<b number operator>"%string, cre (b number)); ("VAR(b number operator)"%string, (cre (b N2) - cre (b number) * cre (b number))%R);
   ("real(<b>)"%string, cre (b annihilation)); (imagLabel, cim (b annihilation));
   ("<Q^2>-<Q>^2"%string, (cre (b X2) - cre (b quadX) * cre (b quadX))%R); ("<P^2>-<P>^2"%string, (cre (b Y2) - cre (b quadY) * cre (b quadY))%R);
   ("<(QP+PQ)/2>-<Q><P>"%string, (cre (b (half_sum XY YX)) - cre (b quadX) * cre (b quadY))%R);
   ("<XQ>-<X><Q>"%string, (cre (E quadX quadX) - cre (a quadX) * cre (b quadX))%R); ("<XP>-<X><P>"%string, (cre (E quadX quadY) - cre (a quadX) * cre (b quadY))%R);
   ("<YQ>-<Y><Q>"%string, (cre (E quadY quadX) - cre (a quadY) * cre (b quadX))%R); ("<YP>-<Y><P>"%string, (cre (E quadY quadY) - cre (a quadY) * cre (b quadY))%R)].
(** what has to be displayed about a qbit and a mode *)
Definition qbitModeColumns (d1 : nat) (rho : op) : list (string * R) :=
  let E A B := mean [2; d1] (kron [A; B]) rho in
  [("real(<sigma*adagger>"%string, cre (E sigmaMinus creation)); (imagLabel, cim (E sigmaMinus creation));
   ("real(<sigma*a>)"%string, cre (E sigmaMinus annihilation)); (imagLabel, cim (E sigmaMinus annihilation));
   ("real(<sigmaZ*a>)"%string, cre (E sigmaZ annihilation)); (imagLabel, cim (E sigmaZ annihilation))].
