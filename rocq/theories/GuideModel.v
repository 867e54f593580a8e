(** Model of the example elements of the structure guide (CPPQEDcore/doc/structureGuide.markdown): CPPQEDcore/examples/ExampleMode.h,
    ExampleMode.cc, ExampleModeImpl.cc, ExampleInteraction.h, ExampleInteraction.cc. The classes of the namespaces basic and hierarchical differ
    in the bases that hold the same functions. Not modelled: the descriptions of the frequencies (displayed only), FreeExact (FreeExactModel). *)
From Coq Require Import List Arith Bool Reals String.
From Verif Require Import Star CReal Arr TriModel ElementModel ModeModel DensityModel CompositeModel ParticleModel InteractionModel AverageModel.
Import ListNotations.
Local Open Scope nat_scope.

(** mainDiagonal, ExampleModeImpl.cc:57-62: res=i; res*=z *)
Definition exMain (z : CR) (dim : nat) : arr CR := vecOf dim (fun i => kmul (RC (INR i)) z).
(** nop, ExampleModeImpl.cc:65-68; aop(size_t), ExampleModeImpl.cc:49-54, is that of Mode.cc *)
Definition exNop (dim : nat) : outcome (tri CR R) := ofDiagonal (exMain k1 dim).
(** tridiagPlusHC_overI(conj(eta)*aop(cutoff)) *)
Definition exDrive (eta : CR) (dim : nat) : outcome (tri CR R) := bind (aop dim) (fun a => plusHCoverI (scale (kconj eta) a)).
(** the jumps with their rates, ExampleMode.cc:29-33, 71-75, 114-132; aJump, aDagJump, ExampleModeImpl.cc:5-21, and photonNumber, 26-32, are those of Mode.cc;
    the rates are aJumpRate, aDagJumpRate, 37-46; there are no superoperators *)
Definition exLindblads (dim : nat) (kappa nTh : R) : list lindbladOp :=
  [mkLb (aJump dim (kappa * (nTh + 1))) (Some (fun m => (2 * (kappa * (nTh + 1)) * photonNumber dim m)%R)) None;
   mkLb (aDagJump dim (kappa * nTh)) (Some (fun m => (2 * (kappa * nTh) * (photonNumber dim m + ldTrace m))%R)) None].

(** PumpedLossyMode, ExampleMode.cc:20-37, 153-158 *)
Definition exSch (delta kappa : R) (eta : CR) (nTh : R) (dim : nat) : outcome modeSys :=
  bind (exNop dim) (fun n => bind (exDrive eta dim) (fun d =>
  bind (add CReqb (scale ((- kappa * (2 * nTh + 1), delta)%R : CR) n) d) (fun h =>
  Ok (mkMode dim None (Some (false, [h])) (exLindblads dim kappa nTh))))).
(** PumpedLossyModeIP, ExampleMode.cc:61-84, 161-174; the exact propagator exp(-z_*(dtDid*i)) is that of Mode.cc *)
Definition exIP (delta kappa : R) (eta : CR) (nTh : R) (dim : nat) : outcome modeSys :=
  let z := ((kappa * (2 * nTh + 1), - delta)%R : CR) in
  bind (exDrive eta dim) (fun d => bind (furnish d (exMain z dim)) (fun h =>
  Ok (mkMode dim (Some z) (Some (true, [h])) (exLindblads dim kappa nTh)))).

(** average_v, ExampleMode.cc:40-55, 88-103, 135-150: aJumpRate(matrix,1), and the ladder operator *)
Definition exAverage (dim nAvr : nat) (_ : R) (m : op) : list R :=
  fold_left (fun av n => let off := m [n] [n - 1] in incAt 2 (sqrt (INR n) * cim off)%R (incAt 1 (sqrt (INR n) * cre off)%R av)) (seq 1 (dim - 1))
    (setAt 0 (2 * 1 * fold_left (fun res n => (res + INR n * diagonal m [n])%R) (seq 1 (dim - 1)) 0)%R (initialized nAvr)).
Definition exAveraged (dim : nat) : averaged :=
  element "PumpedLossyMode" ["<number operator>"; "real(<ladder operator>)"; imagLabel]%string (exAverage dim) (fun a => a).

(** aop(mode), ExampleModeImpl.cc:71-79, ExampleMode.h:34: with frequencies for PumpedLossyModeIP *)
Definition exAop (dim : nat) (z : option CR) : outcome (tri CR R) :=
  bind (aop dim) (fun a => match z with Some z => furnish a (exMain z dim) | None => Ok a end).
Definition exX (dim : nat) (z : option CR) : outcome (tri CR R) := bind (exAop dim z) (fun a => bind (exAop dim z) (fun b => add CReqb a (dagger b))).
(** InteractionX_X, ExampleInteraction.cc:4-19 *)
Definition exXX (d0 : nat) (z0 : option CR) (d1 : nat) (z1 : option CR) (g : R) : outcome intH :=
  bind (exX d0 z0) (fun x0 => bind (exX d1 z1) (fun x1 => bind (prod (scale (RC g) x0) x1) (fun t => Ok (mkIntH [d0; d1] [t] None)))).

(** InteractionX_X_Correlations, ExampleInteraction.h:32-45, ExampleInteraction.cc:22-49 *)
Definition exCorrelations (d0 d1 nAvr : nat) (_ : R) (m : op) : list R :=
  let a := fold_left (fun av nm =>
        let n := fst nm in let k := snd nm in
        let av1 := if n <? d0 - 1
          then let temp := kmul (RC (sqrt (INR (k * (n + 1))))) (m [n; k] [n + 1; k - 1]) in incAt 1 (cim temp) (incAt 0 (cre temp) av)
          else av in
        if 0 <? n
        then let temp := kmul (RC (sqrt (INR (k * n)))) (m [n; k] [n - 1; k - 1]) in incAt 3 (cim temp) (incAt 2 (cre temp) av1)
        else av1)
      (list_prod (seq 0 d0) (seq 1 (d1 - 1))) (initialized nAvr) in
  [(get 0 a + get 2 a)%R; (get 1 a + get 3 a)%R; (- get 1 a + get 3 a)%R; (get 0 a - get 2 a)%R].
Definition exCorrAveraged (d0 d1 : nat) : averaged :=
  element "ModeCorrelations" ["<XQ>"; "<XP>"; "<YQ>"; "<YP>"]%string (exCorrelations d0 d1) (fun a => a).
