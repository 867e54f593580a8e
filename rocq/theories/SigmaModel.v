(** Model of CPPQEDcore/quantumoperator/Sigma.h, Sigma.cc and of CPPQEDelements/interactions/MLJC.h. State vectors as functions of the multi-index; views of dpsidt write
    through, psi and dpsidt do not overlap. Indices outside of the dimensions, undefined behaviour in C++, are not distinguished: the theorems are about indices inside.
    Not modelled: the product of two Sigmas, the type of which does not fit that of its function (Sigma.h:130-135: ill-formed unless the two right levels coincide), labels and frequencies. *)
From Coq Require Import List Arith Bool Reals.
From Verif Require Import Star CReal Arr TriModel ModeModel CompositeModel ParticleModel.
Import ListNotations.

(** Sigma<L,R>, a Tridiagonal, and DirectProduct<L,R,OTHER,IS_HEAD> made by operator* with the Sigma in front and behind, Sigma.h:19-128 *)
Inductive dpOp := DSigma (l r : nat) | DTri (t : tri CR R) | DHead (l r : nat) (o : dpOp) | DTail (l r : nat) (o : dpOp).
(** Sigma::dagger, Sigma.h:35 *)
Definition sigmaDagger (s : nat * nat) : nat * nat := (snd s, fst s).
(** partialProject, Sigma.cc:32-46 *)
Definition partialProject (head : bool) (psi : array) (n : nat) : array := fun y => if head then psi (n :: y) else psi (y ++ [n]).
(** writing through the view *)
Definition writeBack (head : bool) (d : array) (n : nat) (v : array) : array := fun y =>
  if head then match y with i :: y' => if i =? n then v y' else d y | [] => d y end
  else if last y 0 =? n then v (removelast y) else d y.
(** Sigma::apply, Sigma.h:28-32; DirectProduct::apply, Sigma.h:82-87 *)
Fixpoint dpApply (o : dpOp) (psi dpsidt : array) : array :=
  match o with
  | DSigma l r => fun y => if listnat_eqb y [l] then kadd (dpsidt y) (psi [r]) else dpsidt y
  | DTri t => apply t psi dpsidt
  | DHead l r o => writeBack true dpsidt l (dpApply o (partialProject true psi r) (partialProject true dpsidt l))
  | DTail l r o => writeBack false dpsidt l (dpApply o (partialProject false psi r) (partialProject false dpsidt l))
  end.

(** Coupling<I,J>, MLJC.h:20; ModeDynamics, MLJC.h:61-72: the two operators with the coupling in them *)
Record mlCoupling := mkCoupling { cI : nat; cJ : nat; cG : CR }.
Record modeDynamics := mkMD { mdI : nat; mdJ : nat; mdA : tri CR R; mdAdagger : tri CR R }.
Inductive mljcResult := MNotImplemented | MMade (mds : outcome (list modeDynamics)).
Definition makeModeDynamics (m : cavity) (c : mlCoupling) : outcome modeDynamics :=
  bind (cavAop m) (fun a => Ok (mkMD (cI c) (cJ c) (scale (kopp (cG c)) a) (dagger (scale (cG c) a)))).
Fixpoint makeAll (m : cavity) (gs : list mlCoupling) : outcome (list modeDynamics) :=
  match gs with
  | [] => Ok []
  | c :: gs => bind (makeModeDynamics m c) (fun d => bind (makeAll m gs) (fun ds => Ok (d :: ds)))
  end.
(** modeDynamicsMaker, MLJC.h:98-106; mlExact: the multi-level system is multilevel::Exact, which every ModeDynamics refuses *)
Definition makeMLJC (mlExact : bool) (m : cavity) (gs : list mlCoupling) : mljcResult :=
  if mlExact then match gs with [] => MMade (Ok []) | _ => MNotImplemented end else MMade (makeAll m gs).
(** addContribution_v, MLJC.h:42-59, dt=t-t0; the operators are propagated in place *)
Definition mdPropagate (dt : R) (d : modeDynamics) : modeDynamics := mkMD (mdI d) (mdJ d) (propagate dt (mdA d)) (propagate dt (mdAdagger d)).
Definition mdApply (psi dpsidt : array) (d : modeDynamics) : array :=
  let sigma := (mdI d, mdJ d) in let sigmad := sigmaDagger sigma in
  dpApply (DHead (fst sigmad) (snd sigmad) (DTri (mdA d))) psi (dpApply (DHead (fst sigma) (snd sigma) (DTri (mdAdagger d))) psi dpsidt).
Definition mljcContribution (dt : R) (ds : list modeDynamics) (psi dpsidt : array) : list modeDynamics * array :=
  let ds' := map (mdPropagate dt) ds in (ds', fold_left (mdApply psi) ds' dpsidt).
Definition mljcAfter (dts : list R) (ds : list modeDynamics) : list modeDynamics :=
  fold_left (fun ds dt => fst (mljcContribution dt ds (fun _ => k0) (fun _ => k0))) dts ds.
