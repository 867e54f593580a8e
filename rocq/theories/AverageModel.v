(** Model of the averages of the elements: Averaged classes of CPPQEDelements/frees/Mode, Qbit, Spin, interactions/ModeCorrelations,
    QbitModeCorrelations, and utils/AveragingUtils.h. *)
From Coq Require Import List Arith Reals Bool String.
From Verif Require Import Star CReal Arr DensityModel CompositeModel.
Import ListNotations.
Local Open Scope nat_scope.

(** averages(k)=x, averages(k)+=x *)
Fixpoint setAt (k : nat) (x : R) (l : list R) : list R :=
  match l, k with [], _ => [] | _ :: l, 0 => x :: l | y :: l, Datatypes.S k => y :: setAt k x l end.
Definition get (k : nat) (l : list R) : R := nth k l 0%R.
Definition incAt (k : nat) (x : R) (l : list R) : list R := setAt k (get k l + x)%R l.
(** initializedAverages, ElementAveraged.h:47 *)
Definition initialized (nAvr : nat) : list R := repeat 0%R nAvr.
(** matrix(n): index(n,n) as a real number, LazyDensityOperator.h:78 *)
Definition diagonal (m : op) (i : list nat) : R := cre (m i i).
(** an ElementAveraged: nAvr is the number of labels, ElementLiouvilleanAveragedCommon.h:41 *)
Definition element (title : string) (labels : list string) (average : nat -> R -> op -> list R) (process : list R -> list R) : averaged :=
  mkAv (List.length labels) (average (List.length labels)) process title labels.

(** ** Mode *)
(** mode::Averaged::average_v, Mode.cc:177-195 *)
Definition modeAverage (dim nAvr : nat) (_ : R) (m : op) : list R :=
  fold_left (fun av n =>
      let off := kmul (RC (sqrt (INR n))) (m [n] [n - 1]) in
      incAt 3 (cim off) (incAt 2 (cre off) (incAt 1 (INR n * INR n * diagonal m [n])%R (incAt 0 (INR n * diagonal m [n])%R av))))
    (seq 1 (dim - 1)) (initialized nAvr).
(** process_v, Mode.cc:198-201 *)
Definition modeProcess (a : list R) : list R := setAt 1 (get 1 a - get 0 a * get 0 a)%R a.
(** labels, Mode.cc:161-174 *)
Definition imagLabel : string := "imag("")".
Definition modeLabels (follow precede : list string) : list string :=
  (precede ++ ["<number operator>"%string; "VAR(number operator)"%string; "real(<ladder operator>)"%string; imagLabel] ++ follow)%list.
Definition modeAveraged (dim : nat) (follow precede : list string) : averaged :=
  element "Mode" (modeLabels follow precede) (modeAverage dim) modeProcess.

(** AveragedQuadratures::average_v, Mode.cc:211-227 *)
Definition quadAverage (dim nAvr : nat) (t : R) (m : op) : list R :=
  fold_left (fun av n =>
      let off := kmul (RC (sqrt (INR n * (INR n - 1)))) (m [n] [n - 2]) in
      incAt 5 (cim off) (incAt 4 (cre off) av))
    (seq 2 (dim - 2)) (writeWindow 0 (window 0 4 (modeAverage dim nAvr t m)) (initialized nAvr)).
(** process_v, Mode.cc:230-252 *)
Definition quadProcess (a0 : list R) : list R :=
  let a := writeWindow 0 (modeProcess (window 0 4 a0)) a0 in
  let reSqr := get 4 a in let re := get 2 a in let im := get 3 a in
  let x := (get 0 a + / 2 + reSqr - 2 * (re * re))%R in
  let y := (get 0 a + / 2 - reSqr - 2 * (im * im))%R in
  let xy := (get 5 a - 2 * re * im)%R in
  setAt 6 xy (setAt 5 y (setAt 4 x a)).
Definition quadAveraged (dim : nat) (follow precede : list string) : averaged :=
  element "Mode" (modeLabels (["VAR(X)"%string; "VAR(Y)"%string; "COV(X,Y)"%string] ++ follow)%list precede) (quadAverage dim) quadProcess.

(** AveragedMonitorCutoff<Base>, Mode_.h:276-296, Mode.tcc:63-79; the base given by its constructor *)
Definition cutoffAveraged (dim : nat) (base : nat -> list string -> list string -> averaged) : averaged :=
  let b := base dim ["|Psi(cutoff-1)|^2"%string] [] in
  mkAv (avN b) (fun t m => let a := avAverage b t m in setAt (List.length a - 1) (diagonal m [dim - 1]) a)
    (fun a => if 1 <? List.length a then writeWindow 0 (avProcess b (window 0 (List.length a - 1) a)) a else a) (avTitle b) (avLabels b).

(** PumpedLossyModeIP_NoExact, Mode.cc:356-361 (labels), 385-402 *)
Definition noExactAverage (z : CR) (dim nAvr : nat) (t : R) (m : op) : list R :=
  fold_left (fun av n =>
      let av0 := incAt 0 (INR n * exp (- (2 * cre z * INR n * t)) * diagonal m [n])%R av in
      let off := kmul (kmul (RC (sqrt (INR n))) (m [n] [n - 1])) (cexp (kmul (kopp (kadd z (RC (2 * INR (n - 1) * cre z)))) (RC t))) in
      incAt 2 (cim off) (incAt 1 (cre off) av0))
    (seq 1 (dim - 1)) (initialized nAvr).
Definition noExactAveraged (z : CR) (dim : nat) : averaged :=
  element "Mode" ["<number operator>"; "real(<ladder operator>)"; imagLabel]%string (noExactAverage z dim) (fun a => a).

(** ** Qbit: qbit::Averaged, Qbit.cc:22-32; used by PumpedTwoLevelAtom as well *)
Definition qbitAverage (_ : nat) (_ : R) (m : op) : list R := [diagonal m [0]; diagonal m [1]; cre (m [1] [0]); cim (m [1] [0])].
Definition qbitAveraged : averaged := element "Qbit" ["rho00"; "rho11"; "real(rho10=<sigma>)"; imagLabel]%string qbitAverage (fun a => a).

(** ** Spin: SpinBase::average_v, process_v, Spin.cc:88-126 *)
Definition spinAverage (twoS dim nAvr : nat) (_ : R) (m : op) : list R :=
  let s := (INR twoS / 2)%R in
  setAt 4 (diagonal m [dim - 1])
    (fold_left (fun av n =>
        let av1 := incAt 1 ((INR n - s) * (INR n - s) * diagonal m [n])%R (incAt 0 ((INR n - s) * diagonal m [n])%R av) in
        if n <? dim - 1
        then let temp := kmul (RC (sqrt (INR ((twoS - n) * (n + 1))))) (m [n] [n + 1]) in incAt 3 (cim temp) (incAt 2 (cre temp) av1)
        else av1)
      (seq 0 dim) (initialized nAvr)).
Definition spinAveraged (twoS dim : nat) : averaged :=
  element "Spin" ["<sz>"; "<sz^2>"; "real(<s^+>)"; imagLabel; "|Psi(dim-1)|^2"]%string (spinAverage twoS dim) modeProcess.

(** ** Correlations *)
(** ModeCorrelations::average_v, ModeCorrelations.cc:29-60. [None]: number mismatch in the averages of a mode. *)
Definition corrAverage (d0 d1 : nat) (t : R) (m : ldo) : option (list R) :=
  let q0 := quadAveraged d0 [] [] in let q1 := quadAveraged d1 [] [] in
  match traceOver [d0; d1] [0] m (fun r => checked (avN q0) (avAverage q0 t r)), traceOver [d0; d1] [1] m (fun r => checked (avN q1) (avAverage q1 t r)) with
  | Some a0, Some a1 =>
    Some (fold_left (fun av nm =>
        let n := fst nm in let k := snd nm in
        let av1 := if n <? d0 - 1
          then let temp := kmul (RC (sqrt (INR (k * (n + 1))))) (indexOf m [n; k] [n + 1; k - 1]) in incAt 15 (cim temp) (incAt 14 (cre temp) av)
          else av in
        if 0 <? n
        then let temp := kmul (RC (sqrt (INR (k * n)))) (indexOf m [n; k] [n - 1; k - 1]) in incAt 17 (cim temp) (incAt 16 (cre temp) av1)
        else av1)
      (list_prod (seq 0 d0) (seq 1 (d1 - 1))) (writeWindow (List.length a0) a1 (writeWindow 0 a0 (initialized 18))))
  | _, _ => None
  end.
(** process_v, ModeCorrelations.cc:63-91 *)
Definition corrProcess (a0 : list R) : list R :=
  let a1 := writeWindow 0 (quadProcess (window 0 7 a0)) a0 in
  let a := writeWindow 7 (quadProcess (window 7 7 a1)) a1 in
  let x := (sqrt 2 * get 2 a)%R in let y := (sqrt 2 * get 3 a)%R in let q := (sqrt 2 * get 9 a)%R in let p := (sqrt 2 * get 10 a)%R in
  let xq := (get 14 a + get 16 a - x * q)%R in
  let xp := (get 15 a + get 17 a - x * p)%R in
  let yq := (- get 15 a + get 17 a - y * q)%R in
  let yp := (get 14 a - get 16 a - y * p)%R in
  setAt 17 yp (setAt 16 yq (setAt 15 xp (setAt 14 xq a))).
(** labels, ModeCorrelations.cc:12-15 *)
Definition corrLabels : list string :=
  ["<a number operator>"; "VAR(a number operator)"; "real(<a>)"; imagLabel; "<X^2>-<X>^2"; "<Y^2>-<Y>^2"; "<(XY+YX)/2>-<X><Y>";
   "<b number operator>"; "VAR(b number operator)"; "real(<b>)"; imagLabel; "<Q^2>-<Q>^2"; "<P^2>-<P>^2"; "<(QP+PQ)/2>-<Q><P>";
   "<XQ>-<X><Q>"; "<XP>-<X><P>"; "<YQ>-<Y><Q>"; "<YP>-<Y><P>"]%string.

(** QbitModeCorrelations, QbitModeCorrelations.cc:7-35; [d1] is the dimension of the mode *)
Definition qbitModeAverage (d1 nAvr : nat) (_ : R) (m : op) : list R :=
  let loop off k av := fold_left (fun av n => incAt (k + 1) (cim (off n)) (incAt k (cre (off n)) av)) (seq 0 (d1 - 1)) av in
  let root n := RC (sqrt (INR (n + 1))) in
  loop (fun n => kmul (kmul (RC (/ 2)) (root n)) (ksub (m [1; n + 1] [1; n]) (m [0; n + 1] [0; n]))) 4
    (loop (fun n => kmul (root n) (m [1; n + 1] [0; n])) 2
      (loop (fun n => kmul (root n) (m [1; n] [0; n + 1])) 0 (initialized nAvr))).
Definition qbitModeAveraged (d1 : nat) : averaged :=
  element "QbitModeCorrelations" ["real(<sigma*adagger>"; imagLabel; "real(<sigma*a>)"; imagLabel; "real(<sigmaZ*a>)"; imagLabel]%string
    (qbitModeAverage d1) (fun a => a).
